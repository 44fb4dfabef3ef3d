(** PfSafe.v -- reading keeps every read position inside the document and raises only what is
    documented. *)

From Verif Require Import Base Elem Native Errs Names Ser Read Api SpecElem SpecRead PfElem PfField.

Section Safe.
  Variable T : xtag -> Prop.

  Lemma sound_inv : forall e, sound T e ->
    e_next e <= length (e_elems e) /\ T (e_tag e) /\ Forall (sound T) (e_elems e).
  Proof. intros e H; inversion H; auto. Qed.

  Lemma sound_nth : forall e i c, sound T e -> nth_error (e_elems e) i = Some c -> sound T c.
  Proof.
    intros e i c H Hn; apply sound_inv in H as (_ & _ & F).
    rewrite Forall_forall in F. apply F. eapply nth_error_In; eauto.
  Qed.

  Lemma put_child_sound : forall i c e, sound T e -> sound T c -> sound T (put_child i c e).
  Proof.
    intros i c e He Hc; apply sound_inv in He as (Hn & Ht & Hf).
    constructor; simpl; [rewrite list_upd_length; auto|auto|apply Forall_list_upd; auto].
  Qed.

  Lemma set_text_sound : forall t e, sound T e -> sound T (set_text_o t e).
  Proof. intros t e H; apply sound_inv in H as (Hn & Ht & Hf); constructor; auto. Qed.

  Lemma set_attrib_sound : forall t e, sound T e -> sound T (set_attrib_o t e).
  Proof. intros t e H; apply sound_inv in H as (Hn & Ht & Hf); constructor; auto. Qed.

  Lemma pop_attrib_sound : forall k e, sound T e -> sound T (snd (pop_attrib k e)).
  Proof.
    intros k e H; unfold pop_attrib. destruct (e_attrib e) as [d|]; auto.
    destruct (dget k d); simpl; auto. apply set_attrib_sound; auto.
  Qed.

  Lemma nill_sound : forall e, sound T e -> sound T (snd (is_element_nill e)).
  Proof.
    intros e H; unfold is_element_nill. pose proof (pop_attrib_sound xsi_nil H) as P.
    destruct (pop_attrib xsi_nil e); auto.
  Qed.

  Lemma set_next_sound : forall i e, i <= length (e_elems e) -> sound T e -> sound T (set_next i e).
  Proof. intros i e Hi H; apply sound_inv in H as (Hn & Ht & Hf); constructor; auto. Qed.

  Lemma list_swap_length' : forall A i j (l : list A), length (list_swap i j l) = length l.
  Proof. exact list_swap_length. Qed.

  Lemma forward_sound : forall m e tag step, sound T e ->
    let (r, e') := forward m e tag step in
    sound T e' /\ match r with Found i => i < length (e_elems e') | NotFound => True | IndexErr => False end.
  Proof.
    intros m e tag step H. pose proof (sound_inv H) as (Hn & Ht & Hf). destruct m; simpl.
    - unfold strict_forward. destruct (nth_error (e_elems e) (e_next e)) as [c|] eqn:E; simpl; auto.
      assert (L : e_next e < length (e_elems e)) by (apply nth_error_Some; congruence).
      destruct (tag_is (e_tag c) tag); simpl; auto. destruct step; simpl; auto.
      split; auto. apply set_next_sound; auto.
    - unfold ordered_forward. destruct (find_from _ _ _) as [j|] eqn:E; simpl; auto.
      apply find_from_range in E. rewrite skipn_length in E.
      destruct step; simpl; (split; [|lia]); auto. apply set_next_sound; auto; lia.
    - unfold unordered_forward. destruct (find_from _ _ _) as [j|] eqn:E; simpl; auto.
      apply find_from_range in E. rewrite skipn_length in E.
      assert (S : sound T (set_elems (list_swap (e_next e) j (e_elems e)) e)).
      { constructor; simpl; [rewrite list_swap_length; auto|auto|apply Forall_list_swap; auto]. }
      destruct step; simpl; rewrite list_swap_length; (split; [|lia]); auto.
      apply set_next_sound; auto. simpl; rewrite list_swap_length; lia.
  Qed.

  Lemma search_sound : forall m e tag behind step, sound T e ->
    let (r, e') := search m e tag behind step in
    sound T e' /\ match r with Found i => i < length (e_elems e') | NotFound => True | IndexErr => False end.
  Proof.
    intros m e tag behind step H; unfold search. destruct behind; [|apply forward_sound; auto].
    unfold look_behind. destruct (e_next e) as [|i] eqn:En; [apply forward_sound; auto|].
    pose proof (sound_inv H) as (Hn & _ & _).
    destruct (nth_error (e_elems e) i) as [c|] eqn:E; [|apply nth_error_None in E; lia].
    destruct (tag_is (e_tag c) tag); [|apply forward_sound; auto].
    split; auto. apply nth_error_Some; congruence.
  Qed.

  (** child indices that exist *)
  Fixpoint valid_path (path : list nat) (e : elem) : Prop :=
    match path with
    | [] => True
    | i :: rest => exists c, nth_error (e_elems e) i = Some c /\ valid_path rest c
    end.

  Lemma find_sub_sound : forall path m e, sound T e ->
    let (r, e') := find_sub_element path m e in
    sound T e' /\ exists idxs, r = Some idxs /\ valid_path idxs e'.
  Proof.
    intros path m; induction path as [|tag rest IH]; intros e H; cbn [find_sub_element].
    - split; auto. exists []; simpl; auto.
    - unfold find_element. pose proof (search_sound m tag true true H) as S.
      destruct (search m e tag true true) as [r e1]. destruct S as [S1 S2].
      destruct r as [|i|]; [|destruct rest as [|t2 rest']|contradiction].
      + split; auto. exists []; simpl; auto.
      + split; auto. exists [i]; split; auto.
        destruct (nth_error (e_elems e1) i) as [c|] eqn:E; [exists c; simpl; auto|apply nth_error_None in E; lia].
      + destruct (nth_error (e_elems e1) i) as [c|] eqn:E; [|apply nth_error_None in E; lia].
        specialize (IH c (sound_nth i S1 E)).
        destruct (find_sub_element (t2 :: rest') m c) as [r c']. destruct IH as [Sc (idxs & -> & V)].
        split; [apply put_child_sound; auto|]. exists (i :: idxs); split; auto.
        exists c'; split; auto. apply nth_error_list_upd_same; auto.
  Qed.

  Lemma to_native_none : forall b e, sound T e -> to_native b e = None -> T TSpecial /\ b = Lxml.
  Proof.
    intros b e; induction e as [tag ns text tail attrib elements next line IH] using elem_ind'.
    intros H E. apply sound_inv in H as (_ & Ht & Hf); simpl in Ht, Hf. simpl in E.
    destruct tag as [t|].
    - destruct (map_opt (to_native b) elements) as [cs|] eqn:M; [discriminate|]. clear E.
      revert M; induction elements as [|c l IHl]; simpl; intros M; [discriminate|].
      inversion IH; inversion Hf; subst.
      destruct (to_native b c) eqn:Ec; [|auto].
      destruct (map_opt (to_native b) l) eqn:El; [discriminate|]. apply IHl; auto.
    - destruct b; [auto|discriminate].
  Qed.

  Variable U : string -> Prop.
  Variable ev : env.
  Hypothesis Hev : wf_env T U ev.

  (** a TypeError can only come from a processing instruction inside a raw element on lxml *)
  Definition allowed (x : exn) : Prop :=
    expected U x \/ (x = XTypeError /\ T TSpecial /\ en_backend ev = Lxml).

  Definition safe {A} (o : out A) (s : st) : Prop :=
    sound T (st_el s) /\ match o with Raise x => allowed x | _ => True end.

  Definition reader_safe (r : reader) : Prop :=
    forall eas loc s, sound T (st_el s) -> let (o, s') := r eas loc s in safe o s'.

  Lemma allowed_validation : forall e, allowed (XValidation e).
  Proof. intros e; left; exact I. Qed.

  Lemma on_child_safe : forall A i (f : st -> rres A) s, sound T (st_el s) ->
    i < length (e_elems (st_el s)) ->
    (forall c, sound T (st_el c) -> let (o, s') := f c in safe o s') ->
    let (o, s') := on_child i f s in safe o s'.
  Proof.
    intros A i f s Hs Hi Hf; unfold on_child.
    destruct (nth_error (e_elems (st_el s)) i) as [c|] eqn:E; [|apply nth_error_None in E; lia].
    specialize (Hf (St c (st_sm s)) (sound_nth i Hs E)).
    destruct (f _) as [o s']. destruct Hf as [H1 H2]. split; auto. apply put_child_sound; auto.
  Qed.

  Lemma with_found_safe : forall tag m (f : st -> rres val) s, sound T (st_el s) ->
    (forall c, sound T (st_el c) -> let (o, s') := f c in safe o s') ->
    let (o, s') := with_found (pop_element (st_el s) tag m) f s in safe o s'.
  Proof.
    intros tag m f s Hs Hf; unfold pop_element, with_found.
    pose proof (search_sound m tag false true Hs) as S.
    destruct (search m (st_el s) tag false true) as [[|i|] e']; destruct S as [S1 S2];
      [split; simpl; auto| |contradiction].
    apply on_child_safe; auto.
  Qed.

  Lemma read_text_safe : forall c n, reader_safe (read_text c n).
  Proof.
    intros c n eas loc s H; unfold read_text. destruct c; [split; simpl; auto|].
    destruct n; simpl.
    - pose proof (nill_sound H) as N. destruct (is_element_nill (st_el s)) as [nil e1]; simpl in N.
      destruct nil; split; simpl; auto. apply set_text_sound; auto.
    - split; simpl; auto. apply set_text_sound; auto.
  Qed.

  Lemma read_attr_safe : forall k c, reader_safe (read_attr k c).
  Proof.
    intros k c eas loc s H; unfold read_attr. destruct c; [split; simpl; auto|].
    pose proof (pop_attrib_sound k H) as P. destruct (pop_attrib k (st_el s)); split; simpl; auto.
  Qed.

  Lemma read_attrs_safe : forall a, reader_safe (read_attrs a).
  Proof.
    intros a eas loc s H; unfold read_attrs. destruct (as_computed a); [split; simpl; auto|].
    unfold pop_attributes. destruct (e_attrib (st_el s)); split; simpl; auto; apply set_attrib_sound; auto.
  Qed.

  Lemma note_line_sound : forall loc s, sound T (st_el s) -> sound T (st_el (note_line loc s)).
  Proof. auto. Qed.

  Lemma read_elem_safe : forall k m c n, reader_safe (read_elem k m c n).
  Proof.
    intros k m c n eas loc s H; unfold read_elem. destruct c; [split; simpl; auto|].
    apply with_found_safe; auto. intros c Hc. apply read_text_safe; auto.
  Qed.

  Lemma read_map_elem_safe : forall k m a, reader_safe (read_map_elem k m a).
  Proof.
    intros k m a eas loc s H; unfold read_map_elem. destruct (as_computed a); [split; simpl; auto|].
    apply with_found_safe; auto. intros c Hc. apply read_attrs_safe; auto.
  Qed.

  Lemma read_items_safe : forall r, reader_safe r -> forall k title hide eas loc idx result errors s,
    sound T (st_el s) ->
    let (o, s') := read_items k r title hide eas loc idx result errors s in safe o s'.
  Proof.
    intros r Hr k; induction k as [|k IH]; intros title hide eas loc idx result errors s Hs; cbn [read_items].
    - split; simpl; auto.
    - specialize (Hr eas (loc ++ [LIdx idx]) s Hs).
      destruct (r eas (loc ++ [LIdx idx]) s) as [o s']. destruct Hr as [H1 H2].
      destruct o as [v|x|].
      + destruct v; try (apply IH; auto).
        destruct errors; split; simpl; auto. apply allowed_validation.
      + destruct x; try (split; simpl; auto). apply IH; auto.
      + split; simpl; auto.
  Qed.

  Lemma read_homo_safe : forall k title c r hide, reader_safe r -> reader_safe (read_homo k title c r hide).
  Proof.
    intros k title c r hide Hr eas loc s Hs; unfold read_homo. destruct c; [split; simpl; auto|].
    apply read_items_safe; auto.
  Qed.

  Lemma read_tuple_safe : forall rs, Forall reader_safe rs -> forall title hide eas loc idx result errors s,
    sound T (st_el s) ->
    let (o, s') := read_tuple rs title hide eas loc idx result errors s in safe o s'.
  Proof.
    intros rs Hrs; induction Hrs as [|r rs Hr Hrs IH]; intros title hide eas loc idx result errors s Hs; cbn [read_tuple].
    - destruct errors; split; simpl; auto. apply allowed_validation.
    - specialize (Hr eas (loc ++ [LIdx idx]) s Hs).
      destruct (r eas (loc ++ [LIdx idx]) s) as [o s']. destruct Hr as [H1 H2].
      destruct o as [v|x|].
      + apply IH; auto.
      + destruct x; try (split; simpl; auto). apply IH; auto.
      + split; simpl; auto.
  Qed.

  Lemma read_hetero_safe : forall title c rs hide, Forall reader_safe rs -> reader_safe (read_hetero title c rs hide).
  Proof.
    intros title c rs hide Hr eas loc s Hs; unfold read_hetero. destruct c; [split; simpl; auto|].
    apply read_tuple_safe; auto.
  Qed.

  (** a reader that can fail validation only after finding an element ahead *)
  Definition fails_on_found (r : reader) : Prop :=
    forall eas loc s o s', sound T (st_el s) -> r eas loc s = (o, s') ->
      (exists e, o = Raise (XValidation e)) -> e_next (st_el s) < length (e_elems (st_el s)).

  Lemma snapshot_sound : forall e s, sound T s -> sound T (apply_snapshot e s).
  Proof. intros e s H; apply sound_inv in H as (Hn & Ht & Hf); constructor; auto. Qed.

  Lemma read_variants_safe : forall rs, Forall reader_safe rs -> Forall fails_on_found rs ->
    forall title hide eas loc errors s, sound T (st_el s) ->
    (errors <> [] -> e_next (st_el s) < length (e_elems (st_el s))) ->
    let (o, s') := read_variants rs title hide eas loc errors s in safe o s'.
  Proof.
    intros rs Hrs; induction Hrs as [|r rs Hr Hrs IH]; intros Hfs title hide eas loc errors s Hs He; cbn [read_variants].
    - destruct errors; split; simpl; auto; [|apply allowed_validation].
      assert (N : e_next (st_el s) < length (e_elems (st_el s))) by (apply He; discriminate).
      apply set_next_sound; auto.
    - inversion Hfs as [|? ? Hf Hfs']; subst. rewrite create_snapshot_id.
      specialize (Hr eas loc (set_el (st_el s) s) Hs).
      specialize (Hf eas loc (set_el (st_el s) s)).
      destruct (r eas loc (set_el (st_el s) s)) as [o s']. destruct Hr as [H1 H2].
      specialize (Hf _ _ Hs eq_refl).
      destruct o as [v|x|].
      + destruct v; try (split; simpl; auto; apply snapshot_sound; auto). apply IH; auto.
      + destruct x; try (split; simpl; auto). apply IH; auto. simpl. intros _; apply Hf; eauto.
      + split; simpl; auto.
  Qed.

  Lemma read_tagged_safe : forall rp, (forall p, known ev p -> reader_safe (rp p)) ->
    forall attr_name mode vs eas loc s, Forall (fun kv => known ev (snd kv)) vs ->
    sound T (st_el s) -> let (o, s') := read_tagged rp attr_name mode vs eas loc s in safe o s'.
  Proof.
    intros rp Hrp attr_name mode vs; induction vs as [|[tag p] vs IH]; intros eas loc s Hk Hs; cbn [read_tagged].
    - split; simpl; auto.
    - inversion Hk as [|? ? Hp Hk']; subst; simpl in Hp.
      unfold find_element. pose proof (search_sound mode (px_name p) false false Hs) as S.
      destruct (search mode (st_el s) (px_name p) false false) as [[|i|] e']; destruct S as [S1 S2];
        [apply IH; auto| |contradiction].
      destruct (nth_error (e_elems e') i) as [c|] eqn:E; [|apply nth_error_None in E; lia].
      destruct (match get_attrib attr_name c with Some t => String.eqb t tag | None => false end).
      + apply Hrp; auto.
      + apply IH; auto.
  Qed.

  Lemma on_path_safe : forall A path (f : st -> rres A) s, sound T (st_el s) -> valid_path path (st_el s) ->
    (forall c, sound T (st_el c) -> let (o, s') := f c in safe o s') ->
    let (o, s') := on_path path f s in safe o s'.
  Proof.
    intros A path f; induction path as [|i rest IH]; intros s Hs Hv Hf; cbn [on_path]; [apply Hf; auto|].
    destruct Hv as (c & Hc & Hv). unfold on_child. rewrite Hc.
    specialize (IH (St c (st_sm s)) (sound_nth i Hs Hc) Hv Hf).
    destruct (on_path rest f (St c (st_sm s))) as [o s']. destruct IH as [H1 H2].
    split; auto. apply put_child_sound; auto.
  Qed.

  Lemma read_wrap_safe : forall path mode c r, reader_safe r -> reader_safe (read_wrap path mode c r).
  Proof.
    intros path mode c r Hr eas loc s Hs; unfold read_wrap. destruct c; [split; simpl; auto|].
    pose proof (find_sub_sound path mode Hs) as F.
    destruct (find_sub_element path mode (st_el s)) as [o e']. destruct F as [F1 (idxs & -> & V)].
    destruct (negb (Nat.eqb (length idxs) 0) && Nat.eqb (length idxs) (length path)); [|split; simpl; auto].
    apply on_path_safe; auto. intros c Hc. apply Hr; auto.
  Qed.

  Lemma read_raw_safe : forall name mode c, reader_safe (read_raw (en_backend ev) name mode c).
  Proof.
    intros name mode c eas loc s Hs; unfold read_raw. destruct c; [split; simpl; auto|].
    apply with_found_safe; auto. intros c Hc. pose proof (sound_inv Hc) as (Hn & Ht & Hf).
    set (fresh := fst (extract (st_el c))).
    assert (Hfresh : sound T fresh) by (constructor; simpl; auto; lia).
    change (extract (st_el c)) with (fresh, snd (extract (st_el c))). cbv iota beta.
    split.
    - constructor; simpl; auto.
    - destruct (to_native (en_backend ev) fresh) eqn:E; auto.
      right. split; auto. eapply to_native_none; eauto.
  Qed.

  Lemma validate_safe : forall m, (forall input what, md_validate m input = Crashed what -> U what) ->
    forall input s, match validate_result m input s with Raise x => allowed x | _ => True end.
  Proof.
    intros m Hc input s; unfold validate_result.
    destruct (if md_forbid m then _ else _); [apply allowed_validation|].
    destruct (md_validate m input) eqn:E; auto; [apply allowed_validation|]. left. simpl. eauto.
  Qed.

  Lemma read_fields_safe : forall r m, 
    (forall name f, md_cval m name = Some f -> good_custom T U f) ->
    forall fs, Forall (fun nf => reader_safe (r (snd nf))) fs ->
    forall eas result errors s, sound T (st_el s) ->
    let (o, s') := read_fields r m fs eas result errors s in safe o s'.
  Proof.
    intros r m Hc fs Hfs; induction Hfs as [|[name fser] fs Hr Hfs IH];
      intros eas result errors s Hs; cbn [read_fields]; [split; simpl; auto|].
    assert (G : let (o, s') := (match md_cval m name with
                                | Some custom => run_custom custom (note_line [LKey name] s)
                                | None => r fser eas [LKey name] (note_line [LKey name] s)
                                end) in safe o s').
    { destruct (md_cval m name) as [f|] eqn:E.
      - specialize (Hc name f E (st_el s) Hs). unfold run_custom; simpl.
        destruct (f (st_el s)) as [o e']. destruct Hc as [H1 H2]. split; simpl in *; auto.
        destruct o; auto. left; auto.
      - apply Hr; auto. }
    destruct (match md_cval m name with Some custom => _ | None => _ end) as [o s2].
    destruct G as [G1 G2]. destruct o as [v|x|].
    - destruct v; apply IH; auto.
    - destruct x; try (split; simpl; auto). apply IH; auto.
    - split; simpl; auto.
  Qed.

  Lemma read_model_safe : forall r m, wf_model T U ev m -> (forall s, wf_ser ev s -> reader_safe (r s)) ->
    reader_safe (read_model r m).
  Proof.
    intros r m (Hf & Hroot & Hc & Hx) Hr eas loc s Hs; unfold read_model.
    destruct (md_root m) eqn:Rt.
    - unfold read_root_model. destruct (md_fields m) as [|[name rser] fs] eqn:Fs; [exfalso; apply Hroot; auto|].
      inversion Hf as [|? ? Hw _]; subst; simpl in Hw.
      specialize (Hr rser Hw eas loc s Hs). destruct (r rser eas loc s) as [o s']. destruct Hr as [H1 H2].
      destruct o as [v|x|].
      + split; auto. apply validate_safe; exact Hx.
      + destruct x; split; simpl; auto. apply allowed_validation.
      + split; simpl; auto.
    - unfold read_plain_model.
      assert (G := @read_fields_safe r m Hc (md_fields m)).
      assert (F : Forall (fun nf => reader_safe (r (snd nf))) (md_fields m)).
      { eapply Forall_impl; [|exact Hf]. intros nf Hw; apply Hr; auto. }
      specialize (G F eas [] [] s Hs).
      destruct (read_fields r m (md_fields m) eas [] [] s) as [[[result errors]|x|] s']; destruct G as [G1 G2].
      + destruct errors; split; auto; [apply validate_safe; exact Hx|apply allowed_validation].
      + split; auto.
      + split; simpl; auto.
  Qed.

  Lemma read_proxy_safe : forall r p, known ev p -> (forall s, wf_ser ev s -> reader_safe (r s)) ->
    reader_safe (read_proxy ev r p).
  Proof.
    intros r p Hp Hr eas loc s Hs; unfold read_proxy. unfold known in Hp.
    destruct (en_model ev (px_model p)) as [m|] eqn:Em; [|congruence].
    destruct (px_computed p); [split; simpl; auto|].
    apply with_found_safe; auto. intros c Hc. cbv zeta.
    pose proof (nill_sound Hc) as N. simpl.
    destruct (is_element_nill (st_el c)) as [nil e1]; simpl in N.
    destruct nil; [split; simpl; auto|]. apply read_model_safe; auto. eapply Hev; eauto.
  Qed.

  Lemma read_proxy_fails_on_found : forall r p, fails_on_found (read_proxy ev r p).
  Proof.
    intros r p eas loc s o s' Hs E (err & Ho); subst o. unfold read_proxy in E.
    destruct (en_model ev (px_model p)) as [m|]; [|discriminate].
    destruct (px_computed p); [discriminate|].
    destruct (pop_element (st_el s) (px_name p) (px_mode p)) as [[|i|] e'] eqn:P; simpl in E; try discriminate.
    apply sound_inv in Hs as (Hn & _ & _).
    unfold pop_element, search in P. destruct (px_mode p); simpl in P.
    - unfold strict_forward in P. destruct (nth_error (e_elems (st_el s)) (e_next (st_el s))) eqn:N; [|discriminate].
      apply nth_error_Some; congruence.
    - unfold ordered_forward in P. destruct (find_from _ _ _) as [j|] eqn:F; [|discriminate].
      apply find_from_range in F. rewrite skipn_length in F; lia.
    - unfold unordered_forward in P. destruct (find_from _ _ _) as [j|] eqn:F; [|discriminate].
      apply find_from_range in F. rewrite skipn_length in F; lia.
  Qed.

  Lemma read_safe : forall n s, wf_ser ev s -> reader_safe (read n ev s).
  Proof.
    intros n; induction n as [|n IH]; intros s Hw; cbn [read].
    - intros eas loc st0 Hs; split; simpl; auto.
    - destruct Hw; cbn [read_step].
      + apply read_text_safe.
      + apply read_attr_safe.
      + apply read_elem_safe.
      + apply read_attrs_safe.
      + apply read_map_elem_safe.
      + apply read_homo_safe; auto.
      + apply read_hetero_safe. rewrite Forall_map. eapply Forall_impl; [|exact H]; auto.
      + intros eas loc st0 Hs; unfold read_union_prim. destruct c; [split; simpl; auto|apply IH; auto].
      + intros eas loc st0 Hs; unfold read_union_model. destruct c; [split; simpl; auto|].
        apply read_variants_safe; auto; try (rewrite Forall_map; eapply Forall_impl; [|exact H]).
        * intros p Hp. apply read_proxy_safe; auto.
        * intros p _. apply read_proxy_fails_on_found.
        * congruence.
      + intros eas loc st0 Hs; simpl. destruct c; [split; simpl; auto|].
        apply read_tagged_safe; auto. intros p Hp. apply read_proxy_safe; auto.
      + apply read_wrap_safe; auto.
      + apply read_raw_safe.
      + apply read_proxy_safe; auto.
  Qed.
End Safe.

Lemma from_native_sound : forall b n, sound any_tag (from_native b n).
Proof.
  intros b n; induction n as [tag ns text tail attrib children line IH| |] using native_ind'; simpl;
    constructor; simpl; auto; try lia; try exact I.
  induction IH as [|c l Hc _ IHl]; simpl; [constructor|].
  apply Forall_app; split; auto. destruct (is_xml_comment c); auto.
Qed.

Lemma named_clean : forall b n, no_pi n -> sound named_tag (from_native b n).
Proof.
  intros b n; induction n as [tag ns text tail attrib children line IH| |] using native_ind'; intros H; simpl.
  - inversion H; subst. constructor; simpl; [lia|discriminate|].
    induction IH as [|c l Hc _ IHl]; simpl; [constructor|].
    match goal with X : Forall _ (c :: l) |- _ => inversion X; subst end.
    apply Forall_app; split; auto.
    + match goal with X : is_xml_comment c = true \/ no_pi c |- _ => destruct X as [X|X] end.
      * destruct (is_xml_comment c); [constructor|discriminate].
      * destruct (is_xml_comment c); auto.
    + apply IHl; auto. constructor; auto.
  - inversion H.
  - inversion H.
Qed.

Lemma sound_in_bounds : forall e, sound any_tag e -> in_bounds e.
Proof.
  intros e; induction e as [tag ns text tail attrib elements next line IH] using elem_ind'.
  intros H. apply sound_inv in H as (A & _ & B). constructor; auto; simpl in *.
  rewrite Forall_forall in *. auto.
Qed.

Lemma in_bounds_sound : forall e, in_bounds e -> sound any_tag e.
Proof.
  intros e; induction e as [tag ns text tail attrib elements next line IH] using elem_ind'.
  intros H. apply in_bounds_inv in H as (A & B). constructor; auto; simpl in *; [exact I|].
  rewrite Forall_forall in *. auto.
Qed.

Lemma read_in_bounds : forall U ev, wf_env any_tag U ev -> forall n s eas loc s0, wf_ser ev s ->
  in_bounds (st_el s0) ->
  in_bounds (st_el (snd (read n ev s eas loc s0))) /\ fst (read n ev s eas loc s0) <> Raise XIndexError.
Proof.
  intros U ev Hev n s eas loc s0 Hw Hb.
  pose proof (@read_safe any_tag U ev Hev n s Hw eas loc s0 (in_bounds_sound Hb)) as H.
  destruct (read n ev s eas loc s0) as [o s']. destruct H as [H1 H2]. split; [apply sound_in_bounds; auto|].
  simpl. intros ->. destruct H2 as [H2|[H2 _]]; [exact H2|discriminate].
Qed.

Lemma from_xml_outcome : forall T U ev, wf_env T U ev -> forall n cls root eas,
  en_model ev cls <> None -> sound T (from_native (en_backend ev) root) ->
  match from_xml_tree n ev cls root eas with
  | Ok _ | Fuel => True
  | Raise x => (x = XParsing /\ exists m, en_model ev cls = Some m /\ native_tag root <> TName (md_elem_name m))
               \/ allowed T U ev x
  end.
Proof.
  intros T U ev Hev n cls root eas Hk Hs; unfold from_xml_tree.
  destruct (en_model ev cls) as [m|] eqn:Em; [|congruence].
  destruct (tag_is (native_tag root) (md_elem_name m)) eqn:Et.
  - pose proof (@read_model_safe T U ev (read n ev) m (Hev cls m Em) (fun s => @read_safe T U ev Hev n s) eas []
                 (St (from_native (en_backend ev) root) []) Hs) as H.
    destruct (read_model _ _ _ _ _) as [o s']. destruct H as [_ H]. simpl. destruct o; auto.
  - left. split; auto. exists m; split; auto. intros E. rewrite E in Et. simpl in Et.
    rewrite String.eqb_refl in Et; discriminate.
Qed.

Lemma from_xml_documented : forall U ev, wf_env named_tag U ev -> forall n cls root eas,
  en_model ev cls <> None -> no_pi root ->
  match from_xml_tree n ev cls root eas with
  | Ok _ | Fuel => True
  | Raise x => (x = XParsing /\ exists m, en_model ev cls = Some m /\ native_tag root <> TName (md_elem_name m))
               \/ (exists err, x = XValidation err) \/ (exists what, x = XUser what /\ U what)
  end.
Proof.
  intros U ev Hev n cls root eas Hk Hp.
  pose proof (@from_xml_outcome named_tag U ev Hev n cls root eas Hk (named_clean (en_backend ev) Hp)) as H.
  destruct (from_xml_tree n ev cls root eas) as [v|x|]; auto.
  destruct H as [H|[H|(_ & H & _)]]; [auto| |exfalso; apply H; reflexivity].
  right. destruct x; simpl in H; try contradiction; eauto.
Qed.

Lemma from_xml_no_index_error : forall U ev, wf_env any_tag U ev -> forall n cls root eas,
  en_model ev cls <> None -> from_xml_tree n ev cls root eas <> Raise XIndexError.
Proof.
  intros U ev Hev n cls root eas Hk E.
  pose proof (@from_xml_outcome any_tag U ev Hev n cls root eas Hk (from_native_sound (en_backend ev) root)) as H.
  rewrite E in H. destruct H as [[H _]|[H|[H _]]]; [discriminate|exact H|discriminate].
Qed.
