(** PfMap.v -- what reading does to the source map: a generic induction and its two instances. *)

From Verif Require Import Base Elem Native Errs Names Ser Read Api SpecElem SpecRead SpecSim SpecRead2
  PfElem PfField PfSim PfRel PfTerm PfRead2 PfRead3.

Section Map.
  Variable R : elem -> elem -> Prop.
  Variable M : elem -> smap -> smap -> Prop.
  Variable L : location -> Prop.
  Hypothesis Rrefl : forall e, R e e.
  Hypothesis Rtrans : forall a b c, R a b -> R b c -> R a c.
  Hypothesis Rtext : forall e, R e (set_text_o None e).
  Hypothesis Rpop : forall k e, R e (snd (pop_attrib k e)).
  Hypothesis Rattrs : forall e, R e (set_attrib_o None e).
  Hypothesis Rsearch : forall m e tag behind step, R e (snd (search m e tag behind step)).
  Hypothesis Rchild : forall i c c' e, nth_error (e_elems e) i = Some c -> R c c' -> R e (put_child i c' e).
  Hypothesis Rextract : forall c, R c (snd (extract c)).
  Hypothesis Rstep : forall e, R e (step_forward e).
  Hypothesis Rapply : forall e s, R e s -> R e (apply_snapshot e s).

  Hypothesis Mrefl : forall e sm, M e sm sm.
  Hypothesis Mtrans : forall e e' a b c, M e a b -> R e e' -> M e' b c -> M e a c.
  Hypothesis Mnote : forall e loc sm, L loc -> M e sm (sset loc (e_line e) sm).
  Hypothesis Mchild : forall i e c a b, nth_error (e_elems e) i = Some c -> M c a b -> M e a b.
  Hypothesis Lidx : forall loc i, L loc -> L (loc ++ [LIdx i]).

  Variable ev : env.
  Variable G : string -> Prop.
  Hypothesis Rcustom : forall cls m name f, G cls -> en_model ev cls = Some m -> md_cval m name = Some f ->
    forall e, R e (snd (f e)).
  Hypothesis Gfields : forall cls m name, G cls -> en_model ev cls = Some m -> In name (map fst (md_fields m)) -> L [LKey name].

  Definition okser (s : ser) : Prop := forall cls, reaches ev s cls -> G cls.

  Definition rm {A} (s : st) (p : rres A) : Prop :=
    R (st_el s) (st_el (snd p)) /\ M (st_el s) (st_sm s) (st_sm (snd p)).
  Definition reader_rm (r : reader) : Prop := forall eas loc s, L loc -> rm s (r eas loc s).

  Lemma rm_refl : forall A (o : out A) s, rm s (o, s).
  Proof. intros; split; simpl; auto. Qed.

  Lemma rm_el : forall A (o : out A) s e, R (st_el s) e -> rm s (o, set_el e s).
  Proof. intros; split; simpl; auto. Qed.

  Lemma rm_trans : forall A s (s1 : st) (p : rres A), R (st_el s) (st_el s1) -> M (st_el s) (st_sm s) (st_sm s1) ->
    rm s1 p -> rm s p.
  Proof. intros A s s1 p HR HM [H1 H2]. split; eauto. Qed.

  Lemma rm_step : forall A B s (p : rres A) (q : rres B), rm s p -> rm (snd p) q -> rm s q.
  Proof. intros A B s p q [H1 H2] Hq. eapply rm_trans; eauto. Qed.

  Lemma rm_note : forall A s loc (p : rres A), L loc -> rm (note_line loc s) p -> rm s p.
  Proof. intros A s loc p Hl Hp. eapply rm_trans; [| |exact Hp]; simpl; auto. Qed.

  Lemma on_child_rm : forall A i (f : st -> rres A) s, (forall c, rm c (f c)) -> rm s (on_child i f s).
  Proof.
    intros A i f s H; unfold on_child. destruct (nth_error _ i) as [c|] eqn:E; [|apply rm_refl].
    specialize (H (St c (st_sm s))). destruct (f _) as [o s']. destruct H as [H1 H2]; simpl in *. split; simpl; eauto.
  Qed.

  Lemma with_found_rm : forall tag m (f : st -> rres val) s, (forall c, rm c (f c)) ->
    rm s (with_found (pop_element (st_el s) tag m) f s).
  Proof.
    intros tag m f s H. pose proof (Rsearch m (st_el s) tag false true) as X.
    unfold pop_element. destruct (search _ _ _ _ _) as [[|i|] e']; simpl in X; simpl.
    - apply rm_el; auto.
    - eapply rm_trans; [| |apply on_child_rm; exact H]; simpl; auto.
    - apply rm_el; auto.
  Qed.

  Lemma nill_rm : forall e, R e (snd (is_element_nill e)).
  Proof. intros e; unfold is_element_nill. pose proof (Rpop xsi_nil e) as P. destruct (pop_attrib xsi_nil e); auto. Qed.

  Lemma read_text_rm : forall c n, reader_rm (read_text c n).
  Proof.
    intros c n eas loc s _; unfold read_text. destruct c; [apply rm_refl|].
    destruct n; [|apply rm_el; apply Rtext].
    pose proof (nill_rm (st_el s)) as N. destruct (is_element_nill (st_el s)) as [nil e1]; simpl in N.
    destruct nil; apply rm_el; auto. eapply Rtrans; [exact N|apply Rtext].
  Qed.

  Lemma read_attr_rm : forall k c, reader_rm (read_attr k c).
  Proof.
    intros k c eas loc s _; unfold read_attr. destruct c; [apply rm_refl|].
    pose proof (Rpop k (st_el s)) as P. destruct (pop_attrib k (st_el s)); apply rm_el; auto.
  Qed.

  Lemma read_attrs_rm : forall a, reader_rm (read_attrs a).
  Proof.
    intros a eas loc s _; unfold read_attrs. destruct (as_computed a); [apply rm_refl|].
    destruct (e_attrib (st_el s)) eqn:E; unfold pop_attributes; rewrite E; apply rm_el; auto.
  Qed.

  Lemma read_items_rm : forall r, reader_rm r -> forall k title hide eas loc idx result errors s, L loc ->
    rm s (read_items k r title hide eas loc idx result errors s).
  Proof.
    intros r Hr k; induction k as [|k IH]; intros title hide eas loc idx result errors s Hl; cbn [read_items]; [apply rm_refl|].
    pose proof (Hr eas (loc ++ [LIdx idx]) s (Lidx idx Hl)) as X.
    destruct (r eas (loc ++ [LIdx idx]) s) as [[v|x|] s'].
    - destruct v; try (eapply rm_step; [exact X|apply IH; auto]). destruct errors; exact X.
    - destruct x; try exact X. eapply rm_step; [exact X|apply IH; auto].
    - exact X.
  Qed.

  Lemma read_tuple_rm : forall rs, Forall reader_rm rs -> forall title hide eas loc idx result errors s, L loc ->
    rm s (read_tuple rs title hide eas loc idx result errors s).
  Proof.
    intros rs Hrs; induction Hrs as [|r rs Hr Hrs IH]; intros title hide eas loc idx result errors s Hl; cbn [read_tuple].
    - destruct errors; apply rm_refl.
    - pose proof (Hr eas (loc ++ [LIdx idx]) s (Lidx idx Hl)) as X.
      destruct (r eas (loc ++ [LIdx idx]) s) as [[v|x|] s'].
      + eapply rm_step; [exact X|apply IH; auto].
      + destruct x; try exact X. eapply rm_step; [exact X|apply IH; auto].
      + exact X.
  Qed.

  Lemma read_variants_rm : forall rs, Forall reader_rm rs ->
    forall title hide eas loc errors s, L loc -> rm s (read_variants rs title hide eas loc errors s).
  Proof.
    intros rs Hrs; induction Hrs as [|r rs Hr Hrs IH]; intros title hide eas loc errors s Hl; cbn [read_variants].
    - destruct errors; [apply rm_refl|]. apply rm_el. apply Rstep.
    - rewrite create_snapshot_id. pose proof (Hr eas loc (set_el (st_el s) s) Hl) as [X1 X2].
      destruct (r eas loc (set_el (st_el s) s)) as [o s']; simpl in *.
      assert (K : forall (A : Type) (q : rres A), rm (St (st_el s) (st_sm s')) q -> rm s q)
        by (intros A q Hq; eapply rm_trans; [| |exact Hq]; simpl; auto).
      destruct o as [v|x|].
      + destruct v; try (split; simpl; auto; fail). apply K, IH; auto.
      + destruct x; try (split; simpl; auto; fail). apply K, IH; auto.
      + split; simpl; auto.
  Qed.

  Lemma read_tagged_rm : forall rp a mode vs, (forall tag p, In (tag, p) vs -> reader_rm (rp p)) ->
    forall eas loc s, L loc -> rm s (read_tagged rp a mode vs eas loc s).
  Proof.
    intros rp a mode vs; induction vs as [|[tag p] vs IH]; intros Hrp eas loc s Hl; cbn [read_tagged]; [apply rm_refl|].
    assert (IH' : forall s, rm s (read_tagged rp a mode vs eas loc s)) by (intros; apply IH; auto; intros t q Hq; eapply Hrp; right; eauto).
    unfold find_element. pose proof (Rsearch mode (st_el s) (px_name p) false false) as X.
    destruct (search _ _ _ _ _) as [[|i|] e']; simpl in X.
    - eapply rm_trans; [| |apply IH']; simpl; auto.
    - destruct (nth_error (e_elems e') i) as [c|] eqn:E; [|apply rm_el; auto].
      destruct (match get_attrib a c with Some t => _ | None => _ end).
      + eapply rm_trans; [| |apply (Hrp tag p (or_introl eq_refl) eas loc (St e' (sset loc (e_line c) (st_sm s))) Hl)]; simpl; auto.
        eapply Mtrans; [apply Mrefl|exact X|]. eapply Mchild; eauto.
      + eapply rm_trans; [| |apply IH']; simpl; auto.
    - apply rm_el; auto.
  Qed.

  Lemma find_sub_rm : forall path m e, R e (snd (find_sub_element path m e)).
  Proof.
    intros path m; induction path as [|tag rest IH]; intros e; cbn [find_sub_element]; [apply Rrefl|].
    unfold find_element. pose proof (Rsearch m e tag true true) as X.
    destruct (search m e tag true true) as [[|i|] e1]; simpl in X; auto.
    destruct rest as [|t2 rest]; auto. destruct (nth_error (e_elems e1) i) as [c|] eqn:E; auto.
    specialize (IH c). destruct (find_sub_element (t2 :: rest) m c) as [o c']; simpl in *.
    eapply Rtrans; [exact X|]. eapply Rchild; eauto.
  Qed.

  Lemma on_path_rm : forall A path (f : st -> rres A) s, (forall c, rm c (f c)) -> rm s (on_path path f s).
  Proof. intros A path f; induction path as [|i path IH]; intros s H; cbn [on_path]; auto. apply on_child_rm; auto. Qed.

  Lemma read_wrap_rm : forall path mode c r, reader_rm r -> reader_rm (read_wrap path mode c r).
  Proof.
    intros path mode c r Hr eas loc s Hl; unfold read_wrap. destruct c; [apply rm_refl|].
    pose proof (find_sub_rm path mode (st_el s)) as F.
    destruct (find_sub_element path mode (st_el s)) as [[idxs|] e']; simpl in F; [|apply rm_el; auto].
    destruct (_ && _); [|apply rm_el; auto].
    eapply rm_trans; [| |apply (@on_path_rm val idxs _ (set_el e' s))]; simpl; auto.
    intros c. apply rm_note with loc; auto.
  Qed.

  Lemma read_raw_rm : forall b name mode c, reader_rm (read_raw b name mode c).
  Proof.
    intros b name mode c eas loc s Hl; unfold read_raw. destruct c; [apply rm_refl|].
    apply with_found_rm; auto. intros c. pose proof (Rextract (st_el c)) as X.
    destruct (extract (st_el c)) as [fresh c'] eqn:Ee. split; simpl; auto.
  Qed.

  Lemma read_fields_rm : forall r m, (forall name f, md_cval m name = Some f -> forall e, R e (snd (f e))) ->
    forall fs, (forall name s, In (name, s) fs -> reader_rm (r s) /\ L [LKey name]) ->
    forall eas result errors s, rm s (read_fields r m fs eas result errors s).
  Proof.
    intros r m Hc fs; induction fs as [|[name fser] fs IH]; intros Hfs eas result errors s; cbn [read_fields]; [apply rm_refl|].
    assert (IH' : forall eas result errors s, rm s (read_fields r m fs eas result errors s)).
    { apply IH. intros; apply Hfs; right; auto. }
    destruct (Hfs name fser (or_introl eq_refl)) as [Hr Hl].
    assert (X : rm s (match md_cval m name with
                      | Some custom => run_custom custom (note_line [LKey name] s)
                      | None => r fser eas [LKey name] (note_line [LKey name] s)
                      end)).
    { apply rm_note with [LKey name]; auto. destruct (md_cval m name) as [f|] eqn:E; [|apply Hr; auto]. unfold run_custom.
      specialize (Hc name f E (st_el s)); simpl. destruct (f (st_el s)). apply rm_el; auto. }
    destruct (match md_cval m name with Some custom => _ | None => _ end) as [[v|x|] s2].
    - destruct v; (eapply rm_step; [exact X|apply IH']).
    - destruct x; try exact X. eapply rm_step; [exact X|apply IH'].
    - exact X.
  Qed.

  Lemma read_model_rm : forall cls r m, G cls -> en_model ev cls = Some m ->
    (forall name s, In (name, s) (md_fields m) -> reader_rm (r s)) -> reader_rm (read_model r m).
  Proof.
    intros cls r m HG Hm Hr eas loc s Hl; unfold read_model. destruct (md_root m).
    - unfold read_root_model. destruct (md_fields m) as [|[name rser] fs]; [apply rm_refl|].
      pose proof (Hr name rser (or_introl eq_refl) eas loc s Hl) as X.
      destruct (r rser eas loc s) as [[v|x|] s']; auto. destruct x; auto.
    - unfold read_plain_model.
      assert (F : rm s (read_fields r m (md_fields m) eas [] [] s)).
      { apply read_fields_rm; eauto. intros name fs Hin. split; eauto. eapply Gfields; eauto. apply (in_map fst) in Hin; exact Hin. }
      destruct (read_fields _ _ _ _ _ _ _) as [[[result errors]|x|] s']; auto. destruct errors; auto.
  Qed.

  Lemma read_proxy_rm : forall n p, (forall s, okser s -> reader_rm (read n ev s)) -> okser (SProxy p) ->
    reader_rm (read_proxy ev (read n ev) p).
  Proof.
    intros n p Hr Hok eas loc s Hl; unfold read_proxy. destruct (en_model ev (px_model p)) as [m|] eqn:Em; [|apply rm_refl].
    destruct (px_computed p); [apply rm_refl|]. apply with_found_rm; auto. intros c. cbv zeta. apply rm_note with loc; auto.
    pose proof (nill_rm (st_el c)) as N. simpl. destruct (is_element_nill (st_el c)) as [nil e1]; simpl in N.
    destruct nil; [apply (@rm_el val (Ok VNone) (note_line loc c) e1); auto|].
    eapply rm_trans; [| |apply (@read_model_rm (px_model p) (read n ev) m)]; simpl; auto.
    - apply Hok. constructor.
    - intros name s' Hin. apply Hr. intros cls Hc. apply Hok. eapply rc_field; eauto.
  Qed.

  Lemma read_rm : forall n s, okser s -> reader_rm (read n ev s).
  Proof.
    intros n; induction n as [|n IH]; intros s Hok; cbn [read].
    - intros eas loc s0 _; apply rm_refl.
    - destruct s; cbn [read_step]; intros eas loc s0 Hl; unfold read_elem, read_map_elem, read_homo, read_hetero, read_union_prim, read_union_model.
      + apply read_text_rm; auto.
      + apply read_attr_rm; auto.
      + destruct computed; [apply rm_refl|]. apply with_found_rm. intros c; apply rm_note with loc; auto. apply (read_text_rm false nillable eas (note_line loc c) Hl).
      + apply read_attrs_rm; auto.
      + destruct (as_computed a); [apply rm_refl|]. apply with_found_rm. intros c; apply rm_note with loc; auto. apply (read_attrs_rm a eas (note_line loc c) Hl).
      + destruct computed; [apply rm_refl|]. apply read_items_rm; auto. apply IH. intros cls Hc. apply Hok. now constructor.
      + destruct computed; [apply rm_refl|]. apply read_tuple_rm; auto. rewrite Forall_map. rewrite Forall_forall; intros x Hx; apply IH.
        intros cls Hc. apply Hok. econstructor; eauto.
      + destruct computed; [apply rm_refl|]. apply IH; auto. intros cls Hc. apply Hok. now constructor.
      + destruct computed; [apply rm_refl|]. apply read_variants_rm; auto. rewrite Forall_map. rewrite Forall_forall; intros x Hx.
        apply read_proxy_rm; auto. intros cls Hc. apply Hok. econstructor; eauto.
      + destruct computed; [apply rm_refl|]. apply read_tagged_rm; auto. intros tag p Hp. apply read_proxy_rm; auto.
        intros cls Hc. apply Hok. econstructor; eauto.
      + apply read_wrap_rm; auto. apply IH. intros cls Hc. apply Hok. now constructor.
      + apply read_raw_rm; auto.
      + apply read_proxy_rm; auto.
  Qed.
End Map.

(** ---- instance 1: new entries carry lines of the element being read ---- *)

Definition lines_within (e e' : elem) : Prop := forall z, line_in e' z -> line_in e z.
Definition entries_within (e : elem) (sm sm' : smap) : Prop :=
  forall loc, (forall z, sget loc sm' = Some z -> sget loc sm = Some z \/ line_in e z) /\
              (sget loc sm <> None -> sget loc sm' <> None).

Lemma lines_sub : forall e e', e_line e' = e_line e -> (forall c, In c (e_elems e') -> In c (e_elems e)) -> lines_within e e'.
Proof.
  intros e e' Hl He z H. inversion H as [|x c z' Hc Hz]; subst; [rewrite Hl; constructor|]. eapply li_below; eauto.
Qed.

Lemma list_upd_in : forall A (l : list A) i x y, In y (list_upd i x l) -> y = x \/ In y l.
Proof.
  intros A l; induction l as [|a l IH]; intros [|i] x y; simpl; auto.
  - intros [->|H]; auto.
  - intros [->|H]; auto. apply IH in H as [->|H]; auto.
Qed.

Lemma sget_sset : forall l loc z sm, sget l (sset loc z sm) = if loc_eqb l loc then Some z else sget l sm.
Proof. reflexivity. Qed.

Lemma entries_refl : forall e sm, entries_within e sm sm.
Proof. intros e sm loc; auto. Qed.

Lemma entries_trans : forall e e' a b c, entries_within e a b -> lines_within e e' -> entries_within e' b c -> entries_within e a c.
Proof.
  intros e e' a b c H1 HR H2 loc. destruct (H1 loc) as [A1 B1], (H2 loc) as [A2 B2]. split; auto.
  intros z Hz. apply A2 in Hz as [Hz|Hz]; auto.
Qed.

Lemma entries_note : forall e loc sm, entries_within e sm (sset loc (e_line e) sm).
Proof.
  intros e loc sm l. rewrite sget_sset. destruct (loc_eqb l loc); split; auto; try discriminate.
  intros z [= <-]. right; constructor.
Qed.

Section Lines.
  Variable ev : env.
  Hypothesis Hev : keeps_lines ev.

  Lemma read_lines : forall n s eas loc s0,
    lines_within (st_el s0) (st_el (snd (read n ev s eas loc s0))) /\
    entries_within (st_el s0) (st_sm s0) (st_sm (snd (read n ev s eas loc s0))).
  Proof.
    intros n s eas loc s0.
    apply (@read_rm lines_within entries_within (fun _ => True)) with (G := fun _ => True); auto.
    - intros e z H; auto.
    - intros a b c H1 H2 z H; auto.
    - intros e. apply lines_sub; auto.
    - intros k e. unfold pop_attrib. destruct (e_attrib e) as [d|]; [destruct (dget k d)|]; apply lines_sub; auto.
    - intros e. apply lines_sub; auto.
    - intros m e tag b st. destruct (search m e tag b st) as [r e'] eqn:E. apply search_cases in E as (l & k & P & -> & _).
      apply lines_sub; auto. simpl. intros c Hc. eapply Permutation_in; eauto.
    - intros i c c' e Hn H z Hz. inversion Hz as [|x d z' Hd Hz']; subst; [apply (li_here e)|]. simpl in Hd.
      apply list_upd_in in Hd as [->|Hd]; [|eapply li_below; eauto].
      eapply li_below; [eapply nth_error_In; eauto|]. apply H; auto.
    - intros c. apply lines_sub; auto. simpl. contradiction.
    - intros e. apply lines_sub; auto.
    - intros e sn H z Hz. inversion Hz as [|x d z' Hd Hz']; subst; [apply (li_here e)|]. simpl in Hd. apply H. eapply li_below; eauto.
    - apply entries_refl.
    - apply entries_trans.
    - intros e l sm _. apply entries_note.
    - intros i e c a b Hn H l. destruct (H l) as [A B]. split; auto. intros z Hz. apply A in Hz as [Hz|Hz]; auto.
      right. eapply li_below; eauto. eapply nth_error_In; eauto.
    - intros cls m name f _ Hm Hf e z Hz. eapply Hev; eauto.
    - red; auto.
  Qed.

  Lemma field_lines : forall n cls m, en_model ev cls = Some m -> forall eas fs s os s',
    field_outcomes (read n ev) m eas fs s os s' ->
    lines_within (st_el s) (st_el s') /\ entries_within (st_el s) (st_sm s) (st_sm s') /\
    (forall name, In name (map fst fs) -> exists z, sget [LKey name] (st_sm s') = Some z /\ line_in (st_el s) z).
  Proof.
    intros n cls m Hm eas fs s os s' H. induction H as [s|name f fs s o s1 os s' Hr Ho H IH].
    - split; [red; auto|]. split; [apply entries_refl|]. simpl. contradiction.
    - assert (X : lines_within (st_el s) (st_el s1) /\ entries_within (st_el s) (st_sm (note_line [LKey name] s)) (st_sm s1)).
      { destruct (md_cval m name) as [g|] eqn:Eg.
        - unfold run_custom in Hr. destruct (g (st_el (note_line [LKey name] s))) as [o' e'] eqn:Ge. injection Hr as <- <-. simpl in *.
          split; [|apply entries_refl]. intros z Hz. eapply (Hev cls name Hm Eg (st_el s)). rewrite Ge. auto.
        - pose proof (read_lines n f eas [LKey name] (note_line [LKey name] s)) as [A B]. rewrite Hr in A, B. simpl in *. auto. }
      destruct X as [X1 X2], IH as (I1 & I2 & I3). split; [intros z Hz; auto|].
      assert (X3 : entries_within (st_el s) (st_sm s) (st_sm s1)).
      { eapply entries_trans; [apply entries_note| |exact X2]. red; auto. }
      split; [eapply entries_trans; eauto|]. intros k [<-|Hk].
      + destruct (X2 [LKey name]) as [A B]. simpl in A, B. rewrite String.eqb_refl in A, B. simpl in A, B.
        destruct (I2 [LKey name]) as [A' B']. destruct (sget [LKey name] (st_sm s1)) as [z1|] eqn:E1; [|exfalso; apply B; [discriminate|auto]].
        destruct (sget [LKey name] (st_sm s')) as [z|] eqn:E2; [|exfalso; apply B'; [discriminate|auto]].
        exists z. split; auto. destruct (A' z eq_refl) as [K|K]; auto. injection K as <-.
        destruct (A z1 eq_refl) as [K|K]; auto. injection K as <-. constructor.
      + destruct (I3 k Hk) as (z & Hz & Hi). eauto.
  Qed.
End Lines.

(** ---- instance 2: the entry of a field is touched by nothing else ---- *)

Section Own.
  Variable ev : env.
  Variable name : string.

  Definition keeps_entry (_ : elem) (sm sm' : smap) : Prop := sget [LKey name] sm' = sget [LKey name] sm.

  Lemma read_keeps_entry : forall n s eas loc s0, name_unused ev name s -> loc <> [LKey name] ->
    sget [LKey name] (st_sm (snd (read n ev s eas loc s0))) = sget [LKey name] (st_sm s0).
  Proof.
    intros n s eas loc s0 Hu Hl.
    apply (@read_rm (fun _ _ => True) keeps_entry (fun loc => loc <> [LKey name])) with
      (G := fun cls => forall m, en_model ev cls = Some m -> ~ In name (map fst (md_fields m)));
      unfold keeps_entry; auto.
    - intros; congruence.
    - intros e l sm Hl'. rewrite sget_sset. destruct (loc_eqb [LKey name] l) eqn:E; auto. apply loc_eqb_eq in E. congruence.
    - intros l0 i _ E. destruct l0 as [|x [|y l]]; discriminate.
    - intros cls m k HG Hm Hk E. injection E as ->. eapply HG; eauto.
    - intros cls Hc m Hm. eapply Hu; eauto.
  Qed.

  Lemma fields_keep_entry : forall n m eas fs s os s', field_outcomes (read n ev) m eas fs s os s' ->
    Forall (fun kf => fst kf <> name /\ name_unused ev name (snd kf)) fs ->
    sget [LKey name] (st_sm s') = sget [LKey name] (st_sm s).
  Proof.
    intros n m eas fs s os s' H. induction H as [s|k f fs s o s1 os s' Hr Ho H IH]; intros F; auto.
    inversion F as [|x l [Hk Hu] F']; subst. rewrite IH by auto. simpl in Hk, Hu.
    assert (N : sget [LKey name] (st_sm (note_line [LKey k] s)) = sget [LKey name] (st_sm s)).
    { simpl. destruct (String.eqb name k) eqn:E; auto. apply String.eqb_eq in E. congruence. }
    rewrite <- N. destruct (md_cval m k) as [g|].
    - unfold run_custom in Hr. destruct (g _) as [o' e']. injection Hr as <- <-. reflexivity.
    - pose proof (read_keeps_entry n eas (note_line [LKey k] s) Hu (loc := [LKey k])) as K. rewrite Hr in K. simpl in K.
      apply K. congruence.
  Qed.

  Lemma plain_keeps_entry : forall n cls m eas loc s, en_model ev cls = Some m -> md_root m = false ->
    name_unused ev name (SProxy (Proxy cls "" None Strict false false)) ->
    sget [LKey name] (st_sm (snd (read_model (read n ev) m eas loc s))) = sget [LKey name] (st_sm s).
  Proof.
    intros n cls m eas loc s Hm Hroot Hu. unfold read_model. rewrite Hroot. unfold read_plain_model.
    assert (F : rm (fun _ _ => True) keeps_entry s (read_fields (read n ev) m (md_fields m) eas [] [] s)).
    { apply (@read_fields_rm (fun _ _ => True) keeps_entry (fun loc => loc <> [LKey name])); unfold keeps_entry; auto.
      - intros; congruence.
      - intros e l sm Hl'. rewrite sget_sset. destruct (loc_eqb [LKey name] l) eqn:E; auto. apply loc_eqb_eq in E. congruence.
      - intros k f Hin. split.
        + intros eas' loc' s' Hl. split; auto. apply read_keeps_entry; auto.
          intros c m' Hc. apply Hu. eapply rc_field; simpl; eauto.
        + intros [= ->]. apply (Hu cls m); auto.
          * apply (rc_model ev (Proxy cls "" None Strict false false)).
          * apply (in_map fst) in Hin; exact Hin. }
    destruct F as [_ F]; unfold keeps_entry in F.
    destruct (read_fields _ _ _ _ _ _ _) as [[[result errors]|x|] s']; auto. destruct errors; auto.
  Qed.

  Lemma found_line : forall tag m f s o s', with_found (pop_element (st_el s) tag m) f s = (o, s') ->
    (forall c, sget [LKey name] (st_sm (snd (f c))) = Some (e_line (st_el c))) ->
    exists h after, takes tag m (passed (st_el s), unread (st_el s)) h after /\
      sget [LKey name] (st_sm s') = match h with Some c => Some (e_line c) | None => sget [LKey name] (st_sm s) end.
  Proof.
    intros tag m f s o s' H Hf. pose proof (pop_element_takes m (st_el s) tag) as T.
    pose proof (@pop_element_found m (st_el s) tag) as G.
    destruct (pop_element (st_el s) tag m) as [r e']. destruct T as (T0 & _ & T & _).
    exists (handed r e'), (passed e', unread e'). split; auto. destruct r as [|i|]; simpl in *.
    - injection H as <- <-. reflexivity.
    - destruct (G i e' eq_refl) as (_ & Hi). destruct (nth_error (e_elems e') i) as [c|] eqn:Hc; [|apply nth_error_None in Hc; lia]. unfold on_child in H. simpl in H. rewrite Hc in H.
      specialize (Hf (St c (st_sm s))). destruct (f (St c (st_sm s))) as [o1 s1]. injection H as <- <-. auto.
    - congruence.
  Qed.

  Lemma noted : forall s, sget [LKey name] (st_sm (note_line [LKey name] s)) = Some (e_line (st_el s)).
  Proof. intros s. simpl. rewrite String.eqb_refl. reflexivity. Qed.

  Lemma bound_line : forall tag m s, bound_to ev tag m s -> not_root ev s -> name_unused ev name s ->
    forall n eas st0 o st1, read n ev s eas [LKey name] st0 = (o, st1) -> o <> Fuel ->
    exists h after, takes tag m (passed (st_el st0), unread (st_el st0)) h after /\
      sget [LKey name] (st_sm st1) = match h with Some c => Some (e_line c) | None => sget [LKey name] (st_sm st0) end.
  Proof.
    intros tag m s B Hroot Hu n eas st0 o st1 H Ho. destruct n as [|n]; [injection H as <- <-; congruence|].
    assert (Txt : forall nillable c, sget [LKey name] (st_sm (snd (read_text false nillable eas [LKey name] (note_line [LKey name] c)))) =
      Some (e_line (st_el c))).
    { intros nillable c. rewrite <- (noted c). unfold read_text. destruct nillable; [|reflexivity].
      destruct (is_element_nill _) as [b e1]. destruct b; reflexivity. }
    destruct B as [nsm nillable|nsm nillable|a Ha| |cls nsm nillable md Hm]; cbn [read read_step] in H.
    - unfold read_elem in H. eapply found_line; eauto.
    - unfold read_union_prim in H. destruct n as [|n]; [injection H as <- <-; congruence|].
      cbn [read read_step] in H. unfold read_elem in H. eapply found_line; eauto.
    - unfold read_map_elem in H. rewrite Ha in H. eapply found_line; eauto. intros c. rewrite <- (noted c).
      unfold read_attrs. rewrite Ha. destruct (pop_attributes _) as [[d|] e]; reflexivity.
    - unfold read_raw in H. eapply found_line; eauto. intros c. simpl. rewrite String.eqb_refl. reflexivity.
    - unfold read_proxy in H. simpl in H. rewrite Hm in H. eapply found_line; eauto. intros c. cbv beta zeta.
      pose proof (noted c) as N. match goal with |- context [is_element_nill ?x] => destruct (is_element_nill x) as [nil e1] end. destruct nil; [exact N|].
      rewrite (@plain_keeps_entry n cls md); auto; [].
      intros c' m' Hc. apply Hu. inversion Hc; subst; simpl in *; [apply (rc_model ev (Proxy cls tag nsm m false nillable))|].
        eapply rc_field; simpl; eauto.
  Qed.

  Lemma outcomes_app : forall r m eas fs1 fs2 s os s', field_outcomes r m eas (fs1 ++ fs2) s os s' ->
    exists os1 s1 os2, os = os1 ++ os2 /\ field_outcomes r m eas fs1 s os1 s1 /\ field_outcomes r m eas fs2 s1 os2 s'.
  Proof.
    intros r m eas fs1; induction fs1 as [|[k f] fs1 IH]; intros fs2 s os s' H.
    - exists [], s, os. split; auto. split; auto. constructor.
    - inversion H as [|k0 f0 fs0 s0 o s1 os0 s2 Hr Ho Hrest]; subst. destruct (IH _ _ _ _ Hrest) as (os1 & s3 & os2 & E & A & C).
      subst os0. exists ((LKey k, o) :: os1), s3, os2. split; [reflexivity|]. split; auto. econstructor; eauto.
  Qed.

  Lemma own_line : forall n m eas pre s post st0 os st1 tag md,
    field_outcomes (read n ev) m eas (pre ++ (name, s) :: post) st0 os st1 ->
    bound_to ev tag md s -> not_root ev s -> name_unused ev name s -> md_cval m name = None ->
    Forall (fun kf => fst kf <> name /\ name_unused ev name (snd kf)) post ->
    exists os1 mid h after, field_outcomes (read n ev) m eas pre st0 os1 mid /\
      takes tag md (passed (st_el mid), unread (st_el mid)) h after /\
      sget [LKey name] (st_sm st1) = Some (match h with Some c => e_line c | None => e_line (st_el mid) end).
  Proof.
    intros n m eas pre s post st0 os st1 tag md H B Hroot Hu Hc F.
    apply outcomes_app in H as (os1 & mid & os2 & -> & H1 & H2). inversion H2 as [|k f fs s0 o s1 os' s' Hr Ho Hrest]; subst.
    rewrite Hc in Hr. destruct (bound_line B Hroot Hu n eas _ Hr) as (h & after & T & G).
    { destruct Ho as [[v ->]|[e ->]]; discriminate. }
    exists os1, mid, h, after. split; auto. split; [exact T|]. rewrite (@fields_keep_entry n m eas post s1 os' st1 Hrest F), G, noted.
    destruct h; auto.
  Qed.
End Own.
