(** PfTerm.v -- reading terminates. *)

From Verif Require Import Base Elem Native Errs Names Ser Read Api SpecElem SpecRead PfElem PfField PfFuel PfRel.

Definition maxh (l : list elem) : nat := fold_right (fun c n => Nat.max (height c) n) 0 l.
Definition suml (l : list elem) : nat := fold_right (fun c n => left_to_read c + n) 0 l.
Definition own_left (e : elem) : nat :=
  (if str_truthy (e_text e) then 1 else 0) + match e_attrib e with Some d => S (length d) | None => 0 end.

Lemma height_eq : forall e, height e = S (maxh (e_elems e)).
Proof. intros [? ? ? ? ? ? ? ?]; reflexivity. Qed.

Lemma left_eq : forall e, left_to_read e = own_left e + (length (e_elems e) - e_next e) + suml (e_elems e).
Proof. intros [? ? ? ? ? ? ? ?]; reflexivity. Qed.

Arguments left_to_read : simpl never.
Arguments height : simpl never.

Lemma maxh_in : forall l c, In c l -> height c <= maxh l.
Proof.
  intros l c; induction l as [|x l IH]; intros H; [destruct H|]; unfold maxh in *; cbn [fold_right].
  destruct H as [->|H]; [lia|]. specialize (IH H). lia.
Qed.

Lemma maxh_le : forall l k, (forall c, In c l -> height c <= k) -> maxh l <= k.
Proof.
  intros l k; induction l as [|x l IH]; intros H; unfold maxh in *; cbn [fold_right]; [lia|].
  assert (height x <= k) by (apply H; left; auto).
  assert (fold_right (fun c n => Nat.max (height c) n) 0 l <= k) by (apply IH; intros; apply H; right; auto).
  lia.
Qed.

Lemma in_list_upd : forall A i (x : A) l c, In c (list_upd i x l) -> c = x \/ In c l.
Proof.
  intros A i; induction i as [|i IH]; intros x [|y l] c H; simpl in *; auto.
  - destruct H as [->|H]; auto.
  - destruct H as [->|H]; auto. apply IH in H as [->|H]; auto.
Qed.

Lemma maxh_upd : forall i c c' l, nth_error l i = Some c -> height c' <= height c -> maxh (list_upd i c' l) <= maxh l.
Proof.
  intros i c c' l Hn Hh. apply maxh_le. intros x Hx. apply in_list_upd in Hx as [->|Hx].
  - apply nth_error_In in Hn. apply maxh_in in Hn. lia.
  - apply maxh_in; auto.
Qed.

Lemma suml_upd : forall i c c' l, nth_error l i = Some c ->
  suml (list_upd i c' l) + left_to_read c = suml l + left_to_read c'.
Proof.
  intros i; induction i as [|i IH]; intros c c' [|x l] H; simpl in H; try discriminate.
  - injection H as ->. unfold suml; cbn [list_upd fold_right]. lia.
  - specialize (IH c c' l H). unfold suml in *; cbn [list_upd fold_right]. lia.
Qed.

Lemma upd_perm : forall A i (x y : A) l, nth_error l i = Some x -> Permutation (x :: list_upd i y l) (y :: l).
Proof.
  intros A i; induction i as [|i IH]; intros x y [|z l] H; simpl in *; try discriminate.
  - injection H as ->. apply perm_swap.
  - eapply perm_trans; [apply perm_swap|]. eapply perm_trans; [apply perm_skip; apply (IH x y l H)|]. apply perm_swap.
Qed.

Lemma swap_perm : forall A i j (l : list A), Permutation (list_swap i j l) l.
Proof.
  intros A i j l; unfold list_swap. destruct (nth_error l i) as [x|] eqn:Ei; auto.
  destruct (nth_error l j) as [y|] eqn:Ej; auto.
  assert (N : nth_error (list_upd j x l) i = Some x).
  { destruct (Nat.eq_dec i j) as [->|D].
    - apply nth_error_list_upd_same. apply nth_error_Some; congruence.
    - rewrite nth_error_list_upd_other; auto. }
  apply Permutation_cons_inv with (a := x).
  eapply perm_trans; [apply upd_perm; exact N|]. apply upd_perm; auto.
Qed.

Lemma suml_perm : forall l l', Permutation l l' -> suml l = suml l'.
Proof. intros l l' H; induction H; unfold suml in *; cbn [fold_right] in *; lia. Qed.

Lemma maxh_perm : forall l l', Permutation l l' -> maxh l = maxh l'.
Proof. intros l l' H; induction H; unfold maxh in *; cbn [fold_right] in *; lia. Qed.

(** what a search does to an element *)
Lemma search_cases : forall m e tag behind step r e', search m e tag behind step = (r, e') ->
  (exists l n, Permutation l (e_elems e) /\ e' = set_next n (set_elems l e) /\ e_next e <= n /\
     (forall i, r = Found i -> behind = false -> step = true -> e_next e < length (e_elems e) /\ e_next e < n)).
Proof.
  intros m e tag behind step r e' H.
  assert (Same : forall r', (forall i, r' <> Found i) -> (r', e) = (r, e') ->
    exists l n, Permutation l (e_elems e) /\ e' = set_next n (set_elems l e) /\ e_next e <= n /\
     (forall i, r = Found i -> behind = false -> step = true -> e_next e < length (e_elems e) /\ e_next e < n)).
  { intros r' Hr E. injection E as <- <-. exists (e_elems e), (e_next e). split; [auto|].
    split; [destruct e; reflexivity|]. split; [lia|]. intros i Hi; exfalso; eapply Hr; eauto. }
  assert (F : forward m e tag step = (r, e') ->
    exists l n, Permutation l (e_elems e) /\ e' = set_next n (set_elems l e) /\ e_next e <= n /\
     (forall i, r = Found i -> step = true -> e_next e < length (e_elems e) /\ e_next e < n)).
  { clear H Same. intros H. destruct m; simpl in H.
    - unfold strict_forward in H. destruct (nth_error (e_elems e) (e_next e)) as [c|] eqn:E.
      + assert (e_next e < length (e_elems e)) by (apply nth_error_Some; congruence).
        destruct (tag_is (e_tag c) tag).
        * injection H as <- <-. exists (e_elems e), (if step then S (e_next e) else e_next e).
          split; [auto|]. split; [destruct step, e; reflexivity|]. split; [destruct step; lia|].
          intros i _ ->; lia.
        * injection H as <- <-. exists (e_elems e), (e_next e).
          split; [auto|]. split; [destruct e; reflexivity|]. split; [lia|discriminate].
      + injection H as <- <-. exists (e_elems e), (e_next e).
        split; [auto|]. split; [destruct e; reflexivity|]. split; [lia|discriminate].
    - unfold ordered_forward in H. destruct (find_from _ _ _) as [j|] eqn:E.
      + apply find_from_range in E. rewrite skipn_length in E.
        injection H as <- <-. exists (e_elems e), (if step then S j else e_next e).
        split; [auto|]. split; [destruct step, e; reflexivity|]. split; [destruct step; lia|].
        intros i _ ->; lia.
      + injection H as <- <-. exists (e_elems e), (e_next e).
        split; [auto|]. split; [destruct e; reflexivity|]. split; [lia|discriminate].
    - unfold unordered_forward in H. destruct (find_from _ _ _) as [j|] eqn:E.
      + apply find_from_range in E. rewrite skipn_length in E.
        injection H as <- <-. exists (list_swap (e_next e) j (e_elems e)), (if step then S (e_next e) else e_next e).
        split; [apply swap_perm|]. split; [destruct step, e; reflexivity|]. split; [destruct step; lia|].
        intros i _ ->; lia.
      + injection H as <- <-. exists (e_elems e), (e_next e).
        split; [auto|]. split; [destruct e; reflexivity|]. split; [lia|discriminate]. }
  unfold search in H. destruct behind.
  - destruct (look_behind e tag) eqn:L.
    + apply F in H as (l & n & P & E & Hn & _). exists l, n. repeat split; auto; discriminate.
    + injection H as <- <-. exists (e_elems e), (e_next e). split; [auto|].
      split; [destruct e; reflexivity|]. split; [lia|discriminate].
    + eapply Same; eauto; discriminate.
  - apply F in H as (l & n & P & E & Hn & Hf). exists l, n. split; [auto|]. split; [auto|]. split; [auto|].
    intros i Hi _; eauto.
Qed.

Definition hrel (e e' : elem) : Prop := height e' <= height e.
Definition lrel (e e' : elem) : Prop := left_to_read e' <= left_to_read e.

Lemma ddel_length : forall V k (d : dict V), length (ddel k d) <= length d.
Proof. intros V k d; induction d as [|[x v] d IH]; simpl; auto. destruct (String.eqb k x); simpl; lia. Qed.

Lemma ddel_length_lt : forall V k (d : dict V) v, dget k d = Some v -> length (ddel k d) < length d.
Proof.
  intros V k d v; induction d as [|[x w] d IH]; simpl; intros H; [discriminate|].
  destruct (String.eqb k x); simpl; [pose proof (ddel_length k d); lia|]. apply IH in H; lia.
Qed.

Lemma pop_attrib_left : forall k e v e', pop_attrib k e = (v, e') ->
  e_elems e' = e_elems e /\ e_next e' = e_next e /\ own_left e' <= own_left e /\ (v <> None -> own_left e' < own_left e).
Proof.
  intros k e v e' H; unfold pop_attrib in H. destruct (e_attrib e) as [d|] eqn:A.
  - destruct (dget k d) as [x|] eqn:G; injection H as <- <-.
    + unfold own_left; simpl. rewrite A. pose proof (ddel_length_lt k d G). repeat split; auto; intros; lia.
    + repeat split; auto; congruence.
  - injection H as <- <-. repeat split; auto; congruence.
Qed.

Lemma put_child_left : forall i c c' e, nth_error (e_elems e) i = Some c ->
  left_to_read (put_child i c' e) + left_to_read c = left_to_read e + left_to_read c'.
Proof.
  intros i c c' e H. rewrite (left_eq (put_child i c' e)), (left_eq e).
  assert (own_left (put_child i c' e) = own_left e) as -> by reflexivity. simpl.
  rewrite list_upd_length. pose proof (suml_upd i c' _ H). lia.
Qed.

Lemma search_left : forall m e tag behind step r e', search m e tag behind step = (r, e') ->
  left_to_read e' <= left_to_read e /\
  (forall i, r = Found i -> behind = false -> step = true -> left_to_read e' < left_to_read e).
Proof.
  intros m e tag behind step r e' H. apply search_cases in H as (l & n & P & -> & Hn & Hf).
  rewrite !left_eq. simpl.
  assert (own_left (set_next n (set_elems l e)) = own_left e) as -> by reflexivity.
  rewrite (Permutation_length P), (suml_perm P). split; [lia|]. intros i Hi Hb Hs.
  specialize (Hf i Hi Hb Hs). lia.
Qed.

Lemma search_height : forall m e tag behind step r e', search m e tag behind step = (r, e') -> height e' = height e.
Proof.
  intros m e tag behind step r e' H. apply search_cases in H as (l & n & P & -> & Hn & Hf).
  rewrite !height_eq. simpl. rewrite (maxh_perm P); auto.
Qed.

Lemma apply_left : forall e s, left_to_read (apply_snapshot e s) = left_to_read s.
Proof. intros e s; destruct s; reflexivity. Qed.

Lemma extract_left : forall c, left_to_read (snd (extract c)) = 0.
Proof. intros c; reflexivity. Qed.

Section Term.
  Variable ev : env.
  Variable eas : bool.
  Hypothesis Hev : env_lists_ok eas ev.

  Lemma custom_reads : forall cls m name f, en_model ev cls = Some m -> md_cval m name = Some f -> only_reads f.
  Proof. intros cls m name f Hm Hf. destruct (Hev cls Hm) as [_ H]; eauto. Qed.

  Lemma height_rel : forall n s eas' loc s0, height (st_el (snd (read n ev s eas' loc s0))) <= height (st_el s0).
  Proof.
    intros n s eas' loc s0.
    apply (@read_rel hrel); unfold hrel; clear n s eas' loc s0.
    - auto.
    - intros; lia.
    - intros e; rewrite !height_eq; auto.
    - intros k e; unfold pop_attrib. destruct (e_attrib e) as [d|]; auto. destruct (dget k d); rewrite !height_eq; auto.
    - intros e; rewrite !height_eq; auto.
    - intros m e tag b s. destruct (search m e tag b s) as [r e'] eqn:E. apply search_height in E; simpl; lia.
    - intros i c c' e Hn Hh. rewrite !height_eq; simpl. pose proof (maxh_upd i c' _ Hn Hh); lia.
    - intros c. rewrite !height_eq; simpl; lia.
    - intros e _. rewrite !height_eq; auto.
    - intros e s H. rewrite (height_eq (apply_snapshot e s)); simpl. rewrite (height_eq s) in H; auto.
    - intros cls m name f Hm Hf e. apply (@custom_reads cls m name f Hm Hf).
  Qed.

  Lemma left_reader : forall n s eas' loc s0, lrel (st_el s0) (st_el (snd (read n ev s eas' loc s0))).
  Proof.
    intros n s. change (reader_rel lrel (read n ev s)).
    apply (@read_rel lrel); unfold lrel; clear n s.
    - auto.
    - intros; lia.
    - intros e; rewrite !left_eq; unfold own_left; simpl. destruct (str_truthy (e_text e)); lia.
    - intros k e. destruct (pop_attrib k e) as [v e'] eqn:P. apply pop_attrib_left in P as (A & B & C & _).
      simpl. rewrite !left_eq, A, B. lia.
    - intros e; rewrite !left_eq; unfold own_left; simpl. destruct (e_attrib e); lia.
    - intros m e tag b s. destruct (search m e tag b s) as [r e'] eqn:E. apply search_left in E as [E _]; simpl; auto.
    - intros i c c' e Hn Hh. pose proof (put_child_left i c' e Hn); lia.
    - intros c. rewrite extract_left; lia.
    - intros e H. rewrite !left_eq; unfold own_left; simpl. lia.
    - intros e s H. rewrite left_eq in *; unfold own_left in *; simpl; lia.
    - intros cls m name f Hm Hf e. apply (@custom_reads cls m name f Hm Hf).
  Qed.

  (** the reader got something: a value or a validation error *)
  Definition got (o : out val) : Prop :=
    match o with Ok VNone => False | Ok _ => True | Raise (XValidation _) => True | _ => False end.

  (** getting something uses up part of the document *)
  Definition consumes (r : reader) : Prop :=
    forall loc s, got (fst (r eas loc s)) -> left_to_read (st_el (snd (r eas loc s))) < left_to_read (st_el s).

  Lemma on_child_left : forall A i (f : st -> rres A) s c, nth_error (e_elems (st_el s)) i = Some c ->
    left_to_read (st_el (snd (on_child i f s))) + left_to_read c =
    left_to_read (st_el s) + left_to_read (st_el (snd (f (St c (st_sm s))))).
  Proof.
    intros A i f s c H; unfold on_child. rewrite H. destruct (f _) as [o s']; simpl. apply put_child_left; auto.
  Qed.

  Lemma with_found_left : forall tag m (f : st -> rres val) s,
    (forall c, left_to_read (st_el (snd (f c))) <= left_to_read (st_el c)) ->
    got (fst (with_found (pop_element (st_el s) tag m) f s)) ->
    left_to_read (st_el (snd (with_found (pop_element (st_el s) tag m) f s))) < left_to_read (st_el s).
  Proof.
    intros tag m f s Hf. unfold pop_element. destruct (search _ _ _ _ _) as [[|i|] e'] eqn:E; simpl; try tauto.
    apply search_left in E as [_ E]. specialize (E i eq_refl eq_refl eq_refl).
    intros G. destruct (nth_error (e_elems e') i) as [c|] eqn:N.
    - pose proof (@on_child_left val i f (set_el e' s) c N) as L. simpl in L. specialize (Hf (St c (st_sm s))). simpl in Hf. lia.
    - unfold on_child in *. simpl in *. rewrite N in *. simpl in *. tauto.
  Qed.

  Lemma read_text_left : forall c n eas' loc s, left_to_read (st_el (snd (read_text c n eas' loc s))) <= left_to_read (st_el s).
  Proof. intros c n eas' loc s. exact (left_reader 1 (SText c n) eas' loc s). Qed.

  Lemma read_attrs_left : forall a eas' loc s, left_to_read (st_el (snd (read_attrs a eas' loc s))) <= left_to_read (st_el s).
  Proof. intros a eas' loc s. exact (left_reader 1 (SAttrs a) eas' loc s). Qed.

  Lemma read_items_consumes : forall r, consumes r -> (forall eas' loc s, lrel (st_el s) (st_el (snd (r eas' loc s)))) ->
    forall k title hide loc idx result errors s,
    got (fst (read_items k r title hide eas loc idx result errors s)) ->
    left_to_read (st_el (snd (read_items k r title hide eas loc idx result errors s))) < left_to_read (st_el s) \/
    ((result <> [] \/ errors <> []) /\
     left_to_read (st_el (snd (read_items k r title hide eas loc idx result errors s))) <= left_to_read (st_el s)).
  Proof.
    intros r Hc Hl k; induction k as [|k IH]; intros title hide loc idx result errors s; cbn [read_items]; [simpl; tauto|].
    specialize (Hc (loc ++ [LIdx idx]) s). specialize (Hl eas (loc ++ [LIdx idx]) s). unfold lrel in Hl.
    destruct (r eas (loc ++ [LIdx idx]) s) as [[v|x|] s']; simpl in Hc, Hl; [|destruct x; simpl; try tauto|simpl; tauto].
    - destruct v; try (intros G; apply IH in G; left; specialize (Hc I); destruct G as [G|[_ G]]; lia).
      destruct errors as [|er errors]; simpl; [destruct result|]; simpl; try tauto; intros _; right; (split; [first [left; discriminate | right; discriminate]|auto]).
    - intros G; apply IH in G; left; specialize (Hc I); destruct G as [G|[_ G]]; lia.
  Qed.

  Lemma read_tuple_consumes : forall rs, Forall consumes rs ->
    Forall (fun r : reader => forall eas' loc s, lrel (st_el s) (st_el (snd (r eas' loc s)))) rs ->
    forall title hide loc idx result errors s,
    got (fst (read_tuple rs title hide eas loc idx result errors s)) ->
    left_to_read (st_el (snd (read_tuple rs title hide eas loc idx result errors s))) < left_to_read (st_el s) \/
    ((forallb is_none result = false \/ errors <> []) /\
     left_to_read (st_el (snd (read_tuple rs title hide eas loc idx result errors s))) <= left_to_read (st_el s)).
  Proof.
    intros rs Hcs; induction Hcs as [|r rs Hc Hcs IH]; intros Hls title hide loc idx result errors s; cbn [read_tuple].
    - destruct errors as [|er errors]; simpl.
      + destruct (forallb is_none result); simpl; [tauto|]. intros _; right; auto.
      + intros _; right; split; auto; right; discriminate.
    - inversion Hls as [|? ? Hl Hls']; subst.
      specialize (Hc (loc ++ [LIdx idx]) s). specialize (Hl eas (loc ++ [LIdx idx]) s). unfold lrel in Hl.
      destruct (r eas (loc ++ [LIdx idx]) s) as [[v|x|] s']; simpl in Hc, Hl; [|destruct x; simpl; try tauto|simpl; tauto].
      + intros G; apply IH in G; auto. destruct G as [G|[G1 G2]]; [left; lia|].
        destruct v; try (left; specialize (Hc I); lia).
        right. split; [|lia]. rewrite forallb_app in G1. simpl in G1. rewrite andb_true_r in G1. auto.
      + intros G; apply IH in G; auto; left; specialize (Hc I); destruct G as [G|[_ G]]; lia.
  Qed.

  Lemma read_proxy_left : forall n p eas' loc s,
    left_to_read (st_el (snd (read_proxy ev (read n ev) p eas' loc s))) <= left_to_read (st_el s).
  Proof. intros n p eas' loc s. exact (left_reader (S n) (SProxy p) eas' loc s). Qed.

  Lemma read_proxy_consumes : forall n p, consumes (read_proxy ev (read n ev) p).
  Proof.
    intros n p loc s; unfold read_proxy. destruct (en_model ev (px_model p)) as [m|] eqn:Em; [|simpl; tauto].
    destruct (px_computed p); [simpl; tauto|]. apply with_found_left. intros c. cbv zeta. simpl.
    unfold is_element_nill. destruct (pop_attrib xsi_nil (st_el c)) as [v e'] eqn:P.
    apply pop_attrib_left in P as (A & B & C & _).
    assert (L : left_to_read e' <= left_to_read (st_el c)) by (rewrite !left_eq, A, B; lia).
    destruct (match v with Some s => _ | None => _ end); [exact L|].
    etransitivity; [|exact L].
    assert (F : reader_rel lrel (read_model (read n ev) m)).
    { eapply read_model_rel; unfold lrel; eauto.
      - intros; lia.
      - intros cls m' name f Hm Hf e. apply (@custom_reads cls m' name f Hm Hf).
      - intros s1 eas1 loc1 s2. apply left_reader. }
    apply (F eas loc (set_el e' (note_line loc c))).
  Qed.

  Lemma read_variants_consumes : forall rs, Forall consumes rs -> Forall found_first rs ->
    forall title hide loc errors s,
    (errors <> [] -> e_next (st_el s) < length (e_elems (st_el s))) ->
    got (fst (read_variants rs title hide eas loc errors s)) ->
    left_to_read (st_el (snd (read_variants rs title hide eas loc errors s))) < left_to_read (st_el s).
  Proof.
    intros rs Hcs; induction Hcs as [|r rs Hc Hcs IH]; intros Hfs title hide loc errors s He; cbn [read_variants].
    - destruct errors as [|er errors]; simpl; [tauto|]. intros _.
      assert (N : e_next (st_el s) < length (e_elems (st_el s))) by (apply He; discriminate).
      rewrite (left_eq (st_el s)), left_eq. unfold own_left; simpl. lia.
    - inversion Hfs as [|? ? Hf Hfs']; subst. rewrite create_snapshot_id.
      specialize (Hc loc (set_el (st_el s) s)). specialize (Hf eas loc (set_el (st_el s) s)).
      destruct (r eas loc (set_el (st_el s) s)) as [[v|x|] s']; simpl in Hc; [|destruct x; simpl; try tauto|simpl; tauto].
      + destruct v; try (intros _; cbn [snd st_el]; rewrite apply_left; exact (Hc I)).
        intros G. apply (IH Hfs' title hide loc errors (St (st_el s) (st_sm s'))); auto.
      + intros G. apply (IH Hfs' title hide loc (dset (ve_title e) e errors) (St (st_el s) (st_sm s'))); auto.
        intros _. eapply (Hf _ _ eq_refl); eauto.
  Qed.

  Lemma read_tagged_consumes : forall n a mode vs loc s,
    got (fst (read_tagged (read_proxy ev (read n ev)) a mode vs eas loc s)) ->
    left_to_read (st_el (snd (read_tagged (read_proxy ev (read n ev)) a mode vs eas loc s))) < left_to_read (st_el s).
  Proof.
    intros n a mode vs; induction vs as [|[tag p] vs IH]; intros loc s; cbn [read_tagged]; [simpl; tauto|].
    unfold find_element. destruct (search _ _ _ _ _) as [[|i|] e'] eqn:E; [| |simpl; tauto].
    - apply search_left in E as [E _]. intros G; apply IH in G; simpl in *; lia.
    - apply search_left in E as [E _]. destruct (nth_error (e_elems e') i) as [c|]; [|simpl; tauto].
      destruct (match get_attrib a c with Some t => _ | None => _ end).
      + intros G. apply read_proxy_consumes in G. simpl in G; lia.
      + intros G; apply IH in G; simpl in *; lia.
  Qed.

  Lemma on_path_left : forall path (f : st -> rres val),
    (forall c, got (fst (f c)) -> left_to_read (st_el (snd (f c))) < left_to_read (st_el c)) ->
    forall s, got (fst (on_path path f s)) -> left_to_read (st_el (snd (on_path path f s))) < left_to_read (st_el s).
  Proof.
    intros path f Hf; induction path as [|i path IH]; intros s; cbn [on_path]; auto.
    unfold on_child. destruct (nth_error (e_elems (st_el s)) i) as [c|] eqn:N; [|simpl; tauto].
    specialize (IH (St c (st_sm s))). destruct (on_path path f (St c (st_sm s))) as [o s']; simpl in *.
    intros G; specialize (IH G). pose proof (put_child_left i (st_el s') (st_el s) N). lia.
  Qed.

  Lemma text_got : forall c n loc s, eas = false \/ c = true -> got (fst (read_text c n eas loc s)) ->
    left_to_read (st_el (snd (read_text c n eas loc s))) < left_to_read (st_el s).
  Proof.
    intros c n loc s H; unfold read_text. destruct c; [simpl; tauto|]. destruct H as [He|H]; [rewrite He|discriminate].
    assert (P : forall e1, e_elems e1 = e_elems (st_el s) -> e_next e1 = e_next (st_el s) -> own_left e1 <= own_left (st_el s) ->
      got (Ok (text_or_default false (e_text e1))) -> left_to_read (set_text_o None e1) < left_to_read (st_el s)).
    { intros e1 A B C G. rewrite !left_eq. simpl. rewrite A, B.
      assert (own_left (set_text_o None e1) < own_left e1); [|lia].
      unfold own_left; simpl. unfold text_or_default in G. destruct (str_truthy (e_text e1)); [lia|simpl in G; tauto]. }
    destruct n; [|intros G; apply P; auto].
    unfold is_element_nill. destruct (pop_attrib xsi_nil (st_el s)) as [v e1] eqn:E.
    apply pop_attrib_left in E as (A & B & C & _).
    destruct (match v with Some s => _ | None => _ end); [simpl; tauto|]. intros G; apply P; auto.
  Qed.

  Lemma read_consumes : forall s, (eas = false \/ from_elements s) -> forall n, consumes (read n ev s).
  Proof.
    intros s; induction s using ser_ind'; intros He k; destruct k as [|k]; try (intros loc s0; simpl; tauto); cbn [read read_step]; intros loc s0.
    - apply text_got. destruct He as [He|He]; auto. inversion He; auto.
    - unfold read_attr. destruct c; [simpl; tauto|]. destruct (pop_attrib n (st_el s0)) as [v e'] eqn:P.
      apply pop_attrib_left in P as (A & B & C & D). simpl. destruct v; [|simpl; tauto]. intros _.
      rewrite !left_eq, A, B. assert (own_left e' < own_left (st_el s0)) by (apply D; discriminate). lia.
    - unfold read_elem. destruct c; [simpl; tauto|]. apply with_found_left. intros c. apply (read_text_left false ni eas loc (note_line loc c)).
    - unfold read_attrs. destruct (as_computed a); [simpl; tauto|]. unfold pop_attributes.
      destruct (e_attrib (st_el s0)) as [d|] eqn:A; [|simpl; tauto]. intros _. simpl. rewrite !left_eq. unfold own_left; simpl. rewrite A. lia.
    - unfold read_map_elem. destruct (as_computed a); [simpl; tauto|]. apply with_found_left. intros c. apply (read_attrs_left a eas loc (note_line loc c)).
    - unfold read_homo. destruct c; [simpl; tauto|]. intros G. apply read_items_consumes in G.
      + destruct G as [G|[[G|G] _]]; [exact G|congruence|congruence].
      + apply IHs. destruct He as [He|He]; auto. inversion He; auto.
      + intros; apply left_reader.
    - unfold read_hetero. destruct c; [simpl; tauto|]. intros G. apply read_tuple_consumes in G.
      + destruct G as [G|[[G|G] _]]; [exact G|discriminate|congruence].
      + rewrite Forall_map. rewrite Forall_forall in *. intros x Hx. apply H; auto.
        destruct He as [He|He]; auto. right. inversion He as [| | | | | |? ? ? ? F| | | | | |]; subst. rewrite Forall_forall in F; auto.
      + rewrite Forall_map. rewrite Forall_forall. intros x _ e1 l1 s1. apply left_reader.
    - unfold read_union_prim. destruct c; [simpl; tauto|]. apply IHs. destruct He as [He|He]; auto. inversion He; auto.
    - unfold read_union_model. destruct c; [simpl; tauto|]. apply read_variants_consumes.
      + rewrite Forall_map. rewrite Forall_forall. intros p _; apply read_proxy_consumes.
      + rewrite Forall_map. rewrite Forall_forall. intros p _; apply read_proxy_found.
      + congruence.
    - destruct c; [simpl; tauto|]. apply read_tagged_consumes.
    - unfold read_wrap. destruct c; [simpl; tauto|].
      assert (L : left_to_read (snd (find_sub_element p md (st_el s0))) <= left_to_read (st_el s0)).
      { apply (@find_sub_rel lrel); unfold lrel; auto.
        - intros; lia.
        - intros m1 e tag b s1. destruct (search m1 e tag b s1) as [r e'] eqn:E. apply search_left in E as [E _]; simpl; auto.
        - intros i c c' e Hn Hh. pose proof (put_child_left i c' e Hn); lia. }
      destruct (find_sub_element p md (st_el s0)) as [[idxs|] e'] eqn:F; [|simpl; tauto]. simpl in L.
      destruct (_ && _); [|simpl; tauto]. intros G. apply on_path_left in G; [simpl in G; lia|].
      intros c Gc. apply IHs in Gc; auto. destruct He as [He|He]; auto. inversion He; auto.
    - unfold read_raw. destruct c; [simpl; tauto|]. apply with_found_left. intros c. apply (Nat.le_trans _ 0); [reflexivity|lia].
    - apply read_proxy_consumes.
  Qed.

  (** ---- halting ---- *)

  Definition halts (s : ser) (s0 : st) : Prop := forall loc, exists n, fst (read n ev s eas loc s0) <> Fuel.

  Lemma halts_upto : forall s s0 loc n, fst (read n ev s eas loc s0) <> Fuel -> forall n', n <= n' ->
    read n' ev s eas loc s0 = read n ev s eas loc s0.
  Proof. intros; apply read_stable; auto. Qed.

  Lemma fst_on_child : forall A i (f : st -> rres A) s,
    fst (on_child i f s) = Fuel -> exists c, nth_error (e_elems (st_el s)) i = Some c /\ fst (f (St c (st_sm s))) = Fuel.
  Proof.
    intros A i f s; unfold on_child. destruct (nth_error (e_elems (st_el s)) i) as [c|]; simpl; [|discriminate].
    intros H. exists c; split; auto. destruct (f _); auto.
  Qed.

  Lemma items_halt : forall inner H, (forall s0, height (st_el s0) <= H -> halts inner s0) ->
    (eas = false \/ from_elements inner) ->
    forall L title hide loc idx result errors s0, height (st_el s0) <= H -> left_to_read (st_el s0) <= L ->
    exists n, fst (read_items n (read n ev inner) title hide eas loc idx result errors s0) <> Fuel.
  Proof.
    intros inner H Hi He L; induction L as [|L IH]; intros title hide loc idx result errors s0 Hh Hl;
    destruct (Hi s0 Hh (loc ++ [LIdx idx])) as [n1 N1];
    pose proof (@read_consumes inner He n1 (loc ++ [LIdx idx]) s0) as C;
    pose proof (height_rel n1 inner eas (loc ++ [LIdx idx]) s0) as HR;
    destruct (read n1 ev inner eas (loc ++ [LIdx idx]) s0) as [o s'] eqn:E1; simpl in C, HR, N1.
    - exists (S n1). cbn [read_items]. 
      rewrite (halts_upto inner s0 (loc ++ [LIdx idx]) (n:=n1)) by (rewrite ?E1; simpl; auto). rewrite E1.
      destruct o as [v|x|]; [|destruct x; simpl; try discriminate|congruence].
      + destruct v; try (specialize (C I); lia). destruct errors; simpl; discriminate.
      + specialize (C I); lia.
    - assert (K : got o -> forall idx' result' errors', exists n, n1 <= n /\
        fst (read_items n (read (S n) ev inner) title hide eas loc idx' result' errors' s') <> Fuel).
      { intros G idx' result' errors'. specialize (C G).
        destruct (IH title hide loc idx' result' errors' s') as [n2 N2]; [lia|lia|].
        exists (Nat.max n1 n2). split; [lia|].
        destruct (@read_items_le (read n2 ev inner) (read (S (Nat.max n1 n2)) ev inner) (read_le ev (n1:=n2) (n2:=S (Nat.max n1 n2)) ltac:(lia) inner) n2 (Nat.max n1 n2) ltac:(lia) title hide eas loc idx' result' errors' s') as [F|F]; congruence. }
      assert (Step : forall n, n1 <= n -> read (S n) ev inner eas (loc ++ [LIdx idx]) s0 = (o, s')).
      { intros n Hn. rewrite <- E1. apply halts_upto; [rewrite E1; auto|lia]. }
      destruct o as [v|x|].
      + destruct v; try (match type of E1 with _ = (Ok ?w, _) => destruct (K I (S idx) (result ++ [w]) errors) as [k1 [Hn Fn]] end;
          exists (S k1); cbn [read_items]; rewrite (Step k1 Hn); exact Fn).
        exists (S n1). cbn [read_items]. rewrite (Step n1) by lia. destruct errors; simpl; discriminate.
      + destruct x; try (exists (S n1); cbn [read_items]; rewrite (Step n1) by lia; simpl; discriminate).
        destruct (K I (S idx) result (errors ++ [(Some (LIdx idx), e)])) as [n [Hn Fn]]. exists (S n); cbn [read_items].
        rewrite (Step n Hn); exact Fn.
      + congruence.
  Qed.

  Lemma tuple_halts : forall H inners,
    Forall (fun inner => forall s0, height (st_el s0) <= H -> halts inner s0) inners ->
    forall title hide loc idx result errors s0, height (st_el s0) <= H ->
    exists n, fst (read_tuple (map (read n ev) inners) title hide eas loc idx result errors s0) <> Fuel.
  Proof.
    intros H inners F; induction F as [|inner inners Hi F IH]; intros title hide loc idx result errors s0 Hh.
    - exists 0. simpl. destruct errors; simpl; [|discriminate]. destruct (forallb _ _); discriminate.
    - destruct (Hi s0 Hh (loc ++ [LIdx idx])) as [n1 N1].
      pose proof (height_rel n1 inner eas (loc ++ [LIdx idx]) s0) as HR.
      destruct (read n1 ev inner eas (loc ++ [LIdx idx]) s0) as [o s'] eqn:E1; simpl in HR, N1.
      assert (Step : forall n, n1 <= n -> read n ev inner eas (loc ++ [LIdx idx]) s0 = (o, s')).
      { intros n Hn. rewrite <- E1. apply halts_upto; [rewrite E1; auto|lia]. }
      assert (K : forall result' errors', exists n, n1 <= n /\
        fst (read_tuple (map (read n ev) inners) title hide eas loc (S idx) result' errors' s') <> Fuel).
      { intros result' errors'. destruct (IH title hide loc (S idx) result' errors' s') as [n2 N2]; [lia|].
        exists (Nat.max n1 n2). split; [lia|].
        destruct (@read_tuple_le (map (read n2 ev) inners) (map (read (Nat.max n1 n2) ev) inners)) with (title:=title) (hide:=hide) (eas:=eas) (loc:=loc) (idx:=S idx) (result:=result') (errors:=errors') (s:=s') as [X|X]; try congruence.
        apply Forall2_map_le. intros x. apply read_le; lia. }
      destruct o as [v|x|].
      + destruct (K (result ++ [v]) errors) as [n [Hn Fn]]. exists n. cbn [map read_tuple]. rewrite (Step n Hn); exact Fn.
      + destruct x; try (exists n1; cbn [map read_tuple]; rewrite (Step n1) by lia; simpl; discriminate).
        destruct (K result (errors ++ [(Some (LIdx idx), e)])) as [n [Hn Fn]]. exists n; cbn [map read_tuple].
        rewrite (Step n Hn); exact Fn.
      + congruence.
  Qed.

  Definition model_halts (H : nat) : Prop :=
    forall cls m loc s0, en_model ev cls = Some m -> height (st_el s0) <= H ->
    exists n, fst (read_model (read n ev) m eas loc s0) <> Fuel.

  Lemma fields_halt : forall H cls m, en_model ev cls = Some m ->
    (forall s, lists_ok eas s -> forall s0, height (st_el s0) <= H -> halts s s0) ->
    forall fs, Forall (fun nf => lists_ok eas (snd nf)) fs ->
    forall result errors s0, height (st_el s0) <= H ->
    exists n, fst (read_fields (read n ev) m fs eas result errors s0) <> Fuel.
  Proof.
    intros H cls m Hm Hs fs F; induction F as [|[name fser] fs Hf F IH]; intros result errors s0 Hh.
    - exists 0; simpl; discriminate.
    - assert (Head : exists n1 o s', o <> Fuel /\ height (st_el s') <= H /\ forall n, n1 <= n ->
        match md_cval m name with
        | Some custom => run_custom custom (note_line [LKey name] s0)
        | None => read n ev fser eas [LKey name] (note_line [LKey name] s0)
        end = (o, s')).
      { destruct (md_cval m name) as [f|] eqn:Ec.
        - destruct (@custom_reads cls m name f Hm Ec (st_el s0)) as (A & _ & B).
          exists 0. unfold run_custom; simpl. destruct (f (st_el s0)) as [o e']; simpl in A, B.
          exists o, (set_el e' (note_line [LKey name] s0)). simpl; repeat split; auto; lia.
        - destruct (Hs fser Hf (note_line [LKey name] s0) Hh [LKey name]) as [n1 N1]. exists n1.
          pose proof (height_rel n1 fser eas [LKey name] (note_line [LKey name] s0)) as HR.
          destruct (read n1 ev fser eas [LKey name] (note_line [LKey name] s0)) as [o s'] eqn:E1; simpl in N1, HR.
          exists o, s'. split; [auto|]. split; [lia|]. intros n Hn. rewrite <- E1. apply halts_upto; [rewrite E1; auto|auto]. }
      destruct Head as (n1 & o & s' & No & Hh' & Step).
      assert (K : forall result' errors', exists n, n1 <= n /\
        fst (read_fields (read n ev) m fs eas result' errors' s') <> Fuel).
      { intros result' errors'. destruct (IH result' errors' s' Hh') as [n2 N2]. exists (Nat.max n1 n2). split; [lia|].
        destruct (@read_fields_le (read n2 ev) (read (Nat.max n1 n2) ev)) with (m:=m) (fs:=fs) (eas:=eas) (result:=result') (errors:=errors') (s:=s') as [X|X]; try congruence.
        intros x. apply read_le; lia. }
      destruct o as [v|x|].
      + destruct v; try (match type of Step with forall n, _ -> _ = (Ok ?w, _) =>
          destruct (K (dset (match dget name (md_valias m) with Some a => a | None => name end) w result) errors) as [k1 [Hn Fn]] end;
          exists k1; cbn [read_fields]; rewrite (Step k1 Hn); exact Fn).
        destruct (K result errors) as [n [Hn Fn]]. exists n; cbn [read_fields]; rewrite (Step n Hn); exact Fn.
      + destruct x; try (exists n1; cbn [read_fields]; rewrite (Step n1) by lia; simpl; discriminate).
        destruct (K result (dset name e errors)) as [n [Hn Fn]]. exists n; cbn [read_fields]; rewrite (Step n Hn); exact Fn.
      + congruence.
  Qed.

  Lemma validate_result_not_fuel : forall m input s, validate_result m input s <> Fuel.
  Proof.
    intros m input s; unfold validate_result. destruct (if md_forbid m then _ else _); [discriminate|].
    destruct (md_validate m input); discriminate.
  Qed.

  Lemma model_halts_from : forall H, (forall s, lists_ok eas s -> forall s0, height (st_el s0) <= H -> halts s s0) ->
    model_halts H.
  Proof.
    intros H Hs cls m loc s0 Hm Hh. destruct (Hev cls Hm) as [Hf _]. unfold read_model. destruct (md_root m).
    - unfold read_root_model. destruct (md_fields m) as [|[name rser] fs]; [exists 0; simpl; discriminate|].
      inversion Hf as [|? ? Hr _]; subst. destruct (Hs rser Hr s0 Hh loc) as [n N]. exists n.
      destruct (read n ev rser eas loc s0) as [[v|x|] s']; simpl in *; [apply validate_result_not_fuel| |congruence].
      destruct x; simpl; discriminate.
    - unfold read_plain_model. destruct (@fields_halt H cls m Hm Hs (md_fields m) Hf [] [] s0 Hh) as [n N]. exists n.
      destruct (read_fields _ _ _ _ _ _ _) as [[[result errors]|x|] s']; simpl in *; [|discriminate|congruence].
      destruct errors; [apply validate_result_not_fuel|discriminate].
  Qed.

  Lemma pop_height : forall e tag m r e' c i, pop_element e tag m = (r, e') -> nth_error (e_elems e') i = Some c ->
    height c < height e.
  Proof.
    intros e tag m r e' c i P N. unfold pop_element in P; apply search_height in P. rewrite <- P, (height_eq e').
    apply nth_error_In in N. apply maxh_in in N. lia.
  Qed.

  Lemma proxy_halts : forall H p, (forall H', H' < H -> model_halts H') ->
    forall s0 loc, height (st_el s0) <= H -> exists n, fst (read_proxy ev (read n ev) p eas loc s0) <> Fuel.
  Proof.
    intros H p HM s0 loc Hh; unfold read_proxy. destruct (en_model ev (px_model p)) as [m|] eqn:Em; [|exists 0; simpl; discriminate].
    destruct (px_computed p); [exists 0; simpl; discriminate|].
    destruct (pop_element (st_el s0) (px_name p) (px_mode p)) as [[|i|] e'] eqn:P; simpl; try (exists 0; simpl; discriminate).
    unfold on_child; simpl. destruct (nth_error (e_elems e') i) as [c|] eqn:N; [|exists 0; simpl; discriminate].
    pose proof (@pop_height _ _ _ _ _ c i P N) as Hc.
    destruct (is_element_nill c) as [nil e1] eqn:En. destruct nil; [exists 0; simpl; discriminate|].
    assert (He1 : height e1 = height c).
    { unfold is_element_nill in En. destruct (pop_attrib xsi_nil c) as [v x] eqn:Pa. injection En as _ <-.
      apply pop_attrib_left in Pa as (A & _). rewrite !height_eq, A; auto. }
    destruct (HM (height c) ltac:(lia) (px_model p) m loc (St e1 (sset loc (e_line c) (st_sm s0))) Em) as [n Hn]; [simpl; lia|].
    exists n. unfold set_el, note_line; simpl. destruct (read_model _ _ _ _ _); simpl in *; auto.
  Qed.

  Lemma variants_halt : forall H vs, (forall H', H' < H -> model_halts H') ->
    forall title hide loc errors s0, height (st_el s0) <= H ->
    exists n, fst (read_variants (map (read_proxy ev (read n ev)) vs) title hide eas loc errors s0) <> Fuel.
  Proof.
    intros H vs HM; induction vs as [|p vs IH]; intros title hide loc errors s0 Hh.
    - exists 0; simpl. destruct errors; simpl; discriminate.
    - destruct (@proxy_halts H p HM (set_el (create_snapshot (st_el s0)) s0) loc) as [n1 N1];
        [simpl; rewrite create_snapshot_id; auto|].
      destruct (read_proxy ev (read n1 ev) p eas loc (set_el (create_snapshot (st_el s0)) s0)) as [o s'] eqn:E1; simpl in N1.
      assert (Step : forall n, n1 <= n -> read_proxy ev (read n ev) p eas loc (set_el (create_snapshot (st_el s0)) s0) = (o, s')).
      { intros n Hn. destruct (@read_proxy_le ev (read n1 ev) (read n ev) (read_le ev Hn) p eas loc (set_el (create_snapshot (st_el s0)) s0)) as [X|X];
          rewrite E1 in X; simpl in X; congruence. }
      assert (K : forall errors', exists n, n1 <= n /\
        fst (read_variants (map (read_proxy ev (read n ev)) vs) title hide eas loc errors' (St (st_el s0) (st_sm s'))) <> Fuel).
      { intros errors'. destruct (IH title hide loc errors' (St (st_el s0) (st_sm s')) Hh) as [n2 N2]. exists (Nat.max n1 n2). split; [lia|].
        destruct (@read_variants_le (map (read_proxy ev (read n2 ev)) vs) (map (read_proxy ev (read (Nat.max n1 n2) ev)) vs))
          with (title:=title) (hide:=hide) (eas:=eas) (loc:=loc) (errors:=errors') (s:=St (st_el s0) (st_sm s')) as [X|X]; try congruence.
        apply Forall2_map_le. intros x. apply read_proxy_le. apply read_le; lia. }
      destruct o as [v|x|].
      + destruct v; try (exists n1; cbn [map read_variants]; rewrite (Step n1) by lia; simpl; discriminate).
        destruct (K errors) as [n [Hn Fn]]. exists n; cbn [map read_variants]; rewrite (Step n Hn); exact Fn.
      + destruct x; try (exists n1; cbn [map read_variants]; rewrite (Step n1) by lia; simpl; discriminate).
        destruct (K (dset (ve_title e) e errors)) as [n [Hn Fn]]. exists n; cbn [map read_variants]; rewrite (Step n Hn); exact Fn.
      + congruence.
  Qed.

  Lemma tagged_halts : forall H a mode vs, (forall H', H' < H -> model_halts H') ->
    forall loc s0, height (st_el s0) <= H ->
    exists n, fst (read_tagged (read_proxy ev (read n ev)) a mode vs eas loc s0) <> Fuel.
  Proof.
    intros H a mode vs HM; induction vs as [|[tag p] vs IH]; intros loc s0 Hh; cbn [read_tagged].
    - exists 0; simpl; discriminate.
    - unfold find_element. destruct (search _ _ _ _ _) as [[|i|] e'] eqn:E; try (exists 0; simpl; discriminate).
      + apply IH. apply search_height in E; simpl; lia.
      + apply search_height in E. destruct (nth_error (e_elems e') i) as [c|]; [|exists 0; simpl; discriminate].
        destruct (match get_attrib a c with Some t => _ | None => _ end).
        * apply proxy_halts with (H := H); auto. simpl; lia.
        * apply IH; simpl; lia.
  Qed.

  Lemma on_path_halts : forall inner H loc, (forall s0, height (st_el s0) <= H -> halts inner s0) ->
    forall path s0, height (st_el s0) <= H ->
    exists n, fst (on_path path (fun c => read n ev inner eas loc (note_line loc c)) s0) <> Fuel.
  Proof.
    intros inner H loc Hi path; induction path as [|i path IH]; intros s0 Hh; cbn [on_path].
    - apply Hi; auto.
    - unfold on_child. destruct (nth_error (e_elems (st_el s0)) i) as [c|] eqn:N; [|exists 0; simpl; discriminate].
      destruct (IH (St c (st_sm s0))) as [n Hn].
      { simpl. apply nth_error_In in N. apply maxh_in in N. rewrite height_eq in Hh. lia. }
      exists n. destruct (on_path path _ _); simpl in *; auto.
  Qed.

  Lemma with_found_halts : forall p (f : st -> rres val) s, (forall c, fst (f c) <> Fuel) -> fst (with_found p f s) <> Fuel.
  Proof.
    intros [[|i|] e'] f s Hf; simpl; try discriminate. unfold on_child.
    destruct (nth_error _ _) as [c|]; simpl; [|discriminate]. specialize (Hf (St c (st_sm (set_el e' s)))).
    destruct (f _); auto.
  Qed.

  Lemma read_text_halts : forall c n loc s, fst (read_text c n eas loc s) <> Fuel.
  Proof.
    intros c n loc s; unfold read_text. destruct c; [discriminate|].
    destruct (if n then _ else _) as [nil e1]. destruct nil; simpl; discriminate.
  Qed.

  Lemma read_attrs_halts : forall a loc s, fst (read_attrs a eas loc s) <> Fuel.
  Proof.
    intros a loc s; unfold read_attrs. destruct (as_computed a); [discriminate|].
    unfold pop_attributes. destruct (e_attrib (st_el s)); simpl; discriminate.
  Qed.

  Lemma read_halts_at : forall H, (forall H', H' < H -> model_halts H') ->
    forall s, lists_ok eas s -> forall s0, height (st_el s0) <= H -> halts s s0.
  Proof.
    intros H HM s; induction s using ser_ind'; intros Hw s0 Hh loc.
    - exists 1; simpl. apply read_text_halts.
    - exists 1; simpl. unfold read_attr. destruct c; [discriminate|]. destruct (pop_attrib _ _); simpl; discriminate.
    - exists 1; simpl. unfold read_elem. destruct c; [discriminate|]. apply with_found_halts. intros c; apply read_text_halts.
    - exists 1; simpl. apply read_attrs_halts.
    - exists 1; simpl. unfold read_map_elem. destruct (as_computed a); [discriminate|]. apply with_found_halts. intros c; apply read_attrs_halts.
    - inversion Hw as [| | | | |? ? ? ? Hfe Hl| | | | | | |]; subst.
      destruct c; [exists 1; simpl; discriminate|].
      destruct (@items_halt s H (IHs Hl)) with (L := left_to_read (st_el s0)) (title := t) (hide := h) (loc := loc) (idx := 0) (result := @nil val) (errors := @nil (option locitem * verr)) (s0 := s0) as [n N]; auto.
      + destruct eas; auto.
      + exists (S n). exact N.
    - inversion Hw as [| | | | | |? ? ? ? Hl| | | | | |]; subst.
      destruct c; [exists 1; simpl; discriminate|].
      destruct (@tuple_halts H l) with (title := t) (hide := h) (loc := loc) (idx := 0) (result := @nil val) (errors := @nil (option locitem * verr)) (s0 := s0) as [n N]; auto.
      + rewrite Forall_forall in *. intros x Hx. apply H0; auto.
      + exists (S n). exact N.
    - inversion Hw as [| | | | | | |? ? Hl| | | | |]; subst.
      destruct c; [exists 1; simpl; discriminate|]. destruct (IHs Hl s0 Hh loc) as [n N]. exists (S n); exact N.
    - destruct c; [exists 1; simpl; discriminate|].
      destruct (@variants_halt H vs HM t h loc [] s0 Hh) as [n N]. exists (S n); exact N.
    - destruct c; [exists 1; simpl; discriminate|].
      destruct (@tagged_halts H a md vs HM loc s0 Hh) as [n N]. exists (S n); exact N.
    - inversion Hw as [| | | | | | | | | |? ? ? ? ? Hl| |]; subst.
      destruct c; [exists 1; simpl; discriminate|].
      destruct (find_sub_element p md (st_el s0)) as [[idxs|] e'] eqn:F.
      + assert (L : height e' <= height (st_el s0)).
        { replace e' with (snd (find_sub_element p md (st_el s0))) by (rewrite F; auto).
          apply (@find_sub_rel hrel); unfold hrel; auto.
          - intros; lia.
          - intros m1 e tag b s1. destruct (search m1 e tag b s1) as [r e2] eqn:E. apply search_height in E; simpl; lia.
          - intros i c c' e Hn Hc. rewrite !height_eq; simpl. pose proof (maxh_upd i c' _ Hn Hc); lia. }
        destruct (@on_path_halts s H loc (IHs Hl) idxs (set_el e' s0)) as [n N]; [simpl; lia|].
        exists (S n). cbn [read read_step]. unfold read_wrap. rewrite F.
        destruct (_ && _); [exact N|simpl; discriminate].
      + exists 1. cbn [read read_step]. unfold read_wrap. rewrite F. simpl; discriminate.
    - exists 1. simpl. unfold read_raw. destruct c; [discriminate|]. apply with_found_halts. intros c.
      destruct (extract (st_el c)) as [fresh c']. simpl. destruct (to_native _ fresh); discriminate.
    - destruct (@proxy_halts H p HM s0 loc Hh) as [n N]. exists (S n); exact N.
  Qed.

  Lemma all_models_halt : forall H, model_halts H.
  Proof.
    intros H; induction H as [H IH] using (well_founded_induction lt_wf).
    apply model_halts_from. apply read_halts_at; auto.
  Qed.

  Lemma from_xml_halts : forall cls root, exists n, from_xml_tree n ev cls root eas <> Fuel.
  Proof.
    intros cls root; unfold from_xml_tree. destruct (en_model ev cls) as [m|] eqn:Em; [|exists 0; discriminate].
    destruct (tag_is _ _); [|exists 0; discriminate].
    destruct (@all_models_halt _ cls m [] (St (from_native (en_backend ev) root) []) Em (Nat.le_refl _)) as [n N]. exists n; exact N.
  Qed.
End Term.
