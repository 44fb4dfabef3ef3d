(** PfTail.v -- two runs of from_xml on documents that differ in elements behind all others that no field asks for. *)

From Verif Require Import Base Elem Native Errs Names Ser Write Read Api SpecElem SpecRead SpecSim SpecStray SpecText SpecRead2 SpecRound SpecAttrs SpecTail
  PfElem PfField PfTerm PfWrite2 PfSim PfSim2 PfLayout.

Local Ltac inv H := inversion H; subst; clear H.

Lemma skipn_more : forall A (l m : list A) n, n <= length l -> skipn n (l ++ m) = skipn n l ++ m.
Proof. intros A l m n H. rewrite skipn_app. replace (n - length l) with 0 by lia. auto. Qed.

Lemma list_upd_more : forall A (l m : list A) i x, i < length l -> list_upd i x (l ++ m) = list_upd i x l ++ m.
Proof. intros A l m; induction l as [|y l IH]; intros [|i] x H; simpl in *; try lia; auto. rewrite IH by lia; auto. Qed.

Lemma list_swap_more : forall A (l m : list A) i j, i < length l -> j < length l -> list_swap i j (l ++ m) = list_swap i j l ++ m.
Proof.
  intros A l m i j Hi Hj. unfold list_swap. rewrite !nth_error_app1 by auto.
  destruct (nth_error l i), (nth_error l j); auto. rewrite list_upd_more by auto. rewrite list_upd_more; auto. rewrite list_upd_length; auto.
Qed.

Lemma find_more : forall (U : string -> bool) tag more, U tag = false -> Forall (fun c => tag_stray U (e_tag c) = true) more ->
  forall i, find_from i more tag = None.
Proof.
  intros U tag more Hu H; induction H as [|c more Hc H IH]; intros i; simpl; auto.
  destruct (tag_is (e_tag c) tag) eqn:Q; auto. apply tag_is_eq in Q. rewrite Q in Hc. simpl in Hc. congruence.
Qed.

Lemma find_app : forall tag more l i, (forall j, find_from j more tag = None) -> find_from i (l ++ more) tag = find_from i l tag.
Proof. intros tag more l; induction l as [|c l IH]; intros i H; simpl; auto. destruct (tag_is (e_tag c) tag); auto. Qed.

Lemma find_bound : forall tag l i j, find_from i l tag = Some j -> i <= j < i + length l.
Proof.
  intros tag l; induction l as [|c l IH]; intros i j H; simpl in *; [discriminate|].
  destruct (tag_is (e_tag c) tag); [injection H as <-; lia|]. apply IH in H. lia.
Qed.

Lemma both_long : forall A B (R : A -> B -> Prop) l l', Forall2 R l l' -> length l = length l'.
Proof. intros A B R l l' H; induction H; simpl; auto. Qed.

(** what is found ahead is one more child to be read *)
Lemma search_room : forall m e tag step i e', search m e tag false step = (Found i, e') -> e_next e < length (e_elems e).
Proof.
  intros m e tag step i e' H. unfold search in H. destruct m; simpl in H.
  - unfold strict_forward in H. destruct (nth_error (e_elems e) (e_next e)) eqn:N; [|discriminate].
    apply nth_error_Some. congruence.
  - unfold ordered_forward in H. destruct (find_from _ _ _) eqn:F; [|discriminate]. apply find_bound in F.
    rewrite skipn_length in F. lia.
  - unfold unordered_forward in H. destruct (find_from _ _ _) eqn:F; [|discriminate]. apply find_bound in F.
    rewrite skipn_length in F. lia.
Qed.

Section Tail.
  Variable U W : string -> bool.
  Notation D := (differ_tail U W).
  Notation over := (Forall (fun c => tag_stray U (e_tag c) = true)).

  (** inside a raw element, that is *)
  Definition within (r : bool) (e : elem) : bool := r || tag_raw W (e_tag e).

  Lemma d_inv : forall r e e', D r e e' -> e_tag e = e_tag e' /\ e_nsmap e = e_nsmap e' /\ e_text e = e_text e' /\ e_tail e = e_tail e' /\
    e_attrib e = e_attrib e' /\ e_next e = e_next e' /\ e_line e = e_line e' /\ e_next e <= length (e_elems e) /\
    exists l more, e_elems e' = l ++ more /\ Forall2 (D (within r e)) (e_elems e) l /\ over more /\ (within r e = true -> more = []).
  Proof. intros r e e' H; inv H; unfold within; simpl; do 8 (split; auto). exists l', more; auto. Qed.

  Lemma d_make : forall r e e' l more, e_tag e = e_tag e' -> e_nsmap e = e_nsmap e' -> e_text e = e_text e' -> e_tail e = e_tail e' ->
    e_attrib e = e_attrib e' -> e_next e = e_next e' -> e_line e = e_line e' -> e_next e <= length (e_elems e) ->
    e_elems e' = l ++ more -> Forall2 (D (within r e)) (e_elems e) l -> over more -> (within r e = true -> more = []) -> D r e e'.
  Proof. intros r [] []; unfold within; simpl; intros; subst; constructor; auto. Qed.

  Lemma d_find : forall r l l', Forall2 (D r) l l' -> forall i tag, find_from i l tag = find_from i l' tag.
  Proof.
    intros r l l' H; induction H as [|x y l l' Hxy H IH]; intros i tag; simpl; auto. apply d_inv in Hxy.
    destruct Hxy as [-> _]. rewrite IH; auto.
  Qed.

  Ltac parts H := let t := fresh in pose proof H as t; apply d_inv in t;
    let h1 := fresh "Ht" in let h2 := fresh "Hns" in let h3 := fresh "Hx" in let h4 := fresh "Htl" in let h5 := fresh "Ha" in
    let h6 := fresh "Hn" in let h7 := fresh "Hl" in let h8 := fresh "Hb" in let ll := fresh "ll" in let mm := fresh "mm" in
    let h9 := fresh "He" in let h10 := fresh "Hf" in let h11 := fresh "Ho" in let h12 := fresh "Hw" in
    destruct t as (h1 & h2 & h3 & h4 & h5 & h6 & h7 & h8 & ll & mm & h9 & h10 & h11 & h12).

  Lemma d_next : forall r e e' i, D r e e' -> i <= length (e_elems e) -> D r (set_next i e) (set_next i e').
  Proof. intros r e e' i H L; parts H. eapply d_make; simpl; eauto. Qed.

  Lemma d_elems : forall r e e' l l' more, D r e e' -> Forall2 (D (within r e)) l l' -> length l = length (e_elems e) ->
    over more -> (within r e = true -> more = []) -> D r (set_elems l e) (set_elems (l' ++ more) e').
  Proof. intros r e e' l l' more H F L O I; parts H. apply d_make with l' more; simpl; auto. lia. Qed.

  Lemma d_search : forall r e1 e2, D r e1 e2 -> forall m tag behind step, U tag = false ->
    fst (search m e1 tag behind step) = fst (search m e2 tag behind step) /\
    D r (snd (search m e1 tag behind step)) (snd (search m e2 tag behind step)).
  Proof.
    intros r e1 e2 H m tag behind step Hu. parts H. pose proof (both_long Hf) as Len.
    assert (FF : find_from (e_next e1) (skipn (e_next e1) (e_elems e2)) tag = find_from (e_next e1) (skipn (e_next e1) (e_elems e1)) tag).
    { rewrite He, skipn_more by lia. rewrite find_app by (intros; apply (find_more U); auto). symmetry.
      apply (d_find (Forall2_skipn Hf (e_next e1))). }
    assert (BB : forall i, find_from (e_next e1) (skipn (e_next e1) (e_elems e1)) tag = Some i -> e_next e1 <= i < length (e_elems e1)).
    { intros i Fi. apply find_bound in Fi. rewrite skipn_length in Fi. lia. }
    assert (FW : fst (forward m e1 tag step) = fst (forward m e2 tag step) /\ D r (snd (forward m e1 tag step)) (snd (forward m e2 tag step))).
    { destruct m; simpl.
      - unfold strict_forward. rewrite <- Hn. pose proof (Forall2_nth Hf (e_next e1)) as Hi. rewrite He.
        destruct (Nat.eq_dec (e_next e1) (length (e_elems e1))) as [E|N].
        + rewrite (proj2 (nth_error_None (e_elems e1) (e_next e1))) by lia. rewrite nth_error_app2 by lia.
          destruct (nth_error mm _) as [c|] eqn:Nm; auto. apply nth_error_In in Nm. rewrite Forall_forall in Ho. specialize (Ho c Nm).
          destruct (tag_is (e_tag c) tag) eqn:Q; auto. apply tag_is_eq in Q. rewrite Q in Ho; simpl in Ho; congruence.
        + rewrite nth_error_app1 by lia.
          destruct (nth_error (e_elems e1) (e_next e1)) as [c1|] eqn:N1, (nth_error ll (e_next e1)) as [c2|]; try contradiction; auto.
          apply d_inv in Hi. destruct Hi as [-> _]. destruct (tag_is (e_tag c2) tag); simpl; auto.
          split; auto. destruct step; auto. apply d_next; auto. lia.
      - unfold ordered_forward. rewrite <- Hn, FF. clear FF.
        destruct (find_from _ _ _) as [i|] eqn:Fi; simpl; auto. split; auto. destruct step; auto. apply d_next; auto.
        specialize (BB i eq_refl). lia.
      - unfold unordered_forward. rewrite <- Hn, FF. clear FF.
        destruct (find_from _ _ _) as [i|] eqn:Fi; simpl; auto. split; auto. specialize (BB i eq_refl).
        assert (D r (set_elems (list_swap (e_next e1) i (e_elems e1)) e1) (set_elems (list_swap (e_next e1) i (e_elems e2)) e2)).
        { rewrite He. rewrite list_swap_more by lia. apply d_elems; auto; [apply Forall2_list_swap; auto|apply list_swap_length]. }
        destruct step; auto. apply d_next; auto. simpl. rewrite list_swap_length. lia. }
    unfold search. destruct behind; auto. unfold look_behind. rewrite <- Hn. destruct (e_next e1) as [|i]; auto.
    rewrite He, nth_error_app1 by lia.
    pose proof (Forall2_nth Hf i) as Hi. destruct (nth_error (e_elems e1) i) as [c1|], (nth_error ll i) as [c2|]; try contradiction; auto.
    apply d_inv in Hi. destruct Hi as [-> _]. destruct (tag_is (e_tag c2) tag); simpl; auto.
  Qed.

  Lemma d_child : forall r e1 e2, D r e1 e2 -> forall i c1, nth_error (e_elems e1) i = Some c1 ->
    exists c2, nth_error (e_elems e2) i = Some c2 /\ D (within r e1) c1 c2.
  Proof.
    intros r e1 e2 H i c1 N. parts H. pose proof (Forall2_nth Hf i) as Hi. rewrite N in Hi.
    destruct (nth_error ll i) as [c2|] eqn:N2; [|contradiction]. exists c2; split; auto. rewrite He.
    rewrite nth_error_app1; auto. apply nth_error_Some; congruence.
  Qed.

  Lemma d_put : forall r e1 e2 c1 c2 i, D r e1 e2 -> i < length (e_elems e1) -> D (within r e1) c1 c2 -> D r (put_child i c1 e1) (put_child i c2 e2).
  Proof.
    intros r e1 e2 c1 c2 i H L Hc. parts H. unfold put_child. rewrite He. rewrite list_upd_more by (rewrite <- (both_long Hf); auto).
    apply d_elems; auto; [apply Forall2_list_upd; auto|apply list_upd_length].
  Qed.

  Lemma d_text : forall r e1 e2 t, D r e1 e2 -> D r (set_text_o t e1) (set_text_o t e2).
  Proof. intros r e1 e2 t H; parts H. eapply d_make; simpl; eauto. Qed.

  Lemma d_attr : forall r e1 e2 k, D r e1 e2 -> get_attrib k e1 = get_attrib k e2.
  Proof. intros r e1 e2 k H. parts H. unfold get_attrib. rewrite Ha; auto. Qed.

  Lemma d_pop : forall r e1 e2 k, D r e1 e2 -> fst (pop_attrib k e1) = fst (pop_attrib k e2) /\
    D r (snd (pop_attrib k e1)) (snd (pop_attrib k e2)).
  Proof.
    intros r e1 e2 k H. parts H. unfold pop_attrib. rewrite <- Ha.
    destruct (e_attrib e1) as [d1|] eqn:E1; auto. destruct (dget k d1); simpl; auto. split; auto. eapply d_make; simpl; eauto.
  Qed.

  Lemma d_pop_all : forall r e1 e2, D r e1 e2 ->
    fst (pop_attributes e1) = fst (pop_attributes e2) /\ D r (snd (pop_attributes e1)) (snd (pop_attributes e2)).
  Proof. intros r e1 e2 H. parts H. unfold pop_attributes; simpl. split; auto. eapply d_make; simpl; eauto. Qed.

  Lemma d_step : forall r e1 e2, D r e1 e2 -> e_next e1 < length (e_elems e1) -> D r (step_forward e1) (step_forward e2).
  Proof. intros r e1 e2 H L. parts H. unfold step_forward. rewrite <- Hn. apply d_next; auto. Qed.

  Lemma d_apply : forall r e1 e2 s1 s2, D r e1 e2 -> D r s1 s2 -> D r (apply_snapshot e1 s1) (apply_snapshot e2 s2).
  Proof. intros r e1 e2 s1 s2 H0 H. parts H0. parts H. eapply d_make; unfold within in *; simpl; eauto. Qed.

  Lemma d_raw : forall e1 r e2, D r e1 e2 -> within r e1 = true -> e1 = e2.
  Proof.
    intros e1; induction e1 as [tag ns text tail a l next line IH] using elem_ind'; intros r e2 H I; inv H. unfold within in I; simpl in I.
    rewrite I in *. match goal with X : true = true -> _ |- _ => rewrite (X eq_refl) in *; clear X end. rewrite app_nil_r. f_equal.
    match goal with F : Forall2 _ l l' |- _ => clear -IH F; induction F as [|x y l l' H F IHF] end; auto. inv IH. f_equal; eauto.
  Qed.

  Lemma d_native : forall b n r, D r (from_native b n) (from_native b n).
  Proof.
    intros b n; induction n as [tag ns text tail a cs line IH| |] using native_ind'; intros r; simpl.
    - unfold new_elem.
      replace (flat_map (fun c => if is_xml_comment c then [] else [from_native b c]) cs)
        with (flat_map (fun c => if is_xml_comment c then [] else [from_native b c]) cs ++ []) at 2 by apply app_nil_r.
      constructor; auto; [|lia].
      generalize (r || tag_raw W (TName tag)); intros q. induction IH as [|c cs H IH IHc]; simpl; auto.
      apply Forall2_app; auto. destruct (is_xml_comment c); auto.
    - apply (@dt_intro U W r _ _ _ _ _ [] [] []); auto.
    - apply (@dt_intro U W r _ _ _ _ _ [] [] []); auto.
  Qed.

  Variable ev : env.
  Hypothesis Hlooks : env_looks U W ev.
  Hypothesis Hseen : tails_unseen U W ev.
  Hypothesis Hforbid : forbids_nothing ev.

  (** the two elements are related and have the tag [t]; the lines noted are the same *)
  Definition sr (r : bool) (t : xtag) (s1 s2 : st) : Prop :=
    D r (st_el s1) (st_el s2) /\ e_tag (st_el s1) = t /\ st_sm s1 = st_sm s2.

  Definition sm (B : Type) (r : bool) (t : xtag) (p1 p2 : rres B) : Prop := fst p1 = fst p2 /\ sr r t (snd p1) (snd p2).

  (** the reader does the same on both elements, whatever their tag *)
  Definition rs (rd : reader) : Prop :=
    forall r t eas loc s1 s2, sr r t s1 s2 -> sm r t (rd eas loc s1) (rd eas loc s2).

  Lemma sm_ok : forall B r t (o : out B) s1 s2, sr r t s1 s2 -> sm r t (o, s1) (o, s2).
  Proof. intros; split; simpl; auto. Qed.

  Lemma sr_set : forall r t e1 e2 s1 s2, D r e1 e2 -> e_tag e1 = t -> st_sm s1 = st_sm s2 -> sr r t (set_el e1 s1) (set_el e2 s2).
  Proof. intros; repeat split; auto. Qed.

  Lemma sr_st : forall r t e1 e2 m1 m2, D r e1 e2 -> e_tag e1 = t -> m1 = m2 -> sr r t (St e1 m1) (St e2 m2).
  Proof. intros; repeat split; auto. Qed.

  Lemma sr_note : forall r t loc s1 s2, sr r t s1 s2 -> sr r t (note_line loc s1) (note_line loc s2).
  Proof.
    intros r t loc s1 s2 (H1 & H2 & H3); repeat split; simpl; auto. parts H1. rewrite H3, Hl; auto.
  Qed.

  Hint Resolve sr_note : core.

  Lemma on_child_sm : forall r t u i (f : st -> rres val) s1 s2, sr r t s1 s2 ->
    (exists c, nth_error (e_elems (st_el s1)) i = Some c /\ e_tag c = u) ->
    (forall q c1 c2, sr q u c1 c2 -> sm q u (f c1) (f c2)) ->
    sm r t (on_child i f s1) (on_child i f s2).
  Proof.
    intros r t u i f s1 s2 (Sr & St0 & Sm) (c1 & N1 & Tc) H; unfold on_child. destruct (d_child Sr i N1) as (c2 & N2 & C).
    rewrite N1, N2.
    specialize (H (within r (st_el s1)) (St c1 (st_sm s1)) (St c2 (st_sm s2)) (conj C (conj Tc Sm))).
    destruct (f (St c1 _)) as [o1 t1], (f (St c2 _)) as [o2 t2]. destruct H as [H1 (H2 & H3 & H4)]; simpl in *. subst o2.
    apply sm_ok. apply sr_st; auto. apply d_put; auto. apply nth_error_Some; congruence.
  Qed.

  Lemma search_keeps : forall m e tag behind step, e_tag (snd (search m e tag behind step)) = e_tag e.
  Proof. intros m e tag behind step. destruct (search m e tag behind step) as [o e'] eqn:S. simpl. eapply search_tag; eauto. Qed.

  Lemma with_found_sm : forall r t tag m (f : st -> rres val) s1 s2, U tag = false -> sr r t s1 s2 ->
    (forall q c1 c2, sr q (TName tag) c1 c2 -> sm q (TName tag) (f c1) (f c2)) ->
    sm r t (with_found (pop_element (st_el s1) tag m) f s1) (with_found (pop_element (st_el s2) tag m) f s2).
  Proof.
    intros r t tag m f s1 s2 Hu (Sr & St0 & Sm) H. unfold pop_element. destruct (d_search Sr m false true Hu) as [R Es].
    pose proof (search_keeps m (st_el s1) tag false true) as K. pose proof (@search_hit m (st_el s1) tag false true) as Hit.
    destruct (search m (st_el s1) tag false true) as [r1 e1], (search m (st_el s2) tag false true) as [r2 e2]. simpl in *. subst r2.
    destruct r1 as [|i|]; simpl.
    - apply sm_ok. apply sr_set; auto. congruence.
    - apply on_child_sm with (u := TName tag); auto.
      apply sr_set; auto. congruence.
    - apply sm_ok. apply sr_set; auto. congruence.
  Qed.

  Lemma pop_keeps : forall k e, e_tag (snd (pop_attrib k e)) = e_tag e.
  Proof. intros k e; unfold pop_attrib. destruct (e_attrib e) as [d|]; auto. destruct (dget k d); auto. Qed.

  Lemma nill_keeps : forall e, e_tag (snd (is_element_nill e)) = e_tag e.
  Proof. intros e; unfold is_element_nill. pose proof (pop_keeps xsi_nil e) as P. destruct (pop_attrib xsi_nil e); auto. Qed.

  Lemma nill_d : forall r e1 e2, D r e1 e2 -> fst (is_element_nill e1) = fst (is_element_nill e2) /\
    D r (snd (is_element_nill e1)) (snd (is_element_nill e2)).
  Proof.
    intros r e1 e2 H. destruct (d_pop xsi_nil H) as [P1 P2]. unfold is_element_nill.
    destruct (pop_attrib xsi_nil e1) as [v1 f1], (pop_attrib xsi_nil e2) as [v2 f2]. simpl in *. subst v2. auto.
  Qed.

  Lemma read_text_sm : forall c n, rs (read_text c n).
  Proof.
    intros c n r t eas loc s1 s2 (Sr & St0 & Sm); unfold read_text. destruct c; [apply sm_ok; repeat split; auto|].
    assert (X : forall e1 e2, D r e1 e2 -> e_tag e1 = t -> sm r t (let (t, e2) := pop_text e1 in (Ok (text_or_default eas t), set_el e2 s1))
                                          (let (t, e2) := pop_text e2 in (Ok (text_or_default eas t), set_el e2 s2))).
    { intros e1 e2 He Ht'. unfold pop_text. pose proof (d_text None He) as Et. parts He. rewrite Hx.
      apply sm_ok. apply sr_set; auto. }
    destruct n; simpl; [|apply X; auto].
    destruct (@nill_d r (st_el s1) (st_el s2) Sr) as [N En]. pose proof (nill_keeps (st_el s1)) as K.
    destruct (is_element_nill (st_el s1)) as [b1 e1], (is_element_nill (st_el s2)) as [b2 e2].
    simpl in *. subst b2. destruct b1; [apply sm_ok; apply sr_set; auto; congruence|apply X; auto; congruence].
  Qed.

  Lemma read_attr_sm : forall k c, rs (read_attr k c).
  Proof.
    intros k c r t eas loc s1 s2 (Sr & St0 & Sm); unfold read_attr. destruct c; [apply sm_ok; repeat split; auto|].
    destruct (@d_pop r (st_el s1) (st_el s2) k Sr) as [P Ep]. pose proof (pop_keeps k (st_el s1)) as K.
    destruct (pop_attrib k (st_el s1)) as [v1 e1], (pop_attrib k (st_el s2)) as [v2 e2].
    simpl in *. subst v2. apply sm_ok. apply sr_set; auto. congruence.
  Qed.

  Lemma read_attrs_sm : forall a, rs (read_attrs a).
  Proof.
    intros a r t eas loc s1 s2 (Sr & St0 & Sm); unfold read_attrs. destruct (as_computed a); [apply sm_ok; repeat split; auto|].
    destruct (@d_pop_all r (st_el s1) (st_el s2) Sr) as [P Ep].
    unfold pop_attributes in *. simpl in P, Ep. rewrite <- P.
    destruct (e_attrib (st_el s1)) as [d1|]; apply sm_ok; apply sr_set; auto.
  Qed.

  Lemma read_items_sm : forall rd, rs rd -> forall k r t title hide eas loc idx res errs s1 s2, sr r t s1 s2 ->
    sm r t (read_items k rd title hide eas loc idx res errs s1) (read_items k rd title hide eas loc idx res errs s2).
  Proof.
    intros rd Hr k r t; induction k as [|k IH]; intros title hide eas loc idx res errs s1 s2 Sr; cbn [read_items].
    - apply sm_ok; auto.
    - specialize (Hr r t eas (loc ++ [LIdx idx]) s1 s2 Sr).
      destruct (rd eas (loc ++ [LIdx idx]) s1) as [o t1], (rd eas (loc ++ [LIdx idx]) s2) as [o2 t2].
      destruct Hr as [O Es]; simpl in *. subst o2.
      destruct o as [v|x|]; [destruct v; auto; destruct errs; apply sm_ok; auto|destruct x; auto; apply sm_ok; auto|apply sm_ok; auto].
  Qed.

  Lemma read_tuple_sm : forall rds, Forall rs rds -> forall r t title hide eas loc idx res errs s1 s2, sr r t s1 s2 ->
    sm r t (read_tuple rds title hide eas loc idx res errs s1) (read_tuple rds title hide eas loc idx res errs s2).
  Proof.
    intros rds H r t; induction H as [|rd rds Hr H IH]; intros title hide eas loc idx res errs s1 s2 Sr; cbn [read_tuple].
    - destruct errs; apply sm_ok; auto.
    - specialize (Hr r t eas (loc ++ [LIdx idx]) s1 s2 Sr).
      destruct (rd eas (loc ++ [LIdx idx]) s1) as [o t1], (rd eas (loc ++ [LIdx idx]) s2) as [o2 t2].
      destruct Hr as [O Es]; simpl in *. subst o2. destruct o as [v|x|]; auto; [destruct x; auto|]; apply sm_ok; auto.
  Qed.

  (** the reader reports errors only if there is a child left *)
  Definition needs_child (rd : reader) : Prop :=
    forall eas loc s err s', rd eas loc s = (Raise (XValidation err), s') -> e_next (st_el s) < length (e_elems (st_el s)).

  Lemma read_variants_sm : forall rds, Forall (fun rd => rs rd /\ needs_child rd) rds ->
    forall r t title hide eas loc errs s1 s2, sr r t s1 s2 -> (errs <> [] -> e_next (st_el s1) < length (e_elems (st_el s1))) ->
    sm r t (read_variants rds title hide eas loc errs s1) (read_variants rds title hide eas loc errs s2).
  Proof.
    intros rds H r t; induction H as [|rd rds [Hr Hc] H IH]; intros title hide eas loc errs s1 s2 (Sr & St0 & Sm) Room; cbn [read_variants].
    - destruct errs; apply sm_ok; [repeat split; auto|]. apply sr_set; auto. apply d_step; auto. apply Room. discriminate.
    - rewrite !create_snapshot_id.
      specialize (Hr r t eas loc (set_el (st_el s1) s1) (set_el (st_el s2) s2) (conj Sr (conj St0 Sm))).
      specialize (Hc eas loc (set_el (st_el s1) s1)).
      destruct (rd eas loc (set_el (st_el s1) s1)) as [o t1], (rd eas loc (set_el (st_el s2) s2)) as [o2 t2].
      destruct Hr as [O (Es & Et & Em)]; simpl in *. subst o2.
      assert (K : sr r t (St (st_el s1) (st_sm t1)) (St (st_el s2) (st_sm t2))) by (apply sr_st; auto).
      assert (K' : sr r t (St (apply_snapshot (st_el s1) (st_el t1)) (st_sm t1)) (St (apply_snapshot (st_el s2) (st_el t2)) (st_sm t2)))
        by (apply sr_st; auto; apply d_apply; auto).
      destruct o as [v|x|]; [destruct v; auto; apply sm_ok; auto|destruct x; auto; try (apply sm_ok; auto; fail)|apply sm_ok; auto].
      apply IH; auto. intros _. simpl. eapply Hc; eauto.
  Qed.

  Lemma read_tagged_sm : forall rp a vs, (forall tag p, In (tag, p) vs -> U (px_name p) = false /\ rs (rp p)) ->
    forall mode r t eas loc s1 s2, sr r t s1 s2 ->
    sm r t (read_tagged rp a mode vs eas loc s1) (read_tagged rp a mode vs eas loc s2).
  Proof.
    intros rp a vs H mode r t eas loc; induction vs as [|[tag p] vs IH]; intros s1 s2 (Sr & St0 & Sm); cbn [read_tagged];
      [apply sm_ok; repeat split; auto|].
    assert (IH' : forall s1 s2, sr r t s1 s2 -> sm r t (read_tagged rp a mode vs eas loc s1) (read_tagged rp a mode vs eas loc s2))
      by (apply IH; intros; eapply H; right; eauto).
    destruct (H tag p (or_introl eq_refl)) as [Hu Hrp].
    unfold find_element. destruct (d_search Sr mode false false Hu) as [R Es].
    pose proof (search_keeps mode (st_el s1) (px_name p) false false) as K. pose proof (@search_hit mode (st_el s1) (px_name p) false false) as Hit.
    destruct (search mode (st_el s1) (px_name p) false false) as [q1 e1], (search mode (st_el s2) (px_name p) false false) as [q2 e2].
    simpl in *. subst q2. destruct q1 as [|i|].
    - apply IH'. apply sr_set; auto. congruence.
    - destruct (Hit i e1 eq_refl) as (c & Nc & Tc). destruct (d_child Es i Nc) as (c2 & Nc2 & C). rewrite Nc, Nc2.
      rewrite <- (d_attr a C). pose proof (d_inv C) as (_ & _ & _ & _ & _ & _ & L & _).
      destruct (match get_attrib a c with Some t => String.eqb t tag | None => false end).
      + apply Hrp. apply sr_st; auto; congruence.
      + apply IH'. apply sr_set; auto. congruence.
    - apply sm_ok. apply sr_set; auto. congruence.
  Qed.

  Lemma on_path_sm : forall (f : st -> rres val), (forall q t c1 c2, sr q t c1 c2 -> sm q t (f c1) (f c2)) ->
    forall path r t s1 s2, sr r t s1 s2 -> at_path path (st_el s1) <> None ->
    sm r t (on_path path f s1) (on_path path f s2).
  Proof.
    intros f H path; induction path as [|i path IH]; intros r t s1 s2 Sr P; cbn [on_path]; auto.
    simpl in P. destruct (nth_error (e_elems (st_el s1)) i) as [c1|] eqn:N1; [|congruence].
    destruct Sr as (Sr & St0 & Sm). destruct (d_child Sr i N1) as (c2 & N2 & C). unfold on_child. rewrite N1, N2.
    specialize (IH (within r (st_el s1)) (e_tag c1) (St c1 (st_sm s1)) (St c2 (st_sm s2)) (conj C (conj eq_refl Sm)) P).
    destruct (on_path path f (St c1 _)) as [o1 t1], (on_path path f (St c2 _)) as [o2 t2].
    destruct IH as [H1 (H2 & H3 & H4)]; simpl in *. subst o2. apply sm_ok. apply sr_st; auto. apply d_put; auto.
    apply nth_error_Some; congruence.
  Qed.

  Lemma find_sub_d : forall path m r e1 e2, Forall (fun t => U t = false) path -> D r e1 e2 ->
    fst (find_sub_element path m e1) = fst (find_sub_element path m e2) /\
    D r (snd (find_sub_element path m e1)) (snd (find_sub_element path m e2)) /\ e_tag (snd (find_sub_element path m e1)) = e_tag e1 /\
    (forall idxs, fst (find_sub_element path m e1) = Some idxs -> at_path idxs (snd (find_sub_element path m e1)) <> None).
  Proof.
    intros path m; induction path as [|tag rest IH]; intros r e1 e2 Hp H; cbn [find_sub_element].
    { simpl. do 3 (split; auto). intros idxs E. injection E as <-. discriminate. }
    inversion Hp as [|? ? Hu Hrest]; subst.
    unfold find_element. destruct (d_search H m true true Hu) as [R Es]. pose proof (search_keeps m e1 tag true true) as K.
    pose proof (@search_hit m e1 tag true true) as Hit.
    destruct (search m e1 tag true true) as [q1 t1], (search m e2 tag true true) as [q2 t2]. simpl in *. subst q2.
    destruct q1 as [|i|].
    - simpl. do 3 (split; auto). intros idxs E. injection E as <-. discriminate.
    - destruct (Hit i t1 eq_refl) as (c1 & N1 & T1). destruct (d_child Es i N1) as (c2 & N2 & C).
      destruct rest as [|x rest'].
      { simpl. do 3 (split; auto). intros idxs E. injection E as <-. simpl. rewrite N1. discriminate. }
      rewrite N1, N2. destruct (IH _ c1 c2 Hrest C) as (F & Ef & _ & P).
      destruct (find_sub_element (x :: rest') m c1) as [o1 d1], (find_sub_element (x :: rest') m c2) as [o2 d2].
      simpl in *. subst o2. assert (L : i < length (e_elems t1)) by (apply nth_error_Some; congruence).
      destruct o1 as [is'|]; simpl; (split; [auto|split; [apply d_put; auto|split; [auto|intros idxs E; try discriminate]]]).
      injection E as <-. simpl. rewrite nth_error_list_upd_same by auto. auto.
    - simpl. do 3 (split; auto). discriminate.
  Qed.

  Lemma read_wrap_sm : forall path mode c rd, Forall (fun t => U t = false) path -> rs rd -> rs (read_wrap path mode c rd).
  Proof.
    intros path mode c rd Hp H r t eas loc s1 s2 (Sr & St0 & Sm); unfold read_wrap. destruct c; [apply sm_ok; repeat split; auto|].
    destruct (find_sub_d mode Hp Sr) as (F & Ef & K & P).
    destruct (find_sub_element path mode (st_el s1)) as [o1 e1], (find_sub_element path mode (st_el s2)) as [o2 e2]. simpl in *. subst o2.
    assert (Q : sr r t (set_el e1 s1) (set_el e2 s2)) by (apply sr_set; auto; congruence).
    destruct o1 as [idxs|]; [|apply sm_ok; auto].
    destruct (negb (Nat.eqb (length idxs) 0) && Nat.eqb (length idxs) (length path)) eqn:L; [|apply sm_ok; auto].
    apply on_path_sm; auto.
  Qed.

  Lemma read_raw_sm : forall name mode c, U name = false -> W name = true -> rs (read_raw (en_backend ev) name mode c).
  Proof.
    intros name mode c Hu Hw r t eas loc s1 s2 Sr; unfold read_raw. destruct c; [apply sm_ok; auto|].
    apply with_found_sm; auto. intros q c1 c2 (C & Ct & Cm).
    assert (I : within q (st_el c1) = true) by (unfold within; rewrite Ct; simpl; rewrite Hw; apply orb_true_r).
    rewrite <- (d_raw C I), <- Cm. unfold extract, pop_text, pop_tail, pop_attributes, pop_elements. simpl.
    apply sm_ok. apply sr_st; auto. apply d_make with [] []; simpl; auto.
  Qed.

  Lemma validate_sm : forall cls m, en_model ev cls = Some m -> forall i r t s1 s2, sr r t s1 s2 ->
    validate_result m i s1 = validate_result m i s2.
  Proof.
    intros cls m Em i r t s1 s2 (Sr & St0 & Sm); unfold validate_result. rewrite (Hforbid cls Em), Sm; auto.
  Qed.

  Lemma read_fields_sm : forall n cls m, en_model ev cls = Some m ->
    (forall s, looks_for U W s -> rs (read n ev s)) ->
    forall fs, Forall (fun nf => looks_for U W (snd nf)) fs -> forall r t eas res errs s1 s2, sr r t s1 s2 ->
    sm r t (read_fields (read n ev) m fs eas res errs s1) (read_fields (read n ev) m fs eas res errs s2).
  Proof.
    intros n cls m Em Hr fs Hf r t eas; induction Hf as [|[name s] fs Hs Hf IH]; intros res errs s1 s2 Sr; cbn [read_fields].
    - apply sm_ok; auto.
    - assert (X : sm r t (match md_cval m name with
                       | Some custom => run_custom custom (note_line [LKey name] s1)
                       | None => read n ev s eas [LKey name] (note_line [LKey name] s1) end)
                      (match md_cval m name with
                       | Some custom => run_custom custom (note_line [LKey name] s2)
                       | None => read n ev s eas [LKey name] (note_line [LKey name] s2) end)).
      { clear IH. destruct (md_cval m name) as [f|] eqn:Cv.
        - apply (sr_note [LKey name]) in Sr. destruct Sr as (Sr & St0 & Sm). destruct (Hseen cls name Em Cv Sr) as (C1 & C2 & C3).
          unfold run_custom. destruct (f (st_el (note_line [LKey name] s1))) as [o1 e1], (f (st_el (note_line [LKey name] s2))) as [o2 e2].
          cbn [fst snd] in *. subst o2. apply sm_ok. apply sr_set; auto. congruence.
        - apply Hr; auto. }
      destruct (match md_cval m name with Some _ => run_custom _ (note_line _ s1) | None => _ end) as [o1 t1].
      destruct (match md_cval m name with Some _ => run_custom _ (note_line _ s2) | None => _ end) as [o2 t2].
      destruct X as [O Es]; simpl in *. subst o2.
      destruct o1 as [v|x|]; [destruct v; auto|destruct x; auto; apply sm_ok; auto|apply sm_ok; auto].
  Qed.

  Lemma read_model_sm : forall n cls m, en_model ev cls = Some m ->
    (forall s, looks_for U W s -> rs (read n ev s)) -> rs (read_model (read n ev) m).
  Proof.
    intros n cls m Em Hr r t eas loc s1 s2 Sr. pose proof (Hlooks cls Em) as Hf.
    unfold read_model. destruct (md_root m) eqn:R.
    - unfold read_root_model. destruct (md_fields m) as [|[nm s] fs]; [apply sm_ok; auto|].
      inv Hf. specialize (Hr s ltac:(auto) r t eas loc s1 s2 Sr). destruct (read n ev s eas loc s1) as [o1 t1], (read n ev s eas loc s2) as [o2 t2].
      destruct Hr as [O Es]; simpl in *. subst o2.
      destruct o1 as [v|x|]; [|destruct x; apply sm_ok; auto|apply sm_ok; auto].
      rewrite (@validate_sm cls m Em _ r t t1 t2 Es). apply sm_ok; auto.
    - unfold read_plain_model.
      pose proof (@read_fields_sm n cls m Em Hr _ Hf r t eas [] [] s1 s2 Sr) as F.
      destruct (read_fields (read n ev) m (md_fields m) eas [] [] s1) as [o1 t1].
      destruct (read_fields (read n ev) m (md_fields m) eas [] [] s2) as [o2 t2].
      destruct F as [O Es]; simpl in *. subst o2. destruct o1 as [[v x]|x|]; try (apply sm_ok; auto; fail).
      destruct x; [rewrite (@validate_sm cls m Em _ r t t1 t2 Es)|]; apply sm_ok; auto.
  Qed.

  Lemma read_proxy_sm : forall n, (forall s, looks_for U W s -> rs (read n ev s)) ->
    forall p, U (px_name p) = false -> rs (read_proxy ev (read n ev) p).
  Proof.
    intros n Hr p Hu r t eas loc s1 s2 Sr; unfold read_proxy. destruct (en_model ev (px_model p)) as [m|] eqn:Em; [|apply sm_ok; auto].
    destruct (px_computed p); [apply sm_ok; auto|]. apply with_found_sm; auto. intros q c1 c2 C. apply (sr_note loc) in C.
    cbv zeta. set (d1 := note_line loc c1) in *. set (d2 := note_line loc c2) in *. clearbody d1 d2. destruct C as (C & Ct & Cm).
    destruct (@nill_d q (st_el d1) (st_el d2) C) as [N En].
    pose proof (nill_keeps (st_el d1)) as K.
    destruct (is_element_nill (st_el d1)) as [b1 e1], (is_element_nill (st_el d2)) as [b2 e2]. simpl in *. subst b2.
    assert (X : sr q (TName (px_name p)) (set_el e1 d1) (set_el e2 d2)) by (apply sr_set; auto; congruence).
    destruct b1; [apply sm_ok; apply X|]. eapply read_model_sm; [exact Em| |apply X]; auto.
  Qed.

  Lemma proxy_needs_child : forall n p, needs_child (read_proxy ev (read n ev) p).
  Proof.
    intros n p eas loc s err s' H. unfold read_proxy in H. destruct (en_model ev (px_model p)) as [m|]; [|discriminate].
    destruct (px_computed p); [discriminate|]. unfold pop_element in H.
    destruct (search (px_mode p) (st_el s) (px_name p) false true) as [[|i|] e] eqn:Q; simpl in H; try discriminate.
    eapply search_room; eauto.
  Qed.

  Lemma Forall_map_self : forall X Y (R : Y -> Prop) (f : X -> Y) (P : X -> Prop) l, Forall P l -> (forall x, P x -> R (f x)) ->
    Forall R (map f l).
  Proof. intros X Y R f P l H Hf; induction H; simpl; constructor; auto. Qed.

  Lemma read_sm : forall n s, looks_for U W s -> rs (read n ev s).
  Proof.
    intros n; induction n as [|n IH]; intros s Hs r t eas loc s1 s2 Sr; [apply sm_ok; auto|]. cbn [read]. inv Hs; cbn [read_step].
    - apply read_text_sm; auto.
    - apply read_attr_sm; auto.
    - unfold read_elem. destruct c; [apply sm_ok; auto|]. apply with_found_sm; auto.
      intros q c1 c2 C. apply read_text_sm; auto.
    - apply read_attrs_sm; auto.
    - unfold read_map_elem. destruct (as_computed a) eqn:Ca; [apply sm_ok; auto|]. apply with_found_sm; auto.
      intros q c1 c2 C. apply read_attrs_sm; auto.
    - unfold read_homo. destruct c; [apply sm_ok; auto|]. apply read_items_sm; auto.
    - unfold read_hetero. destruct c; [apply sm_ok; auto|]. apply read_tuple_sm; auto.
      eapply Forall_map_self; [eassumption|auto].
    - unfold read_union_prim. destruct c; [apply sm_ok; auto|]. apply IH; auto.
    - unfold read_union_model. destruct c; [apply sm_ok; auto|]. apply read_variants_sm; auto; [|congruence].
      eapply Forall_map_self; [eassumption|]. intros p Hp. split; [apply read_proxy_sm; auto|apply proxy_needs_child].
    - destruct c; [apply sm_ok; auto|]. apply read_tagged_sm; auto. intros tag p Hin.
      match goal with H : Forall _ vs |- _ => rewrite Forall_forall in H; pose proof (H (tag, p) Hin) as H1 end.
      split; auto. apply read_proxy_sm; auto.
    - apply read_wrap_sm; auto.
    - apply read_raw_sm; auto.
    - apply read_proxy_sm; auto.
  Qed.

  Lemma tail_from : forall n1 b n2, same_but_tail U W n1 n2 -> D false (from_native b n1) (from_native b n2).
  Proof.
    intros n1 b; induction n1 as [tag ns text tail a cs line IH| |] using native_ind'; intros n2 H; inv H; try apply d_native; simpl.
    match goal with X : W tag = false |- _ => rename X into Hw end.
    rewrite flat_map_app. unfold new_elem. constructor; simpl; rewrite ?Hw; try discriminate; try lia.
    - match goal with F : Forall2 _ cs _ |- _ => clear -IH F; induction F as [|x y l l' H F IHF] end; simpl; auto.
      inv IH. assert (is_xml_comment x = is_xml_comment y) as <- by (inv H; auto).
      apply Forall2_app; auto. destruct (is_xml_comment x); auto.
    - match goal with F : Forall _ more |- _ => clear -F; induction F as [|c more H F IHF] end; simpl; auto.
      apply Forall_app; split; auto. destruct c; simpl in *; auto.
  Qed.

  Lemma tail_run : forall n cls root1 root2 eas, same_but_tail U W root1 root2 ->
    from_xml_tree n ev cls root1 eas = from_xml_tree n ev cls root2 eas.
  Proof.
    intros n cls root1 root2 eas H; unfold from_xml_tree. destruct (en_model ev cls) as [m|] eqn:Em; auto.
    assert (Tg : native_tag root1 = native_tag root2) by (inv H; auto). rewrite <- Tg.
    destruct (tag_is (native_tag root1) (md_elem_name m)) eqn:Q; auto.
    exact (proj1 (@read_model_sm n cls m Em (@read_sm n) false _ eas []
      (St (from_native (en_backend ev) root1) []) (St (from_native (en_backend ev) root2) []) (conj (tail_from (en_backend ev) H) (conj eq_refl eq_refl)))).
  Qed.
End Tail.
