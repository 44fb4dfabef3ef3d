(** PfLayout.v -- two runs of from_xml on documents that differ in texts no field reads. *)

From Verif Require Import Base Elem Native Errs Names Ser Write Read Api Text SpecElem SpecRead SpecSim SpecRound SpecText SpecStray SpecLayout
  PfElem PfField PfTerm PfWrite2 PfSim PfSim2 PfText.
From Verif Require PfStray.

Local Ltac inv H := inversion H; subst; clear H.

Lemma tag_is_eq : forall t s, tag_is t s = true -> t = TName s.
Proof. intros [x|] s H; simpl in H; [apply String.eqb_eq in H; subst; auto|discriminate]. Qed.

Lemma find_from_hit : forall l i tag j, find_from i l tag = Some j -> i <= j /\ exists c, nth_error l (j - i) = Some c /\ e_tag c = TName tag.
Proof.
  intros l; induction l as [|c l IH]; intros i tag j H; simpl in H; [discriminate|].
  destruct (tag_is (e_tag c) tag) eqn:Q.
  - injection H as <-. split; auto. exists c. rewrite Nat.sub_diag. split; auto. apply tag_is_eq; auto.
  - apply IH in H. destruct H as (L & d & N & Ed). split; [lia|]. exists d. split; auto. replace (j - i) with (S (j - S i)) by lia. auto.
Qed.

Lemma nth_skip : forall A n i (l : list A), nth_error (skipn n l) i = nth_error l (n + i).
Proof. intros A n; induction n as [|n IH]; intros i [|x l]; simpl; auto. destruct i; auto. Qed.

(** a child found has the tag asked for *)
Lemma search_hit : forall m e tag behind step i e', search m e tag behind step = (Found i, e') ->
  exists c, nth_error (e_elems e') i = Some c /\ e_tag c = TName tag.
Proof.
  intros m e tag behind step i e' H.
  assert (F : forward m e tag step = (Found i, e') -> exists c, nth_error (e_elems e') i = Some c /\ e_tag c = TName tag).
  { clear H; intros H; destruct m; simpl in H.
    - unfold strict_forward in H. destruct (nth_error (e_elems e) (e_next e)) as [c|] eqn:N; [|discriminate].
      destruct (tag_is (e_tag c) tag) eqn:Q; [|discriminate]. injection H as <- <-. exists c. split; [destruct step; auto|apply tag_is_eq; auto].
    - unfold ordered_forward in H. destruct (find_from _ _ _) as [j|] eqn:Fd; [|discriminate]. injection H as <- <-.
      apply find_from_hit in Fd. destruct Fd as (L & c & N & Ec). rewrite nth_skip in N. exists c.
      replace (e_next e + (j - e_next e)) with j in N by lia. split; auto. destruct step; auto.
    - unfold unordered_forward in H. destruct (find_from _ _ _) as [j|] eqn:Fd; [|discriminate]. injection H as <- <-.
      apply find_from_hit in Fd. destruct Fd as (L & c & N & Ec). rewrite nth_skip in N. exists c.
      replace (e_next e + (j - e_next e)) with j in N by lia. split; auto.
      assert (X : nth_error (list_swap (e_next e) j (e_elems e)) (e_next e) = Some c).
      { unfold list_swap. assert (j < length (e_elems e)) by (apply nth_error_Some; congruence).
        destruct (nth_error (e_elems e) (e_next e)) as [d|] eqn:Nd; [|apply nth_error_None in Nd; lia]. rewrite N.
        rewrite nth_error_list_upd_same; auto. rewrite list_upd_length; apply nth_error_Some; congruence. }
      destruct step; auto. }
  unfold search in H. destruct behind; auto. unfold look_behind in H. destruct (e_next e) as [|k] eqn:K; auto.
  destruct (nth_error (e_elems e) k) as [c|] eqn:N; [|discriminate]. destruct (tag_is (e_tag c) tag) eqn:Q; auto.
  injection H as <- <-. exists c. split; auto. apply tag_is_eq; auto.
Qed.

Section Layout.
  Variables T W : string -> bool.
  Variable quiet : bool.
  Notation D := (differ_texts T W quiet).

  (** inside a raw element, that is *)
  Definition inner (r : bool) (e : elem) : bool := r || tag_in W (e_tag e).

  Lemma d_inv : forall r e e', D r e e' -> e_tag e = e_tag e' /\ e_nsmap e = e_nsmap e' /\
    (inner r e || tag_in T (e_tag e) = true -> same_text (e_text e) (e_text e')) /\
    (inner r e = true -> same_text (e_tail e) (e_tail e')) /\
    (quiet = true -> same_stripped (e_text e) (e_text e') /\ same_stripped (e_tail e) (e_tail e')) /\
    e_attrib e = e_attrib e' /\ Forall2 (D (inner r e)) (e_elems e) (e_elems e') /\ e_next e = e_next e'.
  Proof. intros r e e' H; inv H; unfold inner; simpl; auto 10. Qed.

  Lemma d_make : forall r e e', e_tag e = e_tag e' -> e_nsmap e = e_nsmap e' ->
    (inner r e || tag_in T (e_tag e) = true -> same_text (e_text e) (e_text e')) ->
    (inner r e = true -> same_text (e_tail e) (e_tail e')) ->
    (quiet = true -> same_stripped (e_text e) (e_text e') /\ same_stripped (e_tail e) (e_tail e')) ->
    e_attrib e = e_attrib e' -> Forall2 (D (inner r e)) (e_elems e) (e_elems e') -> e_next e = e_next e' -> D r e e'.
  Proof. intros r [] []; unfold inner; simpl; intros; subst; constructor; auto. Qed.

  Lemma d_find : forall r l l', Forall2 (D r) l l' -> forall i tag, find_from i l tag = find_from i l' tag.
  Proof.
    intros r l l' H; induction H as [|x y l l' Hxy H IH]; intros i tag; simpl; auto. apply d_inv in Hxy.
    destruct Hxy as [-> _]. rewrite IH; auto.
  Qed.

  Ltac parts H := let t := fresh in pose proof H as t; apply d_inv in t;
    let h1 := fresh "Ht" in let h2 := fresh "Hns" in let h3 := fresh "Hx" in let h4 := fresh "Htl" in let h5 := fresh "Hq" in
    let h6 := fresh "Ha" in let h7 := fresh "Hf" in let h8 := fresh "Hn" in destruct t as (h1 & h2 & h3 & h4 & h5 & h6 & h7 & h8).

  Lemma d_next : forall r e e' i, D r e e' -> D r (set_next i e) (set_next i e').
  Proof. intros r e e' i H; parts H. apply d_make; simpl; auto. Qed.

  Lemma d_elems : forall r e e' l l', D r e e' -> Forall2 (D (inner r e)) l l' -> D r (set_elems l e) (set_elems l' e').
  Proof. intros r e e' l l' H F; parts H. apply d_make; simpl; auto. Qed.

  Lemma d_search : forall r e1 e2, D r e1 e2 -> forall m tag behind step,
    fst (search m e1 tag behind step) = fst (search m e2 tag behind step) /\
    D r (snd (search m e1 tag behind step)) (snd (search m e2 tag behind step)).
  Proof.
    intros r e1 e2 H m tag behind step. parts H.
    assert (FW : fst (forward m e1 tag step) = fst (forward m e2 tag step) /\ D r (snd (forward m e1 tag step)) (snd (forward m e2 tag step))).
    { destruct m; simpl.
      - unfold strict_forward. rewrite <- Hn. pose proof (Forall2_nth Hf (e_next e1)) as Hi.
        destruct (nth_error (e_elems e1) (e_next e1)) as [c1|], (nth_error (e_elems e2) (e_next e1)) as [c2|]; try contradiction; auto.
        apply d_inv in Hi. destruct Hi as [-> _]. destruct (tag_is (e_tag c2) tag); simpl; auto.
        split; auto. destruct step; auto. apply d_next; auto.
      - unfold ordered_forward. rewrite <- Hn. rewrite (d_find (Forall2_skipn Hf (e_next e1))).
        destruct (find_from _ _ _) as [i|]; simpl; auto. split; auto. destruct step; auto. apply d_next; auto.
      - unfold unordered_forward. rewrite <- Hn. rewrite (d_find (Forall2_skipn Hf (e_next e1))).
        destruct (find_from _ _ _) as [i|]; simpl; auto. split; auto.
        assert (D r (set_elems (list_swap (e_next e1) i (e_elems e1)) e1) (set_elems (list_swap (e_next e1) i (e_elems e2)) e2)).
        { apply d_elems; auto. apply Forall2_list_swap; auto. }
        destruct step; auto. apply d_next; auto. }
    unfold search. destruct behind; auto. unfold look_behind. rewrite <- Hn. destruct (e_next e1) as [|i]; auto.
    pose proof (Forall2_nth Hf i) as Hi. destruct (nth_error (e_elems e1) i) as [c1|], (nth_error (e_elems e2) i) as [c2|]; try contradiction; auto.
    apply d_inv in Hi. destruct Hi as [-> _]. destruct (tag_is (e_tag c2) tag); simpl; auto.
  Qed.

  Lemma d_child : forall r e1 e2, D r e1 e2 -> forall i,
    match nth_error (e_elems e1) i, nth_error (e_elems e2) i with
    | Some c1, Some c2 => D (inner r e1) c1 c2 | None, None => True | _, _ => False end.
  Proof. intros r e1 e2 H i. parts H. apply Forall2_nth; auto. Qed.

  Lemma d_put : forall r e1 e2 c1 c2 i, D r e1 e2 -> D (inner r e1) c1 c2 -> D r (put_child i c1 e1) (put_child i c2 e2).
  Proof. intros r e1 e2 c1 c2 i H Hc. apply d_elems; auto. apply Forall2_list_upd; auto. parts H; auto. Qed.

  Lemma d_text : forall r e1 e2, D r e1 e2 -> D r (set_text_o None e1) (set_text_o None e2).
  Proof.
    intros r e1 e2 H; parts H. apply d_make; simpl; auto using same_text_refl.
    intros Q; destruct (Hq Q); split; auto. reflexivity.
  Qed.

  Lemma d_attr : forall r e1 e2, D r e1 e2 -> forall k, attr_of e1 k = attr_of e2 k /\
    D r (snd (pop_attrib k e1)) (snd (pop_attrib k e2)).
  Proof.
    intros r e1 e2 H k. parts H. unfold attr_of, pop_attrib. rewrite <- Ha. split; auto.
    destruct (e_attrib e1) as [d|]; auto. destruct (dget k d); simpl; auto. apply d_make; simpl; auto.
  Qed.

  Lemma d_attrs : forall r e1 e2, D r e1 e2 -> D r (set_attrib_o None e1) (set_attrib_o None e2).
  Proof. intros r e1 e2 H; parts H. apply d_make; simpl; auto. Qed.

  Lemma d_step : forall r e1 e2, D r e1 e2 -> D r (step_forward e1) (step_forward e2).
  Proof. intros r e1 e2 H. parts H. unfold step_forward. rewrite Hn. apply d_next; auto. Qed.

  Lemma d_apply : forall r e1 e2 s1 s2, D r s1 s2 -> D r (apply_snapshot e1 s1) (apply_snapshot e2 s2).
  Proof. intros r e1 e2 s1 s2 H. parts H. apply d_make; unfold inner in *; simpl; auto. Qed.

  Lemma d_differ : forall e1 e2, D true e1 e2 -> DT e1 e2.
  Proof.
    intros e1; induction e1 as [tag ns text tail a l next line IH] using elem_ind'; intros e2 H; inv H. simpl in *. constructor; auto.
    1: exact I. match goal with F : Forall2 _ l l' |- _ => clear -IH F; induction F end; auto. inv IH. constructor; auto.
  Qed.

  Lemma d_whole : forall r e1 e2, D r e1 e2 -> inner r e1 = true -> DT e1 e2.
  Proof.
    intros r e1 e2 H I. apply d_differ. inv H. unfold inner in I; simpl in I. constructor; simpl; auto.
    - intros _. match goal with X : _ -> same_text text text' |- _ => apply X end. rewrite I; auto.
    - rewrite I in *; auto.
  Qed.

  Lemma d_extract : forall b r e1 e2, D r e1 e2 -> inner r e1 = true ->
    (match to_native b (fst (extract e1)), to_native b (fst (extract e2)) with
     | Some n1, Some n2 => alike (VRaw n1) (VRaw n2) | None, None => True | _, _ => False end) /\
    D r (snd (extract e1)) (snd (extract e2)).
  Proof.
    intros b r e1 e2 H I. pose proof (d_whole H I) as H'. parts H. split.
    - pose proof (differ_inv H') as (T1&T2&T3&T4&T5&T6&T7&T8).
      assert (X : DT (fst (extract e1)) (fst (extract e2))) by (apply differ_make; simpl; auto using same_text_refl).
      apply (differ_text_native b) in X. destruct (to_native b (fst (extract e1))), (to_native b (fst (extract e2))); auto. constructor; auto.
    - apply d_make; simpl; auto using same_text_refl. intros Q; destruct (Hq Q); split; auto; reflexivity.
  Qed.

  Lemma d_unbound : forall e1 r e2, D r e1 e2 -> forall path, quiet = true ->
    Forall2 (fun u v => u_path u = u_path v /\ u_attr u = u_attr v /\ u_value u = u_value v) (get_unbound path e1) (get_unbound path e2).
  Proof.
    intros e1; induction e1 as [tag ns text tail a l next line IH] using elem_ind'; intros r e2 H; inv H. intros path Q. simpl.
    match goal with X : quiet = true -> _ |- _ => destruct (X Q) as [S1 S2] end. unfold same_stripped in *. rewrite S1, S2.
    apply Forall2_app; [|apply Forall2_app; [|apply Forall2_app]].
    1-3: match goal with |- Forall2 _ (map _ ?d) _ => induction d end; simpl; constructor; auto.
    match goal with F : Forall2 _ l l' |- _ => clear -Q IH F; induction F as [|x y l l' H F IHF] end; simpl; auto. inversion IH as [|? ? I1 I2]; subst x l.
    pose proof (d_inv H) as [Ht _]. rewrite Ht. apply Forall2_app; eauto.
  Qed.

  Lemma d_extra : quiet = true -> forall r e1 e2, D r e1 e2 -> forall title hide,
    match check_extra title e1 hide, check_extra title e2 hide with
    | Some r1, Some r2 => alike_verr r1 r2 | None, None => True | _, _ => False end.
  Proof.
    intros Q r e1 e2 H title hide; unfold check_extra. pose proof (d_unbound H [] Q) as U.
    destruct U as [|u v us vs Huv U]; auto. assert (F : forall us vs, Forall2 (fun u v => u_path u = u_path v /\ u_attr u = u_attr v /\ u_value u = u_value v) us vs ->
      Forall2 alike_lerr (map extra_error us) (map extra_error vs)).
    { clear. intros us vs F; induction F as [|u v us vs (A & B & C) F IH]; simpl; constructor; auto.
      unfold extra_error, unbound_loc. rewrite A, B, C. repeat split; simpl; repeat constructor. }
    repeat split; auto. apply F. constructor; auto.
  Qed.

  Variable ev : env.
  Hypothesis Htexts : env_texts T W ev.
  Hypothesis Hseen : texts_unseen T W quiet ev.
  Hypothesis Hforbid : quiet = true \/ forbids_nothing ev.

  Notation orel := (orel alike alike_verr).

  (** the two elements are related and have the tag [t] *)
  Definition sr (r : bool) (t : xtag) (s1 s2 : st) : Prop := D r (st_el s1) (st_el s2) /\ e_tag (st_el s1) = t.

  Definition sm (r : bool) (t : xtag) (p1 p2 : rres val) : Prop :=
    fst p1 = Fuel \/ (orel (fst p1) (fst p2) /\ sr r t (snd p1) (snd p2)).

  (** the two readers agree on elements with the tag [t] *)
  Definition rs (t : xtag) (r1 r2 : reader) : Prop :=
    forall r eas loc s1 s2, sr r t s1 s2 -> sm r t (r1 eas loc s1) (r2 eas loc s2).

  Lemma sm_ok : forall r t v1 v2 s1 s2, alike v1 v2 -> sr r t s1 s2 -> sm r t (Ok v1, s1) (Ok v2, s2).
  Proof. intros; right; simpl; auto. Qed.

  Lemma sm_exn : forall r t x s1 s2, (forall e, x <> XValidation e) -> sr r t s1 s2 -> sm r t (Raise x, s1) (Raise x, s2).
  Proof. intros r t x s1 s2 H Sr; right; simpl; split; auto. destruct x; auto. exfalso; eapply H; eauto. Qed.

  Lemma sm_err : forall r t a b s1 s2, alike_verr a b -> sr r t s1 s2 -> sm r t (Raise (XValidation a), s1) (Raise (XValidation b), s2).
  Proof. intros; right; simpl; auto. Qed.

  Lemma sr_set : forall r t e1 e2 s1 s2, D r e1 e2 -> e_tag e1 = t -> sr r t (set_el e1 s1) (set_el e2 s2).
  Proof. intros; split; auto. Qed.

  Lemma sr_st : forall r t e1 e2 m1 m2, D r e1 e2 -> e_tag e1 = t -> sr r t (St e1 m1) (St e2 m2).
  Proof. intros; split; auto. Qed.

  Lemma sr_note : forall r t loc s1 s2, sr r t s1 s2 -> sr r t (note_line loc s1) (note_line loc s2).
  Proof. intros r t loc s1 s2 [H1 H2]; split; simpl; auto. Qed.

  Hint Resolve sr_note al_refl : core.

  Lemma on_child_sm : forall r t u i (f1 f2 : st -> rres val) s1 s2, sr r t s1 s2 ->
    (forall c, nth_error (e_elems (st_el s1)) i = Some c -> e_tag c = u) ->
    (forall q c1 c2, sr q u c1 c2 -> nth_error (e_elems (st_el s1)) i = Some (st_el c1) -> sm q u (f1 c1) (f2 c2)) ->
    sm r t (on_child i f1 s1) (on_child i f2 s2).
  Proof.
    intros r t u i f1 f2 s1 s2 [Sr St0] Hc H; unfold on_child. pose proof (d_child Sr i) as C.
    destruct (nth_error (e_elems (st_el s1)) i) as [c1|] eqn:N1, (nth_error (e_elems (st_el s2)) i) as [c2|]; try contradiction.
    - specialize (H (inner r (st_el s1)) (St c1 (st_sm s1)) (St c2 (st_sm s2)) (conj C (Hc c1 eq_refl)) eq_refl).
      destruct (f1 _) as [o1 t1], (f2 _) as [o2 t2]. destruct H as [H|[H1 [H2 H3]]]; simpl in *; [left; auto|].
      right; simpl; split; auto. split; simpl; auto. apply d_put; auto.
    - apply sm_exn; [discriminate|split; auto].
  Qed.

  Lemma search_keeps : forall m e tag behind step, e_tag (snd (search m e tag behind step)) = e_tag e.
  Proof. intros m e tag behind step. destruct (search m e tag behind step) as [o e'] eqn:S. simpl. eapply search_tag; eauto. Qed.

  Lemma with_found_sm : forall r t tag m (f1 f2 : st -> rres val) s1 s2, sr r t s1 s2 ->
    (forall q c1 c2, sr q (TName tag) c1 c2 -> sm q (TName tag) (f1 c1) (f2 c2)) ->
    sm r t (with_found (pop_element (st_el s1) tag m) f1 s1) (with_found (pop_element (st_el s2) tag m) f2 s2).
  Proof.
    intros r t tag m f1 f2 s1 s2 [Sr St0] H. unfold pop_element. destruct (d_search Sr m tag false true) as [R Es].
    pose proof (search_keeps m (st_el s1) tag false true) as K. pose proof (@search_hit m (st_el s1) tag false true) as Hit.
    destruct (search m (st_el s1) tag false true) as [r1 e1], (search m (st_el s2) tag false true) as [r2 e2]. simpl in *. subst r2.
    destruct r1 as [|i|]; simpl.
    - apply sm_ok; auto. apply sr_set; auto. congruence.
    - apply on_child_sm with (u := TName tag); auto; [apply sr_set; auto; congruence|].
      intros c N. simpl in N. destruct (Hit i e1 eq_refl) as (c' & N' & E). congruence.
    - apply sm_exn; [discriminate|]. apply sr_set; auto. congruence.
  Qed.

  Lemma pop_keeps : forall k e, e_tag (snd (pop_attrib k e)) = e_tag e.
  Proof. intros k e; unfold pop_attrib. destruct (e_attrib e) as [d|]; auto. destruct (dget k d); auto. Qed.

  Lemma nill_keeps : forall e, e_tag (snd (is_element_nill e)) = e_tag e.
  Proof. intros e; unfold is_element_nill. pose proof (pop_keeps xsi_nil e) as P. destruct (pop_attrib xsi_nil e); auto. Qed.

  Lemma nill_d : forall r e1 e2, D r e1 e2 -> fst (is_element_nill e1) = fst (is_element_nill e2) /\
    D r (snd (is_element_nill e1)) (snd (is_element_nill e2)).
  Proof.
    intros r e1 e2 H. destruct (d_attr H xsi_nil) as [A Ea]. unfold is_element_nill, pop_attrib, attr_of in *.
    destruct (e_attrib e1) as [d1|], (e_attrib e2) as [d2|]; simpl in *;
      repeat match goal with |- context[dget ?k ?d] => destruct (dget k d) end; simpl in *; try discriminate; auto;
      try (injection A as ->; auto).
  Qed.

  Lemma pop_attrib_d : forall r e1 e2 k, D r e1 e2 -> fst (pop_attrib k e1) = fst (pop_attrib k e2) /\
    D r (snd (pop_attrib k e1)) (snd (pop_attrib k e2)).
  Proof.
    intros r e1 e2 k H. destruct (d_attr H k) as [A Ea]. split; auto. unfold pop_attrib, attr_of in *.
    destruct (e_attrib e1) as [d1|], (e_attrib e2) as [d2|]; simpl in *;
      repeat match goal with |- context[dget ?k ?d] => destruct (dget k d) end; simpl in *; try discriminate; auto.
  Qed.

  Lemma read_text_sm : forall t c n, (c = false -> tag_in T t = true) -> rs t (read_text c n) (read_text c n).
  Proof.
    intros t c n Ht r eas loc s1 s2 [Sr St0]; unfold read_text. destruct c; [apply sm_ok; auto; split; auto|].
    assert (X : forall e1 e2, D r e1 e2 -> e_tag e1 = t -> sm r t (let (t, e2) := pop_text e1 in (Ok (text_or_default eas t), set_el e2 s1))
                                          (let (t, e2) := pop_text e2 in (Ok (text_or_default eas t), set_el e2 s2))).
    { intros e1 e2 He Ht'. unfold pop_text. pose proof (d_text He) as Et. parts He.
      rewrite (@same_text_read (e_text e1) (e_text e2)) by (apply Hx; rewrite Ht', Ht; auto using orb_true_r).
      apply sm_ok; auto. apply sr_set; auto. }
    destruct n; simpl; [|apply X; auto].
    destruct (nill_d Sr) as [N En]. pose proof (nill_keeps (st_el s1)) as K.
    destruct (is_element_nill (st_el s1)) as [b1 e1], (is_element_nill (st_el s2)) as [b2 e2].
    simpl in *. subst b2. destruct b1; [apply sm_ok; auto; apply sr_set; auto; congruence|apply X; auto; congruence].
  Qed.

  Lemma read_attr_sm : forall t k c, rs t (read_attr k c) (read_attr k c).
  Proof.
    intros t k c r eas loc s1 s2 [Sr St0]; unfold read_attr. destruct c; [apply sm_ok; auto; split; auto|].
    destruct (pop_attrib_d k Sr) as [P Ep]. pose proof (pop_keeps k (st_el s1)) as K.
    destruct (pop_attrib k (st_el s1)) as [v1 e1], (pop_attrib k (st_el s2)) as [v2 e2].
    simpl in *. subst v2. apply sm_ok; auto. apply sr_set; auto. congruence.
  Qed.

  Lemma read_attrs_sm : forall t a, rs t (read_attrs a) (read_attrs a).
  Proof.
    intros t a r eas loc s1 s2 [Sr St0]; unfold read_attrs. destruct (as_computed a); [apply sm_ok; auto; split; auto|].
    pose proof (d_attrs Sr) as Ea. unfold pop_attributes. parts Sr. rewrite <- Ha.
    destruct (e_attrib (st_el s1)) as [d1|]; apply sm_ok; auto; apply sr_set; auto.
  Qed.

  Notation errs_rel := (errs_rel alike_verr).
  Notation derrs_rel := (derrs_rel alike_verr).
  Notation vals_rel := (vals_rel alike).

  Lemma alike_cases : forall v1 v2, alike v1 v2 -> (v1 = VNone /\ v2 = VNone) \/ (is_none v1 = false /\ is_none v2 = false).
  Proof. intros v1 v2 H. apply (@V_none_cases alike); auto. apply alike_none. Qed.

  Lemma read_items_sm : forall t r1 r2, rs t r1 r2 -> forall k r title hide eas loc idx res1 res2 errs1 errs2 s1 s2,
    Forall2 alike res1 res2 -> errs_rel errs1 errs2 -> sr r t s1 s2 ->
    sm r t (read_items k r1 title hide eas loc idx res1 errs1 s1) (read_items k r2 title hide eas loc idx res2 errs2 s2).
  Proof.
    intros t r1 r2 Hr k r; induction k as [|k IH]; intros title hide eas loc idx res1 res2 errs1 errs2 s1 s2 Hv He Sr; cbn [read_items].
    - left; auto.
    - specialize (Hr r eas (loc ++ [LIdx idx]) s1 s2 Sr).
      destruct (r1 eas (loc ++ [LIdx idx]) s1) as [o1 t1], (r2 eas (loc ++ [LIdx idx]) s2) as [o2 t2].
      destruct Hr as [Hr|[O Es]]; simpl in *; [subst; left; auto|].
      destruct o1 as [v1|x1|]; destruct o2 as [v2|x2|]; simpl in O; try contradiction; try (destruct x1; contradiction).
      + destruct (alike_cases O) as [[-> ->]|[N1 N2]].
        * inv He; [inv Hv; apply sm_ok; auto; constructor; auto|apply sm_err; auto; apply alike_verr_into; constructor; auto].
        * assert (X : sm r t (read_items k r1 title hide eas loc (S idx) (res1 ++ [v1]) errs1 t1)
                          (read_items k r2 title hide eas loc (S idx) (res2 ++ [v2]) errs2 t2)).
          { apply IH; auto. apply Forall2_app; auto. }
          destruct v1; try discriminate; destruct v2; try discriminate; exact X.
      + destruct x1; destruct x2; try contradiction; try discriminate; try (injection O as ->); try (apply sm_exn; [discriminate|exact Es]).
        apply IH; auto. apply errs_rel_app; auto.
      + left; auto.
      + left; auto.
      + left; auto.
  Qed.

  Lemma read_tuple_sm : forall t rs1 rs2, Forall2 (rs t) rs1 rs2 -> forall r title hide eas loc idx res1 res2 errs1 errs2 s1 s2,
    Forall2 alike res1 res2 -> errs_rel errs1 errs2 -> sr r t s1 s2 ->
    sm r t (read_tuple rs1 title hide eas loc idx res1 errs1 s1) (read_tuple rs2 title hide eas loc idx res2 errs2 s2).
  Proof.
    intros t rs1 rs2 H r; induction H as [|r1 r2 rs1 rs2 Hr H IH]; intros title hide eas loc idx res1 res2 errs1 errs2 s1 s2 Hv He Sr; cbn [read_tuple].
    - inv He; [|apply sm_err; auto; apply alike_verr_into; constructor; auto].
      assert (forallb is_none res1 = forallb is_none res2) as ->.
      { clear -Hv; induction Hv as [|x y l l' Hxy Hv IH]; simpl; auto. rewrite (alike_none Hxy), IH; auto. }
      apply sm_ok; auto. destruct (forallb is_none res2); auto. constructor; auto.
    - specialize (Hr r eas (loc ++ [LIdx idx]) s1 s2 Sr).
      destruct (r1 eas (loc ++ [LIdx idx]) s1) as [o1 t1], (r2 eas (loc ++ [LIdx idx]) s2) as [o2 t2].
      destruct Hr as [Hr|[O Es]]; simpl in *; [subst; left; auto|].
      destruct o1 as [v1|x1|]; destruct o2 as [v2|x2|]; simpl in O; try contradiction; try (destruct x1; contradiction); try (left; reflexivity).
      + apply IH; auto. apply Forall2_app; auto.
      + destruct x1; destruct x2; try contradiction; try discriminate; try (injection O as ->); try (apply sm_exn; [discriminate|exact Es]).
        apply IH; auto. apply errs_rel_app; auto.
  Qed.

  Lemma read_variants_sm : forall t rs1 rs2, Forall2 (rs t) rs1 rs2 -> forall r title hide eas loc errs1 errs2 s1 s2,
    derrs_rel errs1 errs2 -> sr r t s1 s2 ->
    sm r t (read_variants rs1 title hide eas loc errs1 s1) (read_variants rs2 title hide eas loc errs2 s2).
  Proof.
    intros t rs1 rs2 H r; induction H as [|r1 r2 rs1 rs2 Hr H IH]; intros title hide eas loc errs1 errs2 s1 s2 He [Sr St0]; cbn [read_variants].
    - pose proof (derrs_into He) as Hi. inv He; [apply sm_ok; auto; split; auto|]. apply sm_err; [apply alike_verr_into; exact Hi|].
      apply sr_set; auto. apply d_step; auto.
    - rewrite !create_snapshot_id.
      specialize (Hr r eas loc (set_el (st_el s1) s1) (set_el (st_el s2) s2) (conj Sr St0)).
      destruct (r1 eas loc _) as [o1 t1], (r2 eas loc _) as [o2 t2].
      destruct Hr as [Hr|[O [Es Et]]]; simpl in *; [subst; left; auto|].
      destruct o1 as [v1|x1|]; destruct o2 as [v2|x2|]; simpl in O; try contradiction; try (destruct x1; contradiction); try (left; reflexivity).
      + destruct (alike_cases O) as [[-> ->]|[N1 N2]].
        * apply IH; auto. split; auto.
        * assert (X : sm r t (Ok v1, St (apply_snapshot (st_el s1) (st_el t1)) (st_sm t1)) (Ok v2, St (apply_snapshot (st_el s2) (st_el t2)) (st_sm t2))).
          { apply sm_ok; auto. apply sr_st; auto. apply d_apply; auto. }
          destruct v1; try discriminate; destruct v2; try discriminate; exact X.
      + destruct x1; destruct x2; try contradiction; try discriminate; try (injection O as ->); try (apply sm_exn; [discriminate|split; auto]).
        apply IH; [|split; auto]. replace (ve_title e) with (ve_title e0) by (symmetry; apply O). apply derrs_set; auto.
  Qed.

  Lemma read_tagged_sm : forall t rp1 rp2 vs, (forall tag p, In (tag, p) vs -> rs t (rp1 p) (rp2 p)) -> forall a mode r eas loc s1 s2, sr r t s1 s2 ->
    sm r t (read_tagged rp1 a mode vs eas loc s1) (read_tagged rp2 a mode vs eas loc s2).
  Proof.
    intros t rp1 rp2 vs H a mode r eas loc; induction vs as [|[tag p] vs IH]; intros s1 s2 [Sr St0]; cbn [read_tagged]; [apply sm_ok; auto; split; auto|].
    assert (IH' : forall s1 s2, sr r t s1 s2 -> sm r t (read_tagged rp1 a mode vs eas loc s1) (read_tagged rp2 a mode vs eas loc s2))
      by (apply IH; intros; eapply H; right; eauto).
    unfold find_element. destruct (d_search Sr mode (px_name p) false false) as [R Es].
    pose proof (search_keeps mode (st_el s1) (px_name p) false false) as K.
    destruct (search mode (st_el s1) (px_name p) false false) as [q1 e1], (search mode (st_el s2) (px_name p) false false) as [q2 e2].
    simpl in *. subst q2. destruct q1 as [|i|].
    - apply IH'. apply sr_set; auto. congruence.
    - pose proof (d_child Es i) as C. destruct (nth_error (e_elems e1) i) as [c1|], (nth_error (e_elems e2) i) as [c2|]; try contradiction.
      + assert (get_attrib a c1 = get_attrib a c2) as -> by (apply (d_attr C a)).
        destruct (match get_attrib a c2 with Some t => String.eqb t tag | None => false end).
        * apply (H tag p (or_introl eq_refl)). split; simpl; auto. congruence.
        * apply IH'. apply sr_set; auto. congruence.
      + apply sm_exn; [discriminate|]. apply sr_set; auto. congruence.
    - apply sm_exn; [discriminate|]. apply sr_set; auto. congruence.
  Qed.

  (** the element at the end of a path of indices *)
  Fixpoint at_path (idxs : list nat) (e : elem) : option elem :=
    match idxs with [] => Some e | i :: l => match nth_error (e_elems e) i with Some c => at_path l c | None => None end end.

  Lemma find_sub_end : forall path m e idxs e', find_sub_element path m e = (Some idxs, e') -> path <> [] ->
    length idxs = length path -> forall d, at_path idxs e' = Some d -> e_tag d = TName (last path "").
  Proof.
    intros path; induction path as [|tag rest IH]; intros m e idxs e' H Hp L d A; [congruence|]. cbn [find_sub_element] in H. unfold find_element in H.
    destruct (search m e tag true true) as [[|i|] e1] eqn:Q.
    - injection H as <- <-. discriminate.
    - apply search_hit in Q. destruct Q as (c & N & Ec). destruct rest as [|q rest'].
      + injection H as <- <-. simpl in A. rewrite N in A. injection A as <-. auto.
      + rewrite N in H. destruct (find_sub_element (q :: rest') m c) as [[is'|] c'] eqn:F; [|discriminate].
        injection H as <- <-. simpl in A. rewrite nth_error_list_upd_same in A by (apply nth_error_Some; congruence).
        change (last (tag :: q :: rest') "") with (last (q :: rest') ""). eapply IH; eauto. discriminate.
    - discriminate.
  Qed.

  Lemma on_path_sm : forall u (f1 f2 : st -> rres val), (forall q c1 c2, sr q u c1 c2 -> sm q u (f1 c1) (f2 c2)) ->
    forall path r t s1 s2, sr r t s1 s2 -> (forall d, at_path path (st_el s1) = Some d -> e_tag d = u) ->
    sm r t (on_path path f1 s1) (on_path path f2 s2).
  Proof.
    intros u f1 f2 H path; induction path as [|i path IH]; intros r t s1 s2 [Sr St0] A; cbn [on_path].
    - simpl in A. specialize (A _ eq_refl). rewrite St0 in A. subst u. apply H. split; auto.
    - unfold on_child. pose proof (d_child Sr i) as C. simpl in A.
      destruct (nth_error (e_elems (st_el s1)) i) as [c1|] eqn:N1, (nth_error (e_elems (st_el s2)) i) as [c2|]; try contradiction.
      + specialize (IH (inner r (st_el s1)) (e_tag c1) (St c1 (st_sm s1)) (St c2 (st_sm s2)) (conj C eq_refl) A).
        destruct (on_path path f1 _) as [o1 t1], (on_path path f2 _) as [o2 t2]. destruct IH as [H0|[H1 [H2 H3]]]; simpl in *; [left; auto|].
        right; simpl; split; auto. split; simpl; auto. apply d_put; auto.
      + apply sm_exn; [discriminate|split; auto].
  Qed.

  Lemma find_sub_d : forall path m r e1 e2, D r e1 e2 -> fst (find_sub_element path m e1) = fst (find_sub_element path m e2) /\
    D r (snd (find_sub_element path m e1)) (snd (find_sub_element path m e2)) /\ e_tag (snd (find_sub_element path m e1)) = e_tag e1.
  Proof.
    intros path m; induction path as [|tag rest IH]; intros r e1 e2 H; cbn [find_sub_element]; auto.
    unfold find_element. destruct (d_search H m tag true true) as [R Es]. pose proof (search_keeps m e1 tag true true) as K.
    destruct (search m e1 tag true true) as [q1 t1], (search m e2 tag true true) as [q2 t2]. simpl in *. subst q2.
    destruct q1 as [|i|]; auto. destruct rest as [|x rest']; auto.
    pose proof (d_child Es i) as C. destruct (nth_error (e_elems t1) i) as [c1|], (nth_error (e_elems t2) i) as [c2|]; try contradiction; auto.
    destruct (IH _ c1 c2 C) as (F & Ef & _). destruct (find_sub_element (x :: rest') m c1) as [o1 d1], (find_sub_element (x :: rest') m c2) as [o2 d2].
    simpl in *. subst o2. split; auto. split; auto. apply d_put; auto.
  Qed.

  Lemma read_wrap_sm : forall t path mode c r1 r2, rs (TName (last path "")) r1 r2 -> rs t (read_wrap path mode c r1) (read_wrap path mode c r2).
  Proof.
    intros t path mode c r1 r2 H r eas loc s1 s2 [Sr St0]; unfold read_wrap. destruct c; [apply sm_ok; auto; split; auto|].
    destruct (find_sub_d path mode Sr) as (F & Ef & K). pose proof (@find_sub_end path mode (st_el s1)) as Hit.
    destruct (find_sub_element path mode (st_el s1)) as [o1 e1], (find_sub_element path mode (st_el s2)) as [o2 e2]. simpl in *. subst o2.
    assert (Q : sr r t (set_el e1 s1) (set_el e2 s2)) by (apply sr_set; auto; congruence).
    destruct o1 as [idxs|]; [|apply sm_exn; [discriminate|auto]].
    destruct (negb (Nat.eqb (length idxs) 0) && Nat.eqb (length idxs) (length path)) eqn:L; [|apply sm_ok; auto].
    apply andb_prop in L. destruct L as [L1 L2]. apply Nat.eqb_eq in L2.
    assert (path <> []) by (intros ->; simpl in L2; rewrite L2 in L1; discriminate).
    apply on_path_sm with (u := TName (last path "")); auto.
    intros d A. eapply Hit; eauto.
  Qed.

  Lemma read_raw_sm : forall t name mode c, W name = true -> rs t (read_raw (en_backend ev) name mode c) (read_raw (en_backend ev) name mode c).
  Proof.
    intros t name mode c Hw r eas loc s1 s2 Sr; unfold read_raw. destruct c; [apply sm_ok; auto|].
    apply with_found_sm; auto. intros q c1 c2 [C Ct].
    assert (I : inner q (st_el c1) = true) by (unfold inner; rewrite Ct; simpl; rewrite Hw; apply orb_true_r).
    destruct (d_extract (en_backend ev) C I) as [X Ex].
    assert (K : e_tag (snd (extract (st_el c1))) = TName name) by exact Ct.
    destruct (extract (st_el c1)) as [f1 d1], (extract (st_el c2)) as [f2 d2]. simpl in *.
    destruct (to_native (en_backend ev) f1), (to_native (en_backend ev) f2); try contradiction.
    - apply sm_ok; auto. apply sr_st; auto.
    - apply sm_exn; [discriminate|]. apply sr_st; auto.
  Qed.

  Lemma validate_sm : forall cls m, en_model ev cls = Some m -> forall i1 i2 r s1 s2, vrel alike i1 i2 -> D r (st_el s1) (st_el s2) ->
    orel (validate_result m i1 s1) (validate_result m i2 s2).
  Proof.
    intros cls m Em i1 i2 r s1 s2 I Sr; unfold validate_result.
    assert (Y : orel match md_validate m i1 with
                     | Valid v => Ok v
                     | Invalid err => Raise (XValidation (set_validation_error_sourceline err (st_sm s1) (md_hide m)))
                     | Crashed w => Raise (XUser w)
                     end
                     match md_validate m i2 with
                     | Valid v => Ok v
                     | Invalid err => Raise (XValidation (set_validation_error_sourceline err (st_sm s2) (md_hide m)))
                     | Crashed w => Raise (XUser w)
                     end).
    { destruct (Hseen cls Em) as [_ HV].
      assert (X : match md_validate m i1, md_validate m i2 with Valid w, Valid w' => alike w w' | Invalid x, Invalid x' => alike_verr x x' | Crashed a, Crashed a' => a = a' | _, _ => False end).
      { destruct i1, i2; simpl in I; try contradiction; [apply HV; auto|]. destruct (md_validate m None); [constructor|apply alike_verr_refl|auto]. }
      destruct (md_validate m i1), (md_validate m i2); try contradiction; auto; [|subst; simpl; auto]. simpl. apply alike_verr_lines; auto. }
    destruct (md_forbid m) eqn:Fb; auto. destruct Hforbid as [Q|Q]; [|rewrite (Q _ _ Em) in Fb; discriminate].
    pose proof (d_extra Q Sr (md_name m) (md_hide m)) as X.
    destruct (check_extra (md_name m) (st_el s1) (md_hide m)), (check_extra (md_name m) (st_el s2) (md_hide m)); try contradiction; auto.
  Qed.

  Definition fsm (r : bool) (t : xtag) (p1 p2 : rres (list (string * val) * dict verr)) : Prop :=
    fst p1 = Fuel \/
    (match fst p1, fst p2 with
     | Ok (v1, x1), Ok (v2, x2) => vals_rel v1 v2 /\ derrs_rel x1 x2
     | Raise x, Raise y => x = y /\ forall e, x <> XValidation e
     | _, _ => False
     end /\ sr r t (snd p1) (snd p2)).

  (** the field may be read from an element with the tag [t] *)
  Definition fits (t : xtag) (s : ser) : Prop := texts_in T W ev s /\ (own_text s -> tag_in T t = true).

  Lemma read_fields_sm : forall n t cls m, en_model ev cls = Some m ->
    (forall s, fits t s -> rs t (read n ev s) (read n ev s)) ->
    forall fs, Forall (fun nf => fits t (snd nf)) fs -> forall r eas res1 res2 errs1 errs2 s1 s2,
    vals_rel res1 res2 -> derrs_rel errs1 errs2 -> sr r t s1 s2 ->
    fsm r t (read_fields (read n ev) m fs eas res1 errs1 s1) (read_fields (read n ev) m fs eas res2 errs2 s2).
  Proof.
    intros n t cls m Em Hr fs Hf r eas; induction Hf as [|[name s] fs Hs Hf IH]; intros res1 res2 errs1 errs2 s1 s2 Hv He Sr; cbn [read_fields].
    - right; simpl; auto.
    - assert (X : sm r t (match md_cval m name with
                       | Some custom => run_custom custom (note_line [LKey name] s1)
                       | None => read n ev s eas [LKey name] (note_line [LKey name] s1) end)
                      (match md_cval m name with
                       | Some custom => run_custom custom (note_line [LKey name] s2)
                       | None => read n ev s eas [LKey name] (note_line [LKey name] s2) end)).
      { clear IH. destruct (md_cval m name) as [f|] eqn:Cv.
        - destruct Sr as [Sr St0]. destruct (Hseen cls Em) as [HC _]. destruct (HC name f Cv r _ _ Sr) as (C1 & C2 & C3).
          unfold run_custom. simpl. destruct (f (st_el s1)) as [o1 e1], (f (st_el s2)) as [o2 e2]. simpl in *.
          destruct o1 eqn:O1; [| |left; auto]; (right; cbn [fst snd]; split; [apply alike_out_orel; [discriminate|exact C1]|split; simpl; auto; congruence]).
        - apply Hr; auto. }
      destruct (match md_cval m name with Some _ => run_custom _ (note_line _ s1) | None => _ end) as [o1 t1].
      destruct (match md_cval m name with Some _ => run_custom _ (note_line _ s2) | None => _ end) as [o2 t2].
      destruct X as [X|[O Es]]; simpl in *; [subst; left; auto|].
      destruct o1 as [v1|x1|]; destruct o2 as [v2|x2|]; simpl in O; try contradiction; try (destruct x1; contradiction); try (left; reflexivity).
      + destruct (alike_cases O) as [[-> ->]|[N1 N2]].
        * apply IH; auto.
        * assert (Y : let key := match dget name (md_valias m) with Some a => a | None => name end in
             fsm r t (read_fields (read n ev) m fs eas (dset key v1 res1) errs1 t1) (read_fields (read n ev) m fs eas (dset key v2 res2) errs2 t2)).
          { simpl. apply IH; auto. apply vals_set; auto. }
          destruct v1; try discriminate; destruct v2; try discriminate; exact Y.
      + destruct x1; destruct x2; try contradiction; try discriminate; try (injection O as ->); try (right; simpl; split; [split; [auto|discriminate]|auto]).
        apply IH; auto. apply derrs_set; auto.
  Qed.

  Lemma read_model_sm : forall n t cls m, en_model ev cls = Some m -> (takes_text m -> tag_in T t = true) ->
    (forall s, fits t s -> rs t (read n ev s) (read n ev s)) ->
    rs t (read_model (read n ev) m) (read_model (read n ev) m).
  Proof.
    intros n t cls m Em Ht Hr r eas loc s1 s2 Sr.
    assert (Hf : Forall (fun nf => fits t (snd nf)) (md_fields m)).
    { pose proof (Htexts cls Em) as F. unfold takes_text in Ht. rewrite Forall_forall in *. intros nf Hin. split; auto.
      intros O. apply Ht. apply Exists_exists. eauto. }
    unfold read_model. destruct (md_root m) eqn:R.
    - unfold read_root_model. destruct (md_fields m) as [|[nm s] fs].
      + apply sm_exn; [discriminate|auto].
      + inv Hf. specialize (Hr s ltac:(auto) r eas loc s1 s2 Sr). destruct (read n ev s eas loc s1) as [o1 t1], (read n ev s eas loc s2) as [o2 t2].
        destruct Hr as [Hr|[O Es]]; simpl in *; [subst; left; auto|].
        destruct o1 as [v1|x1|]; destruct o2 as [v2|x2|]; simpl in O; try contradiction; try (destruct x1; contradiction); try (left; reflexivity).
        * right; simpl. split; auto. eapply validate_sm; [exact Em| |apply Es]. rewrite (alike_none O). destruct (is_none v2); simpl; auto.
        * destruct x1; destruct x2; try contradiction; try discriminate; try (injection O as ->); try (apply sm_exn; [discriminate|exact Es]).
          apply sm_err; auto. apply alike_verr_into. constructor; auto.
    - unfold read_plain_model.
      pose proof (@read_fields_sm n t cls m Em Hr _ Hf r eas [] [] [] [] s1 s2 ltac:(constructor) ltac:(constructor) Sr) as F.
      destruct (read_fields (read n ev) m (md_fields m) eas [] [] s1) as [o1 t1].
      destruct (read_fields (read n ev) m (md_fields m) eas [] [] s2) as [o2 t2].
      destruct F as [F|[O Es]]; simpl in *; [subst; left; auto|].
      destruct o1 as [[v1 x1]|x1|]; destruct o2 as [[v2 x2]|x2|]; simpl in O; try contradiction; try (destruct x1; contradiction); try (left; reflexivity).
      + destruct O as [Ov Ox]. pose proof (derrs_into Ox) as Hi. inv Ox.
        * right; simpl. split; auto. eapply validate_sm; [exact Em| |apply Es]. simpl. constructor; auto.
        * apply sm_err; auto. apply alike_verr_into; exact Hi.
      + destruct O as [<- Ox]. apply sm_exn; auto.
  Qed.

  Lemma read_proxy_sm : forall n, (forall t s, fits t s -> rs t (read n ev s) (read n ev s)) ->
    forall t p, proxy_texts T ev p -> rs t (read_proxy ev (read n ev) p) (read_proxy ev (read n ev) p).
  Proof.
    intros n Hr t p Hp r eas loc s1 s2 Sr; unfold read_proxy. destruct (en_model ev (px_model p)) as [m|] eqn:Em.
    - destruct (px_computed p); [apply sm_ok; auto|]. apply with_found_sm; auto. intros q c1 c2 [C Ct].
      simpl. destruct (nill_d C) as [N En]. pose proof (nill_keeps (st_el c1)) as K.
      destruct (is_element_nill (st_el c1)) as [b1 e1], (is_element_nill (st_el c2)) as [b2 e2]. simpl in *. subst b2.
      assert (X : forall m1 m2, sr q (TName (px_name p)) (St e1 m1) (St e2 m2)) by (intros; apply sr_st; auto; congruence).
      destruct b1; [apply sm_ok; auto; apply X|]. eapply read_model_sm; [exact Em| | |apply X]; auto. intros TT. simpl. eauto.
    - apply sm_exn; [discriminate|auto].
  Qed.

  Lemma Forall2_map_self : forall A B (R : B -> B -> Prop) (f : A -> B) (P : A -> Prop) l, Forall P l -> (forall x, P x -> R (f x) (f x)) ->
    Forall2 R (map f l) (map f l).
  Proof. intros A B R f P l H Hf; induction H; simpl; constructor; auto. Qed.

  Lemma read_sm : forall n t s, fits t s -> rs t (read n ev s) (read n ev s).
  Proof.
    intros n; induction n as [|n IH]; intros t s [Hs Ho] r eas loc s1 s2 Sr; [left; reflexivity|]. cbn [read]. inv Hs; cbn [read_step].
    - apply read_text_sm; auto. intros ->. apply Ho. constructor.
    - apply read_attr_sm; auto.
    - unfold read_elem. destruct c; [apply sm_ok; auto|]. apply with_found_sm; auto.
      intros q c1 c2 C. apply read_text_sm; auto.
    - apply read_attrs_sm; auto.
    - unfold read_map_elem. destruct (as_computed a); [apply sm_ok; auto|]. apply with_found_sm; auto.
      intros q c1 c2 C. apply read_attrs_sm; auto.
    - unfold read_homo. destruct c; [apply sm_ok; auto|]. apply read_items_sm; auto; [|constructor]. apply IH. split; auto.
      intros O. apply Ho. constructor; auto.
    - unfold read_hetero. destruct c; [apply sm_ok; auto|]. apply read_tuple_sm; auto; [|constructor].
      apply Forall2_map_self with (P := fits t); auto. rewrite Forall_forall in *. intros x Hx. split; auto.
      intros O. apply Ho. constructor. apply Exists_exists; eauto.
    - unfold read_union_prim. destruct c; [apply sm_ok; auto|]. apply IH; auto. split; auto. intros O. apply Ho. constructor; auto.
    - unfold read_union_model. destruct c; [apply sm_ok; auto|]. apply read_variants_sm; auto; [|constructor].
      apply Forall2_map_self with (P := proxy_texts T ev); auto. intros p Hp. apply read_proxy_sm; auto.
    - destruct c; [apply sm_ok; auto|]. apply read_tagged_sm; auto. intros tag p Hin. apply read_proxy_sm; auto.
      rewrite Forall_forall in *. match goal with H : forall x, In x vs -> _ |- _ => apply (H (tag, p) Hin) end.
    - apply read_wrap_sm; auto. apply IH. split; auto.
    - apply read_raw_sm; auto.
    - apply read_proxy_sm; auto.
  Qed.

  Lemma texts_from : forall n1 b r n2, same_but_texts T W quiet r n1 n2 -> D r (from_native b n1) (from_native b n2).
  Proof.
    assert (X : forall (P : native -> Prop) b q l l', Forall P l ->
      (forall x y, P x -> same_but_texts T W quiet q x y -> D q (from_native b x) (from_native b y)) ->
      Forall2 (same_but_texts T W quiet q) (no_comments l) (no_comments l') ->
      Forall2 (D q) (flat_map (fun c => if is_xml_comment c then [] else [from_native b c]) l)
                    (flat_map (fun c => if is_xml_comment c then [] else [from_native b c]) l')).
    { intros P b q l l' HP H F.
      assert (Y : forall l, flat_map (fun c => if is_xml_comment c then [] else [from_native b c]) l = map (from_native b) (no_comments l)).
      { clear. intros l; induction l as [|c l IH]; simpl; auto. destruct (is_xml_comment c); simpl; rewrite IH; auto. }
      rewrite !Y. assert (HP' : Forall P (no_comments l)) by (rewrite Forall_forall in *; intros x Hx; apply filter_In in Hx; apply HP, Hx).
      clear -F HP' H. induction F; simpl; constructor; inv HP'; auto. }
    intros n1 b; induction n1 as [tag ns text tail a cs line IH| |] using native_ind'; intros r n2 H; inv H; simpl.
    - constructor; simpl; auto. eapply X; eauto.
    - constructor; simpl; auto.
      + intros Q. rewrite !orb_false_r in Q. match goal with H : r = true -> _ |- _ => apply H; auto end.
      + intros Q. rewrite !orb_false_r in Q. match goal with H : r = true -> _ |- _ => apply H; auto end.
  Qed.

  Lemma texts_run : forall n cls m root1 root2 eas, en_model ev cls = Some m -> (takes_text m -> T (md_elem_name m) = true) ->
    same_but_texts T W quiet false root1 root2 ->
    from_xml_tree n ev cls root1 eas = Fuel \/ orel (from_xml_tree n ev cls root1 eas) (from_xml_tree n ev cls root2 eas).
  Proof.
    intros n cls m root1 root2 eas Em Ht H; unfold from_xml_tree. rewrite Em.
    assert (native_tag root1 = native_tag root2) as -> by (inv H; auto).
    destruct (tag_is (native_tag root2) (md_elem_name m)) eqn:Q; [|right; reflexivity]. apply tag_is_eq in Q.
    pose proof (texts_from (en_backend ev) H) as Hd.
    assert (Et : e_tag (from_native (en_backend ev) root1) = TName (md_elem_name m)) by (inv H; simpl in *; congruence).
    pose proof (@read_model_sm n (TName (md_elem_name m)) cls m Em Ht (@read_sm n _) false eas []
      (St (from_native (en_backend ev) root1) []) (St (from_native (en_backend ev) root2) []) (conj Hd Et)) as X.
    destruct X as [X|[X _]]; auto.
  Qed.

  Lemma texts_sym : forall r n1 n2, same_but_texts T W quiet r n1 n2 -> same_but_texts T W quiet r n2 n1.
  Proof.
    assert (X : forall (P : native -> Prop) q l l', Forall P l ->
      (forall x y, P x -> same_but_texts T W quiet q x y -> same_but_texts T W quiet q y x) ->
      Forall2 (same_but_texts T W quiet q) l l' -> Forall2 (same_but_texts T W quiet q) l' l).
    { intros P q l l' HP H F. induction F; constructor; inv HP; eauto. }
    intros r n1; revert r; induction n1 as [tag ns text tail a cs line IH| |] using native_ind'; intros r n2 H; inv H; constructor; unfold same_text, same_stripped in *; auto.
    1,2,3,5,6: intros Q; repeat match goal with H : ?x = true -> _, Q : ?x = true |- _ => specialize (H Q) end; intuition auto.
    eapply X; [| |eassumption].
    - instantiate (1 := fun x => forall r n2, same_but_texts T W quiet r x n2 -> same_but_texts T W quiet r n2 x).
      rewrite Forall_forall in *. intros x Hx. apply filter_In in Hx. apply IH, Hx.
    - intros x y Hx; apply Hx.
  Qed.

  Lemma texts_read : forall n cls m root1 root2 eas, en_model ev cls = Some m -> (takes_text m -> T (md_elem_name m) = true) ->
    same_but_texts T W quiet false root1 root2 ->
    alike_out (from_xml_tree n ev cls root1 eas) (from_xml_tree n ev cls root2 eas).
  Proof.
    intros n cls m root1 root2 eas Em Ht H.
    pose proof (@texts_run n cls m _ _ eas Em Ht H) as A. pose proof (@texts_run n cls m _ _ eas Em Ht (texts_sym H)) as B.
    destruct (from_xml_tree n ev cls root1 eas) as [v|x|], (from_xml_tree n ev cls root2 eas) as [w|y|], A as [A|A], B as [B|B];
      simpl in *; try discriminate; try contradiction; auto; try (destruct x; contradiction); try (destruct y; contradiction).
  Qed.
End Layout.

(** ---- indentation ---- *)

Lemma blank_strips : forall s, blank s -> nonblank (Some s) = None.
Proof.
  intros s H. pose proof (PfStray.nonempty_blank (Some s)) as X. destruct (nonblank (Some s)) as [t|] eqn:E; auto. exfalso.
  assert (Y : PfStray.nonempty_o (Some t) = false) by (apply X; intros u Hu; injection Hu as <-; auto). discriminate.
Qed.

Lemma pad_same : forall s o, blank s -> same_stripped o (pad_over s o).
Proof.
  intros s o H. unfold same_stripped, pad_over. destruct (nonblank o) eqn:E; [auto|]. rewrite (blank_strips H); auto.
Qed.

Fixpoint indents_of (pad : nat -> string) (d : nat) (l : list native) : list native :=
  match l with
  | [] => []
  | [c] => [set_native_tail (pad_over (pad d)) (indent pad (S d) c)]
  | c :: l' => set_native_tail (pad_over (pad (S d))) (indent pad (S d) c) :: indents_of pad d l'
  end.

Lemma indent_elem : forall pad d tag ns text tail a cs line, indent pad d (NElem tag ns text tail a cs line) =
  NElem tag ns (match cs with [] => text | _ => pad_over (pad (S d)) text end) tail a (indents_of pad d cs) line.
Proof.
  intros. simpl. f_equal. clear text. induction cs as [|c cs IH]; auto. destruct cs as [|c' cs']; auto.
  cbn [indents_of]. f_equal. exact IH.
Qed.

Lemma no_comments_cons : forall c l, no_comments (c :: l) = no_comments [c] ++ no_comments l.
Proof. intros c l; unfold no_comments; simpl. destruct (negb (is_xml_comment c)); auto. Qed.

Lemma indent_same : forall T W pad, (forall d, blank (pad d)) -> forall n, indentable T W n -> is_xml_comment n = false -> forall d,
  same_but_texts T W true false n (indent pad d n).
Proof.
  intros T W pad Hp n; induction n as [tag ns text tail a cs line IH| |] using native_ind'; intros H C d; [|discriminate|].
  - inversion H as [? ? ? ? ? ? ? Ht Hw F| |]; subst. rewrite indent_elem. constructor; rewrite ?Hw; simpl; try discriminate.
    + intros Q. destruct cs; [reflexivity|]. rewrite Ht in Q; discriminate.
    + intros _. split; [|reflexivity]. destruct cs; [reflexivity|]. apply pad_same; auto.
    + assert (Y : forall c e, (is_xml_comment c = false -> same_but_texts T W true false c (indent pad (S d) c)) ->
        indentable T W c -> blank e ->
        is_xml_comment (set_native_tail (pad_over e) (indent pad (S d) c)) = is_xml_comment c /\
        (is_xml_comment c = false -> same_but_texts T W true false c (set_native_tail (pad_over e) (indent pad (S d) c)))).
      { intros c e Hc Hi He. destruct c as [t1 n1 x1 l1 a1 c1 z1|x1 l1|x1 l1 a1 z1]; simpl in *; split; auto; try discriminate.
        - intros Q. specialize (Hc Q). inv Hc. inv Hi.
          match goal with Hw : W t1 = false |- _ => rewrite Hw in * end.
          constructor; match goal with Hw : W t1 = false |- _ => rewrite ?Hw end; simpl in *; auto; try discriminate.
          intros Q'. match goal with K : true = true -> _ |- _ => destruct (K eq_refl) end. split; auto. apply pad_same; auto.
        - intros _. constructor; [discriminate|]. intros _. split; [reflexivity|]. apply pad_same; auto. }
      clear H Ht. induction cs as [|c cs IHc]; [constructor|]. inversion IH as [|? ? I1 I2]; inversion F as [|? ? F1 F2]; subst.
      assert (Z : forall e, blank e -> Forall2 (same_but_texts T W true false) (no_comments [c]) (no_comments [set_native_tail (pad_over e) (indent pad (S d) c)])).
      { intros e He. destruct (Y c e (fun Q => I1 F1 Q (S d)) F1 He) as [Y1 Y2]. unfold no_comments; simpl. rewrite Y1. destruct (is_xml_comment c); simpl; auto. }
      destruct cs as [|c' cs']; [apply Z; auto|].
      change (indents_of pad d (c :: c' :: cs')) with (set_native_tail (pad_over (pad (S d))) (indent pad (S d) c) :: indents_of pad d (c' :: cs')).
      rewrite (no_comments_cons c), (no_comments_cons (set_native_tail _ _)). apply Forall2_app; auto.
  - simpl. constructor; [discriminate|]. intros _; split; reflexivity.
Qed.

Lemma texts_reparsed : forall T W q b r a, same_but_texts T W q r a b -> forall c, reparsed b c -> same_but_texts T W q r a c.
Proof.
  intros T W q b; induction b as [tag ns text tail at0 cs line IH|text tail|text tail at0 line] using native_ind'; intros r a H c R; inv H; inv R.
  - constructor; auto.
    1,2: intros Q; unfold same_text in *; repeat match goal with H : ?x = true -> _, Q : ?x = true |- _ => specialize (H Q) end; congruence.
    + intros Q; repeat match goal with H : ?x = true -> _, Q : ?x = true |- _ => specialize (H Q) end. unfold same_stripped in *.
      repeat match goal with H : same_text _ _ |- _ => apply same_text_nonblank in H end. intuition congruence.
    + match goal with F1 : Forall2 (same_but_texts _ _ _ _) ?l (no_comments cs), F2 : Forall2 reparsed cs ?ds |- _ =>
        revert F1 F2; generalize l ds; clear -IH end.
      intros l ds F1 F2. revert l F1. induction F2 as [|x y cs ds Hxy F2 IHF]; simpl; intros l F1; [inv F1; constructor|].
      inversion IH as [|? ? I1 I2]; subst. assert (is_xml_comment y = is_xml_comment x) as E by (inv Hxy; auto). rewrite E.
      destruct (is_xml_comment x); simpl in *; auto. inv F1. constructor; auto.
  - constructor; intros Q; repeat match goal with H : ?x = true -> _, Q : ?x = true |- _ => specialize (H Q) end; unfold same_stripped in *.
    + unfold same_text in *. intuition congruence.
    + repeat match goal with H : same_text _ _ |- _ => apply same_text_nonblank in H end. intuition congruence.
Qed.
