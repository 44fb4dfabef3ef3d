(** PfSim2.v -- instances of the two-run simulation: computed fields, comments and lines, back ends,
    attribute order. *)

From Verif Require Import Base Elem Native Errs Names Ser Read Api SpecElem SpecRead SpecSim PfElem PfField PfSim.

Lemma Forall2_nth : forall A B (R : A -> B -> Prop) l l', Forall2 R l l' -> forall i,
  match nth_error l i, nth_error l' i with Some x, Some y => R x y | None, None => True | _, _ => False end.
Proof. intros A B R l l' H; induction H; intros [|i]; simpl; auto; apply IHForall2. Qed.

Lemma Forall2_list_upd : forall A B (R : A -> B -> Prop) l l', Forall2 R l l' -> forall i x y, R x y ->
  Forall2 R (list_upd i x l) (list_upd i y l').
Proof. intros A B R l l' H; induction H; intros [|i] a b Hab; simpl; constructor; auto. Qed.

Lemma Forall2_list_swap : forall A B (R : A -> B -> Prop) l l', Forall2 R l l' -> forall i j,
  Forall2 R (list_swap i j l) (list_swap i j l').
Proof.
  intros A B R l l' H i j; unfold list_swap. pose proof (Forall2_nth H i) as Hi. pose proof (Forall2_nth H j) as Hj.
  destruct (nth_error l i), (nth_error l' i); try contradiction; auto.
  destruct (nth_error l j), (nth_error l' j); try contradiction; auto.
  apply Forall2_list_upd; auto. apply Forall2_list_upd; auto.
Qed.

Lemma Forall2_skipn : forall A B (R : A -> B -> Prop) l l', Forall2 R l l' -> forall n, Forall2 R (skipn n l) (skipn n l').
Proof. intros A B R l l' H; induction H; intros [|n]; simpl; auto. Qed.

Lemma Forall2_eq : forall A (l l' : list A), Forall2 eq l l' -> l = l'.
Proof. intros A l l' H; induction H; subst; auto. Qed.

Section Differ.
  Variable T : option string -> option string -> Prop.
  Variable A : option (dict string) -> option (dict string) -> Prop.
  Variable L : Z -> Z -> Prop.
  Variable N : option nsmap -> option nsmap -> Prop.
  Let D := differ T A L N.

  Lemma differ_inv : forall e e', D e e' -> e_tag e = e_tag e' /\ N (e_nsmap e) (e_nsmap e') /\ T (e_text e) (e_text e') /\
    T (e_tail e) (e_tail e') /\ A (e_attrib e) (e_attrib e') /\ Forall2 D (e_elems e) (e_elems e') /\ e_next e = e_next e' /\ L (e_line e) (e_line e').
  Proof. intros e e' H; inv H; simpl; auto 10. Qed.

  Lemma differ_make : forall e e', e_tag e = e_tag e' -> N (e_nsmap e) (e_nsmap e') -> T (e_text e) (e_text e') ->
    T (e_tail e) (e_tail e') -> A (e_attrib e) (e_attrib e') -> Forall2 D (e_elems e) (e_elems e') -> e_next e = e_next e' -> L (e_line e) (e_line e') -> D e e'.
  Proof. intros [] []; simpl; intros; subst; constructor; auto. Qed.

  Lemma differ_find : forall l l', Forall2 D l l' -> forall i tag, find_from i l tag = find_from i l' tag.
  Proof.
    intros l l' H; induction H as [|x y l l' Hxy H IH]; intros i tag; simpl; auto. apply differ_inv in Hxy.
    destruct Hxy as [-> _]. rewrite IH; auto.
  Qed.

  Lemma differ_next : forall e e' i, D e e' -> D (set_next i e) (set_next i e').
  Proof. intros e e' i H; apply differ_inv in H. destruct H as (?&?&?&?&?&?&?&?). apply differ_make; simpl; auto. Qed.

  Lemma differ_elems : forall e e' l l', D e e' -> Forall2 D l l' -> D (set_elems l e) (set_elems l' e').
  Proof. intros e e' l l' H F; apply differ_inv in H. destruct H as (?&?&?&?&?&?&?&?). apply differ_make; simpl; auto. Qed.

  Lemma differ_search : forall e1 e2, D e1 e2 -> forall m tag behind step,
    fst (search m e1 tag behind step) = fst (search m e2 tag behind step) /\
    D (snd (search m e1 tag behind step)) (snd (search m e2 tag behind step)).
  Proof.
    intros e1 e2 H m tag behind step. pose proof (differ_inv H) as (Ht & Hns & Hx & Htl & Ha & Hf & Hn & Hl).
    assert (FW : fst (forward m e1 tag step) = fst (forward m e2 tag step) /\ D (snd (forward m e1 tag step)) (snd (forward m e2 tag step))).
    { destruct m; simpl.
      - unfold strict_forward. rewrite <- Hn. pose proof (Forall2_nth Hf (e_next e1)) as Hi.
        destruct (nth_error (e_elems e1) (e_next e1)) as [c1|], (nth_error (e_elems e2) (e_next e1)) as [c2|]; try contradiction; auto.
        apply differ_inv in Hi. destruct Hi as [-> _]. destruct (tag_is (e_tag c2) tag); simpl; auto.
        split; auto. destruct step; auto. apply differ_next; auto.
      - unfold ordered_forward. rewrite <- Hn. rewrite (differ_find (Forall2_skipn Hf (e_next e1))).
        destruct (find_from _ _ _) as [i|]; simpl; auto. split; auto. destruct step; auto. apply differ_next; auto.
      - unfold unordered_forward. rewrite <- Hn. rewrite (differ_find (Forall2_skipn Hf (e_next e1))).
        destruct (find_from _ _ _) as [i|]; simpl; auto. split; auto.
        assert (D (set_elems (list_swap (e_next e1) i (e_elems e1)) e1) (set_elems (list_swap (e_next e1) i (e_elems e2)) e2)).
        { apply differ_elems; auto. apply Forall2_list_swap; auto. }
        destruct step; auto. apply differ_next; auto. }
    unfold search. destruct behind; auto. unfold look_behind. rewrite <- Hn. destruct (e_next e1) as [|i]; auto.
    pose proof (Forall2_nth Hf i) as Hi. destruct (nth_error (e_elems e1) i) as [c1|], (nth_error (e_elems e2) i) as [c2|]; try contradiction; auto.
    apply differ_inv in Hi. destruct Hi as [-> _]. destruct (tag_is (e_tag c2) tag); simpl; auto.
  Qed.

  Lemma differ_child : forall e1 e2, D e1 e2 -> forall i,
    match nth_error (e_elems e1) i, nth_error (e_elems e2) i with
    | Some c1, Some c2 => D c1 c2 | None, None => True | _, _ => False end.
  Proof. intros e1 e2 H i. apply differ_inv in H. apply Forall2_nth; apply H. Qed.

  Lemma differ_put : forall e1 e2 c1 c2 i, D e1 e2 -> D c1 c2 -> D (put_child i c1 e1) (put_child i c2 e2).
  Proof. intros e1 e2 c1 c2 i H Hc. apply differ_elems; auto. apply Forall2_list_upd; auto. apply differ_inv in H; apply H. Qed.

  Lemma differ_text : T None None -> forall e1 e2, D e1 e2 ->
    T (e_text e1) (e_text e2) /\ D (set_text_o None e1) (set_text_o None e2).
  Proof. intros TN e1 e2 H; apply differ_inv in H. destruct H as (?&?&?&?&?&?&?&?). split; auto. apply differ_make; simpl; auto. Qed.

  Lemma differ_step : forall e1 e2, D e1 e2 -> D (step_forward e1) (step_forward e2).
  Proof. intros e1 e2 H. pose proof (differ_inv H) as (?&?&?&?&?&?&Hn&?). unfold step_forward. rewrite Hn. apply differ_next; auto. Qed.

  Lemma differ_snapshot : forall e1 e2, D e1 e2 -> D (create_snapshot e1) (create_snapshot e2).
  Proof. intros; rewrite !create_snapshot_id; auto. Qed.

  Lemma differ_apply : forall e1 e2 s1 s2, D e1 e2 -> D s1 s2 -> D (apply_snapshot e1 s1) (apply_snapshot e2 s2).
  Proof.
    intros e1 e2 s1 s2 H1 H2. apply differ_inv in H1; apply differ_inv in H2.
    destruct H1 as (?&?&?&?&?&?&?&?). destruct H2 as (?&?&?&?&?&?&?&?). apply differ_make; simpl; auto.
  Qed.
End Differ.

(** ---- computed fields: same document, models without the computed fields ---- *)

Lemma same_msg_refl : forall m, same_msg m m.
Proof. induction m; constructor; auto. Qed.

Lemma same_lerr_refl : forall l, same_lerr l l.
Proof. intros []; repeat split; apply same_msg_refl. Qed.

Lemma same_verr_refl : forall e, same_verr e e.
Proof. intros e; repeat split. induction (ve_lines e); constructor; auto using same_lerr_refl. Qed.

Lemma same_out_refl : forall o, same_out o o.
Proof. intros [v|[]|]; simpl; auto using same_verr_refl. Qed.

Lemma same_verr_into : forall title hide (l1 l2 : list (option locitem * verr)),
  Forall2 (fun a b : option locitem * verr => fst a = fst b /\ same_verr (snd a) (snd b)) l1 l2 ->
  same_verr (into_validation_error title l1 hide) (into_validation_error title l2 hide).
Proof.
  intros title hide l1 l2 H; repeat split; simpl. induction H as [|[k1 e1] [k2 e2] l1 l2 [Hk (_ & Hl & _)] H IH]; simpl in *; auto.
  subst. apply Forall2_app; auto. clear -Hl. induction Hl as [|x y l l' (A & B & C & D) Hl IH]; simpl; constructor; auto.
  repeat split; simpl; auto. rewrite C; auto.
Qed.

Lemma same_verr_lines : forall x sm1 sm2 h, same_verr (set_validation_error_sourceline x sm1 h) (set_validation_error_sourceline x sm2 h).
Proof.
  intros x sm1 sm2 h; repeat split; simpl. induction (ve_lines x); simpl; constructor; auto.
  repeat split; simpl; auto. constructor. apply same_msg_refl.
Qed.

Lemma same_out_orel : forall o1 o2, o1 <> Fuel -> orel eq same_verr o1 o2 <-> same_out o1 o2.
Proof.
  intros [v|x|] [w|y|] N; simpl; try tauto; try (destruct x; tauto). 
Qed.

Lemma Forall2_eq_vals : forall d1 d2 : list (string * val),
  Forall2 (fun a b : string * val => fst a = fst b /\ snd a = snd b) d1 d2 -> d1 = d2.
Proof. intros d1 d2 H; induction H as [|[] [] d1 d2 [A B]]; simpl in *; subst; auto. Qed.

Lemma extra_refl : forall e title hide,
  match check_extra title e hide, check_extra title e hide with
  | Some r1, Some r2 => same_verr r1 r2 | None, None => True | _, _ => False end.
Proof. intros; destruct (check_extra _ _ _); auto using same_verr_refl. Qed.

Lemma orel_refl : forall o, orel eq same_verr o o.
Proof. intros [v|[]|]; simpl; auto using same_verr_refl. Qed.

Lemma computed_removed : forall ev ev', without_computed ev ev' -> forall n cls root eas,
  from_xml_tree n ev cls root eas <> Fuel ->
  same_out (from_xml_tree n ev cls root eas) (from_xml_tree n ev' cls root eas).
Proof.
  intros ev ev' [Hb Hm] n cls root eas N.
  destruct (@from_xml_sim (@eq elem) (@eq val) same_verr (fun _ _ => True) ev ev') with (n := n) (cls := cls) (root1 := root) (root2 := root) (eas := eas) as [H|H]; auto.
  - intros e1 e2 <-; auto.
  - intros e1 e2 <- i. destruct (nth_error _ _); auto.
  - intros; subst; auto.
  - intros; subst; auto.
  - intros; subst; auto.
  - intros e1 e2 <- a. split; auto. destruct (e_attrib e1); auto.
  - intros; subst; auto.
  - intros; subst; auto.
  - intros; subst; auto.
  - intros e1 e2 <-. rewrite Hb. split; auto. destruct (to_native _ _); auto.
  - intros e1 e2 <- title hide. apply extra_refl.
  - intros; subst; auto.
  - intros l1 l2 F. f_equal. apply Forall2_eq; auto.
  - intros d1 d2 F. f_equal. apply Forall2_eq_vals; auto.
  - intros a b F; apply F.
  - apply same_verr_into.
  - intros c. specialize (Hm c). destruct (en_model ev c) as [m|], (en_model ev' c) as [m'|]; auto.
    destruct Hm as (fs & -> & D & R). split; simpl; auto.
    + intros. symmetry; auto.
    + intros name. destruct (md_cval m name) as [f|]; auto. intros e1 e2 <-. right. split; auto. apply orel_refl.
    + intros i1 i2 I. assert (i1 = i2) as <- by (destruct i1, i2; simpl in I; try contradiction; subst; auto).
      destruct (md_validate m i1); auto. intros. apply same_verr_lines.
  - specialize (Hm cls). intros m1 m2 H1 H2. rewrite H1, H2 in Hm. destruct Hm as (fs & -> & _); auto.
  - rewrite Hb; auto.
  - contradiction.
  - apply same_out_orel; auto.
Qed.

(** ---- documents that differ in lines only, possibly on different back ends ---- *)

Lemma clean_inv : forall e, clean e -> e_tag e <> TSpecial /\ e_nsmap e = None /\ Forall clean (e_elems e).
Proof. intros e H; inv H; auto. Qed.

Lemma clean_next : forall e i, clean e -> clean (set_next i e).
Proof. intros e i H; apply clean_inv in H; destruct H as (?&?&?); constructor; auto. Qed.

Lemma clean_elems : forall e l, clean e -> Forall clean l -> clean (set_elems l e).
Proof. intros e l H F; apply clean_inv in H; destruct H as (?&?&?); constructor; auto. Qed.

Lemma clean_text : forall e t, clean e -> clean (set_text_o t e).
Proof. intros e i H; apply clean_inv in H; destruct H as (?&?&?); constructor; auto. Qed.

Lemma clean_attrib : forall e a, clean e -> clean (set_attrib_o a e).
Proof. intros e i H; apply clean_inv in H; destruct H as (?&?&?); constructor; auto. Qed.

Lemma clean_search : forall m e tag behind step, clean e -> clean (snd (search m e tag behind step)).
Proof.
  intros m e tag behind step H. pose proof (clean_inv H) as (_&_&Hf).
  assert (FW : clean (snd (forward m e tag step))).
  { destruct m; simpl.
    - unfold strict_forward. destruct (nth_error _ _); auto. destruct (tag_is _ _); auto. destruct step; simpl; auto using clean_next.
    - unfold ordered_forward. destruct (find_from _ _ _); auto. destruct step; simpl; auto using clean_next.
    - unfold unordered_forward. destruct (find_from _ _ _); auto. destruct step; simpl; auto using clean_next, clean_elems, Forall_list_swap. }
  unfold search. destruct behind; auto. destruct (look_behind e tag); auto.
Qed.

Definition E1 (P : Prop) (e1 e2 : elem) : Prop := differ eq eq any_line eq e1 e2 /\ (P \/ clean e1).

Lemma differ_lines_native : forall b e1 e2, differ eq eq any_line eq e1 e2 -> to_native b e1 = to_native b e2.
Proof.
  intros b e1; induction e1 as [tag ns text tail a l next line IH] using elem_ind'; intros e2 H; inv H. simpl.
  assert (X : map_opt (to_native b) l = map_opt (to_native b) l').
  { match goal with H : Forall2 _ l l' |- _ => clear -IH H; induction H end; simpl; auto. inv IH.
    rewrite (H2 _ H). rewrite IHForall2; auto. }
  rewrite X; auto.
Qed.

Lemma clean_native : forall b1 b2 e, clean e -> to_native b1 e = to_native b2 e.
Proof.
  intros b1 b2 e; induction e as [tag ns text tail a l next line IH] using elem_ind'; intros H; apply clean_inv in H.
  simpl in H. destruct H as (Ht & -> & Hf). simpl. destruct tag as [t|]; [|congruence].
  assert (X : map_opt (to_native b1) l = map_opt (to_native b2) l).
  { clear -IH Hf. induction l; simpl; auto. inv IH; inv Hf. rewrite H1, IHl; auto. }
  rewrite X. destruct b1, b2; auto.
Qed.

Lemma differ_lines_unbound : forall e1 e2, differ eq eq any_line eq e1 e2 -> forall path,
  Forall2 (fun u v => u_path u = u_path v /\ u_attr u = u_attr v /\ u_value u = u_value v) (get_unbound path e1) (get_unbound path e2).
Proof.
  intros e1; induction e1 as [tag ns text tail a l next line IH] using elem_ind'; intros e2 H path; inv H. simpl.
  apply Forall2_app; [|apply Forall2_app; [|apply Forall2_app]].
  - match goal with |- Forall2 _ (map _ ?d) _ => induction d end; simpl; constructor; auto.
  - match goal with |- Forall2 _ (map _ ?d) _ => induction d end; simpl; constructor; auto.
  - match goal with |- Forall2 _ (map _ ?d) _ => induction d end; simpl; constructor; auto.
  - match goal with H : Forall2 _ l l' |- _ => clear -IH H; induction H end; simpl; auto. inv IH.
    pose proof (differ_inv H) as [Ht _]. rewrite Ht. apply Forall2_app; auto.
Qed.

Lemma differ_lines_extra : forall e1 e2, differ eq eq any_line eq e1 e2 -> forall title hide,
  match check_extra title e1 hide, check_extra title e2 hide with
  | Some r1, Some r2 => same_verr r1 r2 | None, None => True | _, _ => False end.
Proof.
  intros e1 e2 H title hide; unfold check_extra. pose proof (differ_lines_unbound H []) as U.
  destruct U as [|u v us vs Huv U]; auto. assert (F : forall us vs, Forall2 (fun u v => u_path u = u_path v /\ u_attr u = u_attr v /\ u_value u = u_value v) us vs ->
    Forall2 same_lerr (map extra_error us) (map extra_error vs)).
  { clear. intros us vs F; induction F as [|u v us vs (A & B & C) F IH]; simpl; constructor; auto.
    unfold extra_error, unbound_loc. rewrite A, B, C. repeat split; simpl. repeat constructor. }
  repeat split; auto. apply F. constructor; auto.
Qed.

Lemma lines_run : forall b ev, let ev' := on_backend b ev in let P := en_backend ev = b in
  lines_unseen ev -> (P \/ keeps_clean ev) -> forall n cls root1 root2 eas,
  native_tag root1 = native_tag root2 -> E1 P (from_native (en_backend ev) root1) (from_native b root2) ->
  from_xml_tree n ev cls root1 eas = Fuel \/ orel eq same_verr (from_xml_tree n ev cls root1 eas) (from_xml_tree n ev' cls root2 eas).
Proof.
  intros b ev ev' P HL HC n cls root1 root2 eas HT HE.
  apply (@from_xml_sim (E1 P) (@eq val) same_verr (fun _ _ => True) ev ev'); auto.
  - intros e1 e2 [H C] m tag behind step. destruct (differ_search H m tag behind step) as [A B]. split; auto. split; auto.
    destruct C; auto using clean_search.
  - intros e1 e2 [H C] i. pose proof (differ_child H i) as D. destruct (nth_error (e_elems e1) i) eqn:Hi, (nth_error (e_elems e2) i); auto.
    split; auto. destruct C as [C|C]; auto. right. apply clean_inv in C. destruct C as (_&_&C). rewrite Forall_forall in C.
    apply C. eapply nth_error_In; eauto.
  - intros e1 e2 c1 c2 i [H C] [Hc Cc]. split; [apply differ_put; auto|]. destruct C as [C|C]; auto. destruct Cc as [Cc|Cc]; auto. right.
    apply clean_elems; auto. apply Forall_list_upd; auto. apply clean_inv in C; apply C.
  - intros e1 e2 [H C]. destruct (differ_text eq_refl H) as [A B]. rewrite A. split; auto. split; auto. destruct C; auto using clean_text.
  - intros e1 e2 [H C] k. pose proof (differ_inv H) as (T1&T2&T3&T4&T5&T6&T7&T8). unfold attr_of. rewrite <- T5. split; auto.
    assert (X : forall a, E1 P (set_attrib_o a e1) (set_attrib_o a e2)).
    { intros a. split; [apply differ_make; simpl; auto|]. destruct C; auto using clean_attrib. }
    unfold pop_attrib. rewrite <- T5. destruct (e_attrib e1) as [d|]; [|split; auto]. destruct (dget k d); [apply X|split; auto].
  - intros e1 e2 [H C] a. pose proof (differ_inv H) as (T1&T2&T3&T4&T5&T6&T7&T8). rewrite <- T5. split; [destruct (e_attrib e1); auto|].
    split; [apply differ_make; simpl; auto|]. destruct C; auto using clean_attrib.
  - intros e1 e2 [H C]. split; [apply differ_step; auto|]. unfold step_forward; destruct C; auto using clean_next.
  - intros e1 e2 [H C]. rewrite !create_snapshot_id. split; auto.
  - intros e1 e2 s1 s2 [H C] [Hs Cs]. split; [apply differ_apply; auto|]. destruct Cs as [Cs|Cs]; auto. right.
    apply clean_inv in Cs. destruct Cs as (?&?&?). constructor; auto.
  - intros e1 e2 [H C]. pose proof (differ_inv H) as (T1&T2&T3&T4&T5&T6&T7&T8).
    assert (X : to_native (en_backend ev) (fst (extract e1)) = to_native (en_backend ev') (fst (extract e2))).
    { change (en_backend ev') with b. transitivity (to_native b (fst (extract e1))).
      - destruct C as [C|C]; [rewrite C; auto|]. apply clean_native. apply clean_inv in C. destruct C as (?&?&?). constructor; auto.
      - apply differ_lines_native. apply differ_make; simpl; auto. }
    split; [rewrite X; destruct (to_native (en_backend ev') (fst (extract e2))); auto|]. unfold E1; simpl. split; [apply differ_make; simpl; auto|].
    destruct C as [C|C]; auto. right. apply clean_inv in C. destruct C as (?&?&?). constructor; simpl; auto.
  - intros e1 e2 [H C] title hide. apply differ_lines_extra; auto.
  - intros; subst; auto.
  - intros l1 l2 F. f_equal. apply Forall2_eq; auto.
  - intros d1 d2 F. f_equal. apply Forall2_eq_vals; auto.
  - intros a c F; apply F.
  - apply same_verr_into.
  - intros c. simpl. destruct (en_model ev c) as [m|] eqn:Hm; auto. split; auto.
    + apply drops_refl.
    + intros name. destruct (md_cval m name) as [f|] eqn:Hf; auto. intros e1 e2 [H C].
      destruct (HL c m name f Hm Hf e1 e2 H) as [O D].
      destruct (fst (f e1)) eqn:Ho; auto; right; (split; [rewrite <- Ho in *; apply same_out_orel; [rewrite Ho; discriminate|auto]|]);
        (split; auto; destruct HC as [HC|HC]; auto; destruct C as [C|C]; auto; right; apply (HC c m name f Hm Hf); auto).
    + intros i1 i2 I. assert (i1 = i2) as <- by (destruct i1, i2; simpl in I; try contradiction; subst; auto).
      destruct (md_validate m i1); auto. intros. apply same_verr_lines.
  - intros m1 m2 H1 H2. simpl in H2. congruence.
Qed.

(** both directions at once: neither run is out of fuel alone *)
Lemma same_out_sym_fuel : forall o1 o2, o1 = Fuel \/ orel eq same_verr o1 o2 -> o2 = Fuel \/ orel eq same_verr o2 o1 -> same_out o1 o2.
Proof.
  intros [v|x|] [w|y|] [A|A] [B|B]; simpl in *; try discriminate; try contradiction; auto; try (destruct x; contradiction); try (destruct y; contradiction).
  all: destruct x; auto; try contradiction; destruct y; auto; try contradiction; discriminate.
Qed.

Lemma same_but_comments_from : forall b n1 n2, same_but_comments n1 n2 -> differ eq eq any_line eq (from_native b n1) (from_native b n2).
Proof.
  intros b n1; induction n1 as [tag ns text tail a cs line IH| |] using native_ind'; intros n2 H; inv H; simpl.
  - constructor; auto; [exact I|].
    assert (X : forall l, flat_map (fun c => if is_xml_comment c then [] else [from_native b c]) l = map (from_native b) (no_comments l)).
    { clear. induction l as [|x l IHl]; simpl; auto. destruct (is_xml_comment x); simpl; rewrite IHl; auto. }
    rewrite !X. assert (Forall (fun n1 => forall n2, same_but_comments n1 n2 -> differ eq eq any_line eq (from_native b n1) (from_native b n2)) (no_comments cs)) as IH'.
    { apply Forall_forall. intros x Hx. rewrite Forall_forall in IH. apply IH. apply filter_In in Hx. apply Hx. }
    match goal with H : Forall2 _ _ _ |- _ => clear -H IH'; induction H end; simpl; constructor; inv IH'; auto.
  - repeat constructor.
Qed.

Lemma same_but_comments_sym : forall n1 n2, same_but_comments n1 n2 -> same_but_comments n2 n1.
Proof.
  intros n1; induction n1 as [tag ns text tail a cs line IH| |] using native_ind'; intros n2 H; inv H; constructor.
  assert (IH' : Forall (fun n1 => forall n2, same_but_comments n1 n2 -> same_but_comments n2 n1) (no_comments cs)).
  { apply Forall_forall. intros x Hx. rewrite Forall_forall in IH. apply IH. apply filter_In in Hx. apply Hx. }
  match goal with H : Forall2 _ _ _ |- _ => clear -H IH'; induction H end; simpl; constructor; inv IH'; auto.
Qed.

Lemma same_but_comments_tag : forall n1 n2, same_but_comments n1 n2 -> native_tag n1 = native_tag n2.
Proof. intros n1 n2 H; inv H; auto. Qed.

Lemma comments_ignored : forall ev, lines_unseen ev -> forall n cls root1 root2 eas, same_but_comments root1 root2 ->
  same_out (from_xml_tree n ev cls root1 eas) (from_xml_tree n ev cls root2 eas).
Proof.
  assert (X : forall ev, lines_unseen ev -> forall n cls root1 root2 eas, same_but_comments root1 root2 ->
    from_xml_tree n ev cls root1 eas = Fuel \/ orel eq same_verr (from_xml_tree n ev cls root1 eas) (from_xml_tree n ev cls root2 eas)).
  { intros ev HL n cls root1 root2 eas H.
    pose proof (@lines_run (en_backend ev) ev HL (or_introl eq_refl) n cls root1 root2 eas (same_but_comments_tag H)) as R.
    assert (on_backend (en_backend ev) ev = ev) as Q by (destruct ev; auto). rewrite Q in R. apply R.
    split; auto. apply same_but_comments_from; auto. }
  intros ev HL n cls root1 root2 eas H. apply same_out_sym_fuel; apply X; auto. apply same_but_comments_sym; auto.
Qed.

Lemma from_native_clean : forall b n, no_pi n -> clean (from_native b n).
Proof.
  intros b n; induction n as [tag ns text tail a cs line IH| |] using native_ind'; intros H; inv H.
  constructor; simpl; auto; [discriminate|]. induction cs as [|c cs IHc]; simpl; auto.
  inv IH. match goal with H : Forall _ (c :: cs) |- _ => inv H end.
  destruct (is_xml_comment c) eqn:C; simpl; auto. constructor; auto. destruct H4; [congruence|auto].
Qed.

Lemma from_native_backends : forall b1 b2 n, no_pi n -> differ eq eq any_line eq (from_native b1 n) (from_native b2 n).
Proof.
  intros b1 b2 n; induction n as [tag ns text tail a cs line IH| |] using native_ind'; intros H; inv H. simpl.
  constructor; auto; [exact I|]. induction cs as [|c cs IHc]; simpl; auto. inv IH.
  match goal with H : Forall _ (c :: cs) |- _ => inv H end.
  destruct (is_xml_comment c) eqn:C; simpl; auto. constructor; auto. destruct H4; [congruence|auto].
Qed.

Lemma backends_read_alike : forall ev b, lines_unseen ev -> keeps_clean ev -> forall n cls root eas, no_pi root ->
  same_out (from_xml_tree n ev cls root eas) (from_xml_tree n (on_backend b ev) cls root eas).
Proof.
  intros ev b HL HC n cls root eas NP. apply same_out_sym_fuel.
  - apply (@lines_run b ev HL (or_intror HC)); auto. split; [apply from_native_backends; auto|right; apply from_native_clean; auto].
  - pose proof (@lines_run (en_backend ev) (on_backend b ev)) as R. simpl in R.
    assert (Q : on_backend (en_backend ev) (on_backend b ev) = ev) by (destruct ev; auto). rewrite Q in R.
    apply R; auto. split; [apply from_native_backends; auto|right; apply from_native_clean; auto].
Qed.
