(** PfCalls2.v -- the budget of a parsed document in terms of its size (C78). *)

From Verif Require Import Base Elem Native Errs Names Ser Read Api Calls SpecElem SpecRead SpecCrash SpecCalls PfElem PfTerm PfCalls.

Lemma unread_children : forall b n, e_elems (from_native b n) = map (from_native b) (inside n) /\ e_next (from_native b n) = 0.
Proof.
  intros b [tag ns text tail attrib children line| |]; split; auto. simpl.
  induction children as [|c l IH]; auto. simpl. destruct (is_xml_comment c); simpl; auto. f_equal; auto.
Qed.

Lemma sumof_map : forall f b l, sumof f (map (from_native b) l) = fold_right (fun c k => f (from_native b c) + k) 0 l.
Proof. intros f b l; induction l as [|c l IH]; auto. unfold sumof in *. cbn [map fold_right]. lia. Qed.

(** without unions the budget is the number of elements *)
Lemma budget_linear : forall b n, is_xml_comment n = false -> S (budget 0 (from_native b n)) = elements n.
Proof.
  intros b n; induction n as [tag ns text tail attrib children line IH| |] using native_ind'; intros H; try discriminate; [|reflexivity].
  rewrite budget_eq. destruct (unread_children b (NElem tag ns text tail attrib children line)) as [-> ->].
  rewrite sumof_map, map_length, Nat.sub_0_r. assert (P : forall l, price 0 l = 1) by reflexivity. rewrite P, Nat.mul_1_r.
  cbn [inside elements]. f_equal. clear H. induction IH as [|c l Hc Hl IH]; auto. cbn [filter fold_right].
  destruct (is_xml_comment c) eqn:Ec; cbn [negb].
  - rewrite IH. destruct c; try discriminate. reflexivity.
  - specialize (Hc eq_refl). cbn [length fold_right]. lia.
Qed.

Lemma levels_inside : forall n c, In c (inside n) -> S (levels c) <= levels n.
Proof.
  intros [tag ns text tail attrib children line| |] c H; simpl in H; try contradiction.
  apply filter_In in H as [H Hc]. cbn [levels]. induction children as [|x l IH]; [destruct H|]. cbn [fold_right].
  destruct H as [->|H].
  - destruct (is_xml_comment c); [discriminate|]. lia.
  - specialize (IH H). lia.
Qed.

Lemma levels_flat : forall n, inside n = [] -> levels n = 0.
Proof.
  intros [tag ns text tail attrib children line| |] H; auto. cbn [inside levels] in *.
  induction children as [|x l IH]; auto. cbn [filter fold_right] in *. destruct (is_xml_comment x); cbn [negb] in H; [|discriminate].
  rewrite IH; auto.
Qed.

Lemma budget_wide : forall b k w n, 1 <= k -> at_most_wide w n ->
  S (budget k (from_native b n)) <= (S k * w) ^ levels n.
Proof.
  intros b k w n Hk; induction n as [tag ns text tail attrib children line IH| |] using native_ind'; intros H; [|rewrite budget_eq; simpl; lia..].
  set (n := NElem tag ns text tail attrib children line) in *.
  inversion H as [? Hw Hin]; subst n0.
  rewrite budget_eq. destruct (unread_children b n) as [-> ->]. rewrite map_length, Nat.sub_0_r.
  assert (IH' : forall c, In c (inside n) -> S (budget k (from_native b c)) <= (S k * w) ^ levels c).
  { intros c Hc. rewrite Forall_forall in IH, Hin. apply IH; auto. subst n; simpl in Hc. apply filter_In in Hc; tauto. }
  pose proof (levels_inside n) as LV. pose proof (levels_flat n) as LF.
  clearbody n. clear IH Hin H tag ns text tail attrib children line.
  assert (E : inside n = [] \/ inside n <> []) by (destruct (inside n); auto; right; discriminate).
  destruct E as [E|E]; [rewrite E, (LF E); simpl; lia|]. clear LF.
  assert (Hw1 : 1 <= length (inside n)) by (destruct (inside n); simpl; [congruence|lia]).
  destruct (levels n) as [|h] eqn:Eh; [exfalso; destruct (inside n) as [|c l]; [congruence|specialize (LV c ltac:(left; auto)); lia]|].
  set (X := (S k * w) ^ h).
  assert (X1 : 1 <= X). { subst X. assert ((S k * w) ^ h <> 0) by (apply Nat.pow_nonzero; lia). lia. }
  assert (HX : forall c, In c (inside n) -> budget k (from_native b c) <= X - 1).
  { intros c Hc. specialize (IH' c Hc). specialize (LV c Hc).
    assert ((S k * w) ^ levels c <= X) by (apply Nat.pow_le_mono_r; lia). lia. }
  assert (M : maxof (budget k) (map (from_native b) (inside n)) <= X - 1).
  { apply maxof_le. intros e He. apply in_map_iff in He as (c & <- & Hc). auto. }
  assert (Sm : sumof (budget k) (map (from_native b) (inside n)) <= length (inside n) * (X - 1)).
  { clear - HX. induction (inside n) as [|c l IH]; [simpl; lia|]. unfold sumof in *; cbn [map fold_right length].
    pose proof (HX c ltac:(left; auto)). specialize (IH ltac:(intros; apply HX; right; auto)).
    change (S (length l) * (X - 1)) with ((X - 1) + length l * (X - 1)). lia. }
  assert (P : price k (map (from_native b) (inside n)) <= k * X).
  { unfold price. assert (k * S (maxof (budget k) (map (from_native b) (inside n))) <= k * X) by (apply Nat.mul_le_mono_l; lia).
    assert (1 * 1 <= k * X) by (apply Nat.mul_le_mono; lia). lia. }
  cbn [Nat.pow]. fold X.
  apply (Nat.mul_le_mono_l _ _ (length (inside n))) in P.
  assert (F : length (inside n) * (S k * X) <= w * (S k * X)) by (apply Nat.mul_le_mono_r; lia).
  replace (S k * w * X) with (w * (S k * X)) by lia.
  eapply Nat.le_trans; [|exact F].
  set (N := length (inside n)) in *.
  assert (G : S (N * (k * X) + N * (X - 1)) <= N * (S k * X)).
  { replace (N * (S k * X)) with (N * (k * X) + N * X) by lia. assert (N * X = N + N * (X - 1)).
    { destruct X as [|x]; [lia|]. rewrite Nat.mul_succ_r. replace (S x - 1) with x by lia. lia. }
    lia. }
  lia.
Qed.
