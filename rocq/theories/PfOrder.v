(** PfOrder.v -- proofs for C50: the linearisation is found whenever there is a consistent order *)

From Verif Require Import Base Elem Native Errs Names Fields Ser Build Classes SpecClasses PfClasses.

Lemma in_order_tail : forall A x (l m : list A), in_order (x :: l) m -> in_order l m.
Proof.
  intros A x l m H. remember (x :: l) as xl eqn:E. revert x l E.
  induction H as [|z l0 m H IH|z l0 m H IH]; intros x l E; [discriminate| |constructor; eauto].
  injection E as -> ->. now constructor.
Qed.

Lemma in_order_remove : forall c l m, in_order l m -> ~ In c l -> in_order l (remove string_dec c m).
Proof.
  induction 1 as [|z l m H IH|z l m H IH]; simpl; intros N.
  - constructor.
  - destruct (string_dec c z) as [->|]; [exfalso; apply N; auto|]. constructor; auto.
  - destruct (string_dec c z); auto. constructor; auto.
Qed.

Lemma remove_nodup : forall c (m : list string), NoDup m -> NoDup (remove string_dec c m).
Proof.
  induction 1 as [|z m N _ IH]; simpl; [constructor|]. destruct (string_dec c z); auto. constructor; auto.
  intros I. apply in_remove in I. tauto.
Qed.

(** the first member of a list with some property *)
Lemma first_with : forall (P : string -> bool) (r : list string), existsb P r = true ->
  exists a x b, r = a ++ x :: b /\ P x = true /\ forall y, In y a -> P y = false.
Proof.
  intros P; induction r as [|z r IH]; simpl; [discriminate|]. destruct (P z) eqn:Z.
  - intros _. exists [], z, r. repeat split; auto. intros y [].
  - simpl. intros H. destruct (IH H) as (a & x & b & -> & Px & A). exists (z :: a), x, b. repeat split; auto.
    intros y [<-|Y]; auto.
Qed.

(** in a list without repetitions, the head of a sublist comes before the rest *)
Lemma head_before : forall (l r : list string) y x, in_order (y :: l) r -> NoDup r -> In x l ->
  forall a b, r = a ++ x :: b -> In y a.
Proof.
  intros l r y x H. remember (y :: l) as yl eqn:E. revert y l E.
  induction H as [|z l0 m H IH|z l0 m H IH]; intros y l E N I a b R; [discriminate| |].
  - injection E as -> ->. inversion N as [|? ? N1 N2]; subst. destruct a as [|a0 a]; simpl in R.
    + injection R as -> ->. exfalso. apply N1. eapply in_order_incl; eauto.
    + injection R as -> ->. left; auto.
  - inversion N as [|? ? N1 N2]; subst. destruct a as [|a0 a]; simpl in R.
    + injection R as -> ->. exfalso. apply N1. eapply (in_order_incl H). right; auto.
    + injection R as -> ->. right. eapply IH; eauto.
Qed.

Lemma good_head_exists : forall ls r, NoDup r -> (forall l, In l ls -> in_order l r) ->
  (exists c t, In (c :: t) ls) -> exists c, In c (heads ls) /\ good_head ls c = true.
Proof.
  intros ls r N O (c & t & L).
  set (P := fun x => str_in x (heads ls)).
  assert (E : existsb P r = true).
  { apply existsb_exists. exists c. split.
    - apply (in_order_incl (O _ L)). left; auto.
    - apply str_in_iff. apply heads_in. eauto. }
  destruct (first_with P r E) as (a & x & b & -> & Px & A).
  exists x. split; [apply str_in_iff; auto|]. apply good_head_iff. intros l Ll I.
  destruct l as [|y l]; simpl in I; [contradiction|].
  assert (Y : In y a) by (eapply (@head_before l (a ++ x :: b) y x); eauto).
  specialize (A _ Y). unfold P in A.
  assert (str_in y (heads ls) = true) by (apply str_in_iff, heads_in; eauto). congruence.
Qed.

Lemma drop_shorter : forall c ls, length (concat (map (drop_head c) ls)) <= length (concat ls).
Proof.
  intros c; induction ls as [|l ls IH]; simpl; auto. rewrite !app_length.
  assert (length (drop_head c l) <= length l) by (destruct l as [|y l]; simpl; auto; destruct (String.eqb y c); simpl; lia). lia.
Qed.

Lemma drop_strict : forall c ls t, In (c :: t) ls -> length (concat (map (drop_head c) ls)) < length (concat ls).
Proof.
  intros c; induction ls as [|l ls IH]; simpl; intros t; [contradiction|]. rewrite !app_length. intros [->|I].
  - simpl. rewrite String.eqb_refl. pose proof (drop_shorter c ls). lia.
  - specialize (IH _ I).
    assert (length (drop_head c l) <= length l) by (destruct l as [|y l]; simpl; auto; destruct (String.eqb y c); simpl; lia). lia.
Qed.

Lemma filter_shorter : forall (ls : list (list string)), length (concat (filter nonempty ls)) = length (concat ls).
Proof. induction ls as [|[|x l] ls IH]; simpl; auto. rewrite !app_length. lia. Qed.

Lemma merge_found : forall n ls r, NoDup r -> (forall l, In l ls -> in_order l r) -> length (concat ls) <= n ->
  exists r', c3_merge n ls = Some r'.
Proof.
  induction n; intros ls r N O F.
  - cbn [c3_merge]. destruct (filter nonempty ls) as [|l0 ls0] eqn:E; [eauto|].
    exfalso. assert (I : In l0 (filter nonempty ls)) by (rewrite E; left; auto). apply filter_In in I as (I & J).
    pose proof (filter_shorter ls) as S0. rewrite E in S0. simpl in S0. rewrite app_length in S0.
    destruct l0; [discriminate|]. simpl in S0. lia.
  - cbn [c3_merge]. destruct (filter nonempty ls) as [|l0 ls0] eqn:E; [eauto|].
    set (ne := l0 :: ls0) in *.
    assert (O' : forall l, In l ne -> in_order l r).
    { intros l L. rewrite <- E in L. apply filter_In in L as (L & _). auto. }
    assert (X : exists c t, In (c :: t) ne).
    { assert (I : In l0 (filter nonempty ls)) by (rewrite E; left; auto). apply filter_In in I as (_ & J).
      destruct l0 as [|c t]; [discriminate|]. exists c, t. left; auto. }
    destruct (@good_head_exists ne r N O' X) as (c0 & H0 & G0).
    destruct (find (good_head ne) (heads ne)) as [c|] eqn:Fd.
    2:{ exfalso. pose proof (find_none _ _ Fd _ H0). congruence. }
    apply find_some in Fd as (Hc & G). rewrite good_head_iff in G.
    apply heads_in in Hc as (t & Ht).
    destruct (IHn (map (drop_head c) ne) (remove string_dec c r)) as (r' & ->).
    + now apply remove_nodup.
    + intros l L. apply in_map_iff in L as (l' & <- & L').
      apply in_order_remove; [|now apply drop_head_gone, G].
      specialize (O' _ L'). destruct l' as [|y l']; simpl; auto. destruct (String.eqb y c); auto. eapply in_order_tail; eauto.
    + pose proof (@drop_strict c ne t Ht). pose proof (filter_shorter ls) as S0. rewrite E in S0. fold ne in S0. lia.
    + eexists; reflexivity.
Qed.

Lemma c3_found : forall mros bases,
  (exists r, c3 mros bases = Some r) <->
  (exists r, NoDup r /\ (forall l, In l mros -> in_order l r) /\ in_order bases r).
Proof.
  intros mros bases; split.
  - intros (r & H). destruct (@c3_spec _ _ _ H) as (A & B & _ & D). exists r. auto.
  - intros (r & N & A & B). unfold c3. eapply merge_found with (r := r); auto.
    intros l L. apply in_app_iff in L as [L|[<-|[]]]; auto.
Qed.
