(** PfEvolve4.v -- documents of values whose raw elements hold no processing instructions (C85). *)

From Verif Require Import Base Elem Native Errs Names Ser SpecRead SpecSim SpecOut PfOut PfOut2 PfEvolve.

Local Ltac inv H := inversion H; subst; clear H.

Inductive pure : draft -> Prop :=
| pu_made : forall tag ns text a ch, Forall pure ch -> pure (Draft tag ns text a ch)
| pu_given : forall n, no_pi n -> pure (Given n).

Inductive pure_piece : piece -> Prop :=
| pp_text : forall s, pure_piece (PText s)
| pp_attr : forall n v, pure_piece (PAttr n v)
| pp_attrs : forall m, pure_piece (PAttrs m)
| pp_child : forall d, pure d -> pure_piece (PChild d)
| pp_in : forall t ns ps, Forall pure_piece ps -> pure_piece (PIn t ns ps).

Lemma puts_all_pure : forall ps, Forall (fun p => forall d e, pure_piece p -> pure d -> put p d = Some e -> pure e) ps ->
  Forall pure_piece ps -> forall d e, pure d -> puts ps d = Some e -> pure e.
Proof.
  intros ps H; induction H as [|p ps Hp F IH]; intros Q d e D P; simpl in P; inv Q.
  - injection P as <-; auto.
  - destruct (put p d) eqn:E; [|discriminate]. eauto.
Qed.

Lemma split_last_front : forall l f c, split_last l = Some (f, c) -> l = f ++ [c].
Proof.
  intros l; induction l as [|x l IH]; intros f c H; simpl in H; [discriminate|].
  destruct (split_last l) as [[f0 c0]|] eqn:E.
  - injection H as <- <-. rewrite (IH _ _ eq_refl). reflexivity.
  - injection H as <- <-. destruct l; simpl in *; auto. destruct (split_last l) as [[? ?]|]; discriminate.
Qed.

Lemma put_pure : forall p d e, pure_piece p -> pure d -> put p d = Some e -> pure e.
Proof.
  intros p; induction p as [s|n v|m|c|t ns ps IH] using piece_ind'; intros d e Q D P; destruct d as [tag dns text a ch|x]; try discriminate P;
    try (simpl in P; injection P as <-; inv D; constructor; auto; fail).
  - simpl in P; injection P as <-. inv D. inv Q. constructor. apply Forall_app; auto.
  - rewrite put_in in P. inv Q. inv D.
    destruct (match split_last ch with Some (front, c) => if match draft_tag c with Some t' => String.eqb t' t | None => false end then (front, c) else (ch, fresh t ns) | None => (ch, fresh t ns) end) as [front c] eqn:E.
    assert (X : Forall pure front /\ pure c).
    { destruct (split_last ch) as [[f0 c0]|] eqn:E0.
      - destruct (match draft_tag c0 with Some t' => String.eqb t' t | None => false end); injection E as <- <-.
        + rewrite (split_last_front _ E0) in *. match goal with X : Forall pure (_ ++ _) |- _ => apply Forall_app in X; destruct X as [X1 X2]; inv X2; auto end.
        + split; auto. repeat constructor.
      - injection E as <- <-. split; auto. repeat constructor. }
    destruct X as [X1 X2]. destruct c as [ct cn cx ca cc|]; [|discriminate].
    destruct (puts ps (Draft ct cn cx ca cc)) as [c'|] eqn:E1; [|discriminate]. injection P as <-. constructor. apply Forall_app; split; auto.
    constructor; auto. eapply puts_all_pure; eauto.
Qed.

Lemma puts_pure : forall ps d e, Forall pure_piece ps -> pure d -> puts ps d = Some e -> pure e.
Proof.
  intros ps d e Q D P. assert (X : Forall (fun p => forall d e, pure_piece p -> pure d -> put p d = Some e -> pure e) ps).
  { apply Forall_forall. intros p _ d0 e0. apply put_pure. }
  exact (puts_all_pure X Q D P).
Qed.

Lemma fresh_pure : forall t ns, pure (fresh t ns).
Proof. intros; repeat constructor. Qed.

Lemma child_pure : forall fl d ps, pure d -> as_child fl d ps -> Forall pure_piece ps.
Proof. intros fl d ps D H; inv H; repeat constructor; auto. Qed.

Lemma content_pure : forall ni v t, Forall pure_piece (content ni v t).
Proof. intros ni v t. unfold content. destruct ni, v; repeat constructor. Qed.

Lemma nested_pure : forall path ns ps, Forall pure_piece ps -> Forall pure_piece (nested path ns ps).
Proof. intros path ns ps H; induction path; simpl; auto. repeat constructor; auto. Qed.

Definition pure_value (v : val) : Prop := forall n, raw_in n v -> no_pi n.

Lemma pure_writes : forall ev,
  (forall fl s v enc ps, writes ev fl s v enc ps -> pure_value v -> Forall pure_piece ps) /\
  (forall fl s vs encs ps, writes_items ev fl s vs encs ps -> Forall pure_value vs -> Forall pure_piece ps) /\
  (forall fl l vs encs ps, writes_tuple ev fl l vs encs ps -> Forall pure_value vs -> Forall pure_piece ps) /\
  (forall fl p v enc ps, writes_sub ev fl p v enc ps -> pure_value v -> Forall pure_piece ps) /\
  (forall fl m v enc ps, writes_model ev fl m v enc ps -> pure_value v -> Forall pure_piece ps) /\
  (forall fl m fs v enc ps, writes_fields ev fl m fs v enc ps -> pure_value v -> Forall pure_piece ps).
Proof.
  assert (L : forall l, pure_value (VList l) -> Forall pure_value l).
  { intros l H. apply Forall_forall. intros v I n R. apply H. econstructor; eauto. }
  assert (G : forall name attrs x cls set, pure_value (VModel cls attrs set) -> dget name attrs = Some x -> pure_value x).
  { intros name attrs x cls set H E n R. apply H. eapply ri_model; [apply dget_Some_in; eauto|auto]. }
  intros ev. apply writes_all; intros; auto using content_pure, nested_pure;
    try (repeat constructor; fail);
    try (match goal with X : puts _ _ = Some _, Y : as_child _ _ _ |- _ => apply puts_pure in X; auto using fresh_pure, content_pure; eapply child_pure; eauto end);
    try (match goal with X : Forall pure_value (_ :: _) |- _ => inv X end);
    try (apply Forall_app; split; eauto; fail); eauto.
  - match goal with X : as_child _ _ _ |- _ => eapply child_pure; [|exact X] end. constructor.
    match goal with X : pure_value _ |- _ => apply X; constructor end.
Qed.

Lemma copied_no_pi : forall b n t, no_pi n -> copied b n t -> no_pi t.
Proof.
  intros b n; induction n as [tag ns text tail a cs line IH| |] using native_ind'; intros t N C; inv N. inv C. constructor.
  match goal with X : Forall2 _ _ _ |- _ => revert X end. match goal with X : Forall _ cs |- _ => revert X end.
  match goal with cs' : list native |- _ => revert cs' end. clear -IH. unfold no_comments. intros cs' F R; revert cs' R.
  induction cs as [|c cs IHc]; intros cs' R; simpl in R; [inv R; constructor|]. inv IH. inv F.
  destruct (is_xml_comment c) eqn:E; simpl in R; auto. inv R. constructor; auto. right.
  match goal with X : _ = true \/ no_pi c |- _ => destruct X as [X|X]; [congruence|] end. eauto.
Qed.

Lemma shown_no_pi : forall b d t, pure d -> shown b d t -> no_pi t \/ exists n, d = Given n.
Proof.
  intros b d; induction d as [tag ns text a ch IH|n] using draft_ind'; intros t D H; [|eauto]. left.
  inv H. inv D. constructor. match goal with X : Forall2 _ ch cs |- _ => revert X end. match goal with X : Forall pure ch |- _ => revert X end. clear -IH.
  intros F R. induction R as [|d t ch cs R1 R2 IHr]; [constructor|]. inv F. inv IH. constructor; auto. right.
  match goal with X : forall t, pure d -> _ |- _ => destruct (X t) as [Y|[n ->]]; auto end.
  inv R1. match goal with X : pure (Given n) |- _ => inv X end. eapply copied_no_pi; eauto.
Qed.

Lemma puts_made : forall ps tag ns text a ch n, puts ps (Draft tag ns text a ch) <> Some (Given n).
Proof.
  intros ps; induction ps as [|p ps IH]; intros tag ns text a ch n P; simpl in P; [discriminate|].
  destruct (put p (Draft tag ns text a ch)) as [d1|] eqn:E1; [|discriminate].
  destruct (put_made _ _ _ _ _ _ E1) as (n1 & t1 & a1 & c1 & ->). eapply IH; eauto.
Qed.

Lemma document_no_pi : forall ev fl v enc t, document ev fl v enc t -> pure_value v -> no_pi t.
Proof.
  intros ev fl v enc t D V. inv D.
  match goal with X : writes_model _ _ _ _ _ _ |- _ => apply (proj1 (proj2 (proj2 (proj2 (proj2 (pure_writes ev)))))) in X; auto; rename X into Q end.
  match goal with X : puts ps _ = Some ?d, Y : shown _ ?d t |- _ => destruct (shown_no_pi (puts_pure Q (fresh_pure _ _) X) Y) as [Z|[n ->]]; auto end.
  exfalso. eapply puts_made; eauto.
Qed.
