(** PfBuild4.v -- more fuel does not change what is built. *)

From Verif Require Import Base Elem Native Errs Names Fields Ser SpecNames Build SpecBuild PfNames PfBuild.

Definition ole {A} (a b : out A) : Prop := a = Fuel \/ a = b.

Lemma ole_refl : forall A (a : out A), ole a a.
Proof. right; auto. Qed.

Lemma ole_bind : forall A B (a b : out A) (f g : A -> out B),
  ole a b -> (forall x, ole (f x) (g x)) -> ole (obind a f) (obind b g).
Proof.
  intros A B a b f g [->| ->] H; [left; auto|].
  destruct b as [x|x|]; simpl; [apply H | right; auto | left; auto].
Qed.

Lemma ole_omap : forall A B (f g : A -> out B) l, (forall a, ole (f a) (g a)) -> ole (omap f l) (omap g l).
Proof.
  intros A B f g l H. induction l as [|a l IH]; simpl; [apply ole_refl|].
  apply ole_bind; auto. intros b. apply ole_bind; auto. intros bs. apply ole_refl.
Qed.

#[local] Hint Resolve ole_refl : core.

Lemma preprocess_le : forall n n', n <= n' -> forall s c, ole (preprocess n s c) (preprocess n' s c).
Proof.
  induction n as [|n IH]; intros n' L s c; [left; auto|].
  destruct n' as [|n']; [lia|]. assert (L' : n <= n') by lia. cbn [preprocess].
  destruct s; auto.
  - destruct ser; auto.
  - destruct (dget ref (cx_defs c)); auto.
Qed.

Section Le.
  Variable cl : classes.
  Variable ev : env.

  Section Step.
    Variables r1 r2 : cschema -> ctx -> out ser.
    Variables n1 n2 : nat.
    Hypothesis Hn : n1 <= n2.
    Hypothesis Hr : forall s c, ole (r1 s c) (r2 s c).

    Let pre := preprocess_le Hn.

    Lemma wrap_le : forall s c, ole (build_wrap r1 s c) (build_wrap r2 s c).
    Proof.
      intros s c. unfold build_wrap. destruct (cx_path c); auto.
      apply ole_bind; auto.
    Qed.

    Lemma homo_le : forall s c, ole (build_homo r1 n1 s c) (build_homo r2 n2 s c).
    Proof.
      intros s c. unfold build_homo. apply ole_bind; [apply pre|]. intros [t d].
      destruct (negb _); auto. destruct (_ && _); auto.
      destruct (cx_location d) as [[| |]|]; auto; apply ole_bind; auto.
    Qed.

    Lemma check_le : forall l c, ole (check_items n1 l c) (check_items n2 l c).
    Proof.
      induction l as [|s l IH]; intros c; cbn [check_items]; auto.
      apply ole_bind; [apply pre|]. intros [t d]. destruct (negb _); auto. destruct (_ && _); auto.
    Qed.

    Lemma hetero_le : forall l c, ole (build_hetero r1 n1 l c) (build_hetero r2 n2 l c).
    Proof.
      intros l c. unfold build_hetero. apply ole_bind; [apply check_le|]. intros d.
      destruct (cx_location d) as [[| |]|]; auto; (apply ole_bind; [apply ole_omap; auto|auto]).
    Qed.

    Lemma choices_le : forall l c, ole (choice_families n1 l c) (choice_families n2 l c).
    Proof.
      induction l as [|s l IH]; intros c; cbn [choice_families]; auto.
      apply ole_bind; [apply pre|]. intros [t d].
      destruct (family_of t) as [[]|]; auto; (apply ole_bind; [apply IH|]; intros [fs e]; auto).
    Qed.

    Lemma union_le : forall l c, ole (build_union r1 n1 l c) (build_union r2 n2 l c).
    Proof.
      intros l c. unfold build_union. apply ole_bind; [apply choices_le|]. intros [fs d]. cbv zeta.
      destruct fs; auto. destruct (_ && _); auto. destruct (existsb _ _).
      - unfold build_union_model. apply ole_bind; [|auto]. apply ole_omap. intros s. apply ole_bind; auto.
      - destruct (existsb _ _); auto. unfold build_union_prim. apply ole_bind; [|auto]. apply ole_omap; auto.
    Qed.

    Lemma check_tagged_le : forall l c, ole (check_tagged n1 l c) (check_tagged n2 l c).
    Proof.
      induction l as [|[tag s] l IH]; intros c; cbn [check_tagged]; auto.
      apply ole_bind; [apply pre|]. intros [t d]. destruct t; auto. destruct root; auto.
    Qed.

    Lemma variants_le : forall disc l c a acc,
      ole (build_variants ev r1 disc l c a acc) (build_variants ev r2 disc l c a acc).
    Proof.
      intros disc. induction l as [|[tag s] l IH]; intros c a acc; cbn [build_variants]; auto.
      destruct tag; auto. apply ole_bind; auto. intros r. apply ole_bind; auto. intros p.
      destruct (en_model ev (px_model p)) as [m|]; auto. destruct (md_root m); auto.
      destruct (dget disc (md_fields m)) as [[]|]; auto.
      destruct a as [b|]; auto. destruct (String.eqb name b); auto.
    Qed.

    Lemma all_prim_le : forall l c, ole (all_prim n1 l c) (all_prim n2 l c).
    Proof.
      induction l as [|s l IH]; intros c; simpl; auto.
      apply ole_bind; [apply pre|]. intros [t d]. destruct (negb _); auto.
    Qed.

    Lemma select_le : forall s c, ole (select cl ev r1 n1 s c) (select cl ev r2 n2 s c).
    Proof.
      intros s c. unfold select. destruct (family_of s); auto.
      assert (G : ole
          match s with
              | CType _ => build_prim c
              | CModel cls _ _ => build_submodel cl cls c
              | CList item => build_homo r1 n1 item c
              | CTuple variadic items => build_tuple r1 n1 variadic items c
              | CDict keys values => build_mapping n1 keys values c
              | CTypedDict values => build_typed_mapping n1 values c
              | CUnion choices => build_union r1 n1 choices c
              | CTagged disc choices => build_tagged ev r1 n1 disc choices c
              | CIsInstance raw => build_is_instance raw c
              | CCall tuple_class args => build_call r1 n1 tuple_class args c
              | _ => Raise XAssertion
        end
          match s with
              | CType _ => build_prim c
              | CModel cls _ _ => build_submodel cl cls c
              | CList item => build_homo r2 n2 item c
              | CTuple variadic items => build_tuple r2 n2 variadic items c
              | CDict keys values => build_mapping n2 keys values c
              | CTypedDict values => build_typed_mapping n2 values c
              | CUnion choices => build_union r2 n2 choices c
              | CTagged disc choices => build_tagged ev r2 n2 disc choices c
              | CIsInstance raw => build_is_instance raw c
              | CCall tuple_class args => build_call r2 n2 tuple_class args c
              | _ => Raise XAssertion
        end).
      { destruct s; auto.
        - apply homo_le.
        - destruct variadic as [[|v]|]; cbn [build_tuple]; auto.
          + destruct items as [|s [|]]; auto. apply homo_le.
          + apply hetero_le.
        - unfold build_mapping. apply ole_bind; [apply pre|]. intros [k d].
          apply ole_bind; [apply pre|]. intros [v d2]. auto.
        - unfold build_typed_mapping. apply ole_bind; [apply all_prim_le|auto].
        - apply union_le.
        - unfold build_tagged. apply ole_bind; [apply check_tagged_le|]. intros d.
          destruct disc; auto. apply ole_bind; [apply variants_le|]. intros [[a|] vs]; auto.
        - unfold build_call. destruct tuple_class; auto. apply hetero_le. }
      destruct (cx_location c) as [[| |]|]; try exact G. apply wrap_le.
    Qed.
  End Step.

  Lemma parse_le : forall n n', n <= n' -> forall s c, ole (parse cl ev n s c) (parse cl ev n' s c).
  Proof.
    induction n as [|n IH]; intros n' L s c; [left; auto|].
    destruct n' as [|n']; [lia|]. assert (L' : n <= n') by lia. cbn [parse].
    apply ole_bind; [apply preprocess_le; auto|]. intros [t d]. apply select_le; auto.
  Qed.

  Lemma build_fields_le : forall n n', n <= n' -> forall k hide fs c sers va ex,
    ole (build_fields cl ev n k hide fs c sers va ex) (build_fields cl ev n' k hide fs c sers va ex).
  Proof.
    intros n n' L k hide fs. induction fs as [|[name [e sa v s]] fs IH]; intros c sers va ex;
      cbn [build_fields]; auto.
    destruct (existsb _ _); auto. apply ole_bind; [apply parse_le; auto|]. auto.
  Qed.

  Lemma build_computed_le : forall n n', n <= n' -> forall k hide cs c sers,
    ole (build_computed cl ev n k hide cs c sers) (build_computed cl ev n' k hide cs c sers).
  Proof.
    intros n n' L k hide cs. induction cs as [|[name [sa s]] cs IH]; intros c sers;
      cbn [build_computed]; auto.
    apply ole_bind; [apply parse_le; auto|]. auto.
  Qed.

  Lemma build_class_stable : forall n n' k s, n <= n' -> build_class cl ev n k s <> Fuel ->
    build_class cl ev n' k s = build_class cl ev n k s.
  Proof.
    intros n n' k s L N.
    assert (G : ole (build_class cl ev n k s) (build_class cl ev n' k s)).
    { unfold build_class. apply ole_bind; [apply preprocess_le; auto|]. intros [s' c].
      destruct s'; auto. destruct root.
      - unfold build_root_model. destruct (cl cls); auto. cbv zeta.
        apply ole_bind; [apply parse_le; auto|]. auto.
      - unfold build_model. destruct (cl cls); auto. destruct (skip_before s'); auto. cbv zeta.
        apply ole_bind; [apply build_fields_le; auto|]. intros [[sers va] ex].
        apply ole_bind; [apply build_computed_le; auto|]. auto. }
    destruct G; congruence.
  Qed.
End Le.
