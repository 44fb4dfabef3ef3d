(** PfDecorate.v -- proofs about decorators (C72) *)

From Verif Require Import Base Names Classes SpecClasses PfClasses Decorate SpecDecorate.

Local Ltac inv H := inversion H; subst; clear H.

Lemma proper_tail : forall d ds, proper (d :: ds) -> proper ds.
Proof. intros d ds P above x below -> O. apply (P (d :: above) x below); auto. Qed.

Lemma not_val_ser : forall f more, ~ is_validator (DSer f more).
Proof. intros f more (a & b & E). discriminate. Qed.
Lemma not_val_class : ~ is_validator DClass.
Proof. intros (a & b & E). discriminate. Qed.
Lemma not_val_static : ~ is_validator DStatic.
Proof. intros (a & b & E). discriminate. Qed.
Lemma is_val : forall f more, is_validator (DVal f more).
Proof. intros f more. now exists f, more. Qed.
#[export] Hint Resolve not_val_ser not_val_class not_val_static is_val : deco.

Definition listed (o : option (list string)) : list string := match o with Some l => l | None => [] end.

Definition marks_of (x : pymeth) : marks := match x with MFunc _ m | MClass _ m _ | MStatic _ m _ => m end.
Definition is_func (x : pymeth) : Prop := match x with MFunc _ _ => True | _ => False end.
Definition is_class (x : pymeth) : Prop := match x with MClass _ _ _ => True | _ => False end.

Definition says (o : option (list string)) (P : list string -> Prop) : Prop :=
  match o with Some l => l <> [] /\ P l | None => forall l, ~ P l end.

Lemma validates_val : forall f more ds, validates (DVal f more :: ds) (f :: more).
Proof. intros. exists [], f, more, ds. auto. Qed.

Lemma validates_other : forall d ds l, ~ is_validator d -> (validates (d :: ds) l <-> validates ds l).
Proof.
  intros d ds l N. split.
  - intros (above & f & more & below & E & A & ->). destruct above as [|a above]; inv E.
    + exfalso; apply N; auto with deco.
    + inv A. exists above, f, more, below. auto.
  - intros (above & f & more & below & -> & A & ->). exists (d :: above), f, more, below. auto.
Qed.

Lemma class_val : forall f more ds, ~ class_method (DVal f more :: ds).
Proof.
  intros f more ds (above & below & E & A). destruct above; inv E. inv A. auto with deco.
Qed.

Lemma class_other : forall d ds, ~ is_validator d -> d <> DClass -> (class_method (d :: ds) <-> class_method ds).
Proof.
  intros d ds N D. split.
  - intros (above & below & E & A). destruct above as [|a above]; inv E; [congruence|]. inv A. exists above, below; auto.
  - intros (above & below & -> & A). exists (d :: above), below; auto.
Qed.

Lemma serializes_ser : forall f more ds, plain ds -> serializes (DSer f more :: ds) (f :: more).
Proof.
  intros. exists [], f, more, ds. repeat split; auto. intros above' f' more' between E. destruct above'; discriminate.
Qed.

Lemma serializes_other : forall d ds l, (forall f more, d = DSer f more -> ~ plain ds) ->
  (serializes (d :: ds) l <-> serializes ds l).
Proof.
  intros d ds l N. split.
  - intros (above & f & more & below & E & P & -> & T). destruct above as [|a above]; inv E.
    + exfalso; eapply N; eauto.
    + exists above, f, more, below. repeat split; auto. intros above' f' more' between ->. apply (T (a :: above') f' more' between). reflexivity.
  - intros (above & f & more & below & -> & P & -> & T). exists (d :: above), f, more, below. repeat split; auto.
    intros above' f' more' between E. destruct above' as [|a above']; inv E; [eapply N; eauto|eapply T; eauto].
Qed.

Lemma serializes_unique_ser : forall f more ds l, plain ds -> serializes (DSer f more :: ds) l -> l = f :: more.
Proof.
  intros f more ds l P (above & f' & more' & below & E & P' & -> & T). destruct above as [|a above]; inv E; auto.
  exfalso. apply (T [] f more above); auto.
Qed.

Lemma validates_unique_val : forall f more ds l, validates (DVal f more :: ds) l -> l = f :: more.
Proof.
  intros f more ds l (above & f' & more' & below & E & A & ->). destruct above as [|a above]; inv E; auto.
  inv A. exfalso; auto with deco.
Qed.

(** the object a pile of decorators gives *)
Definition right (ds : list deco) (id : string) (x : pymeth) : Prop :=
  (fst (ca_func (class_attr x)) = id) /\
  (is_func x <-> plain ds) /\ (is_class x <-> class_method ds) /\
  (forall l, mk_val (marks_of x) = Some l <-> validates ds l) /\
  (forall l, mk_ser (marks_of x) = Some l <-> serializes ds l).

Lemma not_plain_class : forall ds, ~ plain (DClass :: ds).
Proof. intros ds P. inv P. Qed.
Lemma not_plain_static : forall ds, ~ plain (DStatic :: ds).
Proof. intros ds P. inv P. Qed.

Lemma decorated_right : forall id ds, proper ds -> exists x, decorated id ds = Some x /\ right ds id x.
Proof.
  intros id. induction ds as [|d ds IH]; intros P.
  - exists (MFunc id no_marks). split; [reflexivity|]. repeat split; simpl; auto; try constructor; try discriminate; try tauto.
    + intros (above & below & E & _). destruct above; discriminate.
    + intros (above & f & more & below & E & _). destruct above; discriminate.
    + intros (above & f & more & below & E & _). destruct above; discriminate.
  - destruct (IH (proper_tail P)) as (x & D & I & F & C & V & Z). cbn [decorated]. rewrite D.
    destruct d as [f more|f more| |].
    + exists (mark_validator f more x). split; [reflexivity|].
      assert (M : mk_ser (marks_of (mark_validator f more x)) = mk_ser (marks_of x)) by now destruct x.
      assert (M' : mk_val (marks_of (mark_validator f more x)) = Some (f :: more)) by now destruct x.
      repeat split.
      * destruct x; auto.
      * intros _. constructor.
      * intros _. now destruct x.
      * now destruct x.
      * intros H. exfalso. eapply class_val; eauto.
      * rewrite M'. intros [= <-]. apply validates_val.
      * rewrite M'. intros H. apply validates_unique_val in H. now subst.
      * rewrite M, Z. intros H. apply serializes_other; auto. discriminate.
      * rewrite M, Z. intros H. apply serializes_other in H; auto. discriminate.
    + exists (mark_serializer f more x). split; [reflexivity|].
      assert (M : mk_val (marks_of (mark_serializer f more x)) = mk_val (marks_of x)) by now destruct x.
      assert (G : is_func (mark_serializer f more x) <-> is_func x) by now destruct x.
      assert (K : is_class (mark_serializer f more x) <-> is_class x) by now destruct x.
      assert (J : fst (ca_func (class_attr (mark_serializer f more x))) = id) by now destruct x.
      split; [exact J|]. split; [|split; [|split]].
      * rewrite G, F. split; [now constructor|]. intros H. now inv H.
      * rewrite K, C. symmetry. apply class_other; auto with deco. discriminate.
      * intros l. rewrite M, V. symmetry. apply validates_other; auto with deco.
      * intros l. destruct x as [i m|i m own|i m own].
        -- assert (PL : plain ds) by (apply F; exact Logic.I). cbn. split.
           ++ intros [= <-]. now apply serializes_ser.
           ++ intros H. f_equal. symmetry. eapply serializes_unique_ser; eauto.
        -- assert (PL : ~ plain ds) by (intros H; apply F in H; exact H). cbn. cbn in Z. rewrite Z.
           symmetry. apply serializes_other. intros; auto.
        -- assert (PL : ~ plain ds) by (intros H; apply F in H; exact H). cbn. cbn in Z. rewrite Z.
           symmetry. apply serializes_other. intros; auto.
    + assert (PL : plain ds) by (apply (P [] DClass ds); auto).
      apply F in PL. destruct x as [i m|i m own|i m own]; try contradiction.
      exists (MClass i m m). split; [reflexivity|]. split; [exact I|]. split; [|split; [|split]].
      * split; [contradiction|intros H; inv H].
      * split; [|auto]. simpl. intros _. exists [], ds. auto.
      * intros l. cbn. cbn in V. rewrite V. symmetry. apply validates_other; auto with deco.
      * intros l. cbn. cbn in Z. rewrite Z. symmetry. apply serializes_other. discriminate.
    + assert (PL : plain ds) by (apply (P [] DStatic ds); auto).
      apply F in PL. destruct x as [i m|i m own|i m own]; try contradiction.
      exists (MStatic i m m). split; [reflexivity|]. split; [exact I|]. split; [|split; [|split]].
      * split; [contradiction|intros H; inv H].
      * cbn in C |- *. rewrite C. symmetry. apply class_other; auto with deco. discriminate.
      * intros l. cbn. cbn in V. rewrite V. symmetry. apply validates_other; auto with deco.
      * intros l. cbn. cbn in Z. rewrite Z. symmetry. apply serializes_other. discriminate.
Qed.

(** as attributes of the class *)
Lemma attr_right : forall id ds, proper ds -> exists x, decorated id ds = Some x /\
  fst (ca_func (class_attr x)) = id /\ ca_true (class_attr x) = true /\
  (snd (ca_func (class_attr x)) = true <-> class_method ds) /\
  (forall f, In f (ca_val (class_attr x)) <-> exists l, validates ds l /\ In f l) /\
  (forall f, In f (ca_ser (class_attr x)) <-> exists l, serializes ds l /\ In f l).
Proof.
  intros id ds P. destruct (decorated_right id P) as (x & D & I & F & C & V & Z).
  exists x. split; [exact D|]. split; [exact I|]. split; [now destruct x|].
  assert (B : snd (ca_func (class_attr x)) = true <-> is_class x) by (destruct x; simpl; split; try tauto; discriminate).
  assert (LV : ca_val (class_attr x) = listed (mk_val (marks_of x))) by now destruct x.
  assert (LS : ca_ser (class_attr x) = listed (mk_ser (marks_of x))) by now destruct x.
  split; [now rewrite B|]. rewrite LV, LS. split; intros f.
  - split.
    + intros J. destruct (mk_val (marks_of x)) as [l|] eqn:E; [|contradiction]. exists l. split; auto. now apply V.
    + intros (l & W & J). apply V in W. now rewrite W.
  - split.
    + intros J. destruct (mk_ser (marks_of x)) as [l|] eqn:E; [|contradiction]. exists l. split; auto. now apply Z.
    + intros (l & W & J). apply Z in W. now rewrite W.
Qed.

Lemma method_attrs_all : forall ms, Forall (fun m : method => proper (snd (snd m))) ms ->
  exists attrs, method_attrs ms = Some attrs /\
    Forall2 (fun (m : method) na => fst na = fst m /\
      exists x, decorated (fst (snd m)) (snd (snd m)) = Some x /\ snd na = class_attr x) ms attrs.
Proof.
  induction 1 as [|(name & id & ds) ms P A (attrs & E & F)]; [exists []; split; auto|].
  destruct (attr_right id P) as (x & D & _). cbn [method_attrs]. cbn in D. rewrite D, E.
  eexists. split; [reflexivity|]. constructor; auto. simpl. split; auto. exists x; auto.
Qed.

Lemma Forall2_in_l : forall A B (R : A -> B -> Prop) l l', Forall2 R l l' -> forall a, In a l -> exists b, In b l' /\ R a b.
Proof. induction 1; simpl; intros a []; subst; eauto. destruct (IHForall2 _ H1) as (b & ? & ?); eauto. Qed.
Lemma Forall2_in_r : forall A B (R : A -> B -> Prop) l l', Forall2 R l l' -> forall b, In b l' -> exists a, In a l /\ R a b.
Proof. induction 1; simpl; intros a []; subst; eauto. destruct (IHForall2 _ H1) as (b & ? & ?); eauto. Qed.
