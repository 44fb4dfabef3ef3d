(** PropDecorate.v -- C72: what the decorators xml_field_validator and xml_field_serializer do *)

From Verif Require Import Base Names Classes SpecClasses PfClasses PropClasses Decorate SpecDecorate PfDecorate.

(** C72.  Take a class whose methods carry any decorators, classmethod and staticmethod among them.  If exactly
    one function is declared to validate a field, it is called to read it, with the class, the element and the
    name of the field; a classmethod above the decorator makes Python pass the class once more.  The order in
    which the methods are visited does not matter, nor do annotations. *)
Theorem C72_validator_called : forall metas ms field name id ds fields,
  Forall (fun m : method => proper (snd (snd m))) ms ->
  In (name, (id, ds)) ms -> validates ds fields -> In field fields ->
  (forall name' id' ds' fields', In (name', (id', ds')) ms -> validates ds' fields' -> In field fields' ->
     id' = id /\ ds' = ds) ->
  exists args w, field_calls metas ms field = Some (Some (id, args), w) /\
    gets ds [AClass; AElement; AField field] args.
Proof.
  intros metas ms field name id ds fields P I V F U. unfold field_calls.
  destruct (method_attrs_all P) as (attrs & E & F2). rewrite E.
  destruct (Forall2_in_l F2 _ I) as (na & J & N & x & D & A). simpl in D.
  assert (PR : proper ds) by (rewrite Forall_forall in P; apply (P _ I)).
  destruct (attr_right id PR) as (x' & D' & FI & T & B & VV & _). rewrite D in D'. injection D' as <-.
  assert (C : dget field (snd (collect metas attrs)) = Some (ca_func (class_attr x))).
  { rewrite <- A. apply C51_method_is_used; auto.
    - split; rewrite A; auto. apply VV. eauto.
    - intros na' J' (T' & V'). destruct (Forall2_in_r F2 _ J') as ((n' & id' & ds') & I' & N' & y & D' & A'). simpl in *.
      assert (PR' : proper ds') by (rewrite Forall_forall in P; apply (P _ I')).
      destruct (attr_right id' PR') as (y' & D'' & FI' & _ & _ & VV' & _). rewrite D' in D''. injection D'' as <-.
      rewrite A' in V'. apply VV' in V'. destruct V' as (l & V' & F').
      destruct (U _ _ _ _ I' V' F') as (-> & ->). rewrite D in D'. injection D' as <-. now rewrite A, A'. }
  rewrite C. cbn [option_map]. unfold call_validator, called_with. rewrite FI.
  destruct (snd (ca_func (class_attr x))).
  - do 2 eexists. split; [reflexivity|]. left. split; auto. now apply B.
  - do 2 eexists. split; [reflexivity|]. right. split; auto. intros H. apply B in H. discriminate.
Qed.

(** The same for serializers, which get the instance, the element, the value and the name of the field. *)
Theorem C72_serializer_called : forall metas ms field name id ds fields,
  Forall (fun m : method => proper (snd (snd m))) ms ->
  In (name, (id, ds)) ms -> serializes ds fields -> In field fields ->
  (forall name' id' ds' fields', In (name', (id', ds')) ms -> serializes ds' fields' -> In field fields' ->
     id' = id /\ ds' = ds) ->
  exists args r, field_calls metas ms field = Some (r, Some (id, args)) /\
    gets ds [AInstance; AElement; AValue; AField field] args.
Proof.
  intros metas ms field name id ds fields P I V F U. unfold field_calls.
  destruct (method_attrs_all P) as (attrs & E & F2). rewrite E.
  destruct (Forall2_in_l F2 _ I) as (na & J & N & x & D & A). simpl in D.
  assert (PR : proper ds) by (rewrite Forall_forall in P; apply (P _ I)).
  destruct (attr_right id PR) as (x' & D' & FI & T & B & _ & VV). rewrite D in D'. injection D' as <-.
  assert (C : dget field (fst (collect metas attrs)) = Some (ca_func (class_attr x))).
  { rewrite <- A. apply C51_method_is_used; auto.
    - split; rewrite A; auto. apply VV. eauto.
    - intros na' J' (T' & V'). destruct (Forall2_in_r F2 _ J') as ((n' & id' & ds') & I' & N' & y & D' & A'). simpl in *.
      assert (PR' : proper ds') by (rewrite Forall_forall in P; apply (P _ I')).
      destruct (attr_right id' PR') as (y' & D'' & FI' & _ & _ & _ & VV'). rewrite D' in D''. injection D'' as <-.
      rewrite A' in V'. apply VV' in V'. destruct V' as (l & V' & F').
      destruct (U _ _ _ _ I' V' F') as (-> & ->). rewrite D in D'. injection D' as <-. now rewrite A, A'. }
  rewrite C. cbn [option_map]. unfold call_serializer, called_with. rewrite FI.
  destruct (snd (ca_func (class_attr x))).
  - do 2 eexists. split; [reflexivity|]. left. split; auto. now apply B.
  - do 2 eexists. split; [reflexivity|]. right. split; auto. intros H. apply B in H. discriminate.
Qed.

(** A field no method is declared for, and no annotation either, is left to the library. *)
Theorem C72_other_fields : forall metas ms field,
  Forall (fun m : method => proper (snd (snd m))) ms -> ~ In field (dkeys metas) ->
  exists r w, field_calls metas ms field = Some (r, w) /\
    ((forall name id ds fields, In (name, (id, ds)) ms -> validates ds fields -> ~ In field fields) -> r = None) /\
    ((forall name id ds fields, In (name, (id, ds)) ms -> serializes ds fields -> ~ In field fields) -> w = None).
Proof.
  intros metas ms field P M. unfold field_calls.
  destruct (method_attrs_all P) as (attrs & E & F2). rewrite E. do 2 eexists. split; [reflexivity|].
  destruct (@C51_nothing_else _ metas attrs field M) as (Z & V).
  split; intros H.
  - rewrite V; [reflexivity|]. intros na J (T & W). destruct (Forall2_in_r F2 _ J) as ((n & id & ds) & I & N & y & D & A). simpl in *.
    assert (PR : proper ds) by (rewrite Forall_forall in P; apply (P _ I)).
    destruct (attr_right id PR) as (y' & D' & _ & _ & _ & VV & _). rewrite D in D'. injection D' as <-.
    rewrite A in W. apply VV in W. destruct W as (l & W & F). eapply H; eauto.
  - rewrite Z; [reflexivity|]. intros na J (T & W). destruct (Forall2_in_r F2 _ J) as ((n & id & ds) & I & N & y & D & A). simpl in *.
    assert (PR : proper ds) by (rewrite Forall_forall in P; apply (P _ I)).
    destruct (attr_right id PR) as (y' & D' & _ & _ & _ & _ & VV). rewrite D in D'. injection D' as <-.
    rewrite A in W. apply VV in W. destruct W as (l & W & F). eapply H; eauto.
Qed.

(** The documented forms: a validator is a class method under the decorator, a serializer a plain method;
    each is called with what its signature names. *)
Theorem C72_documented_forms : forall f more,
  (validates [DVal f more; DClass] (f :: more) /\ ~ class_method [DVal f more; DClass] /\ proper [DVal f more; DClass]) /\
  (serializes [DSer f more] (f :: more) /\ ~ class_method [DSer f more] /\ proper [DSer f more]).
Proof.
  intros f more. repeat split.
  - apply validates_val.
  - apply class_val.
  - intros [|a [|b [|c above]]] d below E [-> | ->]; inversion E; subst; try constructor.
  - apply serializes_ser. constructor.
  - intros (above & below & E & _). destruct above as [|a [|b above]]; discriminate.
  - intros [|a [|b above]] d below E [-> | ->]; discriminate.
Qed.

(** One would expect xml_field_serializer to work on class and static methods as xml_field_validator does: no,
    the decorator then has no effect, and the field is silently written by the library. *)
Theorem C72_serializer_on_classmethod_refuted : forall f more d, d = DClass \/ d = DStatic ->
  proper [DSer f more; d] /\
  forall name id field, field_calls [] [(name, (id, [DSer f more; d]))] field = Some (None, None).
Proof.
  intros f more d O. split.
  - intros [|a [|b [|c above]]] x below E [-> | ->]; inversion E; subst; constructor.
  - intros. destruct O as [-> | ->]; reflexivity.
Qed.

(** The order of the decorators matters as well: under a classmethod the validator gets the class twice (and
    raises TypeError if it has the documented signature), *)
Theorem C72_classmethod_on_top_refuted : forall f more name id,
  proper [DClass; DVal f more] /\
  exists w, field_calls [] [(name, (id, [DClass; DVal f more]))] f = Some (Some (id, [AClass; AClass; AElement; AField f]), w).
Proof.
  intros f more name id.
  assert (P : proper [DClass; DVal f more]).
  { intros [|a [|b [|c above]]] x below E [-> | ->]; inversion E; subst; constructor. }
  split; [exact P|].
  destruct (@C72_validator_called [] [(name, (id, [DClass; DVal f more]))] f name id [DClass; DVal f more] (f :: more))
    as (args & w & E & G); simpl; auto.
  - apply validates_other; auto with deco. apply validates_val.
  - intros name' id' ds' fields' [[= <- <- <-]|[]]; auto.
  - exists w. rewrite E. destruct G as [(_ & ->)|(N & _)]; auto.
    exfalso. apply N. exists [], [DVal f more]. auto.
Qed.

(** and of two decorators of one kind only the upper one counts. *)
Theorem C72_two_decorators_refuted : forall f g more name id, f <> g -> ~ In f more ->
  exists w, field_calls [] [(name, (id, [DVal g more; DVal f []; DClass]))] f = Some (None, w).
Proof.
  intros f g more name id N M.
  destruct (@C72_other_fields [] [(name, (id, [DVal g more; DVal f []; DClass]))] f) as (r & w & E & R & _); simpl; auto.
  - constructor; auto. intros [|a [|b [|c [|d above]]]] x below E [-> | ->]; inversion E; subst; constructor.
  - exists w. rewrite E, R; auto. intros name' id' ds fields [[= <- <- <-]|[]] V.
    apply validates_unique_val in V. subst. simpl. intros [->|I]; auto.
Qed.

(** a class with an annotated field, the documented forms and a static method *)
Example C72_ex :
  field_calls [("x", [FmVal ("annotated", false)]); ("z", [FmSer ("written", false)])]
    [("read_xy", ("reader", [DVal "x" ["y"]; DClass])); ("write_x", ("writer", [DSer "x" []]));
     ("write_y", ("static", [DStatic; DSer "y" []; DVal "w" []]))] "x"
  = Some (Some ("reader", [AClass; AElement; AField "x"]), Some ("writer", [AInstance; AElement; AValue; AField "x"])) /\
  serializes [DStatic; DSer "y" []; DVal "w" []] ["y"] /\ validates [DStatic; DSer "y" []; DVal "w" []] ["w"] /\
  proper [DStatic; DSer "y" []; DVal "w" []].
Proof.
  split; [reflexivity|]. split; [|split].
  - apply serializes_other; [discriminate|]. apply serializes_ser. constructor.
  - apply validates_other; auto with deco. apply validates_other; auto with deco. apply validates_val.
  - intros [|a [|b [|c [|d above]]]] x below E [-> | ->]; inversion E; subst; repeat constructor.
Qed.

Print Assumptions C72_validator_called.
Print Assumptions C72_serializer_called.
Print Assumptions C72_other_fields.
Print Assumptions C72_documented_forms.
Print Assumptions C72_serializer_on_classmethod_refuted.
Print Assumptions C72_classmethod_on_top_refuted.
Print Assumptions C72_two_decorators_refuted.
