(** PropAttrs.v -- C83: attributes that no field is bound to do not matter. *)

From Coq Require Import Relation_Operators.
From Verif Require Import Base Elem Native Errs Names Ser Write Read Api SpecElem SpecRead SpecSim SpecRead2 SpecRound SpecStray SpecAttrs
  PfFuel PfAttrs Samples PropRead PropStray.

(** C83.  Let [A] hold the attributes some field reads, by the tag of the element, and [W] the names of raw
    elements.  Two documents that differ in other attributes only, anywhere outside raw elements, any number of
    them, give the same value or the very same error, in every search mode. *)
Theorem C83_unread_attributes_ignored : forall A W ev, env_attrs A W ev -> attrs_unseen A W ev -> forbids_nothing ev ->
  forall n cls m root root' eas, en_model ev cls = Some m -> (forall k, takes_attr m k -> A (md_elem_name m) k = true) ->
  same_but_attrs A W root root' ->
  from_xml_tree n ev cls root eas = from_xml_tree n ev cls root' eas.
Proof. intros A W ev HA HS HF n cls m root root' eas Em Hm H. eapply attrs_run; eauto. Qed.
Print Assumptions C83_unread_attributes_ignored.

(** One step of the evolution of a format: attributes come or go that no field asks for, or elements do (and
    comments with them). *)
Definition revised (A : string -> string -> bool) (U W : string -> bool) (root root' : native) : Prop :=
  no_pi root' /\ (same_but_attrs A W root root' \/ same_but_strays false U W root root').

Lemma same_result_trans : forall a b c, same_result a b -> same_result b c -> same_result a c.
Proof.
  intros [v|x|] [w|y|] [u|z|]; simpl; try contradiction; intros; subst; auto;
    try (destruct x; contradiction); try (destruct y; contradiction); try (destruct x, y; contradiction); auto.
  destruct x, y, z; subst; auto; try contradiction; try discriminate; congruence.
Qed.

(** C83 with C39: any number of such steps, in ordered mode.  Old classes read the documents of a later version of
    the format as they would read the same data written in their own version. *)
Theorem C83_later_versions_readable : forall A U W ev eas, env_attrs A W ev -> env_asks U W Ordered ev ->
  wf_env named_tag (fun _ => False) ev -> forbids_nothing ev -> env_lists_ok eas ev ->
  forall cls m root root', en_model ev cls = Some m -> (forall k, takes_attr m k -> A (md_elem_name m) k = true) ->
  no_pi root -> clos_refl_trans_1n _ (revised A U W) root root' ->
  forall n n', from_xml_tree n ev cls root eas <> Fuel -> from_xml_tree n' ev cls root' eas <> Fuel ->
  same_result (from_xml_tree n ev cls root eas) (from_xml_tree n' ev cls root' eas).
Proof.
  intros A U W ev eas HA HU Wf Fb Ls cls m root root' Em Hm Np H.
  assert (HS : attrs_unseen A W ev).
  { intros c mc name f E C. destruct (HU c mc E) as [_ X]. rewrite X in C; discriminate. }
  assert (Same : forall r n n', from_xml_tree n ev cls r eas <> Fuel -> from_xml_tree n' ev cls r eas <> Fuel ->
    same_result (from_xml_tree n ev cls r eas) (from_xml_tree n' ev cls r eas)).
  { intros r n n' F F'.
    assert (E : from_xml_tree n ev cls r eas = from_xml_tree n' ev cls r eas).
    { destruct (Nat.le_ge_cases n n') as [L|L].
      - symmetry. apply from_xml_stable; auto.
      - apply from_xml_stable; auto. }
    rewrite <- E. destruct (from_xml_tree n ev cls r eas) as [v|x|]; simpl; auto. destruct x; auto. }
  revert Np. induction H as [r|r r1 r2 [Np1 Step] Rest IH]; intros Np n n' F F'; [auto|].
  destruct (C07_from_xml_terminates Ls cls r1) as (k & o & No & Ho). specialize (Ho k (le_n k)).
  assert (Fk : from_xml_tree k ev cls r1 eas <> Fuel) by congruence.
  apply same_result_trans with (from_xml_tree k ev cls r1 eas); [|apply IH; auto].
  destruct Step as [Step|Step].
  - assert (Fn : from_xml_tree n ev cls r1 eas <> Fuel) by (rewrite <- (@attrs_run A W ev HA HS Fb n cls m r r1 eas Em Hm Step); auto).
    rewrite (@attrs_run A W ev HA HS Fb n cls m r r1 eas Em Hm Step). apply Same; auto.
  - eapply C39_ordered_ignores_strays; eauto.
Qed.
Print Assumptions C83_later_versions_readable.

(** ---- non-vacuity ---- *)

Definition read_attributes (t k : string) : bool :=
  String.eqb k xsi_nil || (String.eqb t "node" && String.eqb k "id") || (String.eqb t "circle" && String.eqb k "r").

Lemma lib_attrs : forall m, env_attrs read_attributes raw_tags (lib Lxml m).
Proof.
  assert (P : forall m p, In p [sub "Node" "node" m; sub "Circle" "circle" m; sub "Square" "square" m] ->
    proxy_attrs read_attributes (lib Lxml m) p).
  { intros m p I. split; [simpl in I; intuition subst; reflexivity|]. intros md k E T.
    simpl in I. destruct I as [<-|[<-|[<-|[]]]]; simpl in E; injection E as <-; unfold takes_attr in T; simpl in T;
      repeat match goal with X : Exists _ _ |- _ => inversion X; subst; clear X end; simpl in *;
      repeat match goal with X : own_attr _ _ |- _ => inversion X; subst; clear X end; reflexivity. }
  intros m cls md. unfold lib; simpl.
  destruct (String.eqb cls "Node"); [intros E; injection E as <-|].
  { repeat first [apply Forall_nil|apply Forall_cons]; simpl; constructor; try discriminate. constructor. apply P; simpl; auto. }
  destruct (String.eqb cls "Circle"); [intros E; injection E as <-; repeat constructor|].
  destruct (String.eqb cls "Square"); [intros E; injection E as <-; repeat constructor; discriminate|].
  destruct (String.eqb cls "Shapes"); [intros E; injection E as <-|discriminate].
  repeat first [apply Forall_nil|apply Forall_cons]; simpl; constructor; try reflexivity.
  - constructor. repeat constructor; apply P; simpl; auto.
  - intros k O; inversion O.
  - constructor. discriminate.
  - intros k O; inversion O.
  - constructor. reflexivity.
Qed.

Lemma lib_unseen : forall A W m, attrs_unseen A W (lib Lxml m).
Proof. intros A W m cls md name f E C. destruct (@lib_asks m cls md E) as [_ X]. rewrite X in C; discriminate. Qed.

(** shapes_doc with unknown attributes on the root, in a variant of a union, on a wrapper and on a nil element *)
Definition attributed_doc : native :=
  el "shapes" [("version", "2"); ("id", "7")] ""
    [el "circle" [("color", "red"); ("r", "1"); ("id", "9")] "" []; el "square" [("r", "3")] "" [el "a" [("unit", "cm")] "2" []];
     el "circle" [("r", "3")] "" [];
     el "meta" [("k", "v")] "" [el "note" [("lang", "en")] "hello" []; el "author" [("k", "v"); (xsi_nil, "true")] "" []];
     el "extra" [] "raw" [el "x" [] "" []]].

Ltac attributed := repeat first [reflexivity | apply Forall2_nil | apply sba_same
  | apply sba_elem; [reflexivity|vm_compute; reflexivity|] | apply Forall2_cons].

Example C83_ex : same_but_attrs read_attributes raw_tags shapes_doc attributed_doc /\
  (forall k, takes_attr (shapes Strict) k -> read_attributes (md_elem_name (shapes Strict)) k = true) /\
  exists w, from_xml_tree 9 (lib Lxml Strict) "Shapes" shapes_doc false = Ok w /\
            from_xml_tree 9 (lib Lxml Strict) "Shapes" attributed_doc false = Ok w.
Proof.
  split; [|split].
  - unfold shapes_doc, attributed_doc, el. attributed.
  - intros k T. unfold takes_attr in T; simpl in T.
    repeat match goal with X : Exists _ _ |- _ => inversion X; subst; clear X end; simpl in *;
      repeat match goal with X : own_attr _ _ |- _ => inversion X; subst; clear X end.
  - eexists; split; [vm_compute; reflexivity|vm_compute; reflexivity].
Qed.

Definition third_version : native :=
  el "shapes" [("version", "3")] ""
    [u; el "circle" [("r", "1")] "" [v]; v; el "square" [] "" [u; el "a" [] "2" [v]]; v; u; el "circle" [("r", "3")] "" [];
     u; el "meta" [] "" [v; el "note" [("lang", "en")] "hello" []; el "author" [(xsi_nil, "true")] "" []];
     v; el "extra" [] "raw" [el "x" [] "" []]; u].

Ltac elements_only := repeat first [apply Forall_nil|apply Forall_cons|right; constructor|constructor].

Example C83_ex_versions : clos_refl_trans_1n _ (revised read_attributes unknown raw_tags) shapes_doc third_version /\ no_pi shapes_doc.
Proof.
  split.
  - apply rt1n_trans with strayed_doc.
    { split; [unfold strayed_doc, u, v, el; elements_only|right; unfold shapes_doc, strayed_doc, u, v, el; like]. }
    apply rt1n_trans with third_version; [|apply rt1n_refl].
    split; [unfold third_version, u, v, el; elements_only|left; unfold strayed_doc, third_version, u, v, el; attributed].
  - unfold shapes_doc, el. elements_only.
Qed.

(** ---- the limits ---- *)

(** an attribute that a mapping takes is not one that no field asks for *)
Theorem C83_mapping_refuted : exists ev cls root root',
  (forall name c, ~ In (SAttr name c) (match en_model ev cls with Some m => map snd (md_fields m) | None => [] end)) /\
  root = el "tags" [] "" [] /\ root' = el "tags" [("k", "1")] "" [] /\ forbids_nothing ev /\
  from_xml_tree 9 ev cls root false <> from_xml_tree 9 ev cls root' false.
Proof.
  exists (Env Lxml (fun c => if String.eqb c "Tags" then Some (plain_model "Tags" "tags" [("all", SAttrs (AttrsSer None None false false))] []) else None)),
    "Tags", (el "tags" [] "" []), (el "tags" [("k", "1")] "" []).
  repeat split.
  - simpl. intros name c [E|[]]; discriminate.
  - intros c m; simpl. destruct (String.eqb c "Tags"); [intros E; injection E as <-; reflexivity|discriminate].
  - vm_compute. discriminate.
Qed.
Print Assumptions C83_mapping_refuted.

(** with extra='forbid' an attribute nobody asks for is reported *)
Theorem C83_forbidden_refuted : exists ev cls m root root', en_model ev cls = Some m /\ env_attrs read_attributes raw_tags ev /\
  attrs_unseen read_attributes raw_tags ev /\ (forall k, takes_attr m k -> read_attributes (md_elem_name m) k = true) /\
  same_but_attrs read_attributes raw_tags root root' /\
  exists w err, from_xml_tree 9 ev cls root false = Ok w /\ from_xml_tree 9 ev cls root' false = Raise (XValidation err).
Proof.
  exists (forbidding (lib Lxml Strict)), "Node",
    (MDef "Node" false "node" None (md_fields (node Strict)) [] [] false true None (fun _ => None) (fun _ => None) (accepts "Node" ["value"])),
    node_doc, (el "node" [("id", "1"); ("k", "2")] ""
    [el "value" [] "10" []; el "node" [] "" [el "value" [] "20" []]; el "node" [("id", "3")] "" [el "value" [] "30" []]]).
  split; [reflexivity|]. split; [|split; [|split; [|split]]].
  - assert (P : forall p, proxy_attrs read_attributes (lib Lxml Strict) p -> proxy_attrs read_attributes (forbidding (lib Lxml Strict)) p).
    { intros p [H1 H2]; split; auto. intros m k E T. unfold forbidding in E. cbn [en_model] in E.
      destruct (en_model (lib Lxml Strict) (px_model p)) as [m0|] eqn:E0; [|discriminate]. injection E as <-. apply (H2 m0 k); auto. }
    assert (Q : forall s, attrs_in read_attributes raw_tags (lib Lxml Strict) s -> attrs_in read_attributes raw_tags (forbidding (lib Lxml Strict)) s).
    { fix Q 2. intros s H. destruct H; constructor; auto.
      - clear -H Q. induction H; constructor; auto.
      - clear -H P. induction H; constructor; auto.
      - clear -H P. induction H as [|? ? [H1 H2]]; constructor; auto. }
    intros cls m X. unfold forbidding in X. cbn [en_model] in X.
    destruct (en_model (lib Lxml Strict) cls) as [m0|] eqn:E; [|discriminate X]. injection X as <-. simpl.
    pose proof (@lib_attrs Strict cls m0 E) as F. clear E. induction F; constructor; auto.
  - intros cls m name f X C. unfold forbidding in X. cbn [en_model] in X.
    destruct (en_model (lib Lxml Strict) cls) as [m0|] eqn:E; [|discriminate X]. injection X as <-.
    destruct (@lib_asks Strict cls m0 E) as [_ Y]. cbn [md_cval] in C. rewrite Y in C; discriminate.
  - intros k T. unfold takes_attr in T; simpl in T.
    repeat match goal with X : Exists _ _ |- _ => inversion X; subst; clear X end; simpl in *;
      repeat match goal with X : own_attr _ _ |- _ => inversion X; subst; clear X end; reflexivity.
  - unfold node_doc, el. attributed.
  - eexists _, _; split; vm_compute; reflexivity.
Qed.
Print Assumptions C83_forbidden_refuted.
