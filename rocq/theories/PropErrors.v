(** PropErrors.v -- what a ValidationError raised by from_xml says (C81). *)

From Verif Require Import Base Elem Native Errs Names Ser Read Api Calls SpecCalls SpecWCalls SpecErrors PfErrors Samples PropFind.

(** C81.  Every line of a ValidationError passes on what a validation of one of the classes, or a field validator, has
    complained about, with the type, input and text it had and at a location that leads to that class; the others report
    unbound data of a class that forbids it. *)
Theorem C81_nothing_made_up : forall ev n cls root eas err,
  from_xml_tree n ev cls root eas = Raise (XValidation err) ->
  exists reported, incl reported (all_complaints ev (calls n ev cls root eas)) /\
    tells ev (class_leads ev cls) reported (ve_lines err).
Proof.
  intros ev n cls root eas err H. pose proof (@from_xml_told ev n cls root eas) as T. rewrite H in T. apply T.
Qed.

(** Without unions nothing is lost: all complaints are passed on, each once and in the order they were made ... *)
Theorem C81_nothing_lost : forall ev, distinct_fields ev -> no_unions ev -> forall n cls root eas err,
  from_xml_tree n ev cls root eas = Raise (XValidation err) ->
  tells ev (class_leads ev cls) (all_complaints ev (calls n ev cls root eas)) (ve_lines err).
Proof.
  intros ev Dis Nu n cls root eas err H. pose proof (@from_xml_told ev n cls root eas) as T. rewrite H in T. apply T. split; auto.
Qed.

(** ... and a value is returned only if no call has failed *)
Theorem C81_all_accepted : forall ev, distinct_fields ev -> no_unions ev -> forall n cls root eas v,
  from_xml_tree n ev cls root eas = Ok v -> Forall (accepted ev) (calls n ev cls root eas).
Proof.
  intros ev Dis Nu n cls root eas v H. pose proof (@from_xml_told ev n cls root eas) as T. rewrite H in T. apply T. split; auto.
Qed.

(** ---- a case ---- *)

Definition nodes : env := one_class "Node" (node Unordered).

Lemma nodes_plain : distinct_fields nodes /\ no_unions nodes.
Proof.
  split; intros cls m H; unfold nodes, one_class in H; simpl in H; (destruct (String.eqb cls "Node"); [|discriminate]); injection H as <-;
    simpl; repeat constructor; simpl; intuition discriminate.
Qed.

(** <node><value>1</value><node/><node><value>2</value><node/></node></node>: two nodes without a value, at different
    depths; the outer ones are not validated any more *)
Example C81_ex : distinct_fields nodes /\ no_unions nodes /\ exists err,
  from_xml_tree 9 nodes "Node" (el "node" [] "" [el "value" [] "1" []; el "node" [] "" []; el "node" [] "" [el "value" [] "2" []; el "node" [] "" []]]) false =
    Raise (XValidation err) /\
  map (fun l => (le_loc l, le_msg l)) (ve_lines err) =
    [([LKey "children"; LIdx 0; LKey "value"], MLine 7 (MText "Field required"));
     ([LKey "children"; LIdx 1; LKey "children"; LIdx 0; LKey "value"], MLine 7 (MText "Field required"))] /\
  map (fun cl : call * lerr => let (c, l) := cl in (c, le_loc l))
    (all_complaints nodes (calls 9 nodes "Node"
       (el "node" [] "" [el "value" [] "1" []; el "node" [] "" []; el "node" [] "" [el "value" [] "2" []; el "node" [] "" []]]) false)) =
    [(CValidate "Node" (Some (VDict [])), [LKey "value"]); (CValidate "Node" (Some (VDict [])), [LKey "value"])].
Proof.
  split; [apply nodes_plain|split; [apply nodes_plain|]].
  eexists. split; [vm_compute; reflexivity|]. split; reflexivity.
Qed.

(** ---- what does not hold ---- *)

(** class Shelf: item: Union[a.Item, b.Item], where the two classes have the same name: of the complaints of the first
    one, which is tried as well, nothing is left *)
Definition two_items : env := Env Lxml (fun c =>
  if String.eqb c "a.Item" then Some (plain_model "Item" "item" [("x", SAttr "x" false)] ["x"])
  else if String.eqb c "b.Item" then Some (plain_model "Item" "item" [("y", SAttr "y" false)] ["y"])
  else if String.eqb c "Shelf" then Some (plain_model "Shelf" "shelf" [("item", SUnionModel "Shelf" false [sub "a.Item" "item" Strict; sub "b.Item" "item" Strict] false)] ["item"])
  else None).


Theorem C81_same_title_refuted : exists ev cls root err lost,
  distinct_fields ev /\ from_xml_tree 9 ev cls root false = Raise (XValidation err) /\
  In lost (all_complaints ev (calls 9 ev cls root false)) /\
  Forall (fun l => ~ passes_on (class_leads ev cls) lost l) (ve_lines err).
Proof.
  exists two_items, "Shelf", (el "shelf" [] "" [el "item" [] "" []]).
  eexists. exists (CValidate "a.Item" (Some (VDict [])), LErr "missing" (MText "Field required") [LKey "x"] (VDict [])).
  split; [|split; [vm_compute; reflexivity|split; [vm_compute; left; reflexivity|]]].
  - intros cls m H. unfold two_items in H. cbn [en_model] in H.
    repeat (destruct (String.eqb cls _) in H; [injection H as <-; repeat constructor; simpl; tauto|]). discriminate.
  - constructor; [|constructor]. intros (_ & _ & place & line & _ & L & _). simpl in L.
    change [LKey "item"; LKey "Item"; LKey "y"] with ([LKey "item"; LKey "Item"] ++ [LKey "y"]) in L.
    apply app_inj_tail in L as [_ L]. discriminate.
Qed.

(** class Box(extra='forbid'): item: Item.  While a field cannot be read, unbound data is not reported: the error says nothing of
    the unknown attribute, which is reported as soon as the item is right. *)
Definition boxes : env := Env Lxml (fun c =>
  if String.eqb c "Item" then Some (plain_model "Item" "item" [("x", SAttr "x" false)] ["x"])
  else if String.eqb c "Box" then
    Some (MDef "Box" false "box" None [("item", SProxy (sub "Item" "item" Strict))] [] [] false true None (fun _ => None) (fun _ => None) (accepts "Box" ["item"]))
  else None).

Theorem C81_extra_not_reported_refuted : exists err err',
  from_xml_tree 9 boxes "Box" (el "box" [("z", "1")] "" [el "item" [] "" []]) false = Raise (XValidation err) /\
  map le_loc (ve_lines err) = [[LKey "item"; LKey "x"]] /\
  from_xml_tree 9 boxes "Box" (el "box" [("z", "1")] "" [el "item" [("x", "1")] "" []]) false = Raise (XValidation err') /\
  map le_loc (ve_lines err') = [[LKey "@z"]].
Proof. eexists. eexists. split; [vm_compute; reflexivity|]. split; [reflexivity|]. split; [vm_compute; reflexivity|reflexivity]. Qed.

Print Assumptions C81_nothing_made_up.
Print Assumptions C81_nothing_lost.
Print Assumptions C81_all_accepted.
Print Assumptions C81_same_title_refuted.
Print Assumptions C81_extra_not_reported_refuted.
