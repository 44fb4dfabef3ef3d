(** PropContext.v -- C71: the validation context. *)

From Verif Require Import Base Elem Native Errs Names Ser Read Api SpecRead Context SpecContext Samples PfContext.

(** C71.  Reading in a context is reading with all classes, at every depth, validating in that context:
    from_xml_tree with the context [ctx] gives what it gives without when the validators have [ctx] built
    in.  (So the other theorems about reading hold in every context.) *)
Theorem C71_context_reaches_all : forall X (ce : cenv X) ctx n cls root eas,
  from_xml_tree_in ce n cls root ctx eas = from_xml_tree n (all_in_context ce ctx) cls root eas.
Proof. exact in_context. Qed.

(** no class is ever validated in another context: what validators would do there does not matter *)
Theorem C71_no_other_context : forall X (ce ce' : cenv X) ctx, differ_in_other_contexts ctx ce ce' ->
  forall n cls root eas, from_xml_tree_in ce n cls root ctx eas = from_xml_tree_in ce' n cls root ctx eas.
Proof. exact other_contexts. Qed.

(** from_xml passes the context on *)
Theorem C71_from_xml : forall X (ce ce' : cenv X) ctx, differ_in_other_contexts ctx ce ce' ->
  forall D (parse : D -> out native) n cls source eas,
  from_xml_in ce parse n cls source ctx eas = from_xml_in ce' parse n cls source ctx eas /\
  (forall root, parse source = Ok root -> from_xml_in ce parse n cls source ctx eas = from_xml_tree_in ce n cls root ctx eas).
Proof.
  intros X ce ce' ctx H D parse n cls source eas. unfold from_xml_in. split.
  - destruct (parse source); simpl; auto. apply other_contexts; auto.
  - intros root ->. reflexivity.
Qed.

(** class Node of Samples.v with a validator that asks the context: Node 3 is accepted only if the context
    allows it *)
Definition picky (cls : string) (ctx : context string) (i : option val) : verdict :=
  match i with
  | Some (VDict d) =>
      match dget "id" d, ctx with
      | Some (VStr "3"), Some c => if dmem "three" c then accepts "Node" ["value"] i else Invalid (VErr "Node" [LErr "bad" (MText "not allowed") [] VNone] false)
      | Some (VStr "3"), None => Invalid (VErr "Node" [LErr "bad" (MText "no context") [] VNone] false)
      | _, _ => accepts "Node" ["value"] i
      end
  | _ => accepts "Node" ["value"] i
  end.
Definition picky_nodes : cenv string := CEnv (lib Lxml Strict) picky.
(** the same, except that it accepts nothing without a context *)
Definition strict_nodes : cenv string :=
  CEnv (lib Lxml Strict) (fun cls ctx i => match ctx with None => Invalid (VErr "Node" [] false) | Some _ => picky cls ctx i end).

(** non-vacuity: the nested node is validated in the context given to from_xml_tree, and the outcome
    depends on it *)
Example C71_ex :
  (exists v, from_xml_tree_in picky_nodes 12 "Node" node_doc (Some [("three", "yes")]) false = Ok v) /\
  (exists err, from_xml_tree_in picky_nodes 12 "Node" node_doc None false = Raise (XValidation err)) /\
  (exists err, from_xml_tree_in picky_nodes 12 "Node" node_doc (Some [("four", "yes")]) false = Raise (XValidation err)) /\
  differ_in_other_contexts (Some [("three", "yes")]) picky_nodes strict_nodes /\
  ce_validate picky_nodes "Node" None None <> ce_validate strict_nodes "Node" None None.
Proof.
  split; [eexists; vm_compute; reflexivity|]. split; [eexists; vm_compute; reflexivity|]. split; [eexists; vm_compute; reflexivity|].
  split; [split; reflexivity|]. vm_compute. discriminate.
Qed.

Print Assumptions C71_context_reaches_all.
Print Assumptions C71_no_other_context.
Print Assumptions C71_from_xml.
