(** PropIndep.v -- C60: each setting acts in one direction only; C61: excluded fields. *)

From Verif Require Import Base Elem Native Errs Names Ser Write Read Api Build SpecElem SpecRead SpecSim SpecWrite SpecBuild SpecIndep Samples
  PfBuild PfIndep PropWrite PropBuild.

(** C60.  What a document is read as does not depend on the output settings of the classes: prefixes,
    excluded fields, skip_empty and user serializers. *)
Theorem C60_reading_ignores_output_settings : forall ev ev', same_input_side ev ev' -> forall n cls root eas,
  from_xml_tree n ev cls root eas = from_xml_tree n ev' cls root eas.
Proof. exact read_input_side. Qed.

(** What an instance is written as does not depend on the input settings: search modes, extra='forbid',
    validation aliases, user validators, pydantic's validation, error titles; and computed fields are
    written like any other. *)
Theorem C60_writing_ignores_input_settings : forall ev ev', env_extends ev -> same_output_side ev ev' ->
  forall n encode v fl, to_xml_tree n ev encode v fl = to_xml_tree n ev' encode v fl.
Proof. intros ev ev' Hx Hs. apply to_xml_alike; auto. Qed.

(** class Node again: with other prefixes, an excluded field and skip_empty *)
Definition node_out : env := Env Lxml (fun c => if String.eqb c "Node" then
  Some (with_output (node Strict) (Some [("", "urn:n")]) ["id"] (Some true) (fun _ => None)) else None).
Definition node_in : env := Env Lxml (fun c => if String.eqb c "Node" then Some (node Strict) else None).

Example C60_ex_read : same_input_side node_in node_out /\
  exists v, from_xml_tree 9 node_in "Node" node_doc false = Ok v.
Proof.
  split.
  - split; [reflexivity|]. intros cls. unfold node_in, node_out; simpl. destruct (String.eqb cls "Node"); [|exact I].
    exists (Some [("", "urn:n")]), ["id"], (Some true), (fun _ => None). reflexivity.
  - eexists. vm_compute. reflexivity.
Qed.

(** ... and, with search mode 'unordered', a validation alias and extra='forbid' *)
Definition node_strange : mdef :=
  MDef "Strange" false "node" None (md_fields (node Unordered)) [("id", "ident")] [] true true None (fun _ => None)
    (fun name => if String.eqb name "id" then Some (fun e => (Ok (VStr "me"), e)) else None) (fun _ => Valid VNone).
Definition node_in' : env := Env Lxml (fun c => if String.eqb c "Node" then Some node_strange else None).

Example C60_ex_write : env_extends node_in /\ same_output_side node_in node_in' /\
  exists t, to_xml_tree 12 node_in enc_of (node_val "1" "10" [node_val "2" "20" []; node_val "3" "30" []]) (Flags false false false) = Ok t.
Proof.
  split; [|split].
  - intros cls m H. unfold node_in in H; simpl in H. destruct (String.eqb cls "Node"); [|discriminate]. injection H as <-.
    split; [repeat constructor|discriminate].
  - split; [reflexivity|]. intros cls. unfold node_in, node_in'; simpl. destruct (String.eqb cls "Node"); [|exact I].
    repeat split. repeat (constructor; simpl; auto); repeat split.
  - eexists. vm_compute. reflexivity.
Qed.

(** C61.  A class declares as excluded exactly its XML fields with exclude=True ... *)
Theorem C61_excluded_fields : forall cl ev, classes_ok cl -> forall n k s b cls body fs cs,
  build_class cl ev n k s = Ok b -> stands_for [] s (CModel cls false body) -> cl cls = Some k ->
  fields_behind body fs cs -> fields_ok k fs cs ->
  forall name, In name (bm_sexclude b) <->
    exists salias valias schema, In (name, CField true salias valias schema) fs /\ existsb is_noxml (ci_meta k name) = false.
Proof.
  intros cl ev Hcl n k s b cls body fs cs H St Hk Fb Fo name.
  destruct (@C18_class_names cl ev Hcl n k s b cls body fs cs H St Hk Fb Fo) as (own & comp & _ & _ & _ & _ & _ & _ & _ & _ & E & _).
  rewrite E, <- in_rev, in_map_iff. unfold xml_fields. split.
  - intros ([nm [e sa va sc]] & <- & I). apply filter_In in I. destruct I as [I X]. apply filter_In in I. destruct I as [I Y]. simpl in *.
    unfold field_excluded in X; simpl in X; subst e. exists sa, va, sc. split; auto. apply negb_true_iff; auto.
  - intros (sa & va & sc & I & X). exists (name, CField true sa va sc). split; auto. apply filter_In. split; [|reflexivity].
    apply filter_In. split; auto. simpl. rewrite X; reflexivity.
Qed.

(** ... they might as well not exist when an instance is written ... *)
Theorem C61_excluded_not_written : forall n ev m fl e v enc, md_root m = false ->
  write_model (write n ev) m fl e v enc = write_model (write n ev) (without_excluded m) fl e v enc.
Proof. intros. symmetry. apply model_without_excluded; auto. Qed.

(** ... and their values do not matter (user serializers of other fields can see them) ... *)
Theorem C61_excluded_values_do_not_matter : forall n ev m fl e cls attrs attrs' set d d', md_root m = false ->
  (forall name, md_cser m name = None) ->
  (forall name s, In (name, s) (md_fields m) -> ~ In name (md_sexclude m) -> dget name attrs = dget name attrs' /\ dget name d = dget name d') ->
  write_model (write n ev) m fl e (VModel cls attrs set) (VDict d) = write_model (write n ev) m fl e (VModel cls attrs' set) (VDict d').
Proof. intros n ev. apply excluded_values. Qed.

(** ... but they are read like any other field. *)
Theorem C61_excluded_are_read : forall ev cls m excluded, en_model ev cls = Some m ->
  forall n cls' root eas,
  from_xml_tree n (Env (en_backend ev) (fun c => if String.eqb c cls
    then Some (with_output m (md_nsmap m) excluded (md_skip_empty m) (md_cser m)) else en_model ev c)) cls' root eas =
  from_xml_tree n ev cls' root eas.
Proof.
  intros ev cls m excluded Hm n cls' root eas. symmetry. apply read_input_side. split; [reflexivity|].
  intros c. cbn [en_model]. destruct (String.eqb_spec c cls) as [->|N].
  - rewrite Hm. do 4 eexists. reflexivity.
  - destruct (en_model ev c) as [m'|]; auto. exists (md_nsmap m'), (md_sexclude m'), (md_skip_empty m'), (md_cser m'). destruct m'; reflexivity.
Qed.

Definition node_hidden : mdef := with_output (node Strict) None ["id"] None (fun _ => None).
Example C61_ex :
  bm_sexclude person_model = ["other"] /\ md_root node_hidden = false /\
  map fst (md_fields (without_excluded node_hidden)) = ["value"; "children"] /\
  to_xml_tree 12 (Env Lxml (fun c => if String.eqb c "Node" then Some node_hidden else None)) enc_of
    (node_val "1" "10" [node_val "2" "20" []]) (Flags false false false) =
  Ok (NElem "node" [] None None [] [NElem "value" [] (Some "10") None [] [] None;
        NElem "node" [] None None [] [NElem "value" [] (Some "20") None [] [] None] None] None).
Proof. repeat split; vm_compute; reflexivity. Qed.

Print Assumptions C60_reading_ignores_output_settings.
Print Assumptions C60_writing_ignores_input_settings.
Print Assumptions C61_excluded_fields.
Print Assumptions C61_excluded_not_written.
Print Assumptions C61_excluded_values_do_not_matter.
Print Assumptions C61_excluded_are_read.
