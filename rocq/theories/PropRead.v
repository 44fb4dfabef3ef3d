(** PropRead.v -- C05, C06, C07, C10: from_xml stays inside the document, raises only documented
    errors, terminates, and binds a datum at most once. *)

From Verif Require Import Base Elem Native Errs Names Ser Read Api SpecElem SpecRead Samples
  PfSafe PfFuel PfTerm PfLoop PfCount.

(** C05.  However a field is read -- any serializer, any document, succeeding or failing -- every
    read position stays inside its element and looking back never fails. *)
Theorem C05_read_position_in_bounds : forall U ev, wf_env any_tag U ev ->
  forall n s eas loc st0, wf_ser ev s -> in_bounds (st_el st0) ->
  in_bounds (st_el (snd (read n ev s eas loc st0))) /\ fst (read n ev s eas loc st0) <> Raise XIndexError.
Proof. exact read_in_bounds. Qed.

Theorem C05_no_index_error : forall U ev, wf_env any_tag U ev ->
  forall n cls root eas, en_model ev cls <> None -> from_xml_tree n ev cls root eas <> Raise XIndexError.
Proof. exact from_xml_no_index_error. Qed.

(** C06.  For a document without processing instructions from_xml_tree returns, or raises
    ParsingError (only if the root tag is not the model's), ValidationError, or an exception of
    user code (only if [U]: user validators may raise).  [Fuel] is excluded by C07. *)
Theorem C06_documented_errors : forall U ev, wf_env named_tag U ev ->
  forall n cls root eas, en_model ev cls <> None -> no_pi root ->
  match from_xml_tree n ev cls root eas with
  | Ok _ | Fuel => True
  | Raise x =>
      (x = XParsing /\ exists m, en_model ev cls = Some m /\ native_tag root <> TName (md_elem_name m)) \/
      (exists err, x = XValidation err) \/ (exists what, x = XUser what /\ U what)
  end.
Proof. exact from_xml_documented. Qed.

(** the exception: a processing instruction inside a raw element, on lxml *)
Theorem C06_pi_in_raw_refuted : exists ev cls root, wf_env any_tag (fun _ => False) ev /\ en_model ev cls <> None /\
  exists n, from_xml_tree n ev cls root false = Raise XTypeError.
Proof.
  exists (lib Lxml Strict), "Shapes", pi_in_raw_doc. split; [|split; [discriminate|exists 10; vm_compute; reflexivity]].
  intros cls m. unfold lib; simpl.
  destruct (String.eqb cls "Node"); [intros E; injection E as <-; repeat constructor; simpl; try discriminate; try apply accepts_quiet|].
  destruct (String.eqb cls "Circle"); [intros E; injection E as <-; repeat constructor; simpl; try discriminate; try apply accepts_quiet|].
  destruct (String.eqb cls "Square"); [intros E; injection E as <-; repeat constructor; simpl; try discriminate; try apply accepts_quiet|].
  destruct (String.eqb cls "Shapes"); [intros E; injection E as <-; repeat constructor; simpl; try discriminate; try apply accepts_quiet|].
  discriminate.
Qed.

(** C07.  from_xml_tree terminates on every document: with enough fuel the outcome is not [Fuel]
    and any further fuel gives the same outcome.  Self-referential models included. *)
Theorem C07_from_xml_terminates : forall ev eas, env_lists_ok eas ev -> forall cls root,
  exists n o, o <> Fuel /\ forall n', n <= n' -> from_xml_tree n' ev cls root eas = o.
Proof.
  intros ev eas Hev cls root. destruct (from_xml_halts Hev cls root) as [n N].
  exists n, (from_xml_tree n ev cls root eas). split; auto. intros n' Hn. apply from_xml_stable; auto.
Qed.

(** ... and without empty_as_string the condition on collections is void *)
Theorem C07_always_ok_without_empty_as_string : forall s, lists_ok false s.
Proof.
  intros s; induction s using ser_ind'; constructor; auto; discriminate.
Qed.

(** the exception: a collection of primitive unions without element name, empty_as_string=True *)
Theorem C07_text_collection_refuted : exists ev cls, forall n root,
  native_tag root = TName "numbers" -> from_xml_tree n ev cls root true = Fuel.
Proof. exists text_list_env, "Numbers". exact text_list_never_ends. Qed.

(** C10.  No non-empty string [X] occurs more often in the result of from_xml_tree than as a text,
    tail or attribute value of the document, provided the user's validators (and pydantic) make no
    copies of it themselves. *)
Theorem C10_datum_bound_at_most_once : forall X, X <> "" -> forall ev, copies_nothing X ev ->
  forall n cls root eas v, from_xml_tree n ev cls root eas = Ok v -> count_val X v <= count_native X root.
Proof. exact from_xml_conserves. Qed.

(** the same for a single field of a partly read element: what the field yields and what remains in
    the element together hold no more copies of [X] than the element did before *)
Theorem C10_field_takes_what_it_yields : forall X, X <> "" -> forall ev, copies_nothing X ev ->
  forall n s eas loc st0 r st1, read n ev s eas loc st0 = (r, st1) ->
  match r with Ok v => count_val X v | _ => 0 end + count_elem X (st_el st1) <= count_elem X (st_el st0).
Proof. exact read_field_conserves. Qed.

(** non-vacuity: a recursive model, a union/wrapper/raw model *)
Lemma lib_wf : forall T b m, wf_env T (fun _ => False) (lib b m).
Proof.
  intros T b m cls md. unfold lib; simpl.
  destruct (String.eqb cls "Node"); [intros E; injection E as <-; repeat constructor; simpl; try discriminate; try apply accepts_quiet|].
  destruct (String.eqb cls "Circle"); [intros E; injection E as <-; repeat constructor; simpl; try discriminate; try apply accepts_quiet|].
  destruct (String.eqb cls "Square"); [intros E; injection E as <-; repeat constructor; simpl; try discriminate; try apply accepts_quiet|].
  destruct (String.eqb cls "Shapes"); [intros E; injection E as <-; repeat constructor; simpl; try discriminate; try apply accepts_quiet|].
  discriminate.
Qed.

Lemma lib_lists : forall eas b m, env_lists_ok eas (lib b m).
Proof.
  intros eas b m cls md. unfold lib; simpl.
  destruct (String.eqb cls "Node"); [intros E; injection E as <-; repeat constructor; simpl; try discriminate; try apply accepts_quiet|].
  destruct (String.eqb cls "Circle"); [intros E; injection E as <-; repeat constructor; simpl; try discriminate; try apply accepts_quiet|].
  destruct (String.eqb cls "Square"); [intros E; injection E as <-; repeat constructor; simpl; try discriminate; try apply accepts_quiet|].
  destruct (String.eqb cls "Shapes"); [intros E; injection E as <-; repeat constructor; simpl; try discriminate; try apply accepts_quiet|].
  discriminate.
Qed.

Lemma accepts_copies_nothing : forall X cls req i v, accepts cls req i = Valid v ->
  count_val X v <= match i with Some w => count_val X w | None => 0 end.
Proof.
  intros X cls req [i|] v H; simpl in H; [|discriminate].
  destruct i; simpl in H; try (injection H as <-; simpl; lia).
  destruct (filter _ _); [|discriminate]. injection H as <-. simpl; lia.
Qed.

Lemma lib_copies_nothing : forall X b m, copies_nothing X (lib b m).
Proof.
  intros X b m cls md. unfold lib; simpl.
  destruct (String.eqb cls "Node"); [intros E; injection E as <-; split; [apply accepts_copies_nothing|discriminate]|].
  destruct (String.eqb cls "Circle"); [intros E; injection E as <-; split; [apply accepts_copies_nothing|discriminate]|].
  destruct (String.eqb cls "Square"); [intros E; injection E as <-; split; [apply accepts_copies_nothing|discriminate]|].
  destruct (String.eqb cls "Shapes"); [intros E; injection E as <-; split; [apply accepts_copies_nothing|discriminate]|].
  discriminate.
Qed.

Example C10_ex : copies_nothing "20" (lib Lxml Strict) /\ count_native "20" node_doc = 1 /\
  exists v, from_xml_tree 12 (lib Lxml Strict) "Node" node_doc false = Ok v /\ count_val "20" v = 1.
Proof. split; [apply lib_copies_nothing|]. split; [reflexivity|]. eexists; split; [vm_compute; reflexivity|vm_compute; reflexivity]. Qed.

Example C05_ex : wf_env any_tag (fun _ => False) (lib Lxml Ordered) /\ no_pi node_doc /\ no_pi shapes_doc /\
  env_lists_ok true (lib Lxml Ordered) /\
  from_xml_tree 12 (lib Lxml Ordered) "Node" node_doc false =
    Ok (VModel "Node" [("id", VStr "1"); ("value", VStr "10");
          ("children", VList [VModel "Node" [("value", VStr "20")] ["value"];
                              VModel "Node" [("id", VStr "3"); ("value", VStr "30")] ["id"; "value"]])]
          ["id"; "value"; "children"]) /\
  (exists err, from_xml_tree 12 (lib Lxml Ordered) "Node" bad_node_doc false = Raise (XValidation err)) /\
  from_xml_tree 12 (lib Std Unordered) "Node" shapes_doc false = Raise XParsing.
Proof.
  split; [apply lib_wf|]. split; [repeat constructor; right; repeat constructor; right; repeat constructor|].
  split; [repeat constructor; right; repeat constructor; right; repeat constructor|].
  split; [apply lib_lists|]. split; [vm_compute; reflexivity|]. split; [eexists; vm_compute; reflexivity|].
  vm_compute; reflexivity.
Qed.

Print Assumptions C05_read_position_in_bounds.
Print Assumptions C05_no_index_error.
Print Assumptions C06_documented_errors.
Print Assumptions C06_pi_in_raw_refuted.
Print Assumptions C07_from_xml_terminates.
Print Assumptions C07_always_ok_without_empty_as_string.
Print Assumptions C07_text_collection_refuted.
Print Assumptions C10_datum_bound_at_most_once.
Print Assumptions C10_field_takes_what_it_yields.
