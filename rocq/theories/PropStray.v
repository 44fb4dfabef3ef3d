(** PropStray.v -- C39: elements no field asks for. *)

From Verif Require Import Base Elem Native Errs Names Ser Read Api SpecElem SpecRead SpecSim SpecStray SpecRound Samples.
From Verif Require Import PfStray.

(** C39.  Two documents that differ in elements with unknown tags and in comments, any number of them
    at any place outside raw elements, give the same value in ordered mode, or both a
    ValidationError. *)
Theorem C39_ordered_ignores_strays : forall U W ev, wf_env named_tag (fun _ => False) ev -> env_asks U W Ordered ev ->
  forbids_nothing ev ->
  forall n n' cls root root' eas, same_but_strays false U W root root' -> no_pi root -> no_pi root' ->
  from_xml_tree n ev cls root eas <> Fuel -> from_xml_tree n' ev cls root' eas <> Fuel ->
  same_result (from_xml_tree n ev cls root eas) (from_xml_tree n' ev cls root' eas).
Proof.
  intros. eapply from_xml_strays with (quiet := false) (M := Ordered); eauto; try discriminate.
  intros c m Hm Hf. rewrite (H1 c m Hm) in Hf. discriminate.
Qed.

(** ... and in unordered mode if no two siblings share a tag (strays excepted) *)
Theorem C39_unordered_ignores_strays : forall U W ev, wf_env named_tag (fun _ => False) ev -> env_asks U W Unordered ev ->
  forbids_nothing ev ->
  forall n n' cls root root' eas, same_but_strays false U W root root' -> siblings_differ U root ->
  no_pi root -> no_pi root' ->
  from_xml_tree n ev cls root eas <> Fuel -> from_xml_tree n' ev cls root' eas <> Fuel ->
  same_result (from_xml_tree n ev cls root eas) (from_xml_tree n' ev cls root' eas).
Proof.
  intros. eapply from_xml_strays with (quiet := false) (M := Unordered); eauto; try discriminate.
  intros c m Hm Hf. rewrite (H1 c m Hm) in Hf. discriminate.
Qed.

(** C12.  Strays without text and attributes do not matter, even to classes that forbid extra data:
    the document is accepted with the same value, or rejected, just as without them. *)
Theorem C12_ordered_ignores_bare_strays : forall U W ev, wf_env named_tag (fun _ => False) ev -> env_asks U W Ordered ev ->
  forall n n' cls root root' eas, same_but_strays true U W root root' -> no_pi root -> no_pi root' ->
  from_xml_tree n ev cls root eas <> Fuel -> from_xml_tree n' ev cls root' eas <> Fuel ->
  same_result (from_xml_tree n ev cls root eas) (from_xml_tree n' ev cls root' eas).
Proof. intros. eapply from_xml_strays with (quiet := true) (M := Ordered); eauto; discriminate. Qed.

Theorem C12_unordered_ignores_bare_strays : forall U W ev, wf_env named_tag (fun _ => False) ev -> env_asks U W Unordered ev ->
  forall n n' cls root root' eas, same_but_strays true U W root root' -> siblings_differ U root ->
  no_pi root -> no_pi root' ->
  from_xml_tree n ev cls root eas <> Fuel -> from_xml_tree n' ev cls root' eas <> Fuel ->
  same_result (from_xml_tree n ev cls root eas) (from_xml_tree n' ev cls root' eas).
Proof. intros. eapply from_xml_strays with (quiet := true) (M := Unordered); eauto; discriminate. Qed.

Ltac like := unfold same_but_strays; repeat (first [eapply lbs_elem; [reflexivity|simpl|simpl; try discriminate|simpl; try discriminate]
  | constructor; simpl; try discriminate]).

(** shapes_doc with unknown elements before, between, after and inside the known ones *)
Definition unknown (t : string) : bool := String.eqb t "u" || String.eqb t "v".
Definition raw_tags (t : string) : bool := String.eqb t "extra".
Definition u : native := el "u" [("k", "1")] "junk" [el "circle" [("r", "9")] "" []].
Definition v : native := el "v" [] "" [].
Definition strayed_doc : native :=
  el "shapes" [] ""
    [u; el "circle" [("r", "1")] "" [v]; v; el "square" [] "" [u; el "a" [] "2" [v]]; v; u; el "circle" [("r", "3")] "" [];
     u; el "meta" [] "" [v; el "note" [] "hello" []; el "author" [(xsi_nil, "true")] "" []];
     v; el "extra" [] "raw" [el "x" [] "" []]; u].

Lemma lib_asks : forall m, env_asks unknown raw_tags m (lib Lxml m).
Proof.
  intros m cls md. unfold lib; simpl.
  destruct (String.eqb cls "Node"); [intros E; injection E as <-; repeat constructor|].
  destruct (String.eqb cls "Circle"); [intros E; injection E as <-; repeat constructor|].
  destruct (String.eqb cls "Square"); [intros E; injection E as <-; repeat constructor|].
  destruct (String.eqb cls "Shapes"); [intros E; injection E as <-; repeat constructor|discriminate].
Qed.

Lemma lib_wf : forall m, wf_env named_tag (fun _ => False) (lib Lxml m).
Proof.
  intros m cls md. unfold lib; simpl.
  destruct (String.eqb cls "Node"); [intros E; injection E as <-; repeat constructor; simpl; try discriminate; try apply accepts_quiet|].
  destruct (String.eqb cls "Circle"); [intros E; injection E as <-; repeat constructor; simpl; try discriminate; try apply accepts_quiet|].
  destruct (String.eqb cls "Square"); [intros E; injection E as <-; repeat constructor; simpl; try discriminate; try apply accepts_quiet|].
  destruct (String.eqb cls "Shapes"); [intros E; injection E as <-; repeat constructor; simpl; try discriminate; try apply accepts_quiet|].
  discriminate.
Qed.

Example C39_ex : same_but_strays false unknown raw_tags shapes_doc strayed_doc /\ no_pi shapes_doc /\ no_pi strayed_doc /\
  exists w, from_xml_tree 9 (lib Lxml Ordered) "Shapes" shapes_doc false = Ok w /\
            from_xml_tree 9 (lib Lxml Ordered) "Shapes" strayed_doc false = Ok w.
Proof.
  split; [|split; [|split]].
  - unfold shapes_doc, strayed_doc, u, v, el. like.
  - unfold shapes_doc, el. repeat first [apply Forall_nil|apply Forall_cons|right; constructor|constructor].
  - unfold strayed_doc, u, v, el. repeat first [apply Forall_nil|apply Forall_cons|right; constructor|constructor].
  - eexists; split; [vm_compute; reflexivity|vm_compute; reflexivity].
Qed.

Lemma lib_forbids_nothing : forall m, forbids_nothing (lib Lxml m).
Proof.
  intros m cls md. unfold lib; simpl.
  repeat match goal with |- context [String.eqb cls ?t] => destruct (String.eqb cls t); [intros E; injection E as <-; reflexivity|] end.
  discriminate.
Qed.

(** the same classes with extra='forbid' *)
Definition forbidding (ev : env) : env :=
  Env (en_backend ev) (fun c => option_map (fun m =>
    MDef (md_name m) (md_root m) (md_elem_name m) (md_nsmap m) (md_fields m) (md_valias m) (md_sexclude m)
         (md_hide m) true (md_skip_empty m) (md_cser m) (md_cval m) (md_validate m)) (en_model ev c)).

(** node_doc with unknown elements that hold nothing but whitespace and more such elements *)
Definition bare_u : native := el "u" [] "  " [v; el "value" [] "" []].
Definition bare_strayed_doc : native :=
  el "node" [("id", "1")] ""
    [bare_u; el "value" [] "10" [v]; v; el "node" [] "" [bare_u; el "value" [] "20" []]; bare_u;
     el "node" [("id", "3")] "" [el "value" [] "30" []; bare_u]; v].

Example C12_ex : same_but_strays true unknown raw_tags node_doc bare_strayed_doc /\
  env_asks unknown raw_tags Ordered (forbidding (lib Lxml Ordered)) /\
  (exists w, from_xml_tree 9 (forbidding (lib Lxml Ordered)) "Node" node_doc false = Ok w /\
             from_xml_tree 9 (forbidding (lib Lxml Ordered)) "Node" bare_strayed_doc false = Ok w) /\
  (exists e, from_xml_tree 9 (forbidding (lib Lxml Ordered)) "Node"
     (el "node" [("id", "1")] "" [el "value" [] "10" [el "u" [] "text" []]]) false = Raise (XValidation e)).
Proof.
  split; [|split; [|split]].
  - unfold node_doc, bare_strayed_doc, bare_u, v, el, same_but_strays.
    repeat match goal with
    | |- like_but_strays _ _ _ _ _ _ => eapply lbs_elem; [reflexivity|simpl|simpl|simpl]
    | |- oblank _ => let E := fresh "E" in intros ? E; (injection E as <- || discriminate E)
    | |- blank (String _ _) => apply blank_cons; [reflexivity|]
    | |- _ <-> _ => tauto
    | |- _ -> _ => intros ?; try discriminate
    | |- _ => constructor; simpl
    end.
  - intros cls m X. unfold forbidding in X. cbn [en_model] in X.
    destruct (en_model (lib Lxml Ordered) cls) as [m0|] eqn:E; [|discriminate X].
    injection X as <-. exact (@lib_asks Ordered cls m0 E).
  - eexists; split; [vm_compute; reflexivity|vm_compute; reflexivity].
  - eexists; vm_compute; reflexivity.
Qed.

(** a document without repeated siblings, for unordered mode *)
Definition one_shape_doc : native :=
  el "shapes" [] "" [el "extra" [] "raw" []; el "meta" [] "" [el "author" [] "me" []; el "note" [] "hello" []]; el "circle" [("r", "1")] "" []].
Definition one_shape_strayed : native :=
  el "shapes" [] "" [u; v; el "extra" [] "raw" []; u; el "meta" [] "" [v; el "author" [] "me" []; u; el "note" [] "hello" []]; v; el "circle" [("r", "1")] "" []].
Example C39_ex_unordered : same_but_strays false unknown raw_tags one_shape_doc one_shape_strayed /\
  siblings_differ unknown one_shape_doc /\
  exists w, from_xml_tree 9 (lib Lxml Unordered) "Shapes" one_shape_doc false = Ok w /\
            from_xml_tree 9 (lib Lxml Unordered) "Shapes" one_shape_strayed false = Ok w.
Proof.
  split; [|split].
  - unfold one_shape_doc, one_shape_strayed, u, v, el. like.
  - unfold one_shape_doc, el. repeat (constructor; simpl). all: intuition discriminate.
  - eexists; split; [vm_compute; reflexivity|vm_compute; reflexivity].
Qed.

(** the limits.  In strict mode an unknown element hides what follows it *)
Theorem C39_strict_refuted : exists ev cls root root',
  wf_env named_tag (fun _ => False) ev /\ env_asks unknown raw_tags Strict ev /\ same_but_strays false unknown raw_tags root root' /\
  exists w err, from_xml_tree 9 ev cls root false = Ok w /\ from_xml_tree 9 ev cls root' false = Raise (XValidation err).
Proof.
  exists (lib Lxml Strict), "Node", node_doc, (el "node" [("id", "1")] ""
    [v; el "value" [] "10" []; el "node" [] "" [el "value" [] "20" []]; el "node" [("id", "3")] "" [el "value" [] "30" []]]).
  split; [apply lib_wf|]. split; [apply lib_asks|]. split.
  - unfold node_doc, v, el. like.
  - eexists _, _; split; vm_compute; reflexivity.
Qed.

(** class Pair(search_mode='unordered'): a: str = element(); b: str = element() *)
Definition pair_env : env := Env Lxml (fun c => if String.eqb c "Pair" then Some (plain_model "Pair" "pair"
  [("a", SElem "a" None Unordered false false); ("b", SElem "b" None Unordered false false)] ["a"; "b"]) else None).

(** In unordered mode, with two siblings of the same tag, an unknown element can decide which of
    them is read. *)
Theorem C39_unordered_duplicates_refuted : exists ev cls root root',
  wf_env named_tag (fun _ => False) ev /\ env_asks unknown raw_tags Unordered ev /\ same_but_strays false unknown raw_tags root root' /\
  root = el "pair" [] "" [el "b" [] "1" []; el "b" [] "2" []; el "a" [] "3" []] /\
  root' = el "pair" [] "" [v; el "b" [] "1" []; el "b" [] "2" []; el "a" [] "3" []] /\
  from_xml_tree 9 ev cls root false = Ok (VModel cls [("a", VStr "3"); ("b", VStr "2")] ["a"; "b"]) /\
  from_xml_tree 9 ev cls root' false = Ok (VModel cls [("a", VStr "3"); ("b", VStr "1")] ["a"; "b"]).
Proof.
  exists pair_env, "Pair", (el "pair" [] "" [el "b" [] "1" []; el "b" [] "2" []; el "a" [] "3" []]),
    (el "pair" [] "" [v; el "b" [] "1" []; el "b" [] "2" []; el "a" [] "3" []]).
  split; [|split; [|split; [|split; [reflexivity|split; [reflexivity|split; vm_compute; reflexivity]]]]].
  - intros cls m. unfold pair_env; simpl.
    destruct (String.eqb cls "Pair"); [intros E; injection E as <-; repeat constructor; simpl; try discriminate; try apply accepts_quiet|discriminate].
  - intros cls m. unfold pair_env; simpl.
    destruct (String.eqb cls "Pair"); [intros E; injection E as <-; repeat constructor|discriminate].
  - unfold v, el. like.
Qed.

Print Assumptions C39_ordered_ignores_strays.
Print Assumptions C39_unordered_ignores_strays.
Print Assumptions C39_strict_refuted.
Print Assumptions C39_unordered_duplicates_refuted.

Print Assumptions C12_ordered_ignores_bare_strays.
Print Assumptions C12_unordered_ignores_bare_strays.
