(** PropPage.v -- C84: what is read from a document is given by rules that know no cursor and no snapshots. *)

From Verif Require Import Base Elem Native Errs Names Fields Ser Build Read Api SpecRead SpecBuild SpecSim SpecOut SpecSub SpecPage
  PfPage PfPage2 PfPage3 PfPage4 Samples.

(** C84.  A document is read as [v] exactly if its root element has the name of the class and the rules of SpecPage.v
    give [v] for it, *)
Theorem C84_read : forall ev, plain_classes ev -> forall cls m root eas v, en_model ev cls = Some m ->
  (exists n, from_xml_tree n ev cls root eas = Ok v) <->
  SpecPage.named (md_elem_name m) root /\ exists left, reads_model ev eas m (unopened root) (Got v) left.
Proof. exact read_document. Qed.
Print Assumptions C84_read.

(** ... ends with a ValidationError exactly if they refuse it, and the error has the title the rules give, and as many
    errors, each with the location, type, text (line numbers aside) and input they give, in the same order, *)
Theorem C84_refused : forall ev, plain_classes ev -> forall cls m root eas t remarks, en_model ev cls = Some m ->
  (exists n err, from_xml_tree n ev cls root eas = Raise (XValidation err) /\ ve_title err = t /\ map remark_of (ve_lines err) = remarks) <->
  SpecPage.named (md_elem_name m) root /\ exists left, reads_model ev eas m (unopened root) (Refused t remarks) left.
Proof. exact refused_document. Qed.
Print Assumptions C84_refused.

(** ... ends with an exception of the user's exactly if they say so, *)
Theorem C84_stopped : forall ev, plain_classes ev -> forall cls m root eas what, en_model ev cls = Some m ->
  (exists n, from_xml_tree n ev cls root eas = Raise (XUser what)) <->
  SpecPage.named (md_elem_name m) root /\ exists left, reads_model ev eas m (unopened root) (Stopped what) left.
Proof. exact stopped_document. Qed.
Print Assumptions C84_stopped.

(** ... and they give one answer at most. *)
Theorem C84_one_answer : forall ev, plain_classes ev -> forall cls m root eas a a' l l', en_model ev cls = Some m ->
  reads_model ev eas m (unopened root) a l -> reads_model ev eas m (unopened root) a' l' -> a = a'.
Proof. exact one_answer. Qed.
Print Assumptions C84_one_answer.

(** Classes made by the builder are such classes, unless they have custom field validators. *)
Theorem C84_built_classes : forall T U cl ev, classes_ok cl -> built_env T U cl ev ->
  (forall cls m name, en_model ev cls = Some m -> md_cval m name = None) -> plain_classes ev.
Proof.
  intros T U cl ev Hcl Hev Hc cls m E. split; [intros name; eapply Hc; eauto|].
  pose proof (built_paths Hcl Hev _ E) as F. rewrite Forall_forall in F. intros name s I. apply (F (name, s) I).
Qed.
Print Assumptions C84_built_classes.

(** ---- a library of classes and documents ---- *)
Lemma lib_plain : forall b mode, plain_classes (lib b mode).
Proof.
  intros b mode cls m. unfold lib; cbn [en_model].
  destruct (String.eqb cls "Node"); [intros E; injection E as <-|].
  { split; auto. simpl. intros name s [E|[E|[E|[]]]]; injection E as <- <-; simpl; auto. }
  destruct (String.eqb cls "Circle"); [intros E; injection E as <-|].
  { split; auto. simpl. intros name s [E|[]]; injection E as <- <-; simpl; auto. }
  destruct (String.eqb cls "Square"); [intros E; injection E as <-|].
  { split; auto. simpl. intros name s [E|[]]; injection E as <- <-; simpl; auto. }
  destruct (String.eqb cls "Shapes"); [intros E; injection E as <-|discriminate].
  split; auto. simpl. intros name s [E|[E|[E|[E|[]]]]]; injection E as <- <-; simpl; auto; (split; [discriminate|auto]).
Qed.

(** <shapes><meta><author/></meta><square><a>2</a></square><circle r="1"/><extra/><meta><note>hello</note></meta></shapes> *)
Definition mixed_doc : native :=
  el "shapes" [] ""
    [el "meta" [] "" [el "author" [] "me" []]; el "square" [] "" [el "a" [] "2" []]; el "circle" [("r", "1")] "" [];
     el "extra" [] "raw" []; el "meta" [] "" [el "note" [] "hello" []]].

(** out of order, with a list of a union, wrappers and a raw element *)
Example C84_ex : exists v left, reads_model (lib Std Unordered) false (shapes Unordered) (unopened mixed_doc) (Got v) left /\
  exists attrs set, v = VModel "Shapes" attrs set /\
  dget "shapes" attrs = Some (VList [VModel "Circle" [("r", VStr "1")] ["r"]; VModel "Square" [("a", VStr "2")] ["a"]]) /\
  dget "author" attrs = Some (VStr "me") /\ dget "note" attrs = None.
Proof.
  assert (X : exists v, (exists n, from_xml_tree n (lib Std Unordered) "Shapes" mixed_doc false = Ok v) /\
    exists attrs set, v = VModel "Shapes" attrs set /\
    dget "shapes" attrs = Some (VList [VModel "Circle" [("r", VStr "1")] ["r"]; VModel "Square" [("a", VStr "2")] ["a"]]) /\
    dget "author" attrs = Some (VStr "me") /\ dget "note" attrs = None).
  { eexists. split; [exists 9; vm_compute; reflexivity|]. eexists _, _. split; [reflexivity|]. vm_compute. auto. }
  destruct X as (v & R & P). apply (@C84_read _ (lib_plain Std Unordered) "Shapes" (shapes Unordered) mixed_doc false v eq_refl) in R.
  destruct R as (_ & rem & R). exists v, rem. auto.
Qed.

(** a node whose child has an empty value *)
Example C84_ex_refused : exists left, reads_model (lib Lxml Strict) false (node Strict) (unopened bad_node_doc)
  (Refused "Node" [Remark [LKey "children"; LIdx 0; LKey "value"] "missing" "Field required" (VDict [])]) left.
Proof.
  apply (@C84_refused _ (lib_plain Lxml Strict) "Node" (node Strict) bad_node_doc false _ _ eq_refl). exists 9. eexists.
  split; [vm_compute; reflexivity|]. split; reflexivity.
Qed.

(** two classes, one that forbids what it does not know, one whose validator raises *)
Definition card (cls : string) (validate : option val -> verdict) : mdef :=
  MDef cls false "card" None [("name", SElem "name" None Ordered false false)] [] [] false true None (fun _ => None) (fun _ => None) validate.
Definition cards : env :=
  Env Std (fun c => if String.eqb c "Card" then Some (card "Card" (accepts "Card" ["name"]))
                    else if String.eqb c "Fragile" then Some (card "Fragile" (fun _ => Crashed "KeyError"))
                    else None).

Lemma cards_plain : plain_classes cards.
Proof.
  intros cls m. unfold cards; cbn [en_model].
  destruct (String.eqb cls "Card"); [intros E; injection E as <-|].
  { split; auto. simpl. intros name s [E|[]]; injection E as <- <-; simpl; auto. }
  destruct (String.eqb cls "Fragile"); [intros E; injection E as <-|discriminate].
  split; auto. simpl. intros name s [E|[]]; injection E as <- <-; simpl; auto.
Qed.

(** <card at="x"><title>t</title><name>n</name></card> *)
Definition card_doc : native := el "card" [("at", "x")] "" [el "title" [] "t" []; el "name" [] "n" []].

Example C84_ex_extra : exists left, reads_model cards false (card "Card" (accepts "Card" ["name"])) (unopened card_doc)
  (Refused "Card" [Remark [LKey "@at"] "extra_forbidden" "Extra inputs are not permitted" (VStr "x");
                   Remark [LKey "title"] "extra_forbidden" "Extra inputs are not permitted" (VStr "t")]) left.
Proof.
  apply (@C84_refused _ cards_plain "Card" _ card_doc false _ _ eq_refl). exists 9. eexists.
  split; [vm_compute; reflexivity|]. split; reflexivity.
Qed.

Example C84_ex_stopped : exists left, reads_model cards false (card "Fragile" (fun _ => Crashed "KeyError"))
  (unopened (el "card" [] "" [el "name" [] "n" []])) (Stopped "KeyError") left.
Proof. apply (@C84_stopped _ cards_plain "Fragile" _ _ false _ eq_refl). exists 9. vm_compute. reflexivity. Qed.

(** the rules at work: in order, <b> is skipped on the way to <a>, and <c> stays ahead *)
Example C84_ex_rules : forall ev,
  reads ev false (SElem "a" None Ordered false false) (unopened (el "r" [] "" [el "b" [] "1" []; el "a" [] "2" []; el "c" [] "3" []]))
    (Got (VStr "2"))
    (Page (Some "") None (Some []) [(el "b" [] "1" [], unopened (el "b" [] "1" [])); (el "a" [] "2" [], Page None None (Some []) [] [])]
       [el "c" [] "3" []]).
Proof.
  intros ev. set (p := unopened _).
  change (reads ev false (SElem "a" None Ordered false false) p (Got (VStr "2"))
    (pass p [el "b" [] "1" []] (el "a" [] "2" []) (Page None None (Some []) [] []) [el "c" [] "3" []])).
  apply rd_elem.
  - apply (@sk_ordered "a" [el "b" [] "1" []] (el "a" [] "2" []) [el "c" [] "3" []]); [repeat constructor; simpl; discriminate|reflexivity].
  - apply (rt_plain false (unopened (el "a" [] "2" []))).
Qed.
