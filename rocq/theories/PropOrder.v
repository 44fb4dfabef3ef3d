(** PropOrder.v -- C66: the order of elements in unordered mode. *)

From Verif Require Import Base Elem Native Errs Names Ser Read Api SpecElem SpecRead SpecSim SpecStray SpecRound Samples.
From Verif Require Import PfSafe PfStray PropStray.

(** C66.  If every field is searched for in unordered mode, two documents that differ in the order of
    siblings, at any depth outside raw elements, give the same value or both a ValidationError, provided
    no two siblings share a name. *)
Theorem C66_unordered_ignores_order : forall W ev, wf_env named_tag (fun _ => False) ev -> env_asks (fun _ => false) W Unordered ev ->
  forall n n' cls root root' eas, same_but_order W root root' -> siblings_differ (fun _ => false) root ->
  no_pi root -> no_pi root' ->
  from_xml_tree n ev cls root eas <> Fuel -> from_xml_tree n' ev cls root' eas <> Fuel ->
  same_result (from_xml_tree n ev cls root eas) (from_xml_tree n' ev cls root' eas).
Proof. exact from_xml_order. Qed.

(** one_shape_doc (PropStray) with the elements in another order, at both depths *)
Definition one_shape_shuffled : native :=
  el "shapes" [] "" [el "circle" [("r", "1")] "" []; NComment (Some "c") None; el "extra" [] "raw" [];
                     el "meta" [] "" [el "note" [] "hello" []; el "author" [] "me" []]].

Lemma lib_unordered : env_asks (fun _ => false) raw_tags Unordered (lib Lxml Unordered).
Proof.
  intros cls md. unfold lib; simpl.
  destruct (String.eqb cls "Node"); [intros E; injection E as <-; repeat constructor|].
  destruct (String.eqb cls "Circle"); [intros E; injection E as <-; repeat constructor|].
  destruct (String.eqb cls "Square"); [intros E; injection E as <-; repeat constructor|].
  destruct (String.eqb cls "Shapes"); [intros E; injection E as <-; repeat constructor|discriminate].
Qed.

Example C66_ex : same_but_order raw_tags one_shape_doc one_shape_shuffled /\ siblings_differ (fun _ => false) one_shape_doc /\
  no_pi one_shape_doc /\ no_pi one_shape_shuffled /\
  exists v, from_xml_tree 9 (lib Lxml Unordered) "Shapes" one_shape_doc false = Ok v /\
            from_xml_tree 9 (lib Lxml Unordered) "Shapes" one_shape_shuffled false = Ok v.
Proof.
  assert (Same : forall d, (exists t x a, d = el t a x []) -> same_but_order raw_tags d d).
  { intros d (t & x & a & ->). eapply sbo_elem; [apply Permutation_refl|constructor| |tauto]. intros _. repeat constructor. }
  split; [|split; [|split; [|split]]].
  - unfold one_shape_doc, one_shape_shuffled, el. eapply sbo_elem; [| |discriminate|tauto].
    + simpl. apply (Permutation_app_comm [_] [_; _]).
    + simpl. constructor; [apply Same; unfold el; eauto|]. constructor; [|constructor; [apply Same; unfold el; eauto|constructor]].
      eapply sbo_elem; [| |discriminate|tauto].
      * simpl. apply perm_swap.
      * simpl. constructor; [apply Same; unfold el; eauto|]. constructor; [apply Same; unfold el; eauto|constructor].
  - unfold one_shape_doc, el. repeat (constructor; simpl). all: intuition discriminate.
  - unfold one_shape_doc, el. repeat (first [right | constructor]).
  - unfold one_shape_shuffled, el. constructor. repeat (apply Forall_cons); try apply Forall_nil;
      first [left; reflexivity | right; repeat (first [right | constructor])].
  - eexists; split; [vm_compute; reflexivity|vm_compute; reflexivity].
Qed.

(** class M: a: str = element(); b: List[str] = element().  With repeated names the order of the others
    decides in which order they are read: looking for [a] moves an element [b] to its place. *)
Theorem C66_repeated_names_refuted : exists ev root root', wf_env named_tag (fun _ => False) ev /\
  env_asks (fun _ => false) (fun _ => false) Unordered ev /\ same_but_order (fun _ => false) root root' /\
  root = el "m" [] "" [el "a" [] "0" []; el "b" [] "1" []; el "b" [] "2" []] /\
  root' = el "m" [] "" [el "b" [] "1" []; el "b" [] "2" []; el "a" [] "0" []] /\
  from_xml_tree 9 ev "M" root false = Ok (VModel "M" [("a", VStr "0"); ("b", VList [VStr "1"; VStr "2"])] ["a"; "b"]) /\
  from_xml_tree 9 ev "M" root' false = Ok (VModel "M" [("a", VStr "0"); ("b", VList [VStr "2"; VStr "1"])] ["a"; "b"]).
Proof.
  exists (Env Lxml (fun c => if String.eqb c "M" then Some (plain_model "M" "m"
    [("a", SElem "a" None Unordered false false); ("b", SHomo "M" false (SElem "b" None Unordered false false) false)] ["a"; "b"]) else None)).
  eexists _, _. split; [|split; [|split; [|split; [reflexivity|split; [reflexivity|split; vm_compute; reflexivity]]]]].
  - intros cls m. simpl. destruct (String.eqb cls "M"); [intros E; injection E as <-; repeat constructor; simpl; try discriminate; try apply accepts_quiet|discriminate].
  - intros cls m. simpl. destruct (String.eqb cls "M"); [intros E; injection E as <-; repeat constructor|discriminate].
  - unfold el. eapply sbo_elem; [| |discriminate|tauto].
    + simpl. apply (Permutation_app_comm [_; _] [_]).
    + simpl. repeat constructor; eapply sbo_elem; try discriminate; try tauto; simpl; constructor.
Qed.

(** in ordered mode the order matters although no two siblings share a name *)
Theorem C66_ordered_refuted : exists ev root root', wf_env named_tag (fun _ => False) ev /\
  env_asks (fun _ => false) (fun _ => false) Ordered ev /\ same_but_order (fun _ => false) root root' /\ siblings_differ (fun _ => false) root /\
  exists v err, from_xml_tree 9 ev "M" root false = Ok v /\ from_xml_tree 9 ev "M" root' false = Raise (XValidation err).
Proof.
  exists (Env Lxml (fun c => if String.eqb c "M" then Some (plain_model "M" "m"
    [("a", SElem "a" None Ordered false false); ("b", SElem "b" None Ordered false false)] ["a"; "b"]) else None)).
  exists (el "m" [] "" [el "a" [] "0" []; el "b" [] "1" []]), (el "m" [] "" [el "b" [] "1" []; el "a" [] "0" []]).
  split; [|split; [|split; [|split]]].
  - intros cls m. simpl. destruct (String.eqb cls "M"); [intros E; injection E as <-; repeat constructor; simpl; try discriminate; try apply accepts_quiet|discriminate].
  - intros cls m. simpl. destruct (String.eqb cls "M"); [intros E; injection E as <-; repeat constructor|discriminate].
  - unfold el. eapply sbo_elem; [| |discriminate|tauto].
    + simpl. apply perm_swap.
    + simpl. repeat constructor; eapply sbo_elem; try discriminate; try tauto; simpl; constructor.
  - unfold el. repeat (constructor; simpl). all: intuition discriminate.
  - eexists _, _; split; vm_compute; reflexivity.
Qed.

Print Assumptions C66_unordered_ignores_order.
Print Assumptions C66_repeated_names_refuted.
Print Assumptions C66_ordered_refuted.
