(** PropLoose.v -- C96: what was accepted stays accepted when classes accept more. *)

From Verif Require Import Base Elem Native Errs Names Ser Read Api SpecElem SpecRead SpecSim SpecOut SpecSub SpecPage SpecLoose
  PfPage PfPage4 PfLoose Samples PropRound.

(** C96.  Take two programs with the same classes, but pydantic accepts for the second all it accepts for the first, with the
    same result, and maybe more (required fields that have become optional, constraints that are gone), and classes of the
    second may allow extra data the first ones forbid.  If no class has a union of models that is not discriminated, every
    document read with the first program is read with the second, with the same value. *)
Theorem C96_reading : forall ev ev', loosened_env ev ev' -> union_free_classes ev -> plain_classes ev -> plain_classes ev' ->
  forall cls root eas v, en_model ev cls <> None ->
  (exists n, from_xml_tree n ev cls root eas = Ok v) -> exists n, from_xml_tree n ev' cls root eas = Ok v.
Proof. exact looser_documents. Qed.
Print Assumptions C96_reading.

(** ---- an example: a list of sub-models, a discriminated union in a wrapper; extra data is no longer forbidden ---- *)
Definition crate (mode : smode) (forbid : bool) (required : list string) : mdef :=
  MDef "Crate" false "crate" None
    [("id", SAttr "id" false); ("parts", SHomo "Crate" false (SProxy (sub "Part" "part" mode)) false);
     ("pet", SWrap ["cage"] None mode false (STagged false "kind" "kind" [("cat", sub "Part" "cat" mode)] mode))]
    [] [] false forbid None (fun _ => None) (fun _ => None) (accepts "Crate" required).
Definition part (mode : smode) (required : list string) : mdef :=
  plain_model "Part" "part" [("kind", SAttr "kind" false); ("size", SElem "size" None mode false false)] required.
Definition crates (mode : smode) (forbid : bool) (required part_required : list string) : env :=
  Env Lxml (fun c => if String.eqb c "Crate" then Some (crate mode forbid required)
                     else if String.eqb c "Part" then Some (part mode part_required) else None).
Definition narrow (mode : smode) : env := crates mode true ["id"; "parts"] ["size"].
Definition loose (mode : smode) : env := crates mode false ["parts"] [].

Lemma accepts_fewer : forall cls l l' i v, incl l' l -> accepts cls l i = Valid v -> accepts cls l' i = Valid v.
Proof.
  intros cls l l' [[| | | | | |d| |]|] v I; simpl; auto.
  destruct (filter (fun k => negb (dmem k d)) l) eqn:E; [|discriminate]. intros Ev.
  assert (E' : filter (fun k => negb (dmem k d)) l' = []); [|rewrite E'; exact Ev].
  destruct (filter (fun k => negb (dmem k d)) l') as [|k ks] eqn:E'; auto. exfalso.
  assert (X : In k (filter (fun k => negb (dmem k d)) l')) by (rewrite E'; left; reflexivity). apply filter_In in X. destruct X as [Ik Nk].
  assert (Y : In k (filter (fun k => negb (dmem k d)) l)) by (apply filter_In; auto). rewrite E in Y. destruct Y.
Qed.

Example C96_ex_meets : forall mode, loosened_env (narrow mode) (loose mode) /\ union_free_classes (narrow mode) /\
  plain_classes (narrow mode) /\ plain_classes (loose mode).
Proof.
  intros mode.
  assert (P : forall forbid l l', plain_classes (crates mode forbid l l')).
  { intros forbid l l' cls m. unfold crates; cbn [en_model].
    destruct (String.eqb cls "Crate"); [|destruct (String.eqb cls "Part"); [|discriminate]]; intros E; injection E as <-; split; auto; simpl.
    - intros name s [E|[E|[E|[]]]]; injection E as <- <-; simpl; auto. split; [discriminate|auto].
    - intros name s [E|[E|[]]]; injection E as <- <-; simpl; auto. }
  split; [|split; [|split; apply P]].
  - split; auto. intros cls m. unfold narrow, loose, crates; cbn [en_model].
    destruct (String.eqb cls "Crate"); [|destruct (String.eqb cls "Part"); [|discriminate]]; intros E; injection E as <-; eexists; (split; [reflexivity|]);
      constructor; auto; intros i v; apply accepts_fewer; intros k; simpl; tauto.
  - intros cls m. unfold narrow, crates; cbn [en_model].
    destruct (String.eqb cls "Crate"); [|destruct (String.eqb cls "Part"); [|discriminate]]; intros E; injection E as <-; simpl.
    + intros name s [E|[E|[E|[]]]]; injection E as <- <-; simpl; auto.
    + intros name s [E|[E|[]]]; injection E as <- <-; simpl; auto.
Qed.

(** <crate id="1"><part><size>2</size></part><part>..</part><cage><cat kind="cat"><size>3</size></cat></cage></crate>: with a
    size in the second part both read it, without it only the second program *)
Definition crate_doc (size : list native) : native :=
  el "crate" [("id", "1")] "" [el "part" [] "" [el "size" [] "2" []]; el "part" [] "" size;
                               el "cage" [] "" [el "cat" [("kind", "cat")] "" [el "size" [] "3" []]]].
Example C96_ex : forall mode, exists v w err,
  from_xml_tree 12 (narrow mode) "Crate" (crate_doc [el "size" [] "9" []]) false = Ok v /\
  from_xml_tree 12 (loose mode) "Crate" (crate_doc [el "size" [] "9" []]) false = Ok v /\
  from_xml_tree 12 (narrow mode) "Crate" (crate_doc []) false = Raise (XValidation err) /\
  from_xml_tree 12 (loose mode) "Crate" (crate_doc []) false = Ok w /\
  v = VModel "Crate" [("id", VStr "1"); ("parts", VList [VModel "Part" [("size", VStr "2")] ["size"]; VModel "Part" [("size", VStr "9")] ["size"]]);
                      ("pet", VModel "Part" [("kind", VStr "cat"); ("size", VStr "3")] ["kind"; "size"])] ["id"; "parts"; "pet"].
Proof.
  intros mode. do 3 eexists. destruct mode; (split; [vm_compute; reflexivity|]); (split; [vm_compute; reflexivity|]); (split; [vm_compute; reflexivity|]);
    (split; [vm_compute; reflexivity|]); reflexivity.
Qed.

(** ---- limits ---- *)

(** In a union of models a member that accepts more takes documents away from those behind it. *)
Definition zoo (required : list string) : env :=
  Env Lxml (fun c => if String.eqb c "Zoo" then Some (plain_model "Zoo" "zoo" [("pet", SUnionModel "Zoo" false [sub "Cat" "pet" Strict; sub "Dog" "pet" Strict] false)] [])
                     else if String.eqb c "Cat" then Some (plain_model "Cat" "pet" [("name", SAttr "name" false)] required)
                     else if String.eqb c "Dog" then Some (plain_model "Dog" "pet" [("name", SAttr "name" false)] [])
                     else None).
Theorem C96_unions_refuted : loosened_env (zoo ["name"]) (zoo []) /\ exists doc, doc = el "zoo" [] "" [el "pet" [] "" []] /\
  from_xml_tree 9 (zoo ["name"]) "Zoo" doc false = Ok (VModel "Zoo" [("pet", VModel "Dog" [] [])] ["pet"]) /\
  from_xml_tree 9 (zoo []) "Zoo" doc false = Ok (VModel "Zoo" [("pet", VModel "Cat" [] [])] ["pet"]).
Proof.
  split.
  - split; auto. intros cls m. unfold zoo; cbn [en_model].
    destruct (String.eqb cls "Zoo"); [|destruct (String.eqb cls "Cat"); [|destruct (String.eqb cls "Dog"); [|discriminate]]]; intros E; injection E as <-;
      eexists; (split; [reflexivity|]); constructor; auto; intros i v; apply accepts_fewer; intros k; simpl; tauto.
  - eexists. split; [reflexivity|]. split; vm_compute; reflexivity.
Qed.
Print Assumptions C96_unions_refuted.
