(** PropMembers.v -- C92: when the order of the members of a union does not matter. *)

From Verif Require Import Base Elem Native Errs Names Ser Read Write Api SpecMembers PfMembers Samples PropRound.

(** C92, reading.  Take a program and change the order of the members of its unions, in any fields of any classes, but only
    in unions of models with different element names in strict mode, and in discriminated unions in strict mode or with
    one element name for all members.  Then from_xml does the same with every document: the same value, the very same
    error, line numbers included, or the same other exception. *)
Theorem C92_reading : forall ev ev', shuffled_env (names_differ ev) tags_differ ev ev' -> forall n cls root eas,
  from_xml_tree n ev cls root eas = from_xml_tree n ev' cls root eas.
Proof. exact from_xml_shuffled. Qed.
Print Assumptions C92_reading.

(** C92, writing.  Here it is enough that the members of a union have different classes, in every search mode, and those
    of a discriminated union different tags. *)
Theorem C92_writing : forall ev ev', shuffled_env classes_differ one_each ev ev' -> forall n encode v fl,
  to_xml_tree n ev encode v fl = to_xml_tree n ev' encode v fl.
Proof. exact to_xml_shuffled. Qed.
Print Assumptions C92_writing.

(** ---- an example: a list of a union, and a wrapped discriminated union, both turned round ---- *)
Definition pets (m : smode) : list (string * proxy) := [("cat", sub "Cat" "pet" m); ("dog", sub "Dog" "pet" m)].
Definition zoo_fields (m : smode) (turn : bool) : list (string * ser) :=
  let on A (l : list A) := if turn then rev l else l in
  [("shapes", SHomo "Zoo" false (SUnionModel "Zoo" false (on _ [sub "Circle" "circle" Strict; sub "Square" "square" Strict; sub "Node" "node" Strict]) false) false);
   ("pet", SWrap ["house"] None Strict false (STagged false "kind" "kind" (on _ (pets m)) m))].
Definition pet (cls : string) (m : smode) : mdef := plain_model cls "pet" [("kind", SAttr "kind" false); ("name", SElem "name" None m false false)] ["kind"; "name"].
Definition zoo (m : smode) (turn : bool) : env :=
  Env Lxml (fun c => if String.eqb c "Zoo" then Some (plain_model "Zoo" "zoo" (zoo_fields m turn) ["shapes"])
                     else if String.eqb c "Cat" then Some (pet "Cat" m)
                     else if String.eqb c "Dog" then Some (pet "Dog" m)
                     else en_model (lib Lxml Strict) c).

Lemma same_class : forall U T m, shuffled_class U T m m.
Proof. intros U T []. constructor. induction md_fields; constructor; auto. split; auto. apply sf_same. Qed.

Lemma zoo_shuffled : forall m, shuffled_env (names_differ (zoo m false)) tags_differ (zoo m false) (zoo m true).
Proof.
  intros m. split; auto. intros cls. set (U := names_differ (zoo m false)). assert (EU : U = names_differ (zoo m false)) by reflexivity. clearbody U.
  unfold zoo. cbn [en_model]. destruct (String.eqb cls "Zoo"); [|destruct (String.eqb cls "Cat"); [apply same_class|
    destruct (String.eqb cls "Dog"); [apply same_class|destruct (en_model (lib Lxml Strict) cls); auto; apply same_class]]].
  constructor. constructor; [|constructor; [|constructor]]; (split; [reflexivity|]); cbn [fst snd].
  - apply sf_list, sf_union; [|apply (Permutation_rev [sub "Circle" "circle" Strict; sub "Square" "square" Strict; sub "Node" "node" Strict])].
    subst U. split; [repeat constructor; simpl; intuition discriminate|]. repeat constructor; simpl; discriminate.
  - apply sf_wrap, sf_tagged; [|apply (Permutation_rev (pets m))]. split; [repeat constructor; simpl; intuition discriminate|].
    right. simpl. intros q q' [<-|[<-|[]]] [<-|[<-|[]]]; reflexivity.
Qed.

Lemma zoo_shuffled_out : forall m, shuffled_env classes_differ one_each (zoo m false) (zoo m true).
Proof.
  intros m. split; auto. intros cls. unfold zoo. cbn [en_model]. destruct (String.eqb cls "Zoo"); [|destruct (String.eqb cls "Cat"); [apply same_class|
    destruct (String.eqb cls "Dog"); [apply same_class|destruct (en_model (lib Lxml Strict) cls); auto; apply same_class]]].
  constructor. constructor; [|constructor; [|constructor]]; (split; [reflexivity|]); cbn [fst snd].
  - apply sf_list, sf_union; [|apply (Permutation_rev [sub "Circle" "circle" Strict; sub "Square" "square" Strict; sub "Node" "node" Strict])].
    repeat constructor; simpl; intuition discriminate.
  - apply sf_wrap, sf_tagged; [|apply (Permutation_rev (pets m))]. repeat constructor; simpl; intuition discriminate.
Qed.

(** <zoo><square><a>1</a></square><circle r="2"/><house><pet kind="dog"><name>Rex</name></pet></house></zoo> *)
Definition zoo_doc : native :=
  el "zoo" [] "" [el "square" [] "" [el "a" [] "1" []]; el "circle" [("r", "2")] "" [];
                  el "house" [] "" [el "pet" [("kind", "dog")] "" [el "name" [] "Rex" []]]].
(** the same with a circle that has no radius *)
Definition bad_zoo_doc : native :=
  el "zoo" [] "" [el "square" [] "" [el "a" [] "1" []]; el "circle" [] "" []; el "house" [] "" [el "pet" [("kind", "dog")] "" []]].

Definition zoo_value : val :=
  VModel "Zoo" [("shapes", VList [VModel "Square" [("a", VStr "1")] ["a"]; VModel "Circle" [("r", VStr "2")] ["r"]]);
                ("pet", VModel "Dog" [("kind", VStr "dog"); ("name", VStr "Rex")] ["kind"; "name"])] ["shapes"; "pet"].

Example C92_ex : forall m, from_xml_tree 9 (zoo m true) "Zoo" zoo_doc false = Ok zoo_value /\
  (exists err, from_xml_tree 9 (zoo m true) "Zoo" bad_zoo_doc false = Raise (XValidation err) /\ length (ve_lines err) = 2).
Proof.
  intros m. rewrite <- !(C92_reading (zoo_shuffled m)). destruct m; (split; [vm_compute; reflexivity|]; eexists; split; [vm_compute; reflexivity|reflexivity]).
Qed.

Example C92_ex_out : forall m, exists d, to_xml_tree 9 (zoo m true) jsonable zoo_value (Flags false false false) = Ok d /\
  to_xml_tree 9 (zoo m false) jsonable zoo_value (Flags false false false) = Ok d.
Proof. intros m. rewrite <- (C92_writing (zoo_shuffled_out m)). destruct m; (eexists; split; [vm_compute; reflexivity|vm_compute; reflexivity]). Qed.

(** ---- limits ---- *)

Definition pick (l : list proxy) : env :=
  Env Std (fun c => if String.eqb c "Pick" then Some (plain_model "Pick" "pick" [("it", SUnionModel "Pick" false l false)] [])
                    else if String.eqb c "Cat" then Some (pet "Cat" Strict)
                    else if String.eqb c "Dog" then Some (pet "Dog" Strict)
                    else None).
Definition a_pet (tag kind : string) : native := el tag [("kind", kind)] "" [el "name" [] "Rex" []].

(** members with the same name: the first that fits is taken *)
Theorem C92_same_name_refuted : exists doc, doc = el "pick" [] "" [a_pet "pet" "dog"] /\
  from_xml_tree 9 (pick [sub "Cat" "pet" Strict; sub "Dog" "pet" Strict]) "Pick" doc false
  <> from_xml_tree 9 (pick [sub "Dog" "pet" Strict; sub "Cat" "pet" Strict]) "Pick" doc false.
Proof. eexists. split; [reflexivity|]. vm_compute. discriminate. Qed.
Print Assumptions C92_same_name_refuted.

(** other modes: the first member whose element is somewhere ahead is taken *)
Theorem C92_other_modes_refuted : forall m, m <> Strict -> exists doc, doc = el "pick" [] "" [a_pet "cat" "a"; a_pet "dog" "b"] /\
  from_xml_tree 9 (pick [sub "Cat" "cat" m; sub "Dog" "dog" m]) "Pick" doc false
  <> from_xml_tree 9 (pick [sub "Dog" "dog" m; sub "Cat" "cat" m]) "Pick" doc false.
Proof. intros m N. eexists. split; [reflexivity|]. destruct m; try congruence; vm_compute; discriminate. Qed.
Print Assumptions C92_other_modes_refuted.

(** so it is with discriminated unions whose members have different names *)
Definition pick_tagged (m : smode) (l : list (string * proxy)) : env :=
  Env Std (fun c => if String.eqb c "Pick" then Some (plain_model "Pick" "pick" [("it", STagged false "kind" "kind" l m)] [])
                    else if String.eqb c "Cat" then Some (pet "Cat" Strict)
                    else if String.eqb c "Dog" then Some (pet "Dog" Strict)
                    else None).

Theorem C92_other_modes_tagged_refuted : forall m, m <> Strict -> exists doc, doc = el "pick" [] "" [a_pet "cat" "a"; a_pet "dog" "b"] /\
  from_xml_tree 9 (pick_tagged m [("a", sub "Cat" "cat" m); ("b", sub "Dog" "dog" m)]) "Pick" doc false
  <> from_xml_tree 9 (pick_tagged m [("b", sub "Dog" "dog" m); ("a", sub "Cat" "cat" m)]) "Pick" doc false.
Proof. intros m N. eexists. split; [reflexivity|]. destruct m; try congruence; vm_compute; discriminate. Qed.
Print Assumptions C92_other_modes_tagged_refuted.
