(** PropMany.v -- C93: a field may become a list, and the documents written for it are still read. *)

From Verif Require Import Base Elem Native Errs Names Ser Read Write Api SpecElem SpecRead SpecWrite SpecSim SpecOut SpecSub SpecPage SpecMoved SpecSwap SpecMany
  PfPage PfPage4 PfMany PfMany2 PfMany3 Samples PropRound.

(** C93.  Let the class [cls'] be the class [cls] with some fields, each bound to one element, made lists: `x: T` becomes
    `x: List[T]`.  Take any document whose root has at most one child by the name of each of those fields.  What from_xml
    makes of it for the one class it makes for the other: an instance, a ValidationError or an exception of user code.
    The instances correspond as pydantic's validators make them correspond, given a list of one value for the value.  The
    errors are the same in the same order, but a location inside of such a field goes through the place 0 of the list.
    This holds in every search mode, and whether extra data are forbidden or not. *)
Theorem C93_reading : forall ev, plain_classes ev -> forall cls cls' m m' R lists, en_model ev cls = Some m -> en_model ev cls' = Some m' ->
  relisted R lists m m' -> forall root eas, (forall name tag, In (name, tag) lists -> at_most_once tag root) ->
  (forall a, from_xml_gives ev cls root eas a ->
     exists a', from_xml_gives ev cls' root eas a' /\ same_but R (map fst lists ++ map (fun l => key_of m (fst l)) lists) a a') /\
  (forall a', from_xml_gives ev cls' root eas a' ->
     exists a, from_xml_gives ev cls root eas a /\ same_but R (map fst lists ++ map (fun l => key_of m (fst l)) lists) a a').
Proof. exact relisted_documents. Qed.
Print Assumptions C93_reading.

(** Writing: an instance of the one class and an instance of the other that has a list of the one value where the value
    was give the same document, with every setting of the switches.  [encode] stands for pydantic's to_jsonable_python.  The
    values are not None; raw elements in them are elements no wrapper is called like. *)
Theorem C93_writing : forall ev, no_customs ev -> forall cls cls' m m' lists, en_model ev cls = Some m -> en_model ev cls' = Some m' ->
  relisted_out lists m m' -> forall attrs set d fl doc encode,
  (forall name, In name (map fst lists) -> dget name attrs <> Some VNone) -> raws_apart ev (VModel cls attrs set) ->
  encode (VModel cls attrs set) = VDict d -> encode (VModel cls' (in_lists (map fst lists) attrs) set) = VDict (in_lists (map fst lists) d) ->
  (exists n, to_xml_tree n ev encode (VModel cls attrs set) fl = Ok doc) <->
  (exists n, to_xml_tree n ev encode (VModel cls' (in_lists (map fst lists) attrs) set) fl = Ok doc).
Proof. exact relisted_written. Qed.
Print Assumptions C93_writing.

(** ---- an example: an attribute, and a sub-model and a scalar that become lists, extra data forbidden ---- *)
Definition crate_fields (mode : smode) : list (string * ser) :=
  [("id", SAttr "id" false); ("shape", SProxy (sub "Square" "square" mode)); ("note", SElem "note" None mode false true)].
Definition crate_lists (mode : smode) : list (string * ser) :=
  [("id", SAttr "id" false); ("shape", SHomo "Crate" false (SProxy (sub "Square" "square" mode)) false);
   ("note", SHomo "Crate" false (SElem "note" None mode false true) false)].
Definition crate (fs : list (string * ser)) : mdef :=
  MDef "Crate" false "crate" None fs [("shape", "form")] [] false true None (fun _ => None) (fun _ => None) (accepts "Crate" ["id"; "form"]).
Definition crates (mode : smode) : env :=
  Env Lxml (fun c => if String.eqb c "Crate" then Some (crate (crate_fields mode))
                     else if String.eqb c "Crates" then Some (crate (crate_lists mode))
                     else if String.eqb c "Square" then Some (square mode)
                     else None).

Lemma crates_plain : forall mode, plain_classes (crates mode).
Proof.
  intros mode cls m. unfold crates; cbn [en_model].
  destruct (String.eqb cls "Crate"); [intros E; injection E as <-|].
  { split; auto. simpl. intros name s [E|[E|[E|[]]]]; injection E as <- <-; simpl; auto. }
  destruct (String.eqb cls "Crates"); [intros E; injection E as <-|].
  { split; auto. simpl. intros name s [E|[E|[E|[]]]]; injection E as <- <-; simpl; auto. }
  destruct (String.eqb cls "Square"); [intros E; injection E as <-|discriminate].
  split; auto. simpl. intros name s [E|[]]; injection E as <- <-; simpl; auto.
Qed.

(** the instances: those fields hold a list of what they held *)
Definition crate_listed (v v' : val) : Prop :=
  exists d, v = VModel "Crate" d (dkeys d) /\ v' = VModel "Crate" (in_lists ["form"; "note"] d) (dkeys d).

Lemma lists_mem : forall keys k d, dmem k (in_lists keys d) = dmem k d.
Proof. intros keys k d. unfold dmem. induction d as [|[a b] d IH]; simpl; auto. destruct (String.eqb k a); auto. Qed.
Lemma lists_keys : forall keys d, dkeys (in_lists keys d) = dkeys d.
Proof. intros keys d. unfold dkeys, in_lists. rewrite map_map. reflexivity. Qed.

Lemma crates_relisted : forall mode, relisted crate_listed [("shape", "square"); ("note", "note")] (crate (crate_fields mode)) (crate (crate_lists mode)).
Proof.
  intros mode. constructor; auto.
  - apply ml_same. eapply ml_list; [reflexivity|]. eapply ml_list; [reflexivity|]. apply ml_end.
  - repeat constructor; simpl; intuition discriminate.
  - repeat constructor; simpl; intuition discriminate.
  - assert (I : incl ["form"; "note"] (["shape"; "note"] ++ ["form"; "note"])) by (intros x I; simpl in *; tauto).
    intros d. cbn [md_validate crate map fst]. change (key_of (crate (crate_fields mode)) "shape") with "form". change (key_of (crate (crate_fields mode)) "note") with "note".
    unfold accepts. cbn [filter]. rewrite !lists_mem. destruct (dmem "id" d), (dmem "form" d); cbn [negb map judgement].
    + apply sb_got. exists d. rewrite lists_keys. auto.
    + apply sb_refused. apply Forall2_cons; [apply pl_whole; exact I|apply Forall2_nil].
    + apply sb_refused. apply Forall2_cons; [apply pl_whole; exact I|apply Forall2_nil].
    + apply sb_refused. apply Forall2_cons; [apply pl_whole; exact I|]. apply Forall2_cons; [apply pl_whole; exact I|apply Forall2_nil].
Qed.

(** <crate id="1"><square><a>2</a></square><note>n</note></crate>, and the same without <a> and with an attribute too many *)
Definition crate_doc : native := el "crate" [("id", "1")] "" [el "square" [] "" [el "a" [] "2" []]; el "note" [] "n" []].
Definition bad_crate : native := el "crate" [("id", "1")] "" [el "square" [] "" []; el "note" [] "n" []].
Definition stray_crate : native := el "crate" [("id", "1"); ("z", "9")] "" [el "square" [] "" [el "a" [] "2" []]].

Example C93_ex_meets : forall name tag, In (name, tag) [("shape", "square"); ("note", "note")] ->
  at_most_once tag crate_doc /\ at_most_once tag bad_crate /\ at_most_once tag stray_crate.
Proof. intros name tag [E|[E|[]]]; injection E as <- <-; vm_compute; auto. Qed.

Example C93_ex : forall mode,
  from_xml_gives (crates mode) "Crate" crate_doc false
    (Got (VModel "Crate" [("id", VStr "1"); ("form", VModel "Square" [("a", VStr "2")] ["a"]); ("note", VStr "n")] ["id"; "form"; "note"])) /\
  from_xml_gives (crates mode) "Crates" crate_doc false
    (Got (VModel "Crate" [("id", VStr "1"); ("form", VList [VModel "Square" [("a", VStr "2")] ["a"]]); ("note", VList [VStr "n"])] ["id"; "form"; "note"])) /\
  from_xml_gives (crates mode) "Crate" bad_crate false
    (Refused "Crate" [Remark [LKey "shape"; LKey "a"] "missing" "Field required" (VDict [])]) /\
  from_xml_gives (crates mode) "Crates" bad_crate false
    (Refused "Crate" [Remark [LKey "shape"; LIdx 0; LKey "a"] "missing" "Field required" (VDict [])]) /\
  from_xml_gives (crates mode) "Crate" stray_crate false
    (Refused "Crate" [Remark [LKey "@z"] "extra_forbidden" "Extra inputs are not permitted" (VStr "9")]) /\
  from_xml_gives (crates mode) "Crates" stray_crate false
    (Refused "Crate" [Remark [LKey "@z"] "extra_forbidden" "Extra inputs are not permitted" (VStr "9")]).
Proof.
  intros mode. destruct mode; (split; [|split; [|split; [|split; [|split]]]]); simpl from_xml_gives; exists 9; try reflexivity;
    eexists; (split; [vm_compute; reflexivity|split; vm_compute; reflexivity]).
Qed.

Definition crate_values : list (string * val) :=
  [("id", VStr "1"); ("shape", VModel "Square" [("a", VStr "2")] ["a"]); ("note", VStr "n")].
Definition crate_names := map fst [("shape", "square"); ("note", "note")].

Example C93_writing_ex : forall mode fl, exists d doc,
  no_customs (crates mode) /\ relisted_out [("shape", "square"); ("note", "note")] (crate (crate_fields mode)) (crate (crate_lists mode)) /\
  (forall name, In name crate_names -> dget name crate_values <> Some VNone) /\ raws_apart (crates mode) (VModel "Crate" crate_values ["id"; "shape"; "note"]) /\
  jsonable (VModel "Crate" crate_values ["id"; "shape"; "note"]) = VDict d /\
  jsonable (VModel "Crates" (in_lists crate_names crate_values) ["id"; "shape"; "note"]) = VDict (in_lists crate_names d) /\
  to_xml_tree 9 (crates mode) jsonable (VModel "Crate" crate_values ["id"; "shape"; "note"]) fl = Ok doc /\
  to_xml_tree 9 (crates mode) jsonable (VModel "Crates" (in_lists crate_names crate_values) ["id"; "shape"; "note"]) fl = Ok doc.
Proof.
  intros mode [a b c]. do 2 eexists. split; [|split; [|split; [|split; [|split; [reflexivity|split; [reflexivity|]]]]]].
  - intros cls m name. unfold crates; cbn [en_model]. destruct (String.eqb cls "Crate"); [intros E; injection E as <-; auto|].
    destruct (String.eqb cls "Crates"); [intros E; injection E as <-; auto|]. destruct (String.eqb cls "Square"); [intros E; injection E as <-; auto|discriminate].
  - constructor; auto.
    + apply ml_same. eapply ml_list; [reflexivity|]. eapply ml_list; [reflexivity|]. apply ml_end.
    + repeat constructor; simpl; intuition discriminate.
  - intros name [<-|[<-|[]]]; vm_compute; discriminate.
  - intros n X. exfalso. repeat match goal with
      | X : raw_in _ (VStr _) |- _ => inversion X
      | X : raw_in _ (VModel _ _ _) |- _ => inversion X; clear X; subst
      | X : In _ _ |- _ => simpl in X
      | X : _ \/ _ |- _ => destruct X
      | X : (_, _) = (_, _) |- _ => injection X as <- <-
      | X : False |- _ => destruct X
      end.
  - destruct mode, a, b, c; (split; [vm_compute; reflexivity|vm_compute; reflexivity]).
Qed.

(** ---- limits ---- *)

(** If the name occurs twice the one class passes the second element over, or refuses it, and the other takes it. *)
Theorem C93_twice_refuted : forall mode, exists f g doc v v',
  f = ("note", SElem "note" None mode false false) /\ g = ("note", SHomo "Crate" false (SElem "note" None mode false false) false) /\
  doc = el "crate" [] "" [el "note" [] "1" []; el "note" [] "2" []] /\
  from_xml_tree 9 (Env Std (fun _ => Some (plain_model "Crate" "crate" [f] ["note"]))) "Crate" doc false = Ok v /\
  from_xml_tree 9 (Env Std (fun _ => Some (plain_model "Crate" "crate" [g] ["note"]))) "Crate" doc false = Ok v' /\
  v = VModel "Crate" [("note", VStr "1")] ["note"] /\ v' = VModel "Crate" [("note", VList [VStr "1"; VStr "2"])] ["note"].
Proof.
  intros mode. do 5 eexists. do 3 (split; [reflexivity|]). destruct mode;
    (split; [vm_compute; reflexivity|split; [vm_compute; reflexivity|split; reflexivity]]).
Qed.
Print Assumptions C93_twice_refuted.

(** None is written as an empty element, but an absent list as nothing. *)
Theorem C93_none_refuted : forall mode, exists f g doc doc',
  f = ("note", SElem "note" None mode false false) /\ g = ("note", SHomo "Crate" false (SElem "note" None mode false false) false) /\
  to_xml_tree 9 (Env Std (fun _ => Some (plain_model "Crate" "crate" [f] []))) jsonable (VModel "Crate" [("note", VNone)] ["note"]) (Flags false false false) = Ok doc /\
  to_xml_tree 9 (Env Std (fun _ => Some (plain_model "Crate" "crate" [g] []))) jsonable (VModel "Crate" [("note", VNone)] ["note"]) (Flags false false false) = Ok doc' /\
  doc <> doc'.
Proof.
  intros mode. do 4 eexists. do 2 (split; [reflexivity|]). destruct mode;
    (split; [vm_compute; reflexivity|split; [vm_compute; reflexivity|discriminate]]).
Qed.
Print Assumptions C93_none_refuted.
