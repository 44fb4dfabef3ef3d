(** PropOneOf.v -- C95: a sub-model may become a union. *)

From Verif Require Import Base Elem Native Errs Names Ser Read Write Api SpecElem SpecRead SpecSim SpecOut SpecSub SpecPage SpecOneOf
  PfPage PfPage4 PfOneOf PfOneOf2 Samples PropRound.

(** C95.  Take two classes with the same fields, but for sub-models of the first that are unions, with that sub-model as the
    only member so far, in the second: fields, items of lists, places of tuples, or any of them inside wrappers.  For every
    document in which no element of these sub-models is marked with xsi:nil, from_xml gives a value for the one if and only
    if it gives the value for the other.  This holds in every search mode. *)
Theorem C95_reading : forall ev, plain_classes ev -> forall T cls cls' m m', en_model ev cls = Some m -> en_model ev cls' = Some m' ->
  made_unions_class ev T m m' -> forall root eas v, Forall (no_nil T) (own_children root) ->
  (exists n, from_xml_tree n ev cls root eas = Ok v) <-> (exists n, from_xml_tree n ev cls' root eas = Ok v).
Proof. exact unions_documents. Qed.
Print Assumptions C95_reading.

(** Writing: instances of the two classes with the same values and the same fields set give the same document, or fail
    alike, if there are instances of the very classes of these sub-models, or None not to be written as nil, where the
    unions are.  [encode] stands for pydantic's to_jsonable_python. *)
Theorem C95_writing : forall ev encode cls cls' m m' attrs set, en_model ev cls = Some m -> en_model ev cls' = Some m' ->
  exact_class ev attrs m m' -> (forall name, md_cser m name = None) -> encode (VModel cls attrs set) = encode (VModel cls' attrs set) ->
  forall n fl, to_xml_tree n ev encode (VModel cls attrs set) fl = to_xml_tree n ev encode (VModel cls' attrs set) fl.
Proof. exact unions_written. Qed.
Print Assumptions C95_writing.

(** ---- an example: a field, a list and a list in a wrapper ---- *)
Definition circles (mode : smode) : ser := SProxy (sub "Circle" "circle" mode).
Definition round_shapes (mode : smode) : ser := SUnionModel "Picture" false [sub "Circle" "circle" mode] false.
Definition picture (mode : smode) (s : ser) : mdef :=
  plain_model "Picture" "picture"
    [("title", SAttr "title" false); ("first", s); ("more", SHomo "Picture" false s false);
     ("far", SWrap ["back"; "ground"] None mode false (SHomo "Picture" false s false)); ("note", SElem "note" None mode false false)] ["first"].
Definition pictures (mode : smode) : env :=
  Env Lxml (fun c => if String.eqb c "Old" then Some (picture mode (circles mode))
                     else if String.eqb c "New" then Some (picture mode (round_shapes mode))
                     else if String.eqb c "Circle" then Some (circle mode)
                     else None).

(** <picture title="t"><circle r="1"/><circle r="2"/><circle r="3"/><back><ground><circle r="4"/></ground></back>
    <note>n</note></picture> *)
Definition picture_doc : native :=
  el "picture" [("title", "t")] ""
    [el "circle" [("r", "1")] "" []; el "circle" [("r", "2")] "" []; el "circle" [("r", "3")] "" [];
     el "back" [] "" [el "ground" [] "" [el "circle" [("r", "4")] "" []]]; el "note" [] "n" []].

Example C95_ex_meets : forall mode, plain_classes (pictures mode) /\
  made_unions_class (pictures mode) ["circle"] (picture mode (circles mode)) (picture mode (round_shapes mode)) /\
  Forall (no_nil ["circle"]) (own_children picture_doc).
Proof.
  intros mode. split; [|split].
  - intros cls m. unfold pictures; cbn [en_model].
    do 2 (destruct (String.eqb cls _); [intros E; injection E as <-; split; auto; simpl; intros name s [E|[E|[E|[E|[E|[]]]]]]; injection E as <- <-; simpl; auto; try (split; [discriminate|auto])|]).
    destruct (String.eqb cls _); [intros E; injection E as <-; split; auto; simpl; intros name s [E|[]]; injection E as <- <-; simpl; auto|discriminate].
  - assert (U : made_unions (pictures mode) ["circle"] (circles mode) (round_shapes mode)).
    { apply mu_union; [left; reflexivity|]. intros m i E. injection E as <-. simpl. unfold accepts. repeat match goal with |- context [match ?x with _ => _ end] => destruct x end; discriminate. }
    constructor. repeat (apply Forall2_cons || apply Forall2_nil); simpl; split; auto using mu_same.
    + apply mu_list; auto.
    + apply mu_wrap, mu_list; auto.
  - assert (L : forall tag attrs t cs, dget nil_attribute attrs = None -> Forall (no_nil ["circle"]) (no_comments cs) -> no_nil ["circle"] (el tag attrs t cs)).
    { intros tag attrs t cs A F. constructor; auto. intros t' I N. simpl. unfold attribute. simpl. rewrite A. discriminate. }
    unfold picture_doc. cbn [own_children el no_comments filter].
    repeat (apply Forall_cons || apply Forall_nil || (apply L; [reflexivity|cbn [no_comments filter el is_xml_comment]])).
Qed.

(** the field that is a sub-model takes the first circle, the list the others *)
Example C95_ex : forall mode cls, cls = "Old" \/ cls = "New" -> from_xml_tree 12 (pictures mode) cls picture_doc false =
  Ok (VModel "Picture" [("title", VStr "t"); ("first", VModel "Circle" [("r", VStr "1")] ["r"]);
                        ("more", VList [VModel "Circle" [("r", VStr "2")] ["r"]; VModel "Circle" [("r", VStr "3")] ["r"]]);
                        ("far", VList [VModel "Circle" [("r", VStr "4")] ["r"]]); ("note", VStr "n")] ["title"; "first"; "more"; "far"; "note"]).
Proof. intros mode cls [-> | ->]; destruct mode; vm_compute; reflexivity. Qed.

Definition picture_attrs : dict val :=
  [("title", VStr "t"); ("first", VModel "Circle" [("r", VStr "1")] ["r"]);
   ("more", VList [VModel "Circle" [("r", VStr "2")] ["r"]; VNone; VModel "Circle" [("r", VStr "3")] ["r"]]);
   ("far", VNone); ("note", VStr "n")].
Example C95_writing_ex : forall mode,
  exact_class (pictures mode) picture_attrs (picture mode (circles mode)) (picture mode (round_shapes mode)) /\
  (forall set, jsonable (VModel "Old" picture_attrs set) = jsonable (VModel "New" picture_attrs set)) /\
  forall cls, cls = "Old" \/ cls = "New" ->
    to_xml_tree 12 (pictures mode) jsonable (VModel cls picture_attrs ["first"]) (Flags false false false) =
    Ok (NElem "picture" [] None None [("title", "t")]
          [NElem "circle" [] None None [("r", "1")] [] None; NElem "circle" [] None None [("r", "2")] [] None;
           NElem "circle" [] None None [("r", "3")] [] None; NElem "note" [] (Some "n") None [] [] None] None).
Proof.
  intros mode. split; [|split].
  - constructor. repeat (apply Forall2_cons || apply Forall2_nil); simpl; (split; [reflexivity|]); intros x E; injection E as <-;
      repeat (apply xf_same || apply xf_no_wrap || apply xf_list || apply xi_item || apply xi_end || apply xf_none || (apply xf_instance with (q := sub "Circle" "circle" mode))); try reflexivity; discriminate.
  - reflexivity.
  - intros cls [-> | ->]; destruct mode; vm_compute; reflexivity.
Qed.

(** ---- limits ---- *)

(** An empty sub-model marked with xsi:nil is passed by the field of the sub-model and not by the union, which looks at the
    same element again: in the strict mode the fields that follow are lost. *)
Definition dot (s : ser) : mdef := plain_model "Dot" "dot" [("at", s); ("note", SElem "note" None Strict false false)] [].
Definition dots : env :=
  let q := Proxy "Circle" "circle" None Strict false true in
  Env Lxml (fun c => if String.eqb c "Old" then Some (dot (SProxy q))
                     else if String.eqb c "New" then Some (dot (SUnionModel "Dot" false [q] false))
                     else if String.eqb c "Circle" then Some (circle Strict)
                     else None).
Theorem C95_nil_refuted : exists doc, doc = el "dot" [] "" [el "circle" [(nil_attribute, "true")] "" []; el "note" [] "n" []] /\
  from_xml_tree 9 dots "Old" doc false = Ok (VModel "Dot" [("note", VStr "n")] ["note"]) /\
  from_xml_tree 9 dots "New" doc false = Ok (VModel "Dot" [] []).
Proof. eexists. split; [reflexivity|]. split; vm_compute; reflexivity. Qed.
Print Assumptions C95_nil_refuted.

(** The errors are placed elsewhere: the union adds the name of the class. *)
Theorem C95_errors_refuted : exists doc e e', doc = el "dot" [] "" [el "circle" [] "" []] /\
  from_xml_tree 9 dots "Old" doc false = Raise (XValidation e) /\ from_xml_tree 9 dots "New" doc false = Raise (XValidation e') /\
  map le_loc (ve_lines e) = [[LKey "at"; LKey "r"]] /\ map le_loc (ve_lines e') = [[LKey "at"; LKey "Circle"; LKey "r"]].
Proof. do 3 eexists. split; [reflexivity|]. split; [vm_compute; reflexivity|]. split; [vm_compute; reflexivity|]. split; reflexivity. Qed.
Print Assumptions C95_errors_refuted.

(** Writing, an instance of a class derived from that of the sub-model is left out by the union. *)
Definition derived : env :=
  Env Lxml (fun c => if String.eqb c "Old" then Some (dot (circles Strict))
                     else if String.eqb c "New" then Some (dot (round_shapes Strict))
                     else if String.eqb c "Circle" then Some (circle Strict)
                     else if String.eqb c "Disc" then Some (circle Strict)
                     else None).
Theorem C95_derived_refuted : exists attrs, attrs = [("at", VModel "Disc" [("r", VStr "1")] ["r"]); ("note", VStr "n")] /\
  to_xml_tree 9 derived jsonable (VModel "Old" attrs ["at"]) (Flags false false false) =
    Ok (NElem "dot" [] None None [] [NElem "circle" [] None None [("r", "1")] [] None; NElem "note" [] (Some "n") None [] [] None] None) /\
  to_xml_tree 9 derived jsonable (VModel "New" attrs ["at"]) (Flags false false false) =
    Ok (NElem "dot" [] None None [] [NElem "note" [] (Some "n") None [] [] None] None).
Proof. eexists. split; [reflexivity|]. split; vm_compute; reflexivity. Qed.
Print Assumptions C95_derived_refuted.
