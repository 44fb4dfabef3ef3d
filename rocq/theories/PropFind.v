(** PropFind.v -- more inputs on which the library does not do what the property it belongs to would
    suggest.  Each is a run of the model of the code. *)

From Verif Require Import Base Elem Native Errs Names Ser Write Read Api SpecElem SpecRead SpecWrite SpecSim Samples PropWrite PropDoc.

Definition one_class (cls : string) (m : mdef) : env := Env Lxml (fun c => if String.eqb c cls then Some m else None).
Definition no_flags : flags := Flags false false false.
Definition attribute (n : native) (k : string) : option string :=
  match n with NElem _ _ _ _ attrib _ _ => dget k attrib | _ => None end.

(** C21.  class Row(tag='row'): cells: List[Optional[str]] = element('cell', nillable=True).
    A nil item ends the list when it is read back: the items after it are lost without an error. *)
Definition rows : env := one_class "Row" (plain_model "Row" "row"
  [("cells", SHomo "Row" false (SElem "cell" None Strict false true) false)] ["cells"]).

Theorem C21_nil_item_refuted : forall before after, exists t,
  to_xml_tree 9 rows enc_of (VModel "Row" [("cells", VList [VStr "1"; VNone; VStr "3"])] before) no_flags = Ok t /\
  from_xml_tree 9 rows "Row" t after = Ok (VModel "Row" [("cells", VList [VStr "1"])] ["cells"]).
Proof. intros before after. eexists. split; [vm_compute; reflexivity|]. destruct after; vm_compute; reflexivity. Qed.

(** C22.  class Page(tag='page'): body: ElementTree = wrapped('content', element('body')).
    With skip_empty a wrapped raw element is dropped whenever it has no child elements, whatever its
    text and attributes are. *)
Definition pages : env := one_class "Page" (plain_model "Page" "page"
  [("body", SWrap ["content"] None Strict false (SRaw "body" Strict false))] []).

Theorem C22_wrapped_raw_refuted : forall text attrs set,
  to_xml_tree 9 pages enc_of (VModel "Page" [("body", VRaw (NElem "body" [] (Some text) None attrs [] None))] set)
    (Flags true false false) = Ok (NElem "page" [] None None [] [] None).
Proof. reflexivity. Qed.

(** ... although the same element is kept without the wrapper *)
Theorem C22_direct_raw_kept : forall text attrs set, text <> "" ->
  to_xml_tree 9 (one_class "Page" (plain_model "Page" "page" [("body", SRaw "body" Strict false)] [])) enc_of
    (VModel "Page" [("body", VRaw (NElem "body" [] (Some text) None attrs [] None))] set) (Flags true false false) =
  Ok (NElem "page" [] None None [] [NElem "body" [] (Some text) None attrs [] None] None).
Proof. intros [|a text] attrs set H; [congruence|]. reflexivity. Qed.

(** C24.  A computed field is never in the set of explicitly set fields, so exclude_unset drops it,
    whatever its value. *)
Theorem C24_computed_dropped_refuted : forall w h area, exists t t',
  let v := VModel "Rect" [("w", VStr w); ("h", VStr h); ("area", VStr area)] ["w"; "h"] in
  let ev := one_class "Rect" (plain_model "Rect" "rect"
    [("w", SAttr "w" false); ("h", SAttr "h" false); ("area", SAttr "area" true)] ["w"; "h"]) in
  to_xml_tree 9 ev enc_of v no_flags = Ok t /\ attribute t "area" = Some area /\
  to_xml_tree 9 ev enc_of v (Flags false false true) = Ok t' /\ attribute t' "area" = None.
Proof.
  intros w h area. do 2 eexists. cbv zeta. split; [vm_compute; reflexivity|]. split; [reflexivity|]. split; [vm_compute; reflexivity|reflexivity].
Qed.

(** C30.  class Shelf(search_mode='ordered'): items: List[Union[Book, Disc]].  A bad element that is
    preceded by an unknown one is reported twice: the position moves by one element, not past it. *)
Definition shelf : env := Env Lxml (fun c =>
  if String.eqb c "Book" then Some (plain_model "Book" "book" [("title", SAttr "title" false)] ["title"])
  else if String.eqb c "Disc" then Some (plain_model "Disc" "disc" [("title", SAttr "title" false)] ["title"])
  else if String.eqb c "Shelf" then Some (plain_model "Shelf" "shelf"
    [("items", SHomo "Shelf" false (SUnionModel "Shelf" false [sub "Book" "book" Ordered; sub "Disc" "disc" Ordered] false) false)] ["items"])
  else None).

Theorem C30_union_item_twice_refuted : exists err,
  from_xml_tree 9 shelf "Shelf" (el "shelf" [] "" [el "lamp" [] "" []; el "book" [] "" []]) false = Raise (XValidation err) /\
  map le_loc (ve_lines err) = [[LKey "items"; LIdx 0; LKey "Book"; LKey "title"]; [LKey "items"; LIdx 1; LKey "Book"; LKey "title"]].
Proof. eexists. split; vm_compute; reflexivity. Qed.

(** C35.  Looking whether a sub-model's element is nil takes the xsi:nil attribute away even when it is
    not "true": a field of the sub-model declared for it never sees it. *)
Definition cells : env := Env Lxml (fun c =>
  if String.eqb c "Cell" then Some (plain_model "Cell" "cell" [("nil", SAttr xsi_nil false); ("text", SText false false)] [])
  else if String.eqb c "Table" then Some (plain_model "Table" "table" [("cell", SProxy (sub "Cell" "cell" Strict))] ["cell"])
  else None).

Theorem C35_nil_attribute_taken_refuted : forall value text, value <> "true" -> text <> "" ->
  from_xml_tree 9 cells "Table" (el "table" [] "" [el "cell" [(xsi_nil, value)] text []]) false =
    Ok (VModel "Table" [("cell", VModel "Cell" [("text", VStr text)] ["text"])] ["cell"]) /\
  from_xml_tree 9 cells "Cell" (el "cell" [(xsi_nil, value)] text []) false =
    Ok (VModel "Cell" [("nil", VStr value); ("text", VStr text)] ["nil"; "text"]).
Proof.
  intros value text Hv Ht. destruct text as [|a text]; [congruence|]. split.
  - apply String.eqb_neq in Hv.
    assert (N : is_element_nill (from_native Lxml (el "cell" [(xsi_nil, value)] (String a text) [])) =
                (false, from_native Lxml (el "cell" [] (String a text) []))) by (unfold is_element_nill; simpl; rewrite Hv; reflexivity).
    cbv - [is_element_nill] in N |- *. rewrite N. reflexivity.
  - reflexivity.
Qed.

(** C37.  Unlike a comment, a processing instruction between two elements stops the strict search: the
    element behind it is not found. *)
Theorem C37_instruction_refuted : forall eas text,
  from_xml_tree 9 (lib Lxml Strict) "Node" (el "node" [] "" [NComment (Some text) None; el "value" [] "1" []]) eas =
    Ok (VModel "Node" [("value", VStr "1")] ["value"]) /\
  exists err, from_xml_tree 9 (lib Lxml Strict) "Node" (el "node" [] "" [NPI (Some text) None [] None; el "value" [] "1" []]) eas =
    Raise (XValidation err) /\ map le_type (ve_lines err) = ["missing"].
Proof. intros eas text. split; [destruct eas; reflexivity|]. eexists. split; [destruct eas; vm_compute; reflexivity|reflexivity]. Qed.

(** C41.  class Item(tag='item'): price: int = element(validation_alias='cost').  pydantic reports an
    invalid value under the alias, and the line is looked up under the field name, so none is found. *)
Definition aliased : mdef :=
  MDef "Item" false "item" None [("price", SElem "price" None Strict false false)] [("price", "cost")] [] false false None
    (fun _ => None) (fun _ => None)
    (fun i => match i with
              | Some (VDict d) =>
                  match dget "cost" d with
                  | Some v => Invalid (VErr "Item" [LErr "int_parsing" (MText "Input should be a valid integer") [LKey "cost"] v] false)
                  | None => Invalid (VErr "Item" [LErr "missing" (MText "Field required") [LKey "cost"] (VDict d)] false)
                  end
              | _ => Invalid (VErr "Item" [] false)
              end).

Theorem C41_alias_refuted : forall line, exists err,
  from_xml_tree 9 (one_class "Item" aliased) "Item"
    (NElem "item" [] None None [] [NElem "price" [] (Some "much") None [] [] (Some line)] (Some 1%Z)) false = Raise (XValidation err) /\
  map le_msg (ve_lines err) = [MLine (-1) (MText "Input should be a valid integer")].
Proof. intros line. eexists. split; vm_compute; reflexivity. Qed.

Print Assumptions C21_nil_item_refuted.
Print Assumptions C22_wrapped_raw_refuted.
Print Assumptions C22_direct_raw_kept.
Print Assumptions C24_computed_dropped_refuted.
Print Assumptions C30_union_item_twice_refuted.
Print Assumptions C35_nil_attribute_taken_refuted.
Print Assumptions C37_instruction_refuted.
Print Assumptions C41_alias_refuted.
