(** Samples.v -- concrete model classes and documents used to show that the hypotheses of the
    theorems are met by non-trivial cases.  Nothing here is part of the model of the code. *)

From Verif Require Import Base Elem Native Errs Names Ser Write Read Api SpecElem SpecRead.

(** pydantic accepts a dict that has all the [required] keys *)
Definition accepts (cls : string) (required : list string) (i : option val) : verdict :=
  match i with
  | Some (VDict d) =>
      match filter (fun k => negb (dmem k d)) required with
      | [] => Valid (VModel cls d (dkeys d))
      | ms => Invalid (VErr cls (map (fun k => LErr "missing" (MText "Field required") [LKey k] (VDict d)) ms) false)
      end
  | Some v => Valid (VModel cls [("root", v)] ["root"])
  | None => Invalid (VErr cls [LErr "missing" (MText "Field required") [] VNone] false)
  end.

Lemma accepts_quiet : forall cls required i what, accepts cls required i = Crashed what -> False.
Proof.
  intros cls required [[| | | | | |d| |]|] what; simpl; try discriminate.
  destruct (filter (fun k => negb (dmem k d)) required); discriminate.
Qed.

Definition plain_model (cls tag : string) (fields : list (string * ser)) (required : list string) : mdef :=
  MDef cls false tag None fields [] [] false false None (fun _ => None) (fun _ => None) (accepts cls required).

Definition sub (cls tag : string) (m : smode) : proxy := Proxy cls tag None m false false.

(** class Node(BaseXmlModel, tag='node', search_mode=m):
        id: Optional[int] = attr(); value: int = element(); children: List['Node'] = element('node') *)
Definition node (m : smode) : mdef :=
  plain_model "Node" "node"
    [("id", SAttr "id" false); ("value", SElem "value" None m false false);
     ("children", SHomo "Node" false (SProxy (sub "Node" "node" m)) false)] ["value"].

(** class Shapes: shapes: List[Union[Circle, Square]]; note: str = wrapped('meta/note') *)
Definition circle (m : smode) : mdef := plain_model "Circle" "circle" [("r", SAttr "r" false)] ["r"].
Definition square (m : smode) : mdef := plain_model "Square" "square" [("a", SElem "a" None m false false)] ["a"].
Definition shapes (m : smode) : mdef :=
  plain_model "Shapes" "shapes"
    [("shapes", SHomo "Shapes" false
        (SUnionModel "Shapes" false [sub "Circle" "circle" m; sub "Square" "square" m] false) false);
     ("note", SWrap ["meta"] None m false (SElem "note" None m false false));
     ("author", SWrap ["meta"] None m false (SElem "author" None m false true));
     ("extra", SRaw "extra" m false)] ["shapes"].

Definition lib (b : backend) (m : smode) : env :=
  Env b (fun c => if String.eqb c "Node" then Some (node m)
                  else if String.eqb c "Circle" then Some (circle m)
                  else if String.eqb c "Square" then Some (square m)
                  else if String.eqb c "Shapes" then Some (shapes m)
                  else None).

Definition el (tag : string) (attrs : dict string) (text : string) (cs : list native) : native :=
  NElem tag [] (Some text) None attrs cs (Some 7%Z).

(** <node id="1"><value>10</value><node><value>20</value></node><node><value/></node></node> *)
Definition node_doc : native :=
  el "node" [("id", "1")] ""
    [el "value" [] "10" []; el "node" [] "" [el "value" [] "20" []]; el "node" [("id", "3")] "" [el "value" [] "30" []]].

Definition bad_node_doc : native :=
  el "node" [("id", "1")] "" [el "value" [] "10" []; el "node" [] "" [el "value" [] "" []]].

Definition shapes_doc : native :=
  el "shapes" [] ""
    [el "circle" [("r", "1")] "" []; el "square" [] "" [el "a" [] "2" []]; el "circle" [("r", "3")] "" [];
     el "meta" [] "" [el "note" [] "hello" []; el "author" [(xsi_nil, "true")] "" []];
     el "extra" [] "raw" [el "x" [] "" []]].

Definition pi_in_raw_doc : native :=
  el "shapes" [] ""
    [el "circle" [("r", "1")] "" []; el "extra" [] "raw" [NPI (Some "pi") None [] None]].
