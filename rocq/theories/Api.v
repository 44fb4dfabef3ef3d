(** Api.v -- model of model.py: from_xml_tree and to_xml_tree ([from_xml] and [to_xml] are in Text.v). *)

From Verif Require Import Base Elem Native Errs Names Ser Write Read.

(** [root.tag] *)
Definition native_tag (n : native) : xtag :=
  match n with NElem tag _ _ _ _ _ _ => TName tag | _ => TSpecial end.

(** model.py:249-281 [BaseXmlModel.from_xml_tree]; [n] is fuel *)
Definition from_xml_tree (n : nat) (ev : env) (cls : string) (root : native) (eas : bool) : out val :=
  match en_model ev cls with
  | None => Raise XAssertion
  | Some m =>
      if tag_is (native_tag root) (md_elem_name m)
      then fst (read_model (read n ev) m eas [] (St (from_native (en_backend ev) root) []))
      else Raise XParsing
  end.

(** model.py:307-333 [BaseXmlModel.to_xml_tree]; [encode] is the oracle for
    pydantic_core.to_jsonable_python *)
Definition to_xml_tree (n : nat) (ev : env) (encode : val -> val) (v : val) (fl : flags) : out native :=
  match model_type v with
  | None => Raise XAttributeError
  | Some cls =>
      match en_model ev cls with
      | None => Raise XAssertion
      | Some m =>
          let root := new_elem (TName (md_elem_name m)) None None None [] (md_nsmap m) (-1) in
          obind (write_model (write n ev) m fl root v (encode v)) (fun e =>
          match to_native (en_backend ev) e with
          | Some t => Ok t
          | None => Raise XTypeError
          end)
      end
  end.
