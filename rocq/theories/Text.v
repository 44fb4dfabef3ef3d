(** Text.v -- model of model.py: from_xml and to_xml, which add the XML library's parser and printer
    to from_xml_tree and to_xml_tree.  The library is not modelled: [print] and [parse] are oracles
    for [etree.tostring] and [etree.fromstring] (with the extra keyword arguments given to them), and
    [D] is the type of their documents (str or bytes). *)

From Verif Require Import Base Elem Native Errs Names Ser Write Read Api.

Section Text.
  Variable D : Type.
  Variable print : native -> out D.
  Variable parse : D -> out native.

  (** model.py:282-304 [BaseXmlModel.from_xml] *)
  Definition from_xml (n : nat) (ev : env) (cls : string) (source : D) (eas : bool) : out val :=
    obind (parse source) (fun root => from_xml_tree n ev cls root eas).

  (** model.py:335-351 [BaseXmlModel.to_xml] *)
  Definition to_xml (n : nat) (ev : env) (encode : val -> val) (v : val) (fl : flags) : out D :=
    obind (to_xml_tree n ev encode v fl) print.
End Text.
