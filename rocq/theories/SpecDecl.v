(** SpecDecl.v -- specification vocabulary: the parts of a path, metadata that says nothing about XML,
    and the source lines of a document. *)

From Verif Require Import Base Elem Native Errs Names Fields.

(** texts joined by a character *)
Fixpoint joined (sep : ascii) (l : list string) : string :=
  match l with
  | [] => ""
  | [p] => p
  | p :: l' => (p ++ String sep (joined sep l'))%string
  end.

(** the character does not occur in the text *)
Fixpoint without (c : ascii) (s : string) : Prop :=
  match s with EmptyString => True | String d s' => d <> c /\ without c s' end.

(** [parts] are the parts of [path] between the separators *)
Definition parts_of (sep : ascii) (path : string) (parts : list string) : Prop :=
  parts <> [] /\ joined sep parts = path /\ Forall (without sep) parts.

(** metadata of a field that says nothing about XML *)
Definition no_xml_info (l : list meta) : Prop := forall i, ~ In (MetaInfo i) l.

(** [line_known n l]: the document, an element, has in it an element or processing instruction at
    line [l] ([None]: the parser does not know) *)
Inductive line_known : native -> option Z -> Prop :=
| lk_here : forall tag m text tail attrib children line, line_known (NElem tag m text tail attrib children line) line
| lk_pi : forall text tail attrib line, line_known (NPI text tail attrib line) line
| lk_below : forall tag m text tail attrib children line c l,
    In c children -> line_known c l -> line_known (NElem tag m text tail attrib children line) l.
