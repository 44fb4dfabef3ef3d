(** SpecLines.v -- where a wrapped field stands (C42) *)

From Verif Require Import Base Elem Ser SpecElem SpecRead2.

(** [leads m path e d]: the segments [path] lead from [e] to the element [d], or to nothing because one of
    them is missing; each is the element just passed, if it has the right name, or the one the search mode
    takes ([goes_into]) *)
Inductive leads (m : smode) : list string -> elem -> option elem -> Prop :=
| ld_end : forall e, leads m [] e (Some e)
| ld_missing : forall tag path e after, goes_into tag m (passed e, unread e) None after ->
    leads m (tag :: path) e None
| ld_inside : forall tag path e c after d, goes_into tag m (passed e, unread e) (Some c) after ->
    leads m path c d -> leads m (tag :: path) e d.

(** the element a field called [tag] is read from, if there is one; else the line is that of the element [e]
    it is looked for in *)
Definition line_or (m : smode) (tag : string) (e : elem) : Z :=
  match items_ahead m tag (unread e) with c :: _ => e_line c | [] => e_line e end.
