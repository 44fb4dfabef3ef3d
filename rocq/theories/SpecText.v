(** SpecText.v -- vocabulary for documents as text (C58): what a printer and a parser are trusted to
    preserve, and results that differ only in empty against missing texts of raw elements. *)

From Verif Require Import Base Elem Native Errs Names Ser Read SpecElem SpecRead SpecSim.

(** no text and an empty text are the same (an XML document cannot tell them apart) *)
Definition text_of (o : option string) : string := match o with Some s => s | None => "" end.
Definition same_text (a b : option string) : Prop := text_of a = text_of b.

(** the same tree except for empty texts, prefix declarations and line numbers *)
Inductive reparsed : native -> native -> Prop :=
| rp_elem : forall tag ns ns' text text' tail tail' attrib cs cs' line line',
    same_text text text' -> same_text tail tail' -> Forall2 reparsed cs cs' ->
    reparsed (NElem tag ns text tail attrib cs line) (NElem tag ns' text' tail' attrib cs' line')
| rp_comment : forall text text' tail tail', same_text text text' -> same_text tail tail' ->
    reparsed (NComment text tail) (NComment text' tail')
| rp_pi : forall text text' tail tail' attrib line line', same_text text text' -> same_text tail tail' ->
    reparsed (NPI text tail attrib line) (NPI text' tail' attrib line').

(** a document: elements only, no text behind the root *)
Inductive only_elements : native -> Prop :=
| oe_elem : forall tag ns text tail attrib cs line, Forall only_elements cs ->
    only_elements (NElem tag ns text tail attrib cs line).
Definition native_tail (n : native) : option string :=
  match n with NElem _ _ _ tail _ _ _ | NComment _ tail | NPI _ tail _ _ => tail end.
Definition document (n : native) : Prop := only_elements n /\ native_tail n = None.

(** what is trusted of the library: a document that can be printed can be parsed again, to the same tree *)
Definition faithful (D : Type) (print : native -> out D) (parse : D -> out native) : Prop :=
  forall t s, document t -> print t = Ok s -> exists t', parse s = Ok t' /\ reparsed t t'.

(** the same value except for empty texts (prefix declarations, lines) of raw elements *)
Inductive alike : val -> val -> Prop :=
| al_refl : forall v, alike v v
| al_list : forall l l', Forall2 alike l l' -> alike (VList l) (VList l')
| al_dict : forall d d', Forall2 (fun a b : string * val => fst a = fst b /\ alike (snd a) (snd b)) d d' ->
    alike (VDict d) (VDict d')
| al_model : forall cls d d' s,
    Forall2 (fun a b : string * val => fst a = fst b /\ alike (snd a) (snd b)) d d' ->
    alike (VModel cls d s) (VModel cls d' s)
| al_raw : forall n n', reparsed n n' -> alike (VRaw n) (VRaw n').

(** errors that differ in line numbers and as above in the reported inputs *)
Definition alike_lerr (a b : lerr) : Prop :=
  le_type a = le_type b /\ same_msg (le_msg a) (le_msg b) /\ le_loc a = le_loc b /\ alike (le_input a) (le_input b).
Definition alike_verr (a b : verr) : Prop :=
  ve_title a = ve_title b /\ Forall2 alike_lerr (ve_lines a) (ve_lines b) /\ ve_hide a = ve_hide b.
Definition alike_out (a b : out val) : Prop :=
  match a, b with
  | Ok v, Ok w => alike v w
  | Raise (XValidation e), Raise (XValidation f) => alike_verr e f
  | Raise x, Raise y => x = y
  | Fuel, Fuel => True
  | _, _ => False
  end.

(** user validators and pydantic's validation that do not tell such inputs apart *)
Definition empties_unseen (ev : env) : Prop :=
  forall cls m, en_model ev cls = Some m ->
  (forall name f, md_cval m name = Some f -> forall e e', differ same_text eq any_line eq e e' ->
     alike_out (fst (f e)) (fst (f e')) /\ differ same_text eq any_line eq (snd (f e)) (snd (f e'))) /\
  (forall v v', alike v v' ->
     match md_validate m (Some v), md_validate m (Some v') with
     | Valid w, Valid w' => alike w w'
     | Invalid x, Invalid x' => alike_verr x x'
     | Crashed a, Crashed a' => a = a'
     | _, _ => False
     end).

(** no raw element inside *)
Inductive no_raws : val -> Prop :=
| nr_none : no_raws VNone
| nr_bool : forall b, no_raws (VBool b)
| nr_int : forall z, no_raws (VInt z)
| nr_str : forall s, no_raws (VStr s)
| nr_other : forall r l, no_raws (VOther r l)
| nr_list : forall l, Forall no_raws l -> no_raws (VList l)
| nr_dict : forall d, Forall (fun kv : string * val => no_raws (snd kv)) d -> no_raws (VDict d)
| nr_model : forall c d s, Forall (fun kv : string * val => no_raws (snd kv)) d -> no_raws (VModel c d s).
