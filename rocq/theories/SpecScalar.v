(** SpecScalar.v -- specification vocabulary for C63: the text a scalar value is written as, and
    which values count as empty.  Nothing here mentions the functions of the code. *)

From Verif Require Import Base Elem Native Errs Names Ser.

(** the number a decimal digit stands for *)
Definition digit_value (c : ascii) : option Z :=
  match c with
  | "0" => Some 0 | "1" => Some 1 | "2" => Some 2 | "3" => Some 3 | "4" => Some 4
  | "5" => Some 5 | "6" => Some 6 | "7" => Some 7 | "8" => Some 8 | "9" => Some 9
  | _ => None
  end%char%Z.

(** the number a sequence of digits stands for, the most significant first; [acc] is the number
    read so far *)
Fixpoint digits_value (acc : Z) (s : string) : option Z :=
  match s with
  | EmptyString => Some acc
  | String c s' =>
      match digit_value c with
      | Some d => digits_value (10 * acc + d)%Z s'
      | None => None
      end
  end.

(** the decimal notation of an integer: no leading zeros, no sign but a minus *)
Inductive numeral : Z -> string -> Prop :=
| num_zero : numeral 0 "0"
| num_positive : forall c s z, c <> "0"%char -> digits_value 0 (String c s) = Some z -> numeral z (String c s)
| num_negative : forall c s z, c <> "0"%char -> digits_value 0 (String c s) = Some z ->
    numeral (- z) (String "-"%char (String c s)).

(** the text of a scalar in an attribute or in an element *)
Inductive written_as : val -> string -> Prop :=
| wa_none : written_as VNone ""
| wa_true : written_as (VBool true) "true"
| wa_false : written_as (VBool false) "false"
| wa_int : forall z s, numeral z s -> written_as (VInt z) s
| wa_str : forall s, written_as (VStr s) s
| wa_other : forall s l, written_as (VOther s l) s.

(** the text of an entry of a mapping over attributes: Python's own notation *)
Inductive shown_as : val -> string -> Prop :=
| sa_none : shown_as VNone "None"
| sa_true : shown_as (VBool true) "True"
| sa_false : shown_as (VBool false) "False"
| sa_int : forall z s, numeral z s -> shown_as (VInt z) s
| sa_str : forall s, shown_as (VStr s) s
| sa_other : forall s l, shown_as (VOther s l) s.

(** everything that is not a container, a model or a raw element *)
Definition scalar (v : val) : Prop :=
  match v with VNone | VBool _ | VInt _ | VStr _ | VOther _ _ => True | _ => False end.

(** no children *)
Definition childless (n : native) : Prop :=
  match n with NElem _ _ _ _ _ children _ => children = [] | _ => True end.

(** the values skipped as empty although they are not None: no characters, no items, no children
    (numbers, booleans and models never) *)
Inductive empty_value : val -> Prop :=
| em_str : empty_value (VStr "")
| em_list : empty_value (VList [])
| em_dict : empty_value (VDict [])
| em_other : forall r, empty_value (VOther r (Some 0))
| em_raw : forall n, childless n -> empty_value (VRaw n).
