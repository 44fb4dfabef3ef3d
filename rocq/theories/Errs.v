(** Errs.v -- Python values, exceptions (errors.py, pydantic's ValidationError) and the error
    helpers of utils.py. *)

From Verif Require Import Base Elem Native.

(** Python values, as far as the serializers look into them.
    [VOther repr len]: any other object; [repr] is its [str()], [len] its [len()] if it has one
    (float, Decimal, date, bytes, Enum, ...).
    [VModel cls attrs set]: a model instance: class, attribute values (fields and computed
    properties, in declaration order) and [__pydantic_fields_set__].
    Sets and tuples are [VList] (in iteration order). *)
Inductive val :=
| VNone
| VBool (b : bool)
| VInt (z : Z)
| VStr (s : string)
| VOther (repr : string) (len : option nat)
| VList (l : list val)
| VDict (d : list (string * val))
| VModel (cls : string) (attrs : list (string * val)) (set : list string)
| VRaw (n : native).

Definition is_none (v : val) : bool := match v with VNone => true | _ => false end.

(** typedefs.py:4 [Location] *)
Inductive locitem := LKey (s : string) | LIdx (i : nat).
Definition location := list locitem.

(** the message of an error line: pydantic's own text, or "[line N]: ..." around a message *)
Inductive emsg := MText (s : string) | MLine (line : Z) (orig : emsg).

(** one entry of [ValidationError.errors()] *)
Record lerr := LErr { le_type : string; le_msg : emsg; le_loc : location; le_input : val }.

(** pydantic.ValidationError; [ve_hide] is hide_input (affects printing only) *)
Record verr := VErr { ve_title : string; ve_lines : list lerr; ve_hide : bool }.

(** Exceptions.  [XUser what] stands for an exception raised by user code other than
    ValidationError, [what] telling one such exception from another; XUnmodelled marks inputs outside the model and is excluded in statements. *)
Inductive exn :=
| XIndexError | XKeyError | XTypeError | XAttributeError | XAssertion | XValueError
| XModelError | XModelFieldError | XParsing | XSerialization
| XValidation (e : verr)
| XUser (what : string) | XUnmodelled.

(** the outcome of pydantic's [model_validate]: an instance, a ValidationError, or another exception
    [what] that user code called by pydantic (validators, default factories) raises; pydantic turns
    ValueError and AssertionError into a ValidationError and lets all others pass *)
Inductive verdict := Valid (v : val) | Invalid (e : verr) | Crashed (what : string).

Inductive out (A : Type) := Ok (a : A) | Raise (x : exn) | Fuel.
Arguments Ok {A} a.
Arguments Raise {A} x.
Arguments Fuel {A}.

Definition obind {A B} (o : out A) (f : A -> out B) : out B :=
  match o with Ok a => f a | Raise x => Raise x | Fuel => Fuel end.

(** a key of the [errors_map] argument: None, a field name / union title, or an index *)
Definition prefix_loc (k : option locitem) (l : location) : location :=
  match k with None => l | Some i => i :: l end.

(** utils.py:108-130 [into_validation_error].  Simplification: [PydanticCustomError(type, msg,
    ctx)] is taken to keep the message (pydantic re-substitutes "{...}" occurring in it). *)
Definition into_validation_error (title : string) (errors_map : list (option locitem * verr))
    (hide : bool) : verr :=
  VErr title
    (flat_map (fun kv =>
       map (fun l => LErr (le_type l) (le_msg l) (prefix_loc (fst kv) (le_loc l)) (le_input l))
           (ve_lines (snd kv))) errors_map)
    hide.

Definition locitem_eqb (a b : locitem) : bool :=
  match a, b with
  | LKey s, LKey t => String.eqb s t
  | LIdx i, LIdx j => Nat.eqb i j
  | _, _ => false
  end.

Fixpoint loc_eqb (a b : location) : bool :=
  match a, b with
  | [], [] => true
  | x :: a', y :: b' => locitem_eqb x y && loc_eqb a' b'
  | _, _ => false
  end.

(** the [sourcemap] dict: location -> line.  A Python dict; newest binding first here. *)
Definition smap := list (location * Z).

Definition sset (l : location) (z : Z) (m : smap) : smap := (l, z) :: m.

Fixpoint sget (l : location) (m : smap) : option Z :=
  match m with
  | [] => None
  | (l', z) :: m' => if loc_eqb l l' then Some z else sget l m'
  end.

(** utils.py:140-142, the while loop: [rloc] is the location reversed, so dropping the last
    component is dropping the head; [line] is the current [sourceline] *)
Fixpoint nearest_line (m : smap) (rloc : location) (line : Z) : Z :=
  match rloc with
  | [] => line
  | _ :: rest =>
      let line' := match sget (rev rloc) m with Some z => z | None => line end in
      if Z.eqb line' (-1) then nearest_line m rest line' else line'
  end.

(** utils.py:133-160 [set_validation_error_sourceline] *)
Definition set_validation_error_sourceline (err : verr) (m : smap) (hide : bool) : verr :=
  VErr (ve_title err)
    (map (fun l =>
       LErr (le_type l)
            (MLine (nearest_line m (rev (le_loc l)) (-1)) (le_msg l))
            (le_loc l) (le_input l)) (ve_lines err))
    hide.

(** ---- str() ---- *)

Definition digit (n : N) : ascii := ascii_of_N (48 + n).

(** decimal digits of a positive number; [fuel] >= the number of digits *)
Fixpoint dec_digits (fuel : nat) (n : N) (acc : string) : string :=
  match fuel with
  | O => acc
  | S f =>
      let q := (n / 10)%N in
      let acc' := String (digit (n mod 10)%N) acc in
      if N.eqb q 0 then acc' else dec_digits f q acc'
  end.

Definition str_N (n : N) : string := dec_digits (S (N.to_nat (N.size n))) n "".

(** Python [str(int)] *)
Definition str_Z (z : Z) : string :=
  match z with
  | Z0 => "0"
  | Zpos p => str_N (Npos p)
  | Zneg p => String "-"%char (str_N (Npos p))
  end.

(** Python [str(v)] on the values a primitive can be encoded to; containers are outside the
    model (pydantic never encodes a primitive field to one, except Json fields) *)
Definition py_str (v : val) : out string :=
  match v with
  | VNone => Ok "None"
  | VBool true => Ok "True"
  | VBool false => Ok "False"
  | VInt z => Ok (str_Z z)
  | VStr s => Ok s
  | VOther r _ => Ok r
  | _ => Raise XUnmodelled
  end.

(** serializers/serializer.py:20-26 [encode_primitive] *)
Definition encode_primitive (v : val) : out string :=
  match v with
  | VNone => Ok ""
  | VBool b => obind (py_str (VBool b)) (fun s => Ok (py_lower s))
  | _ => py_str v
  end.

(** number of child nodes; lxml and ElementTree elements are [Sized] *)
Definition native_len (n : native) : nat :=
  match n with NElem _ _ _ _ _ children _ => length children | _ => 0 end.

(** Python [len(v)] / [isinstance(v, Sized)] ([None]: not sized) *)
Definition py_len (v : val) : option nat :=
  match v with
  | VStr s => Some (String.length s)
  | VOther _ l => l
  | VList l => Some (length l)
  | VDict d => Some (length d)
  | VRaw n => Some (native_len n)
  | VNone | VBool _ | VInt _ | VModel _ _ _ => None
  end.

Definition len_is_zero (v : val) : bool :=
  match py_len v with Some 0 => true | _ => false end.

(** Python truthiness *)
Definition py_truthy (v : val) : bool :=
  match v with
  | VNone => false
  | VBool b => b
  | VInt z => negb (Z.eqb z 0)
  | VModel _ _ _ => true
  | _ => match py_len v with Some 0 => false | _ => true end
  end.
