(** SpecClasses.v -- specification vocabulary for C50-C57: what is inherited by a class with several
    bases, which custom function is used for a field, when a class can be used, what an alias
    argument means.  Nothing here mentions method resolution orders or the loops of the code. *)

From Verif Require Import Base Elem Native Errs Names Fields Ser Build Classes.

(** ---- C50: several base classes ---- *)

(** for every class of a module the class statements its XML parameters come from, most basic
    first; [None] for a class that is not an XML model *)
Definition lineages := dict (option (list cdecl)).

(** the lineage of the first base that is an XML model *)
Fixpoint first_model (known : lineages) (bases : list string) : option (list cdecl) :=
  match bases with
  | [] => None
  | b :: rest =>
      match dget b known with
      | Some (Some ds) => Some ds
      | _ => first_model known rest
      end
  end.

(** a class statement makes an XML model if some base is one, or is BaseXmlModel *)
Definition makes_model (known : lineages) (bases : list string) : bool :=
  str_in "BaseXmlModel" bases ||
  existsb (fun b => match dget b known with Some (Some _) => true | _ => false end) bases.

(** read a module top to bottom: a model's lineage is that of its first XML base and its own
    statement *)
Fixpoint trace (known : lineages) (ss : list cstmt) : lineages :=
  match ss with
  | [] => known
  | s :: rest =>
      trace (dset (cs_name s)
               (if makes_model known (cs_bases s)
                then Some (default [] (first_model known (cs_bases s)) ++ [cs_decl s])
                else None) known) rest
  end.

Definition lineage (ss : list cstmt) (c : string) : option (list cdecl) :=
  default None (dget c (trace [] ss)).

(** [l] occurs in [m] in the same order, possibly with other items in between *)
Inductive in_order {A} : list A -> list A -> Prop :=
| io_nil : in_order [] []
| io_take : forall x l m, in_order l m -> in_order (x :: l) (x :: m)
| io_skip : forall x l m, in_order l m -> in_order l (x :: m).

(** ---- C51: the function used for a field ---- *)

Section SCollect.
  Variable F : Type.

  (** the attribute names the field in its decorator *)
  Definition names_field (names : cattr F -> list string) (field : string) (na : string * cattr F) : Prop :=
    ca_true (snd na) = true /\ In field (names (snd na)).
End SCollect.

(** ---- C52: the states of a class ---- *)

(** all type parameters the XML structure depends on are given: none is open, or the model is a
    root model whose root type is not itself a type variable *)
Definition params_given (s : cstate) : Prop :=
  ls_generic s = false \/ (ls_root s = true /\ ls_root_var s = false).

(** the class after pydantic has updated it *)
Definition class_ready (s : cstate) (p : pystate) : Prop := params_given s /\ py_complete p = true.

(** ---- C53: aliases ---- *)

(** the alias meant by the arguments of a declaration: the specific one, or the general one *)
Definition meant (specific general : option (option string)) (a : option string) : Prop :=
  match specific, general with
  | Some (Some x), _ => a = Some x
  | _, Some (Some y) => a = Some y
  | _, _ => a = None
  end.

(** the core schema entry of a field declared with attr() or element() and alias arguments [k] *)
Definition field_declaration (k : fkwargs) (tag ns : option string) (m : option nsmap) (nillable : option bool)
    (exclude : bool) (s : cschema) (f : cfield) : Prop :=
  f = cfield_of exclude (attr_decl tag ns k) s \/ f = cfield_of exclude (element_decl tag ns m nillable k) s.

(** ---- C54: versions ---- *)

(** the decimal number a string of digits denotes *)
Inductive denotes : string -> N -> Prop :=
| den_nil : denotes "" 0
| den_snoc : forall s c k, denotes s k -> is_digit c = true ->
    denotes (s ++ String c "") (k * 10 + (N_of_ascii c - 48)).

(** the rest does not go on with a digit *)
Definition no_digit_first (s : string) : Prop :=
  match s with String c _ => is_digit c = false | EmptyString => True end.

(** lexicographic order of version triples *)
Definition version_le (b a : N * N * N) : Prop :=
  let '(b1, b2, b3) := b in let '(a1, a2, a3) := a in
  (b1 < a1)%N \/ (b1 = a1 /\ ((b2 < a2)%N \/ (b2 = a2 /\ (b3 <= a3)%N))).

(** ---- C55: fields kept out of XML ---- *)

(** the field carries the NoXml annotation *)
Definition no_xml (k : cls_info) (f : string) : Prop := In MetaNoXml (ci_meta k f).

(** two instances of a class that differ at most in the value of [f] and in whether it was set, with
    their encoded forms *)
Definition differ_in (f : string) (v v' enc enc' : val) : Prop :=
  exists cls attrs attrs' set set' d d',
    v = VModel cls attrs set /\ v' = VModel cls attrs' set' /\ enc = VDict d /\ enc' = VDict d' /\
    forall g, g <> f ->
      dget g attrs = dget g attrs' /\ (In g set <-> In g set') /\ dget g d = dget g d'.

(** the input of the validation with the key removed *)
Definition forget (f : string) (input : option val) : option val :=
  match input with
  | Some (VDict d) => Some (VDict (filter (fun kv => negb (String.eqb (fst kv) f)) d))
  | _ => input
  end.

(** the class with another validator *)
Definition with_validate (m : mdef) (validate : option val -> verdict) : mdef :=
  MDef (md_name m) (md_root m) (md_elem_name m) (md_nsmap m) (md_fields m) (md_valias m) (md_sexclude m)
       (md_hide m) (md_forbid m) (md_skip_empty m) (md_cser m) (md_cval m) validate.
