(** SpecMany.v -- vocabulary for C93: fields of a class that become lists. *)

From Verif Require Import Base Elem Native Errs Names Ser Read Api SpecSim SpecOut SpecSub SpecPage SpecMoved SpecSwap.

(** the fields bound to one element of a name: a scalar, a mapping, a raw element or a sub-model *)
Definition sole (s : ser) : option (smode * string) :=
  match s with
  | SElem name _ mode false _ | SRaw name mode false => Some (mode, name)
  | SMapElem name mode x => if as_computed x then None else Some (mode, name)
  | SProxy q => if px_computed q then None else Some (px_mode q, px_name q)
  | _ => None
  end.

(** [made_lists fs fs' lists]: the fields [fs'] are the fields [fs], but those named in [lists], next to the name of the
    element, are lists of what they were *)
Inductive made_lists : list (string * ser) -> list (string * ser) -> list (string * string) -> Prop :=
| ml_end : made_lists [] [] []
| ml_same : forall f fs fs' lists, made_lists fs fs' lists -> made_lists (f :: fs) (f :: fs') lists
| ml_list : forall name s mode tag title hide fs fs' lists, sole s = Some (mode, tag) -> made_lists fs fs' lists ->
    made_lists ((name, s) :: fs) ((name, SHomo title false s hide) :: fs') ((name, tag) :: lists).

(** the data pydantic is given for one class and for the other *)
Definition in_lists (keys : list string) (d : list (string * val)) : list (string * val) :=
  map (fun kv => (fst kv, if str_in (fst kv) keys then VList [snd kv] else snd kv)) d.

(** an error of one class and of the other: the place in the list, which is 0, comes in behind the name of the field, and
    an error about the data as a whole shows the data of its class *)
Inductive placed (names : list string) : remark -> remark -> Prop :=
| pl_same : forall r, placed names r r
| pl_index : forall k loc type text input, In k names ->
    placed names (Remark (LKey k :: loc) type text input) (Remark (LKey k :: LIdx 0 :: loc) type text input)
| pl_whole : forall keys loc type text d, incl keys names ->
    placed names (Remark loc type text (VDict d)) (Remark loc type text (VDict (in_lists keys d))).

Inductive same_but (R : val -> val -> Prop) (names : list string) : answer -> answer -> Prop :=
| sb_got : forall v v', R v v' -> same_but R names (Got v) (Got v')
| sb_refused : forall title rs rs', Forall2 (placed names) rs rs' -> same_but R names (Refused title rs) (Refused title rs')
| sb_stopped : forall w, same_but R names (Stopped w) (Stopped w).

Definition judgement (x : verdict) : answer :=
  match x with Valid v => Got v | Invalid err => Refused (ve_title err) (map remark_of (ve_lines err)) | Crashed w => Stopped w end.

(** the class [m'] is the class [m] with some fields made lists; pydantic makes of lists of one value what it makes of
    the value, where [R] says how instances of the two classes correspond *)
Record relisted (R : val -> val -> Prop) (lists : list (string * string)) (m m' : mdef) : Prop := Relisted {
  rl_plain : md_root m = false /\ md_root m' = false;
  rl_tag : md_elem_name m' = md_elem_name m;
  rl_name : md_name m' = md_name m;
  rl_forbid : md_forbid m' = md_forbid m;
  rl_alias : md_valias m' = md_valias m;
  rl_fields : made_lists (md_fields m) (md_fields m') lists;
  rl_names : NoDup (map fst (md_fields m));
  rl_keys : NoDup (map (fun f => key_of m (fst f)) (md_fields m));
  rl_validate : forall d, same_but R (map fst lists ++ map (fun l => key_of m (fst l)) lists)
    (judgement (md_validate m (Some (VDict d))))
    (judgement (md_validate m' (Some (VDict (in_lists (map (fun l => key_of m (fst l)) lists) d)))))
}.

(** what from_xml makes of a document *)
Definition from_xml_gives (ev : env) (cls : string) (root : native) (eas : bool) (a : answer) : Prop :=
  match a with
  | Got v => exists n, from_xml_tree n ev cls root eas = Ok v
  | Refused t rs => exists n err, from_xml_tree n ev cls root eas = Raise (XValidation err) /\ ve_title err = t /\ map remark_of (ve_lines err) = rs
  | Stopped w => exists n, from_xml_tree n ev cls root eas = Raise (XUser w)
  end.

(** what matters of this for writing *)
Record relisted_out (lists : list (string * string)) (m m' : mdef) : Prop := RelistedOut {
  ro_plain : md_root m = false /\ md_root m' = false;
  ro_tag : md_elem_name m' = md_elem_name m;
  ro_nsmap : md_nsmap m' = md_nsmap m;
  ro_exclude : md_sexclude m' = md_sexclude m;
  ro_skip : md_skip_empty m' = md_skip_empty m;
  ro_fields : made_lists (md_fields m) (md_fields m') lists;
  ro_names : NoDup (map fst (md_fields m))
}.
