(** SpecMoved.v -- vocabulary for C89: the same classes with the fields bound to attributes and to the text declared at other
    places among the fields bound to sub-elements. *)

From Verif Require Import Base Elem Native Errs Names Ser SpecSim.

(** fields read from the attributes or the text of the element itself *)
Definition on_own (s : ser) : bool :=
  match s with
  | SText _ _ | SAttr _ _ | SAttrs _ => true
  | SUnionPrim _ (SText _ _) | SUnionPrim _ (SAttr _ _) | SUnionPrim _ (SAttrs _) => true
  | _ => false
  end.

(** fields read from sub-elements *)
Fixpoint on_children (s : ser) : bool :=
  match s with
  | SText _ _ | SAttr _ _ | SAttrs _ => false
  | SElem _ _ _ _ _ | SMapElem _ _ _ | SUnionModel _ _ _ _ | STagged _ _ _ _ _ | SRaw _ _ _ | SProxy _ => true
  | SHomo _ _ s' _ | SUnionPrim _ s' => on_children s'
  | SHetero _ _ l _ => forallb on_children l
  | SWrap path _ _ _ _ => match path with [] => false | _ => true end
  end.

(** the fields on the element itself are the same in the same order, and so are the fields on sub-elements *)
Definition rearranged (fs fs' : list (string * ser)) : Prop :=
  (forall f, In f fs \/ In f fs' -> on_own (snd f) = true \/ on_children (snd f) = true) /\
  filter (fun f => on_own (snd f)) fs = filter (fun f => on_own (snd f)) fs' /\
  filter (fun f => on_children (snd f)) fs = filter (fun f => on_children (snd f)) fs'.

(** ---- values and errors ---- *)

(** the same value; the attributes of instances may be in another order *)
Inductive moved_val : val -> val -> Prop :=
| mv_same : forall v, moved_val v v
| mv_list : forall l l', Forall2 moved_val l l' -> moved_val (VList l) (VList l')
| mv_model : forall c d d1 d' set set', Permutation d d1 ->
    Forall2 (fun a b : string * val => fst a = fst b /\ moved_val (snd a) (snd b)) d1 d' -> Permutation set set' ->
    moved_val (VModel c d set) (VModel c d' set').

(** the same keys, in any order, with the same values *)
Definition moved_data (d d' : list (string * val)) : Prop :=
  exists d1, Permutation d d1 /\ Forall2 (fun a b : string * val => fst a = fst b /\ moved_val (snd a) (snd b)) d1 d'.

(** the same error lines, in any order: same types, locations, and messages up to line numbers (the inputs shown are not
    compared) *)
Definition moved_line (a b : lerr) : Prop := le_type a = le_type b /\ same_msg (le_msg a) (le_msg b) /\ le_loc a = le_loc b.

Definition moved_error (a b : verr) : Prop :=
  ve_title a = ve_title b /\ exists l, Permutation (ve_lines a) l /\ Forall2 moved_line l (ve_lines b).

Definition moved_out (a b : out val) : Prop :=
  match a, b with
  | Ok v, Ok w => moved_val v w
  | Raise (XValidation e), Raise (XValidation f) => moved_error e f
  | Raise x, Raise y => x = y
  | Fuel, Fuel => True
  | _, _ => False
  end.

Definition moved_verdict (a b : verdict) : Prop :=
  match a, b with
  | Valid v, Valid w => moved_val v w
  | Invalid e, Invalid f => moved_error e f
  | Crashed x, Crashed y => x = y
  | _, _ => False
  end.

(** ---- classes ---- *)

(** the key of a field in the dict that is validated *)
Definition key_of (m : mdef) (name : string) : string := match dget name (md_valias m) with Some a => a | None => name end.

(** two versions of a class: the same parameters, the fields rearranged unless user code reads or writes them; pydantic
    does the same with them, up to the order of the fields *)
Record moved_class (m m' : mdef) : Prop := MovedClass {
  mc_name : md_name m' = md_name m;
  mc_root : md_root m' = md_root m;
  mc_elem : md_elem_name m' = md_elem_name m;
  mc_nsmap : md_nsmap m' = md_nsmap m;
  mc_alias : md_valias m' = md_valias m;
  mc_exclude : md_sexclude m' = md_sexclude m;
  mc_forbid : md_forbid m' = md_forbid m;
  mc_skip : md_skip_empty m' = md_skip_empty m;
  mc_cser : forall name, md_cser m' name = md_cser m name;
  mc_cval : forall name, md_cval m' name = md_cval m name;
  mc_fields : md_fields m' = md_fields m \/
    (md_root m = false /\ rearranged (md_fields m) (md_fields m') /\
     forall name, In name (map fst (md_fields m)) -> md_cser m name = None /\ md_cval m name = None);
  mc_keys : md_root m = false -> NoDup (map (fun f => key_of m (fst f)) (md_fields m));
  mc_validate : md_root m = false -> forall d d', moved_data d d' -> moved_verdict (md_validate m (Some (VDict d))) (md_validate m' (Some (VDict d')));
  mc_validate_root : md_root m = true -> moved_verdict (md_validate m None) (md_validate m' None) /\
    forall v v', moved_val v v' -> moved_verdict (md_validate m (Some v)) (md_validate m' (Some v'))
}.

Definition moved_env (ev ev' : env) : Prop :=
  en_backend ev' = en_backend ev /\
  forall c, match en_model ev c, en_model ev' c with
            | Some m, Some m' => moved_class m m'
            | None, None => True
            | _, _ => False
            end.
