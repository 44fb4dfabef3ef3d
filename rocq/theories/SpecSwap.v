(** SpecSwap.v -- vocabulary for C91: the same class with its fields declared in another order. *)

From Verif Require Import Base Elem Native Errs Names Ser SpecSim SpecOut SpecPage SpecMoved.

(** the parts of an element that fields are read from: its text, an attribute, the sub-elements of a name *)
Inductive zone := OwnText | OwnAttr (name : string) | OwnKids (name : string).

(** the parts a field is read from, and the name the instances of a sub-model have *)
Fixpoint takes (s : ser) (r : zone) : Prop :=
  match s with
  | SText _ nillable => r = OwnText \/ (nillable = true /\ r = OwnAttr nil_attribute)
  | SAttr name _ => r = OwnAttr name
  | SAttrs _ => exists name, r = OwnAttr name
  | SElem name _ _ _ _ | SMapElem name _ _ | SRaw name _ _ => r = OwnKids name
  | SProxy q => r = OwnKids (px_name q)
  | SUnionModel _ _ qs _ => Exists (fun q => r = OwnKids (px_name q)) qs
  | STagged _ _ _ qs _ => Exists (fun tq => r = OwnKids (px_name (snd tq))) qs
  | SWrap path _ _ _ _ => match path with tag :: _ => r = OwnKids tag | [] => False end
  | SHomo _ _ s _ | SUnionPrim _ s => takes s r
  | SHetero _ _ l _ => fold_right (fun s P => takes s r \/ P) False l
  end.

(** fields in unordered mode; a mapping of all attributes is not considered *)
Fixpoint any_order (s : ser) : Prop :=
  match s with
  | SText _ _ | SAttr _ _ => True
  | SAttrs _ => False
  | SElem _ _ mode _ _ | SMapElem _ mode _ | SRaw _ mode _ | SWrap _ _ mode _ _ => mode = Unordered
  | SProxy q => px_mode q = Unordered
  | SUnionModel _ _ qs _ => Forall (fun q => px_mode q = Unordered) qs
  | STagged _ _ _ qs mode => mode = Unordered /\ Forall (fun tq => px_mode (snd tq) = Unordered) qs
  | SHomo _ _ s _ | SUnionPrim _ s => any_order s
  | SHetero _ _ l _ => fold_right (fun s P => any_order s /\ P) True l
  end.

(** no two fields are read from the same part *)
Fixpoint apart (fs : list (string * ser)) : Prop :=
  match fs with
  | [] => True
  | f :: fs => (forall r, takes (snd f) r -> ~ Exists (fun g => takes (snd g) r) fs) /\ apart fs
  end.

(** how often a name occurs among the children of an element *)
Definition named_b (tag : string) (d : native) : bool := match d with NElem t _ _ _ _ _ _ => String.eqb t tag | _ => false end.
Definition at_most_once (tag : string) (d : native) : Prop := length (filter (named_b tag) (own_children d)) <= 1.

(** the class [m'] is the class [m] with the fields in another order; pydantic does the same with both *)
Record redeclared (m m' : mdef) : Prop := Redeclared {
  rd_plain : md_root m = false /\ md_root m' = false;
  rd_name : md_elem_name m' = md_elem_name m;
  rd_forbid : md_forbid m' = md_forbid m;
  rd_alias : md_valias m' = md_valias m;
  rd_fields : Permutation (md_fields m) (md_fields m');
  rd_keys : NoDup (map (fun f => key_of m (fst f)) (md_fields m));
  rd_validate : forall d d', Permutation d d' -> moved_verdict (md_validate m (Some (VDict d))) (md_validate m' (Some (VDict d')))
}.
