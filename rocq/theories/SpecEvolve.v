(** SpecEvolve.v -- classes get new fields; programs with the new classes write, programs with the old ones read (C85).

    [U]: the element names of the new fields; [A t k]: the old classes ask elements called [t] for the attribute [k];
    [W]: the names of raw elements; [T]: the names that are steps of wrapper paths. *)

From Verif Require Import Base Elem Native Errs Names Ser SpecOut.

(** ---- names ---- *)

(** the sub-models of a field *)
Inductive holds (p : proxy) : ser -> Prop :=
| ho_model : holds p (SProxy p)
| ho_list : forall t c s h, holds p s -> holds p (SHomo t c s h)
| ho_tuple : forall t c l h s, In s l -> holds p s -> holds p (SHetero t c l h)
| ho_prim : forall c s, holds p s -> holds p (SUnionPrim c s)
| ho_union : forall t c vs h, In p vs -> holds p (SUnionModel t c vs h)
| ho_tagged : forall c d a vs m tag, In (tag, p) vs -> holds p (STagged c d a vs m)
| ho_wrap : forall path ns m c s, holds p s -> holds p (SWrap path ns m c s).

(** the names of the elements instances of a class are written as *)
Inductive element_of (ev : env) (cls : string) : string -> Prop :=
| eo_root : forall m, en_model ev cls = Some m -> element_of ev cls (md_elem_name m)
| eo_field : forall c m name s p, en_model ev c = Some m -> In (name, s) (md_fields m) -> holds p s ->
    px_model p = cls -> element_of ev cls (px_name p).

(** no name is that of a model and that of a wrapper; neither is that of a raw element *)
Definition names_apart (T W : string -> bool) (ev : env) : Prop :=
  (forall cls t, element_of ev cls t -> W t = false) /\
  forall cls m name s, en_model ev cls = Some m -> In (name, s) (md_fields m) ->
    (forall p, holds p s -> T (px_name p) = false) /\ (forall t, step_of t s -> T t = true /\ W t = false).

(** ---- the new classes ---- *)

(** a new field that is written as children with new names (raw elements aside, whose names are the user's) *)
Inductive new_child (U : string -> bool) : ser -> Prop :=
| nc_elem : forall n ns m c ni, U n = true -> new_child U (SElem n ns m c ni)
| nc_map : forall n m a, U n = true -> new_child U (SMapElem n m a)
| nc_model : forall p, U (px_name p) = true -> new_child U (SProxy p)
| nc_list : forall t c s h, new_child U s -> new_child U (SHomo t c s h)
| nc_tuple : forall t c l h, Forall (new_child U) l -> new_child U (SHetero t c l h)
| nc_prim : forall c s, new_child U s -> new_child U (SUnionPrim c s)
| nc_union : forall t c vs h, Forall (fun p => U (px_name p) = true) vs -> new_child U (SUnionModel t c vs h)
| nc_tagged : forall c d a vs m, Forall (fun kv : string * proxy => U (px_name (snd kv)) = true) vs -> new_child U (STagged c d a vs m)
| nc_wrap : forall t path ns m c s, U t = true -> new_child U (SWrap (t :: path) ns m c s).

(** the old fields in the same order, and among them new ones: attributes ([N]: new attribute names) anywhere,
    elements anywhere but before wrapped fields *)
Inductive evolved_fields (U N : string -> bool) (new : string -> bool) :
    list (string * ser) -> list (string * ser) -> Prop :=
| ef_nil : evolved_fields U N new [] []
| ef_old : forall f fs fs', new (fst f) = false -> evolved_fields U N new fs fs' -> evolved_fields U N new (f :: fs) (f :: fs')
| ef_attr : forall name n c fs fs', new name = true -> N n = true -> evolved_fields U N new fs fs' ->
    evolved_fields U N new fs ((name, SAttr n c) :: fs')
| ef_child : forall name s fs fs', new name = true -> new_child U s ->
    (forall f t, In f fs -> ~ step_of t (snd f)) -> evolved_fields U N new fs fs' ->
    evolved_fields U N new fs ((name, s) :: fs').

(** The new attributes are none the old classes ask the elements of the class for.  How the new class validates does
    not matter: it only writes. *)
Record evolved_class (U : string -> bool) (A : string -> string -> bool) (ev : env) (new : string -> bool) (cls : string) (m m' : mdef) : Prop := {
  ec_root : md_root m' = md_root m;
  ec_elem_name : md_elem_name m' = md_elem_name m;
  ec_nsmap : md_nsmap m' = md_nsmap m;
  ec_fields : exists N, evolved_fields U N new (md_fields m) (md_fields m') /\
                        forall n t, N n = true -> element_of ev cls t -> A t n = false;
  ec_root_fields : md_root m = true -> md_fields m' = md_fields m;
  ec_excluded : forall f, new f = false -> (In f (md_sexclude m') <-> In f (md_sexclude m));
  ec_skip_empty : md_skip_empty m' = md_skip_empty m /\ md_skip_empty m <> Some true
}.

(** there may be new classes, too *)
Definition evolved (U : string -> bool) (A : string -> string -> bool) (new : string -> string -> bool) (ev ev' : env) : Prop :=
  en_backend ev' = en_backend ev /\
  forall cls m, en_model ev cls = Some m -> exists m', en_model ev' cls = Some m' /\ evolved_class U A ev (new cls) cls m m'.

(** ---- the same value without the new fields ---- *)

Definition atomic (s : ser) : Prop :=
  match s with SText _ _ | SAttr _ _ | SElem _ _ _ _ _ | SAttrs _ | SMapElem _ _ _ => True | _ => False end.

(** None is None, however it is encoded *)
Definition none_encoded (ev : env) (s : ser) : Prop :=
  match s with
  | SHomo _ _ _ _ | SHetero _ _ _ _ | SUnionModel _ _ _ _ | SWrap _ _ _ _ _ | SRaw _ _ _ => True
  | SProxy p => en_model ev (px_model p) <> None
  | _ => False
  end.

(** [trimmed ev U s v enc v' enc']: the value [v'] of the field [s], encoded as [enc'], is [v], encoded as [enc], but
    for new fields of the instances in it.  Of an instance, the old fields count.  A raw element is not called like a new field. *)
Inductive trimmed (ev : env) (U : string -> bool) : ser -> val -> val -> val -> val -> Prop :=
| tm_atom : forall s v enc, atomic s -> trimmed ev U s v enc v enc
| tm_raw : forall n m c x enc, (forall t, draft_tag (Given x) = Some t -> U t = false) ->
    trimmed ev U (SRaw n m c) (VRaw x) enc (VRaw x) enc
| tm_none : forall s enc enc', none_encoded ev s -> trimmed ev U s VNone enc VNone enc'
| tm_list : forall t c s h l l',
    Forall2 (fun a b : val * val => trimmed ev U s (fst a) (snd a) (fst b) (snd b)) l l' ->
    trimmed ev U (SHomo t c s h) (VList (map fst l)) (VList (map snd l)) (VList (map fst l')) (VList (map snd l'))
| tm_tuple : forall t c ss h vs encs vs' encs', trimmed_members ev U ss vs encs vs' encs' ->
    trimmed ev U (SHetero t c ss h) (VList vs) (VList encs) (VList vs') (VList encs')
| tm_prim : forall c s v enc v' enc', trimmed ev U s v enc v' enc' -> trimmed ev U (SUnionPrim c s) v enc v' enc'
| tm_wrap : forall path ns m c s v enc v' enc', trimmed ev U s v enc v' enc' -> trimmed ev U (SWrap path ns m c s) v enc v' enc'
| tm_model : forall p cls attrs set enc attrs' set' enc',
    trimmed_instance ev U (px_model p) (VModel cls attrs set) enc (VModel cls attrs' set') enc' ->
    trimmed ev U (SProxy p) (VModel cls attrs set) enc (VModel cls attrs' set') enc'
| tm_union : forall t c vs h cls attrs set enc attrs' set' enc',
    trimmed_instance ev U cls (VModel cls attrs set) enc (VModel cls attrs' set') enc' ->
    trimmed ev U (SUnionModel t c vs h) (VModel cls attrs set) enc (VModel cls attrs' set') enc'
| tm_tagged : forall c disc a vs m cls attrs set d attrs' set' d', dget disc d = dget disc d' ->
    (forall tag p, dget disc d = Some (VStr tag) -> dget tag vs = Some p ->
       trimmed_instance ev U (px_model p) (VModel cls attrs set) (VDict d) (VModel cls attrs' set') (VDict d')) ->
    trimmed ev U (STagged c disc a vs m) (VModel cls attrs set) (VDict d) (VModel cls attrs' set') (VDict d')

with trimmed_members (ev : env) (U : string -> bool) : list ser -> list val -> list val -> list val -> list val -> Prop :=
| tt_end : trimmed_members ev U [] [] [] [] []
| tt_member : forall s ss v vs enc encs v' vs' enc' encs', trimmed ev U s v enc v' enc' ->
    trimmed_members ev U ss vs encs vs' encs' ->
    trimmed_members ev U (s :: ss) (v :: vs) (enc :: encs) (v' :: vs') (enc' :: encs')

(** an instance, written as one of the class [cls] *)
with trimmed_instance (ev : env) (U : string -> bool) : string -> val -> val -> val -> val -> Prop :=
| ti_fields : forall cls m c attrs set d attrs' set' d', en_model ev cls = Some m -> md_root m = false ->
    (forall name s, In (name, s) (md_fields m) -> trimmed_field ev U m name s attrs d attrs' d' /\ (In name set <-> In name set')) ->
    trimmed_instance ev U cls (VModel c attrs set) (VDict d) (VModel c attrs' set') (VDict d')
| ti_root : forall cls m c attrs set enc attrs' set' enc' name s rest x x', en_model ev cls = Some m -> md_root m = true ->
    md_fields m = (name, s) :: rest -> dget "root" attrs = Some x -> dget "root" attrs' = Some x' ->
    trimmed ev U s x enc x' enc' -> (In "root" set <-> In "root" set') ->
    trimmed_instance ev U cls (VModel c attrs set) enc (VModel c attrs' set') enc'

with trimmed_field (ev : env) (U : string -> bool) : mdef -> string -> ser -> dict val -> dict val -> dict val -> dict val -> Prop :=
| tf_excluded : forall m name s attrs d attrs' d', In name (md_sexclude m) -> trimmed_field ev U m name s attrs d attrs' d'
| tf_same : forall m name s attrs d attrs' d' x xe x' xe', dget name attrs = Some x -> dget name d = Some xe ->
    dget name attrs' = Some x' -> dget name d' = Some xe' -> trimmed ev U s x xe x' xe' ->
    trimmed_field ev U m name s attrs d attrs' d'.
