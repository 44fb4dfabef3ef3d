(** SpecSeen.v -- vocabulary for C88: two values that look the same through the declared fields. *)

From Verif Require Import Base Elem Native Errs Names Ser Write.

(** fields of which the encoding is written *)
Definition encoded_leaf (s : ser) : Prop :=
  match s with SText _ _ | SAttr _ _ | SElem _ _ _ _ _ | SAttrs _ | SMapElem _ _ _ => True | _ => False end.

(** [seen_at ev u s v enc v' enc']: through the field [s] the value [v] with its encoding looks like [v'] with its own.
    [seen_inst ev u k]: the same for instances written with the fields of class [k]: the fields of [k] that are not
    excluded look alike, whatever else the instances hold and whatever their classes.  [u]: unset fields are left out. *)
Inductive seen_at (ev : env) (u : bool) : ser -> val -> val -> val -> val -> Prop :=
| sa_same : forall s v enc, seen_at ev u s v enc v enc
| sa_leaf : forall s v v' enc, encoded_leaf s -> is_none v = is_none v' -> py_len v = py_len v' -> seen_at ev u s v enc v' enc
| sa_raw : forall name mode c v enc enc', seen_at ev u (SRaw name mode c) v enc v enc'
| sa_list : forall t c s h ves ves', Forall2 (fun a b => seen_at ev u s (fst a) (snd a) (fst b) (snd b)) ves ves' ->
    seen_at ev u (SHomo t c s h) (VList (map fst ves)) (VList (map snd ves)) (VList (map fst ves')) (VList (map snd ves'))
| sa_tuple : forall t c ss h ves ves', length ves = length ves' ->
    (forall i s a b, nth_error ss i = Some s -> nth_error ves i = Some a -> nth_error ves' i = Some b ->
       seen_at ev u s (fst a) (snd a) (fst b) (snd b)) ->
    seen_at ev u (SHetero t c ss h) (VList (map fst ves)) (VList (map snd ves)) (VList (map fst ves')) (VList (map snd ves'))
| sa_uprim : forall c s v enc v' enc', seen_at ev u s v enc v' enc' -> seen_at ev u (SUnionPrim c s) v enc v' enc'
| sa_wrap : forall path nsm mode c s v enc v' enc', seen_at ev u s v enc v' enc' -> seen_at ev u (SWrap path nsm mode c s) v enc v' enc'
| sa_union : forall t c vs h k attrs set attrs' set' enc enc',
    (forall p, In p vs -> px_model p = k -> seen_inst ev u k (VModel k attrs set) enc (VModel k attrs' set') enc') ->
    seen_at ev u (SUnionModel t c vs h) (VModel k attrs set) enc (VModel k attrs' set') enc'
| sa_tagged : forall c disc attr vs mode k attrs set k' attrs' set' d d', dget disc d = dget disc d' ->
    (forall t p, dget disc d = Some (VStr t) -> dget t vs = Some p ->
       seen_inst ev u (px_model p) (VModel k attrs set) (VDict d) (VModel k' attrs' set') (VDict d')) ->
    seen_at ev u (STagged c disc attr vs mode) (VModel k attrs set) (VDict d) (VModel k' attrs' set') (VDict d')
| sa_proxy : forall p v enc v' enc', seen_inst ev u (px_model p) v enc v' enc' -> seen_at ev u (SProxy p) v enc v' enc'
with seen_inst (ev : env) (u : bool) : string -> val -> val -> val -> val -> Prop :=
| si_fields : forall k m c attrs set c' attrs' set' d d', en_model ev k = Some m -> md_root m = false ->
    (forall name s, In (name, s) (md_fields m) -> str_in name (md_sexclude m) = false ->
       (u = true -> str_in name set = str_in name set') /\
       ((u = true -> str_in name set = true) ->
          (dget name attrs = None <-> dget name attrs' = None) /\
          (forall f x x', md_cser m name = Some f -> dget name attrs = Some x -> dget name attrs' = Some x' ->
             forall e, f (VModel c attrs set) e x = f (VModel c' attrs' set') e x') /\
          (md_cser m name = None -> (dget name d = None <-> dget name d' = None) /\
             forall x x' y y', dget name attrs = Some x -> dget name attrs' = Some x' -> dget name d = Some y -> dget name d' = Some y' ->
             seen_at ev u s x y x' y'))) ->
    seen_inst ev u k (VModel c attrs set) (VDict d) (VModel c' attrs' set') (VDict d')
| si_root : forall k m n s fs c attrs set c' attrs' set' enc enc', en_model ev k = Some m -> md_root m = true -> md_fields m = (n, s) :: fs ->
    (u = true -> str_in "root" set = str_in "root" set') ->
    (dget "root" attrs = None <-> dget "root" attrs' = None) ->
    (forall x x', dget "root" attrs = Some x -> dget "root" attrs' = Some x' -> seen_at ev u s x enc x' enc') ->
    seen_inst ev u k (VModel c attrs set) enc (VModel c' attrs' set') enc'.
