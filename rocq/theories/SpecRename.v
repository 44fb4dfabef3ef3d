(** SpecRename.v -- vocabulary for C87: the same classes under other Python names. *)

From Verif Require Import Base Elem Native Errs Names Fields Ser Build SpecSim.

(** [K]: the new names of classes; [F c]: the new names of the fields of class [c].  Different names stay different. *)
Record renaming := Renaming { rn_cls : string -> string; rn_field : string -> string -> string }.

Definition one_to_one (R : renaming) : Prop :=
  (forall a b, rn_cls R a = rn_cls R b -> a = b) /\ (forall c a b, rn_field R c a = rn_field R c b -> a = b).

(** ---- values ---- *)

(** instances have their classes and attributes renamed; everything else is the same *)
Inductive renamed (R : renaming) : val -> val -> Prop :=
| rn_same : forall v, (forall c a s, v <> VModel c a s) -> (forall l, v <> VList l) -> renamed R v v
| rn_list : forall l l', Forall2 (renamed R) l l' -> renamed R (VList l) (VList l')
| rn_model : forall c attrs attrs' set,
    Forall2 (fun a b => fst b = rn_field R c (fst a) /\ renamed R (snd a) (snd b)) attrs attrs' ->
    renamed R (VModel c attrs set) (VModel (rn_cls R c) attrs' (map (rn_field R c) set)).

(** ---- errors ---- *)

(** a component of a location: an index, or a name that has not changed or is one of the renamed *)
Definition renamed_item (R : renaming) (a b : locitem) : Prop :=
  match a, b with
  | LIdx i, LIdx j => i = j
  | LKey s, LKey t => t = s \/ t = rn_cls R s \/ exists c, t = rn_field R c s
  | _, _ => False
  end.

(** the same errors: as many, of the same types, with the same messages up to line numbers and with renamed locations
    (the inputs shown in them are not compared) *)
Definition renamed_lerr (R : renaming) (a b : lerr) : Prop :=
  le_type a = le_type b /\ same_msg (le_msg a) (le_msg b) /\ Forall2 (renamed_item R) (le_loc a) (le_loc b).

Definition renamed_verr (R : renaming) (a b : verr) : Prop :=
  ve_title b = rn_cls R (ve_title a) /\ Forall2 (renamed_lerr R) (ve_lines a) (ve_lines b).

Definition renamed_out (R : renaming) (a b : out val) : Prop :=
  match a, b with
  | Ok v, Ok w => renamed R v w
  | Raise (XValidation e), Raise (XValidation f) => renamed_verr R e f
  | Raise x, Raise y => x = y
  | Fuel, Fuel => True
  | _, _ => False
  end.

Definition renamed_verdict (R : renaming) (a b : verdict) : Prop :=
  match a, b with
  | Valid v, Valid w => renamed R v w
  | Invalid e, Invalid f => renamed_verr R e f
  | Crashed x, Crashed y => x = y
  | _, _ => False
  end.

(** ---- classes ---- *)

Definition renamed_proxy (R : renaming) (p q : proxy) : Prop :=
  px_model q = rn_cls R (px_model p) /\ px_name q = px_name p /\ px_nsmap q = px_nsmap p /\ px_mode q = px_mode p /\
  px_computed q = px_computed p /\ px_nillable q = px_nillable p.

(** fields with the same XML names; only the classes they lead to, the name of a discriminator (which is renamed alike in
    all variants) and the class names in error messages differ *)
Inductive renamed_ser (R : renaming) : ser -> ser -> Prop :=
| rs_text : forall c n, renamed_ser R (SText c n) (SText c n)
| rs_attr : forall name c, renamed_ser R (SAttr name c) (SAttr name c)
| rs_elem : forall name nsm mode c n, renamed_ser R (SElem name nsm mode c n) (SElem name nsm mode c n)
| rs_attrs : forall a, renamed_ser R (SAttrs a) (SAttrs a)
| rs_map : forall name mode a, renamed_ser R (SMapElem name mode a) (SMapElem name mode a)
| rs_homo : forall t c s s' h h', renamed_ser R s s' -> renamed_ser R (SHomo t c s h) (SHomo (rn_cls R t) c s' h')
| rs_hetero : forall t c l l' h h', Forall2 (renamed_ser R) l l' -> renamed_ser R (SHetero t c l h) (SHetero (rn_cls R t) c l' h')
| rs_uprim : forall c s s', renamed_ser R s s' -> renamed_ser R (SUnionPrim c s) (SUnionPrim c s')
| rs_union : forall t c vs vs' h h', Forall2 (renamed_proxy R) vs vs' ->
    renamed_ser R (SUnionModel t c vs h) (SUnionModel (rn_cls R t) c vs' h')
| rs_tagged : forall c disc disc' attr vs vs' mode,
    Forall2 (fun a b => fst a = fst b /\ renamed_proxy R (snd a) (snd b) /\ rn_field R (px_model (snd a)) disc = disc') vs vs' -> vs <> [] ->
    renamed_ser R (STagged c disc attr vs mode) (STagged c disc' attr vs' mode)
| rs_wrap : forall path nsm mode c s s', renamed_ser R s s' -> renamed_ser R (SWrap path nsm mode c s) (SWrap path nsm mode c s')
| rs_raw : forall name mode c, renamed_ser R (SRaw name mode c) (SRaw name mode c)
| rs_proxy : forall p q, renamed_proxy R p q -> renamed_ser R (SProxy p) (SProxy q).

(** the key of a field in the dict that is validated *)
Definition data_key (m : mdef) (name : string) : string := match dget name (md_valias m) with Some a => a | None => name end.

(** class [c] and the renamed one: the same fields in the same order and the same parameters; pydantic and user code do
    the same up to names *)
Record renamed_class (R : renaming) (c : string) (m m' : mdef) : Prop := RenamedClass {
  rc_name : md_name m' = rn_cls R (md_name m);
  rc_root : md_root m' = md_root m;
  rc_elem : md_elem_name m' = md_elem_name m;
  rc_nsmap : md_nsmap m' = md_nsmap m;
  rc_fields : Forall2 (fun a b => fst b = rn_field R c (fst a) /\ renamed_ser R (snd a) (snd b)) (md_fields m) (md_fields m');
  rc_exclude : forall name, str_in (rn_field R c name) (md_sexclude m') = str_in name (md_sexclude m);
  rc_forbid : md_forbid m' = md_forbid m;
  rc_skip : md_skip_empty m' = md_skip_empty m;
  rc_cser : forall name, match md_cser m name, md_cser m' (rn_field R c name) with
    | Some f, Some f' => forall v v' x x' e, renamed R v v' -> renamed R x x' -> f v e x = f' v' e x'
    | None, None => True
    | _, _ => False
    end;
  rc_cval : forall name, match md_cval m name, md_cval m' (rn_field R c name) with
    | Some f, Some f' => forall e, renamed_out R (fst (f e)) (fst (f' e)) /\ snd (f e) = snd (f' e)
    | None, None => True
    | _, _ => False
    end;
  rc_validate : exists G, (forall a b : string, G a = G b -> a = b) /\
    (forall name, In name (map fst (md_fields m)) -> data_key m' (rn_field R c name) = G (data_key m name)) /\
    (md_root m = false -> forall d d', Forall2 (fun a b => fst b = G (fst a) /\ renamed R (snd a) (snd b)) d d' ->
       renamed_verdict R (md_validate m (Some (VDict d))) (md_validate m' (Some (VDict d')))) /\
    (md_root m = true -> renamed_verdict R (md_validate m None) (md_validate m' None) /\
       forall v v', renamed R v v' -> renamed_verdict R (md_validate m (Some v)) (md_validate m' (Some v')))
}.

Definition renamed_env (R : renaming) (ev ev' : env) : Prop :=
  en_backend ev' = en_backend ev /\
  forall c, match en_model ev c, en_model ev' (rn_cls R c) with
            | Some m, Some m' => renamed_class R c m m'
            | None, None => True
            | _, _ => False
            end.

(** ---- what is written ---- *)

(** fields that hold no instances *)
Definition leaf (s : ser) : Prop :=
  match s with SText _ _ | SAttr _ _ | SElem _ _ _ _ _ | SAttrs _ | SMapElem _ _ _ | SRaw _ _ _ => True | _ => False end.

(** [renamed_at R ev s v enc v' enc']: the value [v] of a field [s] with its encoding and the renamed value with its own.
    [renamed_inst R ev k]: the same for an instance written with the fields of class [k], its own class or a base of it.
    The encoding of an instance is a dict with its field names as keys, that of a root model is the encoding of its content. *)
Inductive renamed_at (R : renaming) (ev : env) : ser -> val -> val -> val -> val -> Prop :=
| ra_leaf : forall s v enc, leaf s -> renamed_at R ev s v enc v enc
| ra_none : forall s, renamed_at R ev s VNone VNone VNone VNone
| ra_list : forall t c s h ves ves', Forall2 (fun a b => renamed_at R ev s (fst a) (snd a) (fst b) (snd b)) ves ves' ->
    renamed_at R ev (SHomo t c s h) (VList (map fst ves)) (VList (map snd ves)) (VList (map fst ves')) (VList (map snd ves'))
| ra_tuple : forall t c ss h ves ves', (forall i s a b, nth_error ss i = Some s -> nth_error ves i = Some a -> nth_error ves' i = Some b ->
      renamed_at R ev s (fst a) (snd a) (fst b) (snd b)) -> length ves = length ves' ->
    renamed_at R ev (SHetero t c ss h) (VList (map fst ves)) (VList (map snd ves)) (VList (map fst ves')) (VList (map snd ves'))
| ra_uprim : forall c s v enc v' enc', renamed_at R ev s v enc v' enc' -> renamed_at R ev (SUnionPrim c s) v enc v' enc'
| ra_wrap : forall path nsm mode c s v enc v' enc', renamed_at R ev s v enc v' enc' ->
    renamed_at R ev (SWrap path nsm mode c s) v enc v' enc'
| ra_union : forall t c vs h k attrs set enc v' enc', (forall p, In p vs -> px_model p = k -> renamed_inst R ev k (VModel k attrs set) enc v' enc') ->
    renamed R (VModel k attrs set) v' -> renamed_at R ev (SUnionModel t c vs h) (VModel k attrs set) enc v' enc'
| ra_tagged : forall c disc attr vs mode v d v' d', renamed R v v' -> (forall t p, In (t, p) vs -> dget disc d = dget (rn_field R (px_model p) disc) d') ->
    (forall t p, dget disc d = Some (VStr t) -> dget t vs = Some p -> renamed_inst R ev (px_model p) v (VDict d) v' (VDict d')) ->
    renamed_at R ev (STagged c disc attr vs mode) v (VDict d) v' (VDict d')
| ra_proxy : forall p v enc v' enc', renamed_inst R ev (px_model p) v enc v' enc' -> renamed_at R ev (SProxy p) v enc v' enc'
with renamed_inst (R : renaming) (ev : env) : string -> val -> val -> val -> val -> Prop :=
| ri_fields : forall k m c attrs attrs' set d d', en_model ev k = Some m -> md_root m = false ->
    (forall name, In name (map fst (md_fields m)) -> rn_field R c name = rn_field R k name) ->
    renamed R (VModel c attrs set) (VModel (rn_cls R c) attrs' (map (rn_field R c) set)) ->
    Forall2 (fun a b => fst b = rn_field R c (fst a)) d d' ->
    (forall name s x x' y y', In (name, s) (md_fields m) -> dget name attrs = Some x -> dget (rn_field R c name) attrs' = Some x' ->
       dget name d = Some y -> dget (rn_field R c name) d' = Some y' -> renamed_at R ev s x y x' y') ->
    renamed_inst R ev k (VModel c attrs set) (VDict d) (VModel (rn_cls R c) attrs' (map (rn_field R c) set)) (VDict d')
| ri_root : forall k m c n s fs x x' set enc enc', en_model ev k = Some m -> md_root m = true -> md_fields m = (n, s) :: fs ->
    rn_field R c "root" = "root" -> renamed R x x' -> renamed_at R ev s x enc x' enc' ->
    renamed_inst R ev k (VModel c [("root", x)] set) enc (VModel (rn_cls R c) [("root", x')] (map (rn_field R c) set)) enc'.

(** ---- declarations ---- *)

(** the types of fields: the classes they lead to are renamed, as are the keys of shared definitions ([P]) and the names
    of discriminators (alike in all classes); the inside of other classes does not matter *)
Inductive renamed_schema (R : renaming) (P : string -> string) : cschema -> cschema -> Prop :=
| sc_type : forall ty, renamed_schema R P (CType ty) (CType ty)
| sc_isinst : forall raw, renamed_schema R P (CIsInstance raw) (CIsInstance raw)
| sc_model : forall cls root body body', renamed_schema R P (CModel cls root body) (CModel (rn_cls R cls) root body')
| sc_meta : forall k s s', renamed_schema R P s s' -> renamed_schema R P (CMeta k s) (CMeta k s')
| sc_plain : forall s s', renamed_schema R P s s' -> renamed_schema R P (CPlain (Some s)) (CPlain (Some s'))
| sc_plain_none : renamed_schema R P (CPlain None) (CPlain None)
| sc_json : forall s s', renamed_schema R P s s' -> renamed_schema R P (CJsonOrPython s) (CJsonOrPython s')
| sc_defs : forall ds ds' s s', Forall2 (fun a b => fst b = P (fst a) /\ renamed_schema R P (snd a) (snd b)) ds ds' ->
    renamed_schema R P s s' -> renamed_schema R P (CDefinitions ds s) (CDefinitions ds' s')
| sc_ref : forall r, renamed_schema R P (CRef r) (CRef (P r))
| sc_list : forall s s', renamed_schema R P s s' -> renamed_schema R P (CList s) (CList s')
| sc_tuple : forall v l l', Forall2 (renamed_schema R P) l l' -> renamed_schema R P (CTuple v l) (CTuple v l')
| sc_dict : forall k k' v v', renamed_schema R P k k' -> renamed_schema R P v v' -> renamed_schema R P (CDict k v) (CDict k' v')
| sc_typed : forall l l', Forall2 (renamed_schema R P) l l' -> renamed_schema R P (CTypedDict l) (CTypedDict l')
| sc_union : forall l l', Forall2 (renamed_schema R P) l l' -> renamed_schema R P (CUnion l) (CUnion l')
| sc_tagged : forall d d' l l', Forall2 (fun a b => fst a = fst b /\ renamed_schema R P (snd a) (snd b)) l l' ->
    match d, d' with Some x, Some y => forall cls, rn_field R cls x = y | None, None => True | _, _ => False end ->
    renamed_schema R P (CTagged d l) (CTagged d' l')
| sc_call : forall t l l', Forall2 (renamed_schema R P) l l' -> renamed_schema R P (CCall t l) (CCall t l').

(** the XML name of the field does not depend on its Python name: there is an alias, or the innermost declaration gives
    a tag or an attribute name, or all that is below are classes with tags of their own *)
Fixpoint tag_given (i : einfo) : bool :=
  match i with
  | EInfo (Some LocWrapped) _ _ _ _ (Some w) => tag_given w
  | EInfo (Some LocWrapped) _ _ _ _ None => false
  | EInfo _ path _ _ _ _ => str_truthy path
  end.

Inductive only_tagged (cl : classes) : cschema -> Prop :=
| ot_model : forall cls root body i, cl cls = Some i -> str_truthy (c_tag (ci_params i)) = true -> only_tagged cl (CModel cls root body)
| ot_meta : forall k s, only_tagged cl s -> only_tagged cl (CMeta k s)
| ot_plain : forall s, only_tagged cl s -> only_tagged cl (CPlain (Some s))
| ot_json : forall s, only_tagged cl s -> only_tagged cl (CJsonOrPython s)
| ot_defs : forall ds s, only_tagged cl s -> only_tagged cl (CDefinitions ds s)
| ot_list : forall s, only_tagged cl s -> only_tagged cl (CList s)
| ot_tuple : forall v l, Forall (only_tagged cl) l -> only_tagged cl (CTuple v l)
| ot_union : forall l, Forall (only_tagged cl) l -> only_tagged cl (CUnion l)
| ot_tagged : forall d l, Forall (fun a => only_tagged cl (snd a)) l -> only_tagged cl (CTagged d l)
| ot_call : forall t l, Forall (only_tagged cl) l -> only_tagged cl (CCall t l).

Definition name_free (cl : classes) (info : option einfo) (alias : option string) (s : cschema) : Prop :=
  str_truthy alias = true \/ (exists i, info = Some i /\ tag_given i = true) \/ only_tagged cl s.

(** class [c] and the renamed one as they are declared: the same parameters; a class without a tag keeps its name *)
Record renamed_info (R : renaming) (c : string) (i i' : cls_info) : Prop := RenamedInfo {
  ri_name : ci_name i' = rn_cls R (ci_name i);
  ri_params : ci_params i' = ci_params i;
  ri_tag : ci_name i' = ci_name i \/ str_truthy (c_tag (ci_params i)) = true;
  ri_meta : forall f, existsb is_noxml (ci_meta i' (rn_field R c f)) = existsb is_noxml (ci_meta i f) /\
                      extract_info (ci_meta i' (rn_field R c f)) = extract_info (ci_meta i f);
  ri_computed : forall f, ci_computed i' (rn_field R c f) = ci_computed i f;
  ri_hide : ci_hide i' = ci_hide i
}.

Definition renamed_infos (R : renaming) (cl cl' : classes) : Prop :=
  forall c, match cl c, cl' (rn_cls R c) with
            | Some i, Some i' => renamed_info R c i i'
            | None, None => True
            | _, _ => False
            end.

(** its core schema: the fields in the same order with the same aliases and renamed types; a field that gets another
    Python name needs an XML name that does not depend on it *)
Inductive renamed_body (R : renaming) (P : string -> string) (cl : classes) (c : string) (i : cls_info) : cschema -> cschema -> Prop :=
| rb_fields : forall fs fs' cs cs',
    Forall2 (fun a b => fst b = rn_field R c (fst a) /\
      match snd a, snd b with
      | CField ex sa va s, CField ex' sa' va' s' => ex' = ex /\ sa' = sa /\ va' = va /\ renamed_schema R P s s' /\
          (fst b = fst a \/ name_free cl (extract_info (ci_meta i (fst a))) sa s)
      end) fs fs' ->
    Forall2 (fun a b => fst b = rn_field R c (fst a) /\ fst (snd b) = fst (snd a) /\ renamed_schema R P (snd (snd a)) (snd (snd b)) /\
      (fst b = fst a \/ name_free cl (ci_computed i (fst a)) (fst (snd a)) (snd (snd a)))) cs cs' ->
    renamed_body R P cl c i (CFields fs cs) (CFields fs' cs')
| rb_before : forall s s', renamed_body R P cl c i s s' -> renamed_body R P cl c i (CMeta MBefore s) (CMeta MBefore s').

(** neither a class nor a way to one *)
Definition no_class (s : cschema) : Prop :=
  match s with
  | CModel _ _ _ | CFields _ _ | CMeta _ _ | CPlain _ | CJsonOrPython _ | CDefinitions _ _ | CRef _ => False
  | _ => True
  end.

(** the core schema of a class *)
Inductive renamed_top (R : renaming) (P : string -> string) (cl : classes) : cschema -> cschema -> Prop :=
| rt_model : forall c i body body', cl c = Some i -> renamed_body R P cl c i body body' ->
    renamed_top R P cl (CModel c false body) (CModel (rn_cls R c) false body')
| rt_root : forall c body body', rn_field R c "root" = "root" -> renamed_schema R P body body' ->
    renamed_top R P cl (CModel c true body) (CModel (rn_cls R c) true body')
| rt_meta : forall k s s', renamed_top R P cl s s' -> renamed_top R P cl (CMeta k s) (CMeta k s')
| rt_plain : forall s s', renamed_top R P cl s s' -> renamed_top R P cl (CPlain (Some s)) (CPlain (Some s'))
| rt_plain_none : renamed_top R P cl (CPlain None) (CPlain None)
| rt_json : forall s s', renamed_top R P cl s s' -> renamed_top R P cl (CJsonOrPython s) (CJsonOrPython s')
| rt_defs : forall ds ds' s s', Forall2 (fun a b => fst b = P (fst a) /\ renamed_top R P cl (snd a) (snd b)) ds ds' ->
    renamed_top R P cl s s' -> renamed_top R P cl (CDefinitions ds s) (CDefinitions ds' s')
| rt_ref : forall r, renamed_top R P cl (CRef r) (CRef (P r))
| rt_other : forall s s', no_class s -> renamed_schema R P s s' -> renamed_top R P cl s s'.

(** the same outcome: results related by [Q], or the same exception *)
Definition rn_out {A B} (Q : A -> B -> Prop) (a : out A) (b : out B) : Prop :=
  match a, b with
  | Ok x, Ok y => Q x y
  | Raise x, Raise y => x = y
  | Fuel, Fuel => True
  | _, _ => False
  end.

(** what is built *)
Record renamed_bmodel (R : renaming) (c : string) (b b' : bmodel) : Prop := RenamedBModel {
  rb_cls : bm_cls b = c /\ bm_cls b' = rn_cls R c;
  rb_root : bm_root b' = bm_root b;
  rb_elem : bm_elem_name b' = bm_elem_name b;
  rb_nsmap : bm_nsmap b' = bm_nsmap b;
  rb_sers : Forall2 (fun x y => fst y = rn_field R c (fst x) /\ renamed_ser R (snd x) (snd y)) (bm_fields b) (bm_fields b');
  rb_valias : forall f, dget (rn_field R c f) (bm_valias b') = dget f (bm_valias b);
  rb_excl : forall f, str_in (rn_field R c f) (bm_sexclude b') = str_in f (bm_sexclude b);
  rb_hide : bm_hide b' = bm_hide b
}.
