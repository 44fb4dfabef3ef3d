(** SpecBuild.v -- what a field declaration means: which name, namespace and shape the entity it
    declares must get.  Independent of the builder: no contexts, no core schemas (except for the
    small relation that strips the wrappers of a core schema). *)

From Verif Require Import Base Elem Native Errs Names Fields Ser SpecNames SpecRead Build.

(** [t] is the first of the candidates that is present; an empty string counts as absent *)
Definition picks (cands : list (option string)) (t : string) : Prop :=
  exists pre post, cands = pre ++ Some t :: post /\ t <> "" /\
    Forall (fun o => o = None \/ o = Some "") pre.

(** a tag with its namespace, the way XML libraries spell it *)
Definition clark (u : option string) (t : string) : string :=
  match u with
  | Some ns => if String.eqb ns "" then t else ("{" ++ ns ++ "}" ++ t)%string
  | None => t
  end.

(** an enclosing wrapper or model: its namespace alias and its namespace map *)
Record scope := Scope { sc_ns : option string; sc_map : option nsmap }.

(** what a field declaration may say; nothing at all if there is no annotation *)
Definition says_loc (i : option einfo) : option eloc :=
  match i with Some i => ei_location i | None => None end.
Definition says_path (i : option einfo) : option string :=
  match i with Some i => ei_path i | None => None end.
Definition says_ns (i : option einfo) : option string :=
  match i with Some i => ei_ns i | None => None end.
Definition says_nsmap (i : option einfo) : option nsmap :=
  match i with Some i => ei_nsmap i | None => None end.
Definition says_wrapped (i : option einfo) : option einfo :=
  match i with Some i => ei_wrapped i | None => None end.
Definition says_nillable (i : option einfo) : bool :=
  match i with Some i => match ei_nillable i with Some true => true | _ => false end | None => false end.

Definition scope_of (i : option einfo) : scope := Scope (says_ns i) (says_nsmap i).

(** the namespace an alias stands for, given the maps in order of priority *)
Inductive resolves_in (maps : list (option nsmap)) : bool -> option string -> option string -> Prop :=
| ri_alias : forall is_attr a u, first_of (says a) maps u -> resolves_in maps is_attr (Some a) (Some u)
| ri_no_map : forall is_attr a, Forall declares_nothing maps -> resolves_in maps is_attr (Some a) None
| ri_default : forall o, is_first (says "") maps o -> resolves_in maps false None o
| ri_attr : resolves_in maps true None None.

(** an optional map saying exactly what a list of maps says, in order of priority *)
Definition same_map (m : option nsmap) (maps : list (option nsmap)) : Prop :=
  forall p, is_first (says p) maps (says p m).

(** Order of priority of the namespace maps of an entity: its own, then those of the enclosing
    scopes, the outermost first ([encl] lists them innermost first). *)
Definition maps_of (own : list (option nsmap)) (encl : list scope) : list (option nsmap) :=
  own ++ rev (map sc_map encl).

(** what all parts of a field share: names, class settings *)
Record ambient := Ambient {
  am_title : string; am_alias : option string; am_field : option string; am_computed : bool;
  am_ns_attrs : bool; am_mode : smode; am_hide : bool
}.

Section Declared.
  Variable cl : classes.
  Variable am : ambient.

  (** the tag of an entity that is not a sub-model *)
  Definition own_name (i : option einfo) (t : string) : Prop :=
    picks [says_path i; am_alias am; am_field am] t.

  (** ... with its namespace: an element of the nearest scope that has a namespace *)
  Definition element_name (encl : list scope) (i : option einfo) (t name : string) : Prop :=
    exists ns u, is_first (fun o => o) (says_ns i :: map sc_ns encl) ns /\
      resolves_in (maps_of [says_nsmap i] encl) false ns u /\ name = clark u t.

  (** attributes follow the enclosing namespace only if the class says so, and never have the
      default one *)
  Definition attribute_name (encl : list scope) (i : option einfo) (t name : string) : Prop :=
    exists ns u,
      is_first (fun o => o) (says_ns i :: if am_ns_attrs am then map sc_ns encl else []) ns /\
      ns <> Some "" /\ resolves_in (maps_of [says_nsmap i] encl) true ns u /\ name = clark u t.

  (** the attributes of a mapping *)
  Definition attributes_of (encl : list scope) (i : option einfo) (a : attrs_ser) : Prop :=
    is_first (fun o => o) (says_ns i :: map sc_ns encl) (as_ns a) /\
    same_map (as_nsmap a) (maps_of [says_nsmap i] encl) /\
    as_namespaced a = am_ns_attrs am /\ as_computed a = am_computed am.

  (** the element of a sub-model *)
  Definition submodel_of (encl : list scope) (i : option einfo) (p : proxy) : Prop :=
    exists k t ns u,
      cl (px_model p) = Some k /\
      picks [says_path i; c_tag (ci_params k); am_alias am; am_field am; Some (ci_name k)] t /\
      is_first (fun o => o) (says_ns i :: c_ns (ci_params k) :: map sc_ns encl) ns /\
      resolves_in (maps_of [says_nsmap i; c_nsmap (ci_params k)] encl) false ns u /\
      px_name p = clark u t /\
      same_map (px_nsmap p) (maps_of [says_nsmap i; c_nsmap (ci_params k)] encl) /\
      px_mode p = am_mode am /\ px_computed p = am_computed am /\ px_nillable p = says_nillable i.

  Definition at_element_or_bare (i : option einfo) : Prop :=
    says_loc i = Some LocElement \/ says_loc i = None.

  (** [declared encl i s]: [s] is a faithful serializer of a field annotated [i] inside the
      scopes [encl] *)
  Inductive declared : list scope -> option einfo -> ser -> Prop :=
  | dc_text : forall encl i, says_loc i = None ->
      declared encl i (SText (am_computed am) (says_nillable i))
  | dc_attr : forall encl i t name, says_loc i = Some LocAttribute -> own_name i t ->
      attribute_name encl i t name -> declared encl i (SAttr name (am_computed am))
  | dc_elem : forall encl i t name m, says_loc i = Some LocElement -> own_name i t ->
      element_name encl i t name -> same_map m (maps_of [says_nsmap i] encl) ->
      declared encl i (SElem name m (am_mode am) (am_computed am) (says_nillable i))
  | dc_attrs : forall encl i a, says_loc i = None -> attributes_of encl i a ->
      declared encl i (SAttrs a)
  | dc_map : forall encl i t name a, says_loc i = Some LocElement -> own_name i t ->
      element_name encl i t name -> attributes_of encl i a ->
      declared encl i (SMapElem name (am_mode am) a)
  | dc_raw : forall encl i t name, at_element_or_bare i -> own_name i t ->
      element_name encl i t name -> declared encl i (SRaw name (am_mode am) (am_computed am))
  | dc_homo : forall encl i s, at_element_or_bare i -> declared encl i s ->
      declared encl i (SHomo (am_title am) (am_computed am) s (am_hide am))
  | dc_hetero : forall encl i l, at_element_or_bare i -> Forall (declared encl i) l ->
      declared encl i (SHetero (am_title am) (am_computed am) l (am_hide am))
  | dc_union : forall encl i s, declared encl i s ->
      declared encl i (SUnionPrim (am_computed am) s)
  | dc_models : forall encl i vs, at_element_or_bare i -> vs <> [] ->
      Forall (submodel_of encl i) vs ->
      declared encl i (SUnionModel (am_title am) (am_computed am) vs (am_hide am))
  | dc_tagged : forall encl i d a vs, at_element_or_bare i -> vs <> [] ->
      Forall (fun kv => submodel_of encl i (snd kv)) vs ->
      declared encl i (STagged (am_computed am) d a vs (am_mode am))
  | dc_model : forall encl i p, at_element_or_bare i -> submodel_of encl i p ->
      declared encl i (SProxy p)
  (** a wrapper: every part of the path is an element of the wrapper's namespace, and the wrapper
      is one more scope around what it wraps *)
  | dc_wrap : forall encl i path names m s, says_loc i = Some LocWrapped ->
      says_path i = Some path ->
      Forall2 (element_name encl i) (py_split "/"%char path) names ->
      same_map m (maps_of [says_nsmap i] encl) ->
      declared (scope_of i :: encl) (says_wrapped i) s ->
      declared encl i (SWrap names m (am_mode am) (am_computed am) s).
End Declared.

(** every namespace map mentioned is a Python dict: one entry per prefix *)
Definition dict_ok (m : option nsmap) : Prop :=
  match m with Some d => NoDup (dkeys d) | None => True end.

Fixpoint info_ok (i : einfo) : Prop :=
  dict_ok (ei_nsmap i) /\ match ei_wrapped i with Some w => info_ok w | None => True end.

Definition maybe_info_ok (i : option einfo) : Prop :=
  match i with Some i => info_ok i | None => True end.

(** Python classes have names and their namespace maps are dicts *)
Definition classes_ok (cl : classes) : Prop :=
  forall cls k, cl cls = Some k -> ci_name k <> "" /\ dict_ok (c_nsmap (ci_params k)).

(** ---- the core schema behind wrappers ---- *)

(** [stands_for defs s t]: [s] is [t] behind validator functions, defaults, Optional and references
    to the definitions [defs] or to definitions [s] brings along *)
Inductive stands_for : dict cschema -> cschema -> cschema -> Prop :=
| sf_here : forall defs s f, family_of s = Some f ->
    ~ In f [FMeta; FDefs; FRef; FJsonOrPython] -> stands_for defs s s
| sf_meta : forall defs k s t, stands_for defs s t -> stands_for defs (CMeta k s) t
| sf_plain : forall defs s t, stands_for defs s t -> stands_for defs (CPlain (Some s)) t
| sf_python : forall defs s t, stands_for defs s t -> stands_for defs (CJsonOrPython s) t
| sf_defs : forall defs ds s t, stands_for (dupdate defs (dict_of ds)) s t ->
    stands_for defs (CDefinitions ds s) t
| sf_ref : forall defs r s t, dget r defs = Some s -> stands_for defs s t ->
    stands_for defs (CRef r) t.

(** ---- a whole class ---- *)

(** a validator running before the fields are looked at *)
Inductive fields_behind : cschema -> list (string * cfield) -> list (string * (option string * cschema)) -> Prop :=
| fb_here : forall fs cs, fields_behind (CFields fs cs) fs cs
| fb_before : forall s fs cs, fields_behind s fs cs -> fields_behind (CMeta MBefore s) fs cs.

(** the fields that take part in XML, in order, with their aliases and annotations *)
Definition xml_fields (k : cls_info) (fs : list (string * cfield)) : list (string * cfield) :=
  filter (fun nf => negb (existsb is_noxml (ci_meta k (fst nf)))) fs.

Definition class_scope (k : cls_info) : scope :=
  Scope (c_ns (ci_params k)) (c_nsmap (ci_params k)).

(** the settings a field of class [k] is read and written under *)
Definition field_ambient (k : cls_info) (hide : bool) (name alias : option string) (computed : bool)
  : ambient :=
  Ambient (ci_name k) alias name computed (c_ns_attrs (ci_params k)) (c_mode (ci_params k)) hide.

(** a declared field has a faithful serializer under its own name *)
Definition field_declared (cl : classes) (k : cls_info) (hide : bool)
    (nf : string * cfield) (ns : string * ser) : Prop :=
  fst ns = fst nf /\
  match snd nf with
  | CField _ salias _ _ =>
      declared cl (field_ambient k hide (Some (fst nf)) salias false) [class_scope k]
        (extract_info (ci_meta k (fst nf))) (snd ns)
  end.

Definition computed_declared (cl : classes) (k : cls_info) (hide : bool)
    (cf : string * (option string * cschema)) (ns : string * ser) : Prop :=
  fst ns = fst cf /\
  declared cl (field_ambient k hide (Some (fst cf)) (fst (snd cf)) true) [class_scope k]
    (ci_computed k (fst cf)) (snd ns).

(** the element a model class itself is written to and read from *)
Definition class_element (k : cls_info) (name : string) : Prop :=
  exists t u, picks [c_tag (ci_params k); Some (ci_name k)] t /\
    resolves_in [c_nsmap (ci_params k)] false (c_ns (ci_params k)) u /\ name = clark u t.

(** names are not empty, annotations carry dicts, no name is used twice *)
Definition fields_ok (k : cls_info) (fs : list (string * cfield))
    (cs : list (string * (option string * cschema))) : Prop :=
  NoDup (map fst fs ++ map fst cs) /\
  Forall (fun nf => fst nf <> "" /\ maybe_info_ok (extract_info (ci_meta k (fst nf)))) fs /\
  Forall (fun cf => fst cf <> "" /\ maybe_info_ok (ci_computed k (fst cf))) cs.

(** [field_of cl ev k i s]: [s] is the serializer of a field, a computed field or the root of a class
    [k] whose definition succeeded, and [i] the annotation of that field *)
Inductive field_of (cl : classes) (ev : env) (k : cls_info) : option einfo -> ser -> Prop :=
| fo_own : forall n s b cls body fs cs j name f t, build_class cl ev n k s = Ok b ->
    stands_for [] s (CModel cls false body) -> cl cls = Some k -> fields_behind body fs cs -> fields_ok k fs cs ->
    nth_error (xml_fields k fs) j = Some (name, f) -> nth_error (bm_fields b) j = Some (name, t) ->
    field_of cl ev k (extract_info (ci_meta k name)) t
| fo_computed : forall n s b cls body fs cs j name a t, build_class cl ev n k s = Ok b ->
    stands_for [] s (CModel cls false body) -> cl cls = Some k -> fields_behind body fs cs -> fields_ok k fs cs ->
    nth_error cs j = Some (name, a) -> nth_error (bm_fields b) (length (xml_fields k fs) + j) = Some (name, t) ->
    field_of cl ev k (ci_computed k name) t
| fo_root : forall n s b cls body t, build_class cl ev n k s = Ok b ->
    stands_for [] s (CModel cls true body) -> cl cls = Some k -> maybe_info_ok (extract_info (ci_meta k "root")) ->
    bm_fields b = [("root", t)] -> field_of cl ev k (extract_info (ci_meta k "root")) t.

Definition field_valias (nf : string * cfield) : list (string * string) :=
  match snd nf with CField _ _ (Some a) _ => [(fst nf, a)] | _ => [] end.

Definition field_excluded (nf : string * cfield) : bool :=
  match snd nf with CField e _ _ _ => e end.

(** ---- what the builder has to cope with, and what it guarantees ---- *)

Section Supported.
  Variable cl : classes.
  Variable ev : env.
  (** the definitions of the class; pydantic moves them all to the top of the core schema *)
  Variable defs : dict cschema.

  (** a union needs a choice that is not just an arbitrary class *)
  Definition ordinary (s : cschema) : Prop :=
    forall t, stands_for defs s t -> match t with CIsInstance _ => False | _ => True end.

  (** a variant of a tagged union: a class whose serializer exists and is no root model's *)
  Definition ready_variant (s : cschema) : Prop :=
    forall t, stands_for defs s t -> forall cls root body, t = CModel cls root body ->
      exists m, en_model ev cls = Some m /\ md_root m = false.

  Inductive supported : cschema -> Prop :=
  | su_type : forall ty, supported (CType ty)
  | su_instance : forall raw, supported (CIsInstance raw)
  | su_model : forall cls root body, cl cls <> None -> supported (CModel cls root body)
  | su_fields : forall fs cs, supported (CFields fs cs)
  | su_meta : forall k s, supported s -> supported (CMeta k s)
  | su_plain : forall s, supported s -> supported (CPlain (Some s))
  | su_python : forall s, supported s -> supported (CJsonOrPython s)
  | su_ref : forall r, supported (CRef r)
  | su_list : forall s, supported s -> supported (CList s)
  | su_tuple : forall v l, (v = Some 0 -> length l = 1) -> Forall supported l -> supported (CTuple v l)
  | su_dict : forall k v, supported k -> supported v -> supported (CDict k v)
  | su_typed : forall l, Forall supported l -> supported (CTypedDict l)
  | su_union : forall l, Exists ordinary l -> Forall supported l -> supported (CUnion l)
  | su_tagged : forall d l, l <> [] -> Forall (fun kv => supported (snd kv)) l ->
      Forall (fun kv => ready_variant (snd kv)) l -> supported (CTagged d l)
  | su_call : forall b l, Forall supported l -> supported (CCall b l).
End Supported.

(** a wrapper has a path (fields.wrapped() always gives one) *)
Fixpoint paths_ok (i : einfo) : Prop :=
  (ei_location i = Some LocWrapped -> ei_path i <> None) /\
  match ei_wrapped i with Some w => paths_ok w | None => True end.

Definition maybe_paths_ok (i : option einfo) : Prop :=
  match i with Some i => paths_ok i | None => True end.

(** the errors by which pydantic-xml rejects a model definition *)
Definition definition_error (x : exn) : Prop :=
  x = XModelError \/ x = XModelFieldError \/ x = XTypeError.

(** serializers a union of primitives may be made of *)
Definition simple (s : ser) : Prop :=
  match s with SText _ _ | SAttr _ _ | SElem _ _ _ _ _ | SRaw _ _ _ => True | _ => False end.

(** what a collection or tuple may hold: never the element's own text or attributes, except
    through a union of primitives *)
Definition item (s : ser) : Prop :=
  match s with
  | SText _ _ | SAttr _ _ | SAttrs _ | SWrap _ _ _ _ _ => False
  | _ => True
  end.

Inductive solid : ser -> Prop :=
| sd_text : forall c n, solid (SText c n)
| sd_attr : forall n c, solid (SAttr n c)
| sd_elem : forall n m md c ni, solid (SElem n m md c ni)
| sd_attrs : forall a, solid (SAttrs a)
| sd_map : forall n md a, solid (SMapElem n md a)
| sd_homo : forall t c s h, item s -> solid s -> solid (SHomo t c s h)
| sd_hetero : forall t c l h, Forall item l -> Forall solid l -> solid (SHetero t c l h)
| sd_union : forall c s, simple s -> solid (SUnionPrim c s)
| sd_models : forall t c vs h, solid (SUnionModel t c vs h)
| sd_tagged : forall c d a vs md, solid (STagged c d a vs md)
| sd_wrap : forall p m md c s, solid s -> solid (SWrap p m md c s)
| sd_raw : forall n md c, solid (SRaw n md c)
| sd_model : forall p, solid (SProxy p).

(** no collection whose items are unions of primitives read from the element's text *)
Inductive no_text_union : ser -> Prop :=
| nt_text : forall c n, no_text_union (SText c n)
| nt_attr : forall n c, no_text_union (SAttr n c)
| nt_elem : forall n m md c ni, no_text_union (SElem n m md c ni)
| nt_attrs : forall a, no_text_union (SAttrs a)
| nt_map : forall n md a, no_text_union (SMapElem n md a)
| nt_homo : forall t c s h, no_text_union s -> no_text_union (SHomo t c s h)
| nt_hetero : forall t c l h, Forall no_text_union l -> no_text_union (SHetero t c l h)
| nt_union : forall c s, (forall c' n, s <> SText c' n) -> (forall n c', s <> SAttr n c') ->
    no_text_union (SUnionPrim c s)
| nt_models : forall t c vs h, no_text_union (SUnionModel t c vs h)
| nt_tagged : forall c d a vs md, no_text_union (STagged c d a vs md)
| nt_wrap : forall p m md c s, no_text_union s -> no_text_union (SWrap p m md c s)
| nt_raw : forall n md c, no_text_union (SRaw n md c)
| nt_model : forall p, no_text_union (SProxy p).

(** [unfolds defs h s]: following references, [s] is a finite tree of height at most [h]; the
    fields of models are not part of it *)
Section Unfolds.
  Variable defs : dict cschema.
  Inductive unfolds : nat -> cschema -> Prop :=
  | un_type : forall h ty, unfolds (S h) (CType ty)
  | un_instance : forall h raw, unfolds (S h) (CIsInstance raw)
  | un_model : forall h cls root body, unfolds (S h) (CModel cls root body)
  | un_fields : forall h fs cs, unfolds (S h) (CFields fs cs)
  | un_meta : forall h k s, unfolds h s -> unfolds (S h) (CMeta k s)
  | un_plain : forall h s, (forall t, s = Some t -> unfolds h t) -> unfolds (S h) (CPlain s)
  | un_python : forall h s, unfolds h s -> unfolds (S h) (CJsonOrPython s)
  | un_ref : forall h r, (forall s, dget r defs = Some s -> unfolds h s) -> unfolds (S h) (CRef r)
  | un_list : forall h s, unfolds h s -> unfolds (S h) (CList s)
  | un_tuple : forall h v l, Forall (unfolds h) l -> unfolds (S h) (CTuple v l)
  | un_dict : forall h k v, unfolds h k -> unfolds h v -> unfolds (S h) (CDict k v)
  | un_typed : forall h l, Forall (unfolds h) l -> unfolds (S h) (CTypedDict l)
  | un_union : forall h l, Forall (unfolds h) l -> unfolds (S h) (CUnion l)
  | un_tagged : forall h d l, Forall (fun kv => unfolds h (snd kv)) l -> unfolds (S h) (CTagged d l)
  | un_call : forall h b l, Forall (unfolds h) l -> unfolds (S h) (CCall b l).
End Unfolds.

(** how deep wrappers are nested in an annotation *)
Fixpoint wrap_depth (i : einfo) : nat :=
  S (match ei_wrapped i with Some w => wrap_depth w | None => 0 end).

Definition maybe_wrap_depth (i : option einfo) : nat :=
  match i with Some i => wrap_depth i | None => 0 end.

(** the core schema of a class: a model, behind validators or references, below the definitions *)
Definition class_schema (s : cschema) (ds : list (string * cschema)) (s0 : cschema) : Prop :=
  (s = s0 /\ ds = []) \/ s = CDefinitions ds s0.

Definition field_schema (f : cfield) : cschema := match f with CField _ _ _ s => s end.

(** the schemas of the fields of a class, with their annotations *)
Definition class_parts (k : cls_info) (root : bool) (body : cschema)
    (parts : list (cschema * option einfo)) : Prop :=
  if root then parts = [(body, extract_info (ci_meta k "root"))]
  else exists fs cs, fields_behind body fs cs /\
    parts = map (fun nf => (field_schema (snd nf), extract_info (ci_meta k (fst nf)))) (xml_fields k fs) ++
            map (fun cf => (snd (snd cf), ci_computed k (fst cf))) cs.

(** [part_of encl i s encl' i' s']: [s'], annotated [i'] and enclosed by the scopes [encl'], is the
    field [s] itself or what lies in it below wrappers, collections, tuples and unions *)
Inductive part_of : list scope -> option einfo -> ser -> list scope -> option einfo -> ser -> Prop :=
| po_here : forall encl i s, part_of encl i s encl i s
| po_wrap : forall encl i p m md c s encl' i' s',
    part_of (scope_of i :: encl) (says_wrapped i) s encl' i' s' ->
    part_of encl i (SWrap p m md c s) encl' i' s'
| po_homo : forall encl i t c s h encl' i' s',
    part_of encl i s encl' i' s' -> part_of encl i (SHomo t c s h) encl' i' s'
| po_hetero : forall encl i t c l h s encl' i' s', In s l ->
    part_of encl i s encl' i' s' -> part_of encl i (SHetero t c l h) encl' i' s'
| po_union : forall encl i c s encl' i' s',
    part_of encl i s encl' i' s' -> part_of encl i (SUnionPrim c s) encl' i' s'
| po_models : forall encl i t c vs h p, In p vs ->
    part_of encl i (SUnionModel t c vs h) encl i (SProxy p)
| po_tagged : forall encl i c d a vs md t p, In (t, p) vs ->
    part_of encl i (STagged c d a vs md) encl i (SProxy p).

(** every attribute, element, wrapper and sub-model has a name *)
Inductive named : ser -> Prop :=
| nm_text : forall c n, named (SText c n)
| nm_attr : forall n c, n <> "" -> named (SAttr n c)
| nm_elem : forall n m md c ni, n <> "" -> named (SElem n m md c ni)
| nm_attrs : forall a, named (SAttrs a)
| nm_map : forall n md a, n <> "" -> named (SMapElem n md a)
| nm_homo : forall t c s h, named s -> named (SHomo t c s h)
| nm_hetero : forall t c l h, Forall named l -> named (SHetero t c l h)
| nm_union : forall c s, named s -> named (SUnionPrim c s)
| nm_models : forall t c vs h, vs <> [] -> Forall (fun p => px_name p <> "") vs ->
    named (SUnionModel t c vs h)
| nm_tagged : forall c d a vs md, vs <> [] -> Forall (fun kv => px_name (snd kv) <> "") vs ->
    named (STagged c d a vs md)
| nm_wrap : forall p m md c s, p <> [] -> Forall (fun n => n <> "") p -> named s ->
    named (SWrap p m md c s)
| nm_raw : forall n md c, n <> "" -> named (SRaw n md c)
| nm_model : forall p, px_name p <> "" -> named (SProxy p).

(** no wrapper path with an empty component, such as '' or 'a//b' *)
Fixpoint full_paths (i : einfo) : Prop :=
  (forall path, ei_location i = Some LocWrapped -> ei_path i = Some path ->
     ~ In "" (py_split "/"%char path)) /\
  match ei_wrapped i with Some w => full_paths w | None => True end.

Definition maybe_full_paths (i : option einfo) : Prop :=
  match i with Some i => full_paths i | None => True end.

(** every class of [ev] is one the builder made: its core schema is supported and finite, and its
    user validators return and keep the read position inside the document *)
Definition built_env (T : xtag -> Prop) (U : string -> Prop) (cl : classes) (ev : env) : Prop :=
  (forall cls, cl cls <> None -> en_model ev cls <> None) /\
  forall cls m, en_model ev cls = Some m ->
    exists n k b forbid skip cser cval validate ds s s0 root body parts,
      cl cls = Some k /\ class_schema s ds s0 /\ stands_for (dict_of ds) s0 (CModel cls root body) /\
      supported cl ev (dict_of ds) s0 /\
      (forall r t, dget r (dict_of ds) = Some t -> supported cl ev (dict_of ds) t) /\
      class_parts k root body parts /\
      Forall (fun p => supported cl ev (dict_of ds) (fst p) /\ maybe_paths_ok (snd p)) parts /\
      (if root then maybe_info_ok (extract_info (ci_meta k "root"))
       else forall fs cs, fields_behind body fs cs -> fields_ok k fs cs) /\
      build_class cl ev n k s = Ok b /\
      m = mdef_of b (ci_name k) forbid skip cser cval validate /\
      (forall name f, cval name = Some f -> good_custom T U f /\ only_reads f) /\
      (forall input what, validate input = Crashed what -> U what).
