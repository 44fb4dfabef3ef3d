(** SpecMeans.v -- what a field becomes, by its type and its annotation (C62): typing rules that give the
    binding of every declaration that has one.  Independent of the builder: no contexts, no fuel. *)

From Verif Require Import Base Elem Native Errs Names Fields Ser SpecNames SpecRead Build SpecBuild.

(** the types bound to one string: the scalar types and classes pydantic only checks with isinstance *)
Definition scalar_types : list string :=
  ["none"; "bool"; "int"; "float"; "str"; "bytes"; "enum"; "date"; "time"; "datetime"; "timedelta";
   "uuid"; "decimal"; "url"; "multi-host-url"; "json"; "literal"; "lax-or-strict"].
Definition scalar (t : cschema) : Prop := exists ty, t = CType ty /\ In ty scalar_types.
Definition stringlike (t : cschema) : Prop := scalar t \/ t = CIsInstance false.

(** what a list (set, frozenset, variadic tuple) may hold: anything but another list; and without an
    annotation only what has an element of its own *)
Definition list_item (t : cschema) : Prop := match t with CList _ => False | _ => True end.
Definition bare_list_item (t : cschema) : Prop :=
  match t with CModel _ _ _ | CUnion _ | CTagged _ _ | CTuple _ _ | CCall _ _ => True | _ => False end.

(** what a fixed-length or named tuple may hold: no lists and no tuples (named ones apart); and without an
    annotation only models and unions *)
Definition tuple_item (t : cschema) : Prop := match t with CList _ | CTuple _ _ => False | _ => True end.
Definition bare_tuple_item (t : cschema) : Prop := match t with CModel _ _ _ | CUnion _ => True | _ => False end.

Section Means.
  Variable cl : classes.
  Variable ev : env.
  Variable defs : dict cschema.
  Variable am : ambient.

  (** one string: text, attribute or element by the annotation *)
  Inductive string_at : list scope -> option einfo -> ser -> Prop :=
  | sa_text : forall encl i, says_loc i = None -> string_at encl i (SText (am_computed am) (says_nillable i))
  | sa_attr : forall encl i t name, says_loc i = Some LocAttribute -> own_name am i t ->
      attribute_name am encl i t name -> string_at encl i (SAttr name (am_computed am))
  | sa_elem : forall encl i t name m, says_loc i = Some LocElement -> own_name am i t ->
      element_name encl i t name -> same_map m (maps_of [says_nsmap i] encl) ->
      string_at encl i (SElem name m (am_mode am) (am_computed am) (says_nillable i)).

  (** the attributes of the element itself or of an element of its own *)
  Inductive mapping_at : list scope -> option einfo -> ser -> Prop :=
  | ma_attrs : forall encl i a, says_loc i = None -> attributes_of am encl i a -> mapping_at encl i (SAttrs a)
  | ma_elem : forall encl i t name a, says_loc i = Some LocElement -> own_name am i t ->
      element_name encl i t name -> attributes_of am encl i a -> mapping_at encl i (SMapElem name (am_mode am) a).

  (** the element of class [cls] *)
  Definition model_at (encl : list scope) (i : option einfo) (cls : string) (p : proxy) : Prop :=
    at_element_or_bare i /\ px_model p = cls /\ submodel_of cl am encl i p.

  (** a variant of a tagged union: a model, not a root model, in which the field [d] is bound to attribute [a] *)
  Definition variant_at (encl : list scope) (i : option einfo) (d a : string)
      (choice : option string * cschema) (variant : string * proxy) : Prop :=
    fst choice = Some (fst variant) /\
    exists cls body m c, stands_for defs (snd choice) (CModel cls false body) /\ model_at encl i cls (snd variant) /\
      en_model ev cls = Some m /\ md_root m = false /\ dget d (md_fields m) = Some (SAttr a c).

  (** [shape encl i t s]: a field of type [t] (behind no validators, defaults or references) annotated [i]
      inside the scopes [encl] is bound by [s] *)
  Inductive shape : list scope -> option einfo -> cschema -> ser -> Prop :=
  | sh_wrap : forall encl i t path names m s, says_loc i = Some LocWrapped -> says_path i = Some path ->
      Forall2 (element_name encl i) (py_split "/"%char path) names -> same_map m (maps_of [says_nsmap i] encl) ->
      shape (scope_of i :: encl) (says_wrapped i) t s ->
      shape encl i t (SWrap names m (am_mode am) (am_computed am) s)
  | sh_string : forall encl i t s, stringlike t -> string_at encl i s -> shape encl i t s
  | sh_raw : forall encl i t name, at_element_or_bare i -> own_name am i t -> element_name encl i t name ->
      shape encl i (CIsInstance true) (SRaw name (am_mode am) (am_computed am))
  | sh_model : forall encl i cls root body p, model_at encl i cls p -> shape encl i (CModel cls root body) (SProxy p)
  | sh_list : forall encl i item t s, at_element_or_bare i -> stands_for defs item t ->
      list_item t -> (says_loc i = None -> bare_list_item t) -> shape encl i t s ->
      shape encl i (CList item) (SHomo (am_title am) (am_computed am) s (am_hide am))
  | sh_variadic : forall encl i item s, says_loc i <> Some LocWrapped -> shape encl i (CList item) s -> shape encl i (CTuple (Some 0) [item]) s
  | sh_tuple : forall encl i items ts l, at_element_or_bare i -> Forall2 (stands_for defs) items ts ->
      Forall tuple_item ts -> (says_loc i = None -> Forall bare_tuple_item ts) -> Forall2 (shape encl i) ts l ->
      shape encl i (CTuple None items) (SHetero (am_title am) (am_computed am) l (am_hide am))
  | sh_named_tuple : forall encl i items s, says_loc i <> Some LocWrapped -> shape encl i (CTuple None items) s -> shape encl i (CCall true items) s
  | sh_dict : forall encl i k v tk tv s, stands_for defs k tk -> scalar tk -> stands_for defs v tv -> scalar tv ->
      mapping_at encl i s -> shape encl i (CDict k v) s
  | sh_typed : forall encl i vs ts s, Forall2 (stands_for defs) vs ts -> Forall scalar ts ->
      mapping_at encl i s -> shape encl i (CTypedDict vs) s
  | sh_union : forall encl i choices ts s, Forall2 (stands_for defs) choices ts -> Forall stringlike ts ->
      Exists scalar ts -> string_at encl i s -> shape encl i (CUnion choices) (SUnionPrim (am_computed am) s)
  | sh_models : forall encl i choices vs, choices <> [] ->
      Forall2 (fun s p => exists cls root body, stands_for defs s (CModel cls root body) /\ model_at encl i cls p) choices vs ->
      shape encl i (CUnion choices) (SUnionModel (am_title am) (am_computed am) vs (am_hide am))
  | sh_tagged : forall encl i d a choices vs, choices <> [] -> Forall2 (variant_at encl i d a) choices vs ->
      shape encl i (CTagged (Some d) choices) (STagged (am_computed am) d a (dict_of vs) (am_mode am)).

  (** the same for a type behind validators, defaults, Optional and references *)
  Definition means (encl : list scope) (i : option einfo) (s : cschema) (r : ser) : Prop :=
    exists t, stands_for defs s t /\ shape encl i t r.
End Means.

(** no definitions inside: pydantic moves them all to the top of the core schema of a class *)
Inductive flat : cschema -> Prop :=
| fl_type : forall ty, flat (CType ty)
| fl_instance : forall raw, flat (CIsInstance raw)
| fl_model : forall cls root body, flat (CModel cls root body)
| fl_fields : forall fs cs, flat (CFields fs cs)
| fl_meta : forall k s, flat s -> flat (CMeta k s)
| fl_plain : forall o, (forall s, o = Some s -> flat s) -> flat (CPlain o)
| fl_python : forall s, flat s -> flat (CJsonOrPython s)
| fl_ref : forall r, flat (CRef r)
| fl_list : forall s, flat s -> flat (CList s)
| fl_tuple : forall v l, Forall flat l -> flat (CTuple v l)
| fl_dict : forall k v, flat k -> flat v -> flat (CDict k v)
| fl_typed : forall l, Forall flat l -> flat (CTypedDict l)
| fl_union : forall l, Forall flat l -> flat (CUnion l)
| fl_tagged : forall d l, Forall (fun kv => flat (snd kv)) l -> flat (CTagged d l)
| fl_call : forall b l, Forall flat l -> flat (CCall b l).

(** a class: its core schema is the model [s0] below the definitions [ds], and everything is flat *)
Definition flat_class (k : cls_info) (s : cschema) (ds : list (string * cschema)) (s0 : cschema) (root : bool) (body : cschema) : Prop :=
  class_schema s ds s0 /\ flat s0 /\ (forall r t, dget r (dict_of ds) = Some t -> flat t) /\
  forall parts, class_parts k root body parts -> Forall (fun p => flat (fst p)) parts.

(** a field and a computed field of class [k] *)
Definition field_means (cl : classes) (ev : env) (defs : dict cschema) (k : cls_info) (hide : bool)
    (nf : string * cfield) (ns : string * ser) : Prop :=
  fst ns = fst nf /\
  match snd nf with
  | CField _ salias _ s => means cl ev defs (field_ambient k hide (Some (fst nf)) salias false) [class_scope k]
                             (extract_info (ci_meta k (fst nf))) s (snd ns)
  end.

Definition computed_means (cl : classes) (ev : env) (defs : dict cschema) (k : cls_info) (hide : bool)
    (cf : string * (option string * cschema)) (ns : string * ser) : Prop :=
  fst ns = fst cf /\
  means cl ev defs (field_ambient k hide (Some (fst cf)) (fst (snd cf)) true) [class_scope k]
    (ci_computed k (fst cf)) (snd (snd cf)) (snd ns).

(** the bindings of the fields of a model class, in order *)
Definition class_means (cl : classes) (ev : env) (defs : dict cschema) (k : cls_info)
    (fs : list (string * cfield)) (cs : list (string * (option string * cschema))) (bound : list (string * ser)) : Prop :=
  exists own comp, bound = own ++ comp /\
    Forall2 (field_means cl ev defs k (default false (ci_hide k))) (xml_fields k fs) own /\
    Forall2 (computed_means cl ev defs k (default false (ci_hide k))) cs comp.

(** the binding of the one field of a root model *)
Definition root_means (cl : classes) (ev : env) (defs : dict cschema) (k : cls_info) (body : cschema) (r : ser) : Prop :=
  means cl ev defs (field_ambient k (default false (ci_hide k)) None None false) [class_scope k]
    (extract_info (ci_meta k "root")) body r.

(** a binding without the namespace maps it carries (their contents are fixed, the order of their entries is not) *)
Definition unmapped_attrs (a : attrs_ser) : attrs_ser := AttrsSer (as_ns a) None (as_namespaced a) (as_computed a).
Definition unmapped_proxy (p : proxy) : proxy :=
  Proxy (px_model p) (px_name p) None (px_mode p) (px_computed p) (px_nillable p).
Fixpoint unmapped (s : ser) : ser :=
  match s with
  | SElem n _ md c ni => SElem n None md c ni
  | SAttrs a => SAttrs (unmapped_attrs a)
  | SMapElem n md a => SMapElem n md (unmapped_attrs a)
  | SHomo t c s h => SHomo t c (unmapped s) h
  | SHetero t c l h => SHetero t c (map unmapped l) h
  | SUnionPrim c s => SUnionPrim c (unmapped s)
  | SUnionModel t c vs h => SUnionModel t c (map unmapped_proxy vs) h
  | STagged c d a vs md => STagged c d a (map (fun kv => (fst kv, unmapped_proxy (snd kv))) vs) md
  | SWrap p _ md c s => SWrap p None md c (unmapped s)
  | SProxy p => SProxy (unmapped_proxy p)
  | SText _ _ | SAttr _ _ | SRaw _ _ _ => s
  end.
