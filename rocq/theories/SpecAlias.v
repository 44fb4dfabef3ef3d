(** SpecAlias.v -- the same program with other namespace prefixes (C75): [f] gives the new name of every
    prefix.  Every definition below only replaces prefixes; element names, URIs and everything else are kept. *)

From Verif Require Import Base Elem Native Errs Names Fields Ser Build.

(** two prefixes do not become one, and the default namespace stays the default namespace *)
Definition renaming (f : string -> string) : Prop := (forall a b, f a = f b -> a = b) /\ f "" = "".

Definition out_map {A B} (g : A -> B) (o : out A) : out B :=
  match o with Ok x => Ok (g x) | Raise e => Raise e | Fuel => Fuel end.

Section Rename.
  Variable f : string -> string.

  (** ns=... and nsmap={...} *)
  Definition re_ns (ns : option string) : option string := option_map f ns.
  Definition re_map (m : nsmap) : nsmap := map (fun kv => (f (fst kv), snd kv)) m.
  Definition re_nsmap (m : option nsmap) : option nsmap := option_map re_map m.

  (** class statements and their parameters *)
  Definition re_decl (d : cdecl) : cdecl :=
    CDecl (d_tag d) (re_ns (d_ns d)) (re_nsmap (d_nsmap d)) (d_ns_attrs d) (d_skip_empty d) (d_mode d).
  Definition re_params (p : cparams) : cparams :=
    CParams (c_tag p) (re_ns (c_ns p)) (re_nsmap (c_nsmap p)) (c_ns_attrs p) (c_skip_empty p) (c_mode p).

  (** field annotations *)
  Fixpoint re_info (i : einfo) : einfo :=
    match i with
    | EInfo loc path ns m ni w =>
        EInfo loc path (re_ns ns) (re_nsmap m) ni (match w with Some i' => Some (re_info i') | None => None end)
    end.
  Definition re_meta (m : meta) : meta := match m with MetaInfo i => MetaInfo (re_info i) | _ => m end.

  (** a class as the user wrote it *)
  Definition re_class (i : cls_info) : cls_info :=
    ClsInfo (ci_name i) (re_params (ci_params i)) (fun name => map re_meta (ci_meta i name))
      (fun name => option_map re_info (ci_computed i name)) (ci_hide i).
  Definition re_classes (cl : classes) : classes := fun name => option_map re_class (cl name).

  (** the serializers built from it: the namespace maps they carry for the output *)
  Definition re_attrs (a : attrs_ser) : attrs_ser :=
    AttrsSer (re_ns (as_ns a)) (re_nsmap (as_nsmap a)) (as_namespaced a) (as_computed a).
  Definition re_proxy (p : proxy) : proxy :=
    Proxy (px_model p) (px_name p) (re_nsmap (px_nsmap p)) (px_mode p) (px_computed p) (px_nillable p).
  Fixpoint re_ser (s : ser) : ser :=
    match s with
    | SElem n m md c ni => SElem n (re_nsmap m) md c ni
    | SAttrs a => SAttrs (re_attrs a)
    | SMapElem n md a => SMapElem n md (re_attrs a)
    | SHomo t c s h => SHomo t c (re_ser s) h
    | SHetero t c l h => SHetero t c (map re_ser l) h
    | SUnionPrim c s => SUnionPrim c (re_ser s)
    | SUnionModel t c vs h => SUnionModel t c (map re_proxy vs) h
    | STagged c d a vs md => STagged c d a (map (fun kv => (fst kv, re_proxy (snd kv))) vs) md
    | SWrap p m md c s => SWrap p (re_nsmap m) md c (re_ser s)
    | SProxy p => SProxy (re_proxy p)
    | SText _ _ | SAttr _ _ | SRaw _ _ _ => s
    end.
  Definition re_fields (fs : list (string * ser)) : list (string * ser) := map (fun nf => (fst nf, re_ser (snd nf))) fs.
  Definition re_built (b : bmodel) : bmodel :=
    BModel (bm_cls b) (bm_root b) (bm_elem_name b) (re_nsmap (bm_nsmap b)) (re_fields (bm_fields b))
      (bm_valias b) (bm_sexclude b) (bm_hide b).

  (** the classes at run time *)
  Definition re_mdef (m : mdef) : mdef :=
    MDef (md_name m) (md_root m) (md_elem_name m) (re_nsmap (md_nsmap m)) (re_fields (md_fields m)) (md_valias m)
      (md_sexclude m) (md_hide m) (md_forbid m) (md_skip_empty m) (md_cser m) (md_cval m) (md_validate m).
  Definition re_env (ev : env) : env := Env (en_backend ev) (fun cls => option_map re_mdef (en_model ev cls)).

  (** a document: the prefixes its elements declare (None: the default namespace); tags and attribute
      names are qualified names and do not mention prefixes *)
  Fixpoint re_native (n : native) : native :=
    match n with
    | NElem tag decls text tail attrib children line =>
        NElem tag (map (fun du => (option_map f (fst du), snd du)) decls) text tail attrib (map re_native children) line
    | NComment _ _ | NPI _ _ _ _ => n
    end.

  (** an element under construction *)
  Fixpoint re_elem (e : elem) : elem :=
    match e with
    | Elem tag m text tail attrib elements next line =>
        Elem tag (re_nsmap m) text tail attrib (map re_elem elements) next line
    end.
End Rename.

(** user field serializers do not look at the prefixes: given the renamed element, they do the same to it *)
Definition prefixes_ignored (f : string -> string) (ev : env) : Prop :=
  forall cls m name custom, en_model ev cls = Some m -> md_cser m name = Some custom ->
  forall v e x, custom v (re_elem f e) x = out_map (re_elem f) (custom v e x).
