(** PropBuild.v -- how classes become serializers: C18, C19, C46. *)

From Verif Require Import Base Elem Native Errs Names Fields Ser Read Api SpecNames SpecRead Build SpecBuild
  Samples PfFuel PfTerm PfSafe PfBuild PfBuild2 PfBuild3 PfBuild4 PfBuild5 PropRead.

(** C18.  Every field of a class that is defined successfully is served under the first name present:
    explicit tag (or attribute name), alias, field name for attributes, elements, mappings and raw
    elements; explicit tag, the model's tag, alias, field name, class name for sub-models; each
    part of a wrapper path for wrappers.  ([declared] says so for each kind of field.)  The
    fields come in the order of the class, those excluded from XML left out, the computed fields
    last; the class itself is named by its tag, else its class name. *)
Theorem C18_class_names : forall cl ev, classes_ok cl -> forall n k s b cls body fs cs,
  build_class cl ev n k s = Ok b -> stands_for [] s (CModel cls false body) -> cl cls = Some k ->
  fields_behind body fs cs -> fields_ok k fs cs ->
  exists own comp,
    bm_fields b = own ++ comp /\
    Forall2 (field_declared cl k (bm_hide b)) (xml_fields k fs) own /\
    Forall2 (computed_declared cl k (bm_hide b)) cs comp /\
    class_element k (bm_elem_name b) /\ bm_nsmap b = c_nsmap (ci_params k) /\
    bm_cls b = cls /\ bm_root b = false /\
    bm_valias b = flat_map field_valias (xml_fields k fs) /\
    bm_sexclude b = rev (map fst (filter field_excluded (xml_fields k fs))) /\
    bm_hide b = default false (ci_hide k).
Proof. exact class_built. Qed.

(** the one field of a root model has no name of its own to fall back to *)
Theorem C18_root_model_names : forall cl ev, classes_ok cl -> forall n k s b cls body,
  build_class cl ev n k s = Ok b -> stands_for [] s (CModel cls true body) -> cl cls = Some k ->
  maybe_info_ok (extract_info (ci_meta k "root")) ->
  exists r, bm_fields b = [("root", r)] /\
    declared cl (field_ambient k (bm_hide b) None None false) [class_scope k]
      (extract_info (ci_meta k "root")) r /\
    class_element k (bm_elem_name b) /\ bm_nsmap b = c_nsmap (ci_params k) /\
    bm_cls b = cls /\ bm_root b = true /\ bm_hide b = default false (ci_hide k).
Proof. exact root_built. Qed.

(** a name is chosen in one way only, and it is never empty *)
Theorem C18_choice_is_unique : forall cands t t', picks cands t -> picks cands t' -> t = t' /\ t <> "".
Proof.
  intros cands t t' (pre & post & E & N & F) (pre' & post' & E' & N' & F'). split; auto.
  subst cands. revert pre' E' F'. induction F as [|o pre Ho F IH]; intros [|o' pre'] E' F'; simpl in E'.
  - injection E'; auto.
  - injection E' as <- _. inversion F' as [|x y [H|H] F2]; subst; congruence.
  - injection E' as -> _. destruct Ho as [H|H]; congruence.
  - injection E' as _ E'. inversion F'; subst. eauto.
Qed.

(** C19.  Whatever lies in a field below any number of wrappers, collections and unions: an
    element's namespace is that of its own alias, else of the nearest enclosing wrapper or class
    having one; an alias is looked up in the element's own map, then in the enclosing maps. *)
Theorem C19_element_namespace : forall cl ev k i0 s0, classes_ok cl -> field_of cl ev k i0 s0 ->
  forall encl i name m md c ni,
  part_of [class_scope k] i0 s0 encl i (SElem name m md c ni) ->
  exists t a u, name = clark u t /\ t <> "" /\
    is_first (fun o => o) (says_ns i :: map sc_ns encl) a /\
    resolves_in (says_nsmap i :: rev (map sc_map encl)) false a u.
Proof.
  intros cl ev k i0 s0 Hcl D encl i name m md c ni P. apply field_of_declared in D as (hide & nm & al & cp & D); auto.
  eapply part_declared in P; eauto. inversion P; subst.
  match goal with H : element_name _ _ _ _ |- _ => destruct H as (a & u & F & R & E) end.
  exists t, a, u. repeat split; auto. eapply picks_named; eauto.
Qed.

(** attributes: only their own alias counts unless the class has ns_attrs; never the default
    namespace *)
Theorem C19_attribute_namespace : forall cl ev k i0 s0, classes_ok cl -> field_of cl ev k i0 s0 ->
  forall encl i name c,
  part_of [class_scope k] i0 s0 encl i (SAttr name c) ->
  exists t a u, name = clark u t /\ t <> "" /\
    is_first (fun o => o) (says_ns i :: if c_ns_attrs (ci_params k) then map sc_ns encl else []) a /\
    (a = None -> u = None) /\ a <> Some "" /\
    resolves_in (says_nsmap i :: rev (map sc_map encl)) true a u.
Proof.
  intros cl ev k i0 s0 Hcl D encl i name c P. apply field_of_declared in D as (hide & nm & al & cp & D); auto.
  eapply part_declared in P; eauto. inversion P; subst.
  match goal with H : attribute_name _ _ _ _ _ |- _ => destruct H as (a & u & F & N & R & E) end.
  exists t, a, u. repeat split; auto.
  - eapply picks_named; eauto.
  - intros ->. inversion R; auto.
Qed.

(** sub-models: the field's alias, then the sub-model's own, then the enclosing ones *)
Theorem C19_submodel_namespace : forall cl ev k i0 s0, classes_ok cl -> field_of cl ev k i0 s0 ->
  forall encl i p,
  part_of [class_scope k] i0 s0 encl i (SProxy p) ->
  exists k' t a u, cl (px_model p) = Some k' /\ px_name p = clark u t /\ t <> "" /\
    is_first (fun o => o) (says_ns i :: c_ns (ci_params k') :: map sc_ns encl) a /\
    resolves_in (says_nsmap i :: c_nsmap (ci_params k') :: rev (map sc_map encl)) false a u.
Proof.
  intros cl ev k i0 s0 Hcl D encl i p P. apply field_of_declared in D as (hide & nm & al & cp & D); auto.
  eapply part_declared in P; eauto. inversion P; subst.
  match goal with H : submodel_of _ _ _ _ _ |- _ =>
    destruct H as (k' & t & a & u & K & Pk & F & R & E & _) end.
  exists k', t, a, u. repeat split; auto. eapply picks_named; eauto.
Qed.

(** wrappers: every part of the path *)
Theorem C19_wrapper_namespace : forall cl ev k i0 s0, classes_ok cl -> field_of cl ev k i0 s0 ->
  forall encl i names m md c s,
  part_of [class_scope k] i0 s0 encl i (SWrap names m md c s) ->
  exists path, says_path i = Some path /\
    Forall2 (fun t name => exists a u, name = clark u t /\
               is_first (fun o => o) (says_ns i :: map sc_ns encl) a /\
               resolves_in (says_nsmap i :: rev (map sc_map encl)) false a u)
      (py_split "/"%char path) names.
Proof.
  intros cl ev k i0 s0 Hcl D encl i names m md c s' P. apply field_of_declared in D as (hide & nm & al & cp & D); auto.
  eapply part_declared in P; eauto. inversion P; subst.
  exists path. split; auto.
  match goal with H : Forall2 _ _ _ |- _ => clear - H; induction H as [|x y l l' (a & u & F & R & E) H IH] end;
    constructor; eauto 10.
Qed.

(** A nearer wrapper does not win over the class when both bind the same prefix. *)
Definition shadow_info : cls_info :=
  ClsInfo "Shadow" (CParams (Some "shadow") None (Some [("p", "urn:outer")]) false None Strict)
    (fun _ => wrapped "w" (Some (element (Some "e") (Some "p") None None)) None (Some [("p", "urn:inner")]))
    (fun _ => None) None.
Definition shadow_schema : cschema :=
  CModel "Shadow" false (CFields [("f", CField false None None (CType "str"))] []).

Theorem C19_nearest_map_refuted : exists b name m1 m2 md,
  build_class (fun _ => Some shadow_info) (Env Lxml (fun _ => None)) 9 shadow_info shadow_schema = Ok b /\
  bm_fields b = [("f", SWrap ["w"] (Some m1) md false (SElem name (Some m2) md false false))] /\
  dget "p" m1 = Some "urn:inner" /\ name = "{urn:outer}e".
Proof. do 5 eexists. repeat split; vm_compute; reflexivity. Qed.

(** C46.  Defining a class with a core schema of the supported kinds fails only with the errors
    meant for it: ModelError, ModelFieldError or TypeError. *)
Theorem C46_definition_errors_only : forall cl ev ds n k s s0 cls root body parts x,
  cl cls = Some k ->
  (forall r t, dget r (dict_of ds) = Some t -> supported cl ev (dict_of ds) t) ->
  supported cl ev (dict_of ds) s0 -> class_schema s ds s0 ->
  stands_for (dict_of ds) s0 (CModel cls root body) -> class_parts k root body parts ->
  Forall (fun p => supported cl ev (dict_of ds) (fst p) /\ maybe_paths_ok (snd p)) parts ->
  build_class cl ev n k s = Raise x -> definition_error x.
Proof.
  intros cl ev ds n k s s0 cls root body parts x K HD Hs C S P F E.
  pose proof (class_fine n K HD Hs C S P F) as G. rewrite E in G. exact G.
Qed.

(** ... and it ends, provided no reference leads back to itself without passing through a model *)
Theorem C46_definition_terminates : forall cl ev ds k s s0 h cls root body parts,
  cl cls = Some k -> unfolds (dict_of ds) h s0 -> class_schema s ds s0 ->
  stands_for (dict_of ds) s0 (CModel cls root body) -> class_parts k root body parts ->
  Forall (fun p => exists h, unfolds (dict_of ds) h (fst p)) parts ->
  exists n o, o <> Fuel /\ forall n', n <= n' -> build_class cl ev n' k s = o.
Proof.
  intros cl ev ds k s s0 h cls root body parts K Hs C S P F.
  assert (B : exists n, h < n /\
    Forall (fun p => exists h, unfolds (dict_of ds) h (fst p) /\ h + maybe_wrap_depth (snd p) < n) parts).
  { clear - F. induction F as [|p l (hp & Hp) F (n & L & IH)]; [exists (Datatypes.S h); split; auto|].
    exists (Datatypes.S (n + hp + maybe_wrap_depth (snd p))). split; [lia|]. constructor.
    - exists hp. split; auto. lia.
    - eapply Forall_impl; [|exact IH]. simpl. intros q (hq & Hq & Lq). exists hq. split; auto. lia. }
  destruct B as (n & L & F'). exists n, (build_class cl ev n k s).
  assert (N : build_class cl ev n k s <> Fuel) by (eapply class_ends; eauto).
  split; auto. intros n' Ln. apply build_class_stable; auto.
Qed.

(** Everything in a field has a name, unless a wrapper path has an empty component. *)
Theorem C46_everything_named : forall cl am encl i s, declared cl am encl i s ->
  maybe_full_paths i -> named s.
Proof. intros cl am encl i s. apply declared_named. Qed.

(** A field declared as attribute is a primitive or a union of primitives, read from one attribute. *)
Theorem C46_attributes_are_primitive : forall cl am encl i s, declared cl am encl i s ->
  says_loc i = Some LocAttribute ->
  (exists name c, s = SAttr name c) \/ (exists c s', s = SUnionPrim c s' /\ declared cl am encl i s').
Proof. intros cl am encl i s. apply declared_attribute. Qed.

(** An attribute has no namespace, or that of a prefix: never the default namespace, whatever the maps
    around it say. *)
Theorem C46_attributes_no_default : forall cl am encl i name c, declared cl am encl i (SAttr name c) ->
  exists t, picks [says_path i; am_alias am; am_field am] t /\
    (name = t \/ exists p u, p <> "" /\ first_of (says p) (says_nsmap i :: rev (map sc_map encl)) u /\ name = clark (Some u) t).
Proof.
  intros cl am encl i name c D. inversion D; subst.
  match goal with H : own_name _ _ ?t, A : attribute_name _ _ _ _ _ |- _ =>
    exists t; split; [exact H|]; destruct A as (ns & u & F & N & R & ->) end.
  inversion R; subst; try (left; reflexivity).
  right. do 2 eexists. split; [|split; [eassumption|reflexivity]]. intros ->. apply N; reflexivity.
Qed.

(** Collections and tuples hold elements, sub-models, mappings, or collections and unions of them,
    but never the text or the attributes of the element they belong to (a union of primitives
    without element name being the one exception). *)
Theorem C46_collections_hold_elements : forall cl ev ds n k s s0 cls root body parts b,
  cl cls = Some k ->
  (forall r t, dget r (dict_of ds) = Some t -> supported cl ev (dict_of ds) t) ->
  supported cl ev (dict_of ds) s0 -> class_schema s ds s0 ->
  stands_for (dict_of ds) s0 (CModel cls root body) -> class_parts k root body parts ->
  Forall (fun p => supported cl ev (dict_of ds) (fst p) /\ maybe_paths_ok (snd p)) parts ->
  build_class cl ev n k s = Ok b -> Forall (fun nf => solid (snd nf)) (bm_fields b).
Proof.
  intros cl ev ds n k s s0 cls root body parts b K HD Hs C S P F E.
  pose proof (class_fine n K HD Hs C S P F) as G. rewrite E in G. exact G.
Qed.

(** From the class definitions to reading: classes the builder accepted read every document with
    the documented errors only, and from_xml ends on every document. *)
Theorem C46_built_classes_read : forall U cl ev, classes_ok cl -> built_env named_tag U cl ev ->
  forall cls root, en_model ev cls <> None ->
  (no_pi root -> forall n eas x, from_xml_tree n ev cls root eas = Raise x ->
     (x = XParsing /\ exists m, en_model ev cls = Some m /\ native_tag root <> TName (md_elem_name m)) \/
     (exists err, x = XValidation err) \/ (exists what, x = XUser what /\ U what)) /\
  (exists n o, o <> Fuel /\ forall n', n <= n' -> from_xml_tree n' ev cls root false = o).
Proof.
  intros U cl ev Hcl Hev cls root K. split.
  - intros NP n eas x E. pose proof (@C06_documented_errors U ev (built_wf Hcl Hev) n cls root eas K NP) as G.
    rewrite E in G. exact G.
  - apply C07_from_xml_terminates. eapply built_lists; eauto. discriminate.
Qed.

(** What the builder lets through or does not report as a definition error: *)

(** a union of nothing but arbitrary classes fails with a bare AssertionError *)
Definition plain_info (m : list meta) : cls_info :=
  ClsInfo "M" (CParams None None None false None Strict) (fun _ => m) (fun _ => None) None.
Definition one_field (s : cschema) : cschema := CModel "M" false (CFields [("f", CField false None None s)] []).

Theorem C46_arbitrary_union_refuted : exists k s,
  build_class (fun _ => Some k) (Env Lxml (fun _ => None)) 9 k s = Raise XAssertion.
Proof.
  exists (plain_info (element None None None None)), (one_field (CUnion [CIsInstance false; CIsInstance false])).
  vm_compute. reflexivity.
Qed.

(** a field whose type has a plain validator function fails with a KeyError *)
Theorem C46_plain_validator_refuted : exists k s,
  build_class (fun _ => Some k) (Env Lxml (fun _ => None)) 9 k s = Raise XKeyError.
Proof.
  exists (plain_info (element None None None None)), (one_field (CPlain None)). vm_compute. reflexivity.
Qed.

(** wrapped('a//b') is accepted and gives a wrapper element without a name *)
Theorem C46_empty_path_refuted : exists k s b,
  build_class (fun _ => Some k) (Env Lxml (fun _ => None)) 9 k s = Ok b /\
  ~ Forall (fun nf => named (snd nf)) (bm_fields b).
Proof.
  exists (plain_info (wrapped "a//b" None None None)), (one_field (CType "str")). eexists.
  split; [vm_compute; reflexivity|]. simpl. intros F. inversion F as [|x y N F']; subst.
  inversion N as [| | | | | | | | | |p mm md c s Np Fp Ns| |]; subst.
  inversion Fp as [|? ? ? G]; subst. inversion G; subst. congruence.
Qed.

(** a NamedTuple that refers to itself: the builder follows the reference for ever *)
Definition loop_tuple : cschema := CCall true [CType "int"; CMeta MNullable (CRef "T")].
Definition loop_defs : list (string * cschema) := [("T", loop_tuple)].
Definition loop_schema : cschema := CDefinitions loop_defs (one_field (CRef "T")).

Theorem C46_recursive_tuple_refuted :
  let k := plain_info (element None None None None) in
  forall n, build_class (fun _ => Some k) (Env Lxml (fun _ => None)) n k loop_schema = Fuel.
Proof.
  intros k.
  set (cl := fun _ : string => Some k). set (ev := Env Lxml (fun _ => None)).
  pose (fit := fun c => cx_defs c = dict_of loop_defs /\ cx_location c = Some LocElement /\
                        exists e, build_elem c = Ok e).
  assert (BE : forall c, build_elem (replace_optional c) = build_elem c) by (intros []; reflexivity).
  assert (FO : forall c, fit c -> fit (replace_optional c)).
  { intros c (A & B & C). split; [exact A|split; [exact B|rewrite BE; exact C]]. }
  assert (PR : forall n c, fit c -> preprocess n (CRef "T") c = Fuel \/ preprocess n (CRef "T") c = Ok (loop_tuple, c)).
  { intros [|n] c (A & _); [left; reflexivity|]. cbn [preprocess]. rewrite A. cbn.
    destruct n; [left; reflexivity|]. right. reflexivity. }
  assert (PM : forall n c, fit c -> preprocess n (CMeta MNullable (CRef "T")) c = Fuel \/
    preprocess n (CMeta MNullable (CRef "T")) c = Ok (loop_tuple, replace_optional c)).
  { intros [|n] c F; [left; reflexivity|]. cbn [preprocess]. apply PR; auto. }
  assert (PI : forall n c, preprocess n (CType "int") c = Fuel \/ preprocess n (CType "int") c = Ok (CType "int", c)).
  { intros [|n] c; [left; reflexivity|]. right. reflexivity. }
  assert (SE : forall n c, fit c ->
    (forall d, fit d -> parse cl ev n (CMeta MNullable (CRef "T")) d = Fuel) ->
    select cl ev (parse cl ev n) n loop_tuple c = Fuel).
  { intros n c F H. unfold select, loop_tuple. cbn [family_of]. destruct F as (A & B & C). rewrite B.
    assert (F : fit c) by (repeat split; auto).
    cbn [build_call]. unfold build_hetero. cbn [check_items].
    destruct (PI n c) as [->| ->]; [reflexivity|]. cbn [obind].
    replace (negb (in_families (CType "int") [FPrim; FModel; FMapping; FTyped; FUnion; FTagged; FIsInstance; FCall]))
      with false by reflexivity.
    rewrite B, andb_false_r.
    destruct (PM n c F) as [->| ->]; [reflexivity|]. cbn [obind].
    replace (negb (in_families loop_tuple [FPrim; FModel; FMapping; FTyped; FUnion; FTagged; FIsInstance; FCall]))
      with false by reflexivity.
    change (cx_location (replace_optional c)) with (cx_location c). rewrite B, andb_false_r.
    cbn [negb obind omap]. change (cx_location (replace_optional c)) with (cx_location c). rewrite B.
    assert (PE : parse cl ev n (CType "int") (replace_optional c) = Fuel \/
                 exists e, parse cl ev n (CType "int") (replace_optional c) = Ok e).
    { destruct n as [|n]; [left; reflexivity|]. cbn [parse].
      destruct (PI n (replace_optional c)) as [->| ->]; [left; reflexivity|]. right. cbn [obind].
      unfold select. change (family_of (CType "int")) with (Some FPrim). cbv iota.
      change (cx_location (replace_optional c)) with (cx_location c). rewrite B.
      unfold build_prim. change (cx_location (replace_optional c)) with (cx_location c). rewrite B.
      rewrite BE. exact C. }
    destruct PE as [->|[e ->]]; [reflexivity|]. cbn [obind].
    rewrite (H _ (FO _ F)). reflexivity. }
  assert (P : forall n c, fit c ->
    parse cl ev n (CRef "T") c = Fuel /\ parse cl ev n (CMeta MNullable (CRef "T")) c = Fuel).
  { induction n as [|n IH]; intros c F; [split; reflexivity|]. cbn [parse]. split.
    - destruct (PR n c F) as [->| ->]; [reflexivity|]. cbn [obind]. apply SE; auto. intros d Fd. apply IH; auto.
    - destruct (PM n c F) as [->| ->]; [reflexivity|]. cbn [obind]. apply SE; auto. intros d Fd. apply IH; auto. }
  intros [|n]; [reflexivity|]. unfold build_class, loop_schema. cbn [preprocess].
  destruct n as [|n]; [reflexivity|]. cbn [preprocess one_field family_of obind].
  unfold build_model. change (cl "M") with (Some k). cbn [skip_before build_fields].
  change (existsb is_noxml (ci_meta k "f")) with false. cbv iota zeta.
  match goal with |- context [parse _ _ ?n ?s ?c] => assert (F : fit c) end.
  { split; [reflexivity|split; [reflexivity|]]. eexists. vm_compute. reflexivity. }
  rewrite (proj1 (P _ _ F)). reflexivity.
Qed.

(** ---- a concrete case ---- *)

(** class Address(BaseXmlModel, tag='address', ns='a', nsmap={'a': 'urn:a'}): ...
    class Person(BaseXmlModel, nsmap={'': 'urn:d', 'p': 'urn:p'}):
        id: int = attr(ns='p')
        name: Optional[str] = element(default=None, alias='fullName')
        home: Address
        other: Union[Address, Address] = element(tag='other')
        tags: List[str] = wrapped('meta/tags', element(tag='tag', ns='p'))
        friend: Optional['Person']
        secret: int = Field(exclude=True)        # excluded from XML
        @computed_element def size(self) -> int *)
Definition address_info : cls_info :=
  ClsInfo "Address" (CParams (Some "address") (Some "a") (Some [("a", "urn:a")]) false None Strict)
    (fun _ => []) (fun _ => None) None.
Definition person_meta (f : string) : list meta :=
  if String.eqb f "id" then attr None (Some "p")
  else if String.eqb f "name" then element None None None None
  else if String.eqb f "other" then element (Some "other") None None None
  else if String.eqb f "tags" then wrapped "meta/tags" (Some (element (Some "tag") (Some "p") None None)) None None
  else if String.eqb f "secret" then [MetaNoXml]
  else [].
Definition person_info : cls_info :=
  ClsInfo "Person" (CParams None None (Some [("", "urn:d"); ("p", "urn:p")]) false None Strict)
    person_meta (fun _ => Some (EInfo (Some LocElement) None None None None None)) (Some true).
Definition people : classes := fun c =>
  if String.eqb c "Person" then Some person_info
  else if String.eqb c "Address" then Some address_info else None.
Definition address_schema : cschema := CModel "Address" false (CFields [("city", CField false None None (CType "str"))] []).
Definition person_fields : list (string * cfield) :=
  [("id", CField false None None (CType "int"));
   ("name", CField false (Some "fullName") (Some "fullName") (CMeta MDefault (CMeta MNullable (CType "str"))));
   ("home", CField false None None address_schema);
   ("other", CField true None None (CUnion [address_schema; address_schema]));
   ("tags", CField false None None (CList (CType "str")));
   ("friend", CField false None None (CMeta MNullable (CRef "Person")));
   ("secret", CField false None None (CType "int"))].
Definition person_computed : list (string * (option string * cschema)) := [("size", (None, CType "int"))].
Definition person_body : cschema := CMeta MBefore (CFields person_fields person_computed).
Definition person_defs : list (string * cschema) := [("Person", CMeta MAfter (CModel "Person" false person_body))].
Definition person_schema : cschema := CDefinitions person_defs (CRef "Person").
Definition no_env : env := Env Lxml (fun _ => None).

Example person_built : exists b, build_class people no_env 20 person_info person_schema = Ok b /\
  bm_elem_name b = "{urn:d}Person" /\ bm_valias b = [("name", "fullName")] /\ bm_sexclude b = ["other"] /\
  map (fun nf => (fst nf, match snd nf with
                          | SAttr n _ => [n] | SElem n _ _ _ _ => [n] | SProxy p => [px_name p; px_model p]
                          | SUnionModel _ _ vs _ => map px_name vs
                          | SWrap p _ _ _ (SHomo _ _ (SElem n _ _ _ _) _) => p ++ [n]
                          | _ => [] end)) (bm_fields b) =
  [("id", ["{urn:p}id"]); ("name", ["{urn:d}fullName"]); ("home", ["{urn:a}address"; "Address"]);
   ("other", ["{urn:a}other"; "{urn:a}other"]); ("tags", ["{urn:d}meta"; "{urn:d}tags"; "{urn:p}tag"]);
   ("friend", ["{urn:d}friend"; "Person"]); ("size", ["{urn:d}size"])].
Proof. eexists. repeat split; vm_compute; reflexivity. Qed.

Lemma people_ok : classes_ok people.
Proof.
  intros cls k. unfold people. destruct (String.eqb cls "Person").
  - intros E; injection E as <-. split; [discriminate|]. simpl. repeat constructor; simpl; intuition congruence.
  - destruct (String.eqb cls "Address"); [|discriminate]. intros E; injection E as <-. split; [discriminate|].
    simpl. repeat constructor; simpl; intuition congruence.
Qed.

Example person_stands : stands_for [] person_schema (CModel "Person" false person_body).
Proof.
  apply sf_defs. eapply sf_ref; [reflexivity|]. apply sf_meta. eapply sf_here; [reflexivity|].
  simpl. intuition congruence.
Qed.

Example person_fields_behind : fields_behind person_body person_fields person_computed.
Proof. repeat constructor. Qed.

Example person_fields_ok : fields_ok person_info person_fields person_computed.
Proof.
  split; [|split].
  - repeat constructor; simpl; intuition congruence.
  - repeat constructor; simpl; try congruence; auto.
  - repeat constructor; simpl; try congruence; auto.
Qed.

(** C19 applies to the wrapped field "tags" and to the computed field "size" *)
Definition person_model : bmodel := Eval vm_compute in
  match build_class people no_env 20 person_info person_schema with
  | Ok b => b
  | _ => BModel "" false "" None [] [] [] false
  end.
Definition tags_map : nsmap := [("", "urn:d"); ("p", "urn:p")].
Definition tags_elem : ser := SElem "{urn:p}tag" (Some tags_map) Strict false false.
Definition tags_ser : ser :=
  SWrap ["{urn:d}meta"; "{urn:d}tags"] (Some tags_map) Strict false (SHomo "Person" false tags_elem true).

Lemma person_model_built : build_class people no_env 20 person_info person_schema = Ok person_model.
Proof. vm_compute. reflexivity. Qed.

Example person_tags : field_of people no_env person_info (extract_info (person_meta "tags")) tags_ser /\
  exists encl i, part_of [class_scope person_info] (extract_info (person_meta "tags")) tags_ser encl i tags_elem /\
    length encl = 2.
Proof.
  split.
  - exact (@fo_own _ _ _ 20 _ _ _ _ _ _ 4 "tags" _ _ person_model_built person_stands eq_refl person_fields_behind person_fields_ok
             eq_refl eq_refl).
  - do 2 eexists. split; [apply po_wrap, po_homo, po_here|reflexivity].
Qed.

Example person_size : exists s, field_of people no_env person_info (ci_computed person_info "size") s.
Proof.
  eexists. exact (@fo_computed _ _ _ 20 _ _ _ _ _ _ 0 "size" _ _ person_model_built person_stands eq_refl person_fields_behind
    person_fields_ok eq_refl eq_refl).
Qed.

Lemma person_supported : forall s, In s (map (fun nf => field_schema (snd nf)) person_fields) \/ s = CType "int" \/
  s = CRef "Person" \/ s = CMeta MAfter (CModel "Person" false person_body) ->
  supported people no_env (dict_of person_defs) s.
Proof.
  assert (A : supported people no_env (dict_of person_defs) address_schema) by (constructor; discriminate).
  assert (O : ordinary (dict_of person_defs) address_schema).
  { intros t H. inversion H; subst; exact I. }
  simpl. intros s H. decompose [or] H; subst; try contradiction; repeat (constructor; auto); discriminate.
Qed.

Example person_meets_C46 : exists parts,
  people "Person" = Some person_info /\
  (forall r t, dget r (dict_of person_defs) = Some t -> supported people no_env (dict_of person_defs) t) /\
  supported people no_env (dict_of person_defs) (CRef "Person") /\
  class_schema person_schema person_defs (CRef "Person") /\
  stands_for (dict_of person_defs) (CRef "Person") (CModel "Person" false person_body) /\
  class_parts person_info false person_body parts /\
  Forall (fun p => supported people no_env (dict_of person_defs) (fst p) /\ maybe_paths_ok (snd p)) parts /\
  unfolds (dict_of person_defs) 3 (CRef "Person") /\
  Forall (fun p => exists h, unfolds (dict_of person_defs) h (fst p)) parts.
Proof.
  eexists. split; [reflexivity|]. split; [|split; [|split; [|split; [|split; [|split; [|split]]]]]].
  - intros r t. simpl. destruct (String.eqb r "Person"); [|discriminate]. intros E; injection E as <-.
    apply person_supported. auto.
  - apply person_supported; auto.
  - right; reflexivity.
  - eapply sf_ref; [reflexivity|]. apply sf_meta. eapply sf_here; [reflexivity|]. simpl. intuition congruence.
  - do 2 eexists. split; [apply person_fields_behind | reflexivity].
  - apply Forall_forall. intros p Hp. simpl in Hp. decompose [or] Hp; subst; try contradiction;
      (split; [apply person_supported; simpl; tauto | simpl; repeat split; discriminate]).
  - apply un_ref. intros s E. injection E as <-. repeat constructor.
  - simpl. repeat constructor; exists 6; repeat constructor; simpl; intros s E; injection E as <-; repeat constructor.
Qed.

(** class Item(BaseXmlModel): price: int = attr(); parts: List['Item'] = element(tag='item') -- built,
    and then used to read *)
Definition item_info : cls_info :=
  ClsInfo "Item" (CParams (Some "item") None None false None Strict)
    (fun f => if String.eqb f "price" then attr None None else element (Some "item") None None None)
    (fun _ => None) None.
Definition item_body : cschema :=
  CFields [("price", CField false None None (CType "int")); ("parts", CField false None None (CList (CRef "Item")))] [].
Definition item_defs : list (string * cschema) := [("Item", CModel "Item" false item_body)].
Definition item_schema : cschema := CDefinitions item_defs (CRef "Item").
Definition items : classes := fun c => if String.eqb c "Item" then Some item_info else None.
Definition item_built : bmodel :=
  match build_class items no_env 20 item_info item_schema with
  | Ok b => b
  | _ => BModel "" false "" None [] [] [] false
  end.
Definition item_env : env :=
  Env Lxml (fun c => if String.eqb c "Item"
                     then Some (mdef_of item_built "Item" false None (fun _ => None) (fun _ => None) (accepts "Item" ["price"]))
                     else None).

Example items_built : classes_ok items /\ built_env named_tag (fun _ => False) items item_env.
Proof.
  assert (M : forall s, s = CRef "Item" \/ s = CModel "Item" false item_body \/ s = CType "int" \/ s = CList (CRef "Item") ->
    supported items item_env (dict_of item_defs) s).
  { intros s H. decompose [or] H; subst; repeat constructor; discriminate. }
  split; [|split].
  - intros cls k. unfold items. destruct (String.eqb cls "Item"); [|discriminate].
    intros E; injection E as <-. split; [discriminate|exact I].
  - intros cls. unfold items, item_env. simpl. destruct (String.eqb cls "Item"); congruence.
  - intros cls m E. unfold item_env in E. cbn [en_model] in E.
    destruct (String.eqb_spec cls "Item") as [->|]; [|discriminate].
    injection E as <-. exists 20, item_info, item_built. do 5 eexists.
    exists item_defs, item_schema, (CRef "Item"), false, item_body. eexists.
    split; [reflexivity|]. split; [right; reflexivity|].
    split; [eapply sf_ref; [reflexivity|]; eapply sf_here; [reflexivity|]; simpl; intuition congruence|].
    split; [apply M; auto|].
    split; [intros r t; simpl; destruct (String.eqb r "Item"); [|discriminate]; intros E; injection E as <-; apply M; auto|].
    split; [do 2 eexists; split; [constructor|reflexivity]|].
    split.
    { apply Forall_forall. intros p Hp. simpl in Hp. decompose [or] Hp; subst; try contradiction;
        (split; [apply M; simpl; tauto | simpl; repeat split; discriminate]). }
    split.
    { intros fs cs H. inversion H; subst. split; [repeat constructor; simpl; intuition congruence|].
      split; repeat constructor; simpl; congruence. }
    split; [vm_compute; reflexivity|]. split; [reflexivity|]. split; [discriminate|]. intros input what. apply accepts_quiet.
Qed.

Example items_read :
  from_xml_tree 20 item_env "Item"
    (el "item" [("price", "1")] "" [el "item" [("price", "2")] "" []; el "item" [("price", "3")] "" []]) false =
  Ok (VModel "Item" [("price", VStr "1");
        ("parts", VList [VModel "Item" [("price", VStr "2")] ["price"]; VModel "Item" [("price", VStr "3")] ["price"]])]
        ["price"; "parts"]).
Proof. vm_compute. reflexivity. Qed.

Print Assumptions C18_class_names.
Print Assumptions C18_root_model_names.
Print Assumptions C18_choice_is_unique.
Print Assumptions C19_element_namespace.
Print Assumptions C19_attribute_namespace.
Print Assumptions C19_submodel_namespace.
Print Assumptions C19_wrapper_namespace.
Print Assumptions C19_nearest_map_refuted.
Print Assumptions C46_definition_errors_only.
Print Assumptions C46_definition_terminates.
Print Assumptions C46_everything_named.
Print Assumptions C46_attributes_are_primitive.
Print Assumptions C46_attributes_no_default.
Print Assumptions C46_collections_hold_elements.
Print Assumptions C46_built_classes_read.
Print Assumptions C46_arbitrary_union_refuted.
Print Assumptions C46_plain_validator_refuted.
Print Assumptions C46_empty_path_refuted.
Print Assumptions C46_recursive_tuple_refuted.
