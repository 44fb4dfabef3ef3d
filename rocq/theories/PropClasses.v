(** PropClasses.v -- C50-C57: class statements, custom field functions, rebuilding, aliases, versions,
    fields kept out of XML, create_model, computed field decorators. *)

From Verif Require Import Base Elem Native Errs Names Fields Ser Build Write Read Api Classes SpecNames SpecBuild
  SpecClasses PfNames PfBuild PfBuild2 PfClasses PfOrder PfDecl PfClasses2 PfClasses3 PropBuild.

(** ---- C50 ---- *)

(** C50.  In any module the XML parameters of a class come from the class statements of its lineage:
    its own, and those of the first of its bases that is an XML model, recursively.  No other base
    has any influence.  ([class_chain] is what C16 is about.) *)
Theorem C50_first_model_base_decides : forall ss w c, define_all builtin_world ss = Some w ->
  params_in w c = match lineage ss c with Some ds => class_chain ds | None => None end.
Proof. exact module_params. Qed.

(** together with C16: every parameter is the one given last along the lineage *)
Theorem C50_last_given_wins : forall ss w c p, define_all builtin_world ss = Some w -> params_in w c = Some p ->
  exists ds, lineage ss c = Some ds /\
    is_last d_tag ds (c_tag p) /\ is_last d_ns ds (c_ns p) /\ is_last d_skip_empty ds (c_skip_empty p) /\
    (exists o, is_last d_ns_attrs ds o /\ c_ns_attrs p = default false o) /\
    (exists o, is_last d_mode ds o /\ c_mode p = default Strict o) /\
    (forall k, (forall d m, In d ds -> d_nsmap d = Some m -> NoDup (dkeys m)) ->
       is_last (fun d => says k (d_nsmap d)) ds (says k (c_nsmap p))).
Proof.
  intros ss w c p H P. rewrite (module_params _ c H) in P.
  destruct (lineage ss c) as [ds|]; [|discriminate]. exists ds. split; auto.
  pose proof (chain_tag ds) as T1. pose proof (chain_ns ds) as T2. pose proof (chain_skip ds) as T3.
  rewrite P in T1, T2, T3. simpl in *. repeat split; auto.
  - exact (chain_ns_attrs ds P).
  - exact (chain_mode ds P).
  - intros k F. pose proof (@chain_nsmap k ds F) as T. rewrite P in T. auto.
Qed.

(** Python's rule for the order of base classes: the order is a linear extension of the orders of
    the bases and of the list of bases, and no class occurs twice *)
Theorem C50_linearisation : forall mros bases r, c3 mros bases = Some r ->
  (forall l, In l mros -> in_order l r) /\ in_order bases r /\
  (forall x, In x r -> In x bases \/ exists l, In l mros /\ In x l) /\ NoDup r.
Proof. exact c3_spec. Qed.

(** it fails only if there is no order of the classes in which all of them appear as they do in the
    orders of the bases and in the list of bases *)
Theorem C50_linearisation_found : forall mros bases,
  (exists r, c3 mros bases = Some r) <->
  (exists r, NoDup r /\ (forall l, In l mros -> in_order l r) /\ in_order bases r).
Proof. exact c3_found. Qed.

Definition tagged_decl (t : string) : cdecl := CDecl (Some t) None None None None None.

(** one would expect a tag given by any base to be used if no base before it gives one: not so, the
    first base has inherited the default (None) and hides it *)
Theorem C50_later_base_tag_refuted : exists w, define_all builtin_world
    [CStmt "A" ["BaseXmlModel"] no_decl; CStmt "B" ["BaseXmlModel"] (tagged_decl "b"); CStmt "C" ["A"; "B"] no_decl]
    = Some w /\ chain_get c_tag (params_in w "C") = None.
Proof. eexists. split; reflexivity. Qed.

(** nor is it the rule for Python class attributes, by which the closer of two ancestors wins: the
    class statement of A copies what it inherits from Base *)
Theorem C50_diamond_refuted : exists w k, define_all builtin_world
    [CStmt "Base" ["BaseXmlModel"] (tagged_decl "x"); CStmt "A" ["Base"] no_decl;
     CStmt "B" ["Base"] (tagged_decl "b"); CStmt "C" ["A"; "B"] no_decl] = Some w /\
  dget "C" w = Some k /\ k_mro k = ["C"; "A"; "B"; "Base"; "BaseXmlModel"; "BaseModel"; "object"] /\
  chain_get c_tag (k_params k) = Some "x".
Proof. do 2 eexists. repeat split; reflexivity. Qed.

(** plain classes and pydantic models in front of the XML models do not matter *)
Example C50_ex_mixins : exists w, define_all builtin_world
    [CStmt "Mixin" ["object"] no_decl; CStmt "Plain" ["BaseModel"] no_decl;
     CStmt "A" ["BaseXmlModel"] (CDecl (Some "a") (Some "p") (Some [("p", "u")]) (Some true) None (Some Ordered));
     CStmt "B" ["BaseXmlModel"] (tagged_decl "b");
     CStmt "C" ["Mixin"; "A"; "Plain"; "B"] (CDecl None None (Some [("q", "v")]) None (Some true) None)] = Some w /\
  params_in w "C" = Some (CParams (Some "a") (Some "p") (Some [("p", "u"); ("q", "v")]) true (Some true) Ordered).
Proof. eexists. split; reflexivity. Qed.

(** no order: the class statement fails, as in Python *)
Example C50_ex_no_order : define_all builtin_world
    [CStmt "A" ["BaseXmlModel"] no_decl; CStmt "B" ["BaseXmlModel"; "A"] no_decl] = None.
Proof. reflexivity. Qed.

(** ---- C51 ---- *)

(** C51.  If a decorated method is the only one naming a field, its function is used, whatever order
    the attributes are visited in, and whatever the annotation says. *)
Theorem C51_method_is_used : forall F (fields : list (string * list (fmeta F))) attrs field na,
  In na attrs ->
  (names_field (@ca_ser F) field na ->
   (forall na', In na' attrs -> names_field (@ca_ser F) field na' -> ca_func (snd na') = ca_func (snd na)) ->
   dget field (fst (collect fields attrs)) = Some (ca_func (snd na))) /\
  (names_field (@ca_val F) field na ->
   (forall na', In na' attrs -> names_field (@ca_val F) field na' -> ca_func (snd na') = ca_func (snd na)) ->
   dget field (snd (collect fields attrs)) = Some (ca_func (snd na))).
Proof.
  intros F fields attrs field na I. split; intros N U; apply marked_same; eauto.
Qed.

(** otherwise the last serializer / validator of the annotation is used ... *)
Theorem C51_annotation_is_used : forall F (fields : list (string * list (fmeta F))) attrs field before f after,
  NoDup (dkeys fields) ->
  (dget field fields = Some (before ++ FmSer f :: after) -> (forall g, ~ In (FmSer g) after) ->
   (forall na, In na attrs -> ~ names_field (@ca_ser F) field na) ->
   dget field (fst (collect fields attrs)) = Some f) /\
  (dget field fields = Some (before ++ FmVal f :: after) -> (forall g, ~ In (FmVal g) after) ->
   (forall na, In na attrs -> ~ names_field (@ca_val F) field na) ->
   dget field (snd (collect fields attrs)) = Some f).
Proof.
  intros F fields attrs field before f after N. unfold collect; cbn [fst snd].
  split; intros D A H; rewrite marked_none by auto; rewrite annotated_fold.
  - assert (L : last_of (@meta_ser F) (before ++ FmSer f :: after) f).
    { clear D. induction before; simpl; [|now constructor 2]. constructor 1; auto. apply Forall_forall. intros [g|g|] I; simpl; auto.
      exfalso; eapply A; eauto. }
    pose proof (@annotated_last F (@meta_ser F) fields field _ [] N D eq_refl) as M. apply (@is_last_last _ _ _ _ _ _ M L).
  - assert (L : last_of (@meta_val F) (before ++ FmVal f :: after) f).
    { clear D. induction before; simpl; [|now constructor 2]. constructor 1; auto. apply Forall_forall. intros [g|g|] I; simpl; auto.
      exfalso; eapply A; eauto. }
    pose proof (@annotated_last F (@meta_val F) fields field _ [] N D eq_refl) as M. apply (@is_last_last _ _ _ _ _ _ M L).
Qed.

(** ... and an annotation without one changes nothing *)
Theorem C51_no_annotation : forall F (fields : list (string * list (fmeta F))) attrs field ms,
  NoDup (dkeys fields) -> dget field fields = Some ms ->
  ((forall g, ~ In (FmSer g) ms) -> (forall na, In na attrs -> ~ names_field (@ca_ser F) field na) ->
   dget field (fst (collect fields attrs)) = None) /\
  ((forall g, ~ In (FmVal g) ms) -> (forall na, In na attrs -> ~ names_field (@ca_val F) field na) ->
   dget field (snd (collect fields attrs)) = None).
Proof.
  intros F fields attrs field ms N D. unfold collect; cbn [fst snd].
  split; intros A H; rewrite marked_none by auto; rewrite annotated_fold.
  - pose proof (@annotated_last F (@meta_ser F) fields field _ [] N D eq_refl) as M. apply (@is_last_none _ _ _ _ _ M).
    apply Forall_forall. intros [g|g|] I; simpl; auto. exfalso; eapply A; eauto.
  - pose proof (@annotated_last F (@meta_val F) fields field _ [] N D eq_refl) as M. apply (@is_last_none _ _ _ _ _ M).
    apply Forall_forall. intros [g|g|] I; simpl; auto. exfalso; eapply A; eauto.
Qed.

(** and a field neither a method nor an annotation speaks about is handled by the library *)
Theorem C51_nothing_else : forall F (fields : list (string * list (fmeta F))) attrs field,
  ~ In field (dkeys fields) ->
  ((forall na, In na attrs -> ~ names_field (@ca_ser F) field na) -> dget field (fst (collect fields attrs)) = None) /\
  ((forall na, In na attrs -> ~ names_field (@ca_val F) field na) -> dget field (snd (collect fields attrs)) = None).
Proof.
  intros F fields attrs field N. unfold collect; cbn [fst snd].
  split; intros H; rewrite marked_none by auto; rewrite annotated_fold, annotated_none; auto.
Qed.

(** the order in which Python visits the attributes (it changes from run to run) does not matter as
    long as no two methods with different functions name the same field *)
Theorem C51_order_irrelevant : forall F (fields : list (string * list (fmeta F))) attrs attrs' field,
  Permutation attrs attrs' ->
  ((forall na na', In na attrs -> In na' attrs -> names_field (@ca_ser F) field na -> names_field (@ca_ser F) field na' ->
      ca_func (snd na) = ca_func (snd na')) ->
   dget field (fst (collect fields attrs)) = dget field (fst (collect fields attrs'))) /\
  ((forall na na', In na attrs -> In na' attrs -> names_field (@ca_val F) field na -> names_field (@ca_val F) field na' ->
      ca_func (snd na) = ca_func (snd na')) ->
   dget field (snd (collect fields attrs)) = dget field (snd (collect fields attrs'))).
Proof. intros F fields attrs attrs' field P. split; intros U; apply marked_order; auto. Qed.

(** the attributes looked at: for every name the definition of the nearest class, so a method
    redefined in a subclass replaces the inherited one; those named like an attribute of pydantic's
    BaseModel are left out *)
Theorem C51_nearest_definition : forall F base (nss : list (dict (cattr F))) name a,
  Forall (fun ns => NoDup (dkeys ns)) nss ->
  (is_first (dget name) nss (dget name (visible nss))) /\
  (In (name, a) (own_attrs base nss) <-> In (name, a) (visible nss) /\ ~ In name base).
Proof.
  intros F base nss name a H. split; [apply visible_first; auto|].
  unfold own_attrs. rewrite filter_In. simpl. rewrite negb_true_iff.
  split; intros (A & B); split; auto.
  - intros I. apply str_in_iff in I. congruence.
  - destruct (str_in name base) eqn:E; auto. apply str_in_iff in E. contradiction.
Qed.

(** two methods for one field, for instance an inherited one and one under another name: which one is
    used depends on the order of a set of strings, so it changes from run to run *)
Theorem C51_two_methods_refuted : exists (nss : list (dict (cattr string))) attrs attrs',
  Permutation attrs (own_attrs [] nss) /\ Permutation attrs' (own_attrs [] nss) /\
  dget "x" (fst (collect [] attrs)) = Some "child" /\ dget "x" (fst (collect [] attrs')) = Some "parent".
Proof.
  exists [[("ser_child", CAttr true "child" ["x"] [])]; [("ser_parent", CAttr true "parent" ["x"] [])]],
    [("ser_parent", CAttr true "parent" ["x"] []); ("ser_child", CAttr true "child" ["x"] [])],
    [("ser_child", CAttr true "child" ["x"] []); ("ser_parent", CAttr true "parent" ["x"] [])].
  simpl. unfold own_attrs, visible; simpl. repeat split; auto. apply perm_swap.
Qed.

(** a decorated method with the name of an attribute of pydantic's BaseModel ("json", "copy") is never used *)
Theorem C51_shadowed_name_refuted : exists (nss : list (dict (cattr string))) base,
  dget "json" (visible nss) = Some (CAttr true "mine" ["x"] []) /\
  forall attrs, Permutation attrs (own_attrs base nss) -> dget "x" (fst (collect [] attrs)) = None.
Proof.
  exists [[("json", CAttr true "mine" ["x"] [])]], ["copy"; "dict"; "json"]. split; [reflexivity|].
  intros attrs P. simpl in P. apply Permutation_sym, Permutation_nil in P. subst. reflexivity.
Qed.

Example C51_ex : exists attrs, Permutation attrs
    (own_attrs ["json"] [[("b", CAttr true "B" ["x"] ["y"])]; [("a", CAttr true "A" ["z"] []); ("b", CAttr true "B0" ["z"] [])]]) /\
  collect [("x", [FmSer "ann"]); ("w", [FmSer "first"; FmVal "v"; FmSer "second"])] attrs =
    ([("x", "B"); ("w", "second"); ("z", "A")], [("w", "v"); ("y", "B")]).
Proof.
  exists [("b", CAttr true "B" ["x"] ["y"]); ("a", CAttr true "A" ["z"] [])]. split; [|reflexivity].
  unfold own_attrs, visible; simpl. apply perm_swap.
Qed.

(** ---- C52 ---- *)

(** C52.  A new class can be used with XML exactly if it is complete (no unresolved forward
    references) and its type parameters are given; then its serializer is the one built from its
    schema. *)
Theorem C52_new_class : forall cl ev n attrs s s', new_class cl ev n false attrs s = Ok s' ->
  (usable s' = true <-> class_ready s (ls_py s)) /\
  (forall b, ls_ser s' = Some b -> build_class cl ev n (ls_info s) (py_schema (ls_py s)) = Ok b).
Proof.
  intros cl ev n attrs s s' H. destruct (new_class_ser _ _ _ _ _ H) as (_ & _ & _ & _ & _ & _ & G).
  unfold usable. destruct (ls_ser s') as [b|].
  - destruct G as (G & B). split; [tauto|]. intros b' [= <-]; auto.
  - split; [|discriminate]. split; [discriminate|]. intros; contradiction.
Qed.

(** Through any history of model_rebuild calls, failing ones included, the class has a serializer iff
    it had one, or pydantic made it ready at some call where the build succeeded; and then it is the
    one built at the first such call. *)
Theorem C52_rebuild_history : forall cl ev n calls s s', rebuilds cl ev n calls s = Ok s' ->
  forall b, ls_ser s' = Some b <->
    ls_ser s = Some b \/
    (ls_ser s = None /\ exists pre p post, calls = pre ++ Some p :: post /\ class_ready s p /\
       build_class cl ev n (ls_info s) (py_schema p) = Ok b /\
       forall p' b', In (Some p') pre -> class_ready s p' -> build_class cl ev n (ls_info s) (py_schema p') <> Ok b').
Proof. exact rebuilds_present. Qed.

(** a usable class stays usable, with the same serializer *)
Theorem C52_never_lost : forall cl ev n calls s b, ls_ser s = Some b ->
  exists s', rebuilds cl ev n calls s = Ok s' /\ ls_ser s' = Some b.
Proof. exact rebuilds_stable. Qed.

(** every class, abstract or not, uses the field functions collected from its annotations and
    attributes when it was created (C51 says which these are), and goes on using them through any
    history of rebuilds *)
Theorem C52_functions_collected : forall cl ev n abstract attrs s s' calls s'',
  new_class cl ev n abstract attrs s = Ok s' -> rebuilds cl ev n calls s' = Ok s'' ->
  ls_custom s'' = collect (py_metas (ls_py s)) attrs.
Proof.
  intros cl ev n abstract attrs s s' calls s'' H R. rewrite (@rebuilds_custom _ _ _ _ _ _ R).
  destruct abstract.
  - injection H as <-. reflexivity.
  - apply (new_class_ser _ _ _ _ _ H).
Qed.

(** from_xml_tree and to_xml_tree of a class that cannot be used fail with the assertion
    (C06 says that no other class fails so) *)
Theorem C52_unusable_asserts : forall n ev cls,
  (en_model ev cls = None ->
     (forall root eas, from_xml_tree n ev cls root eas = Raise XAssertion) /\
     (forall encode v fl, model_type v = Some cls -> to_xml_tree n ev encode v fl = Raise XAssertion)).
Proof.
  intros n ev cls H. unfold from_xml_tree, to_xml_tree. rewrite H. split; auto.
  intros encode v fl T. rewrite T, H. auto.
Qed.

(** a simple class [class M(BaseXmlModel): f: int = element()] *)
Definition one_class : classes := fun c => if String.eqb c "M" then Some (plain_info (element None None None None)) else None.
Definition one_ready (ty : string) : pystate :=
  PyState true (CModel "M" false (CFields [("f", CField false None None (CType ty))] [])) [].
Definition one_waiting : pystate := PyState false (CType "missing") [].
Definition one_new (p : pystate) (generic : bool) : cstate :=
  CState (plain_info (element None None None None)) false generic false p None ([], []).

(** a forced rebuild after the fields have changed leaves the old serializer in place *)
Theorem C52_forced_rebuild_refuted : exists s s' b b',
  new_class one_class (Env Lxml (fun _ => None)) 9 false [] (one_new (one_ready "int") false) = Ok s /\
  rebuilds one_class (Env Lxml (fun _ => None)) 9
    [Some (PyState true (CModel "M" false (CFields [("g", CField false None None (CType "int"))] [])) [])] s = Ok s' /\
  ls_ser s' = Some b /\
  build_class one_class (Env Lxml (fun _ => None)) 9 (ls_info s') (py_schema (ls_py s')) = Ok b' /\
  map fst (bm_fields b) = ["f"] /\ map fst (bm_fields b') = ["g"].
Proof. do 4 eexists. repeat split; vm_compute; reflexivity. Qed.

(** field functions given in annotations that could not be resolved when the class was created are
    never collected, not even by the rebuild that resolves them *)
Theorem C52_late_annotations_refuted : exists s s',
  new_class one_class (Env Lxml (fun _ => None)) 9 false [] (one_new one_waiting false) = Ok s /\
  rebuilds one_class (Env Lxml (fun _ => None)) 9
    [Some (PyState true (py_schema (one_ready "int")) [("f", [FmSer "custom"])])] s = Ok s' /\
  usable s' = true /\ dget "f" (fst (ls_custom s')) = None /\
  dget "f" (fst (collect (py_metas (ls_py s')) [])) = Some "custom".
Proof. do 2 eexists. repeat split; vm_compute; reflexivity. Qed.

(** waiting for a forward reference, still waiting, an error, then ready *)
Example C52_ex : exists s s',
  new_class one_class (Env Lxml (fun _ => None)) 9 false [] (one_new one_waiting false) = Ok s /\ usable s = false /\
  rebuilds one_class (Env Lxml (fun _ => None)) 9
    [Some one_waiting; None; Some (one_ready "int"); Some one_waiting] s = Ok s' /\ usable s' = true.
Proof. do 2 eexists. repeat split; vm_compute; reflexivity. Qed.

Example C52_ex_generic : exists s s',
  new_class one_class (Env Lxml (fun _ => None)) 9 false [] (one_new (one_ready "int") true) = Ok s /\ usable s = false /\
  rebuilds one_class (Env Lxml (fun _ => None)) 9 [Some (one_ready "int")] s = Ok s' /\ usable s' = false.
Proof. do 2 eexists. repeat split; vm_compute; reflexivity. Qed.

(** ---- C53 ---- *)

(** C53.  A field declared with attr() or element() is named in XML by serialization_alias or else by
    alias, and is passed to validation under validation_alias or else alias; each [meant] is a
    definition of one line. *)
Theorem C53_alias_arguments : forall k tag ns m nillable exclude s salias valias,
  field_declaration k tag ns m nillable exclude s (CField exclude salias valias s) ->
  meant (fk_salias k) (fk_alias k) salias /\
  (fk_valias k <> Some (Some "") -> fk_alias k <> Some (Some "") -> meant (fk_valias k) (fk_alias k) valias).
Proof.
  intros k tag ns m nillable exclude s salias valias H. destruct (prepare_meant k) as (P1 & P2).
  assert (E : CField exclude salias valias s =
    cfield_of exclude (FDecl (prepare_field_kwargs k) []) s) by (destruct H as [H|H]; rewrite H; reflexivity).
  injection E as -> E2. split; auto.
  intros N1 N2. rewrite E2.
  destruct k as [[[a|]|] [[sa|]|] [[va|]|]]; simpl in *;
    repeat match goal with |- context[String.eqb ?x ""] => destruct (String.eqb_spec x "") as [->|?] end;
    simpl; auto; congruence.
Qed.

(** with wrapped() around an attr() or element() the aliases of the inner declaration count, whatever
    aliases wrapped() itself is given *)
Theorem C53_wrapped_uses_inner : forall path tag ns m nillable k ns' m' k' exclude s,
  cfield_of exclude (wrapped_decl path (Some (element_decl tag ns m nillable k)) ns' m' k') s =
  cfield_of exclude (element_decl tag ns m nillable k) s /\
  cfield_of exclude (wrapped_decl path (Some (attr_decl tag ns k)) ns' m' k') s =
  cfield_of exclude (attr_decl tag ns k) s.
Proof.
  intros. unfold cfield_of, wrapped_decl, element_decl, attr_decl, merge_kwargs, prepare_field_kwargs; simpl.
  destruct (kget (fk_salias k)), (kget (fk_valias k)); simpl; auto.
Qed.

(** the same through any number of wrapped() around it *)
Theorem C53_wrapped_any_depth : forall (ws : list (string * option string * option nsmap * fkwargs)) inner tag ns m nillable k,
  inner = element_decl tag ns m nillable k \/ inner = attr_decl tag ns k ->
  forall exclude s,
  cfield_of exclude (fold_right (fun '(path, ns', m', k') d => wrapped_decl path (Some d) ns' m' k') inner ws) s =
  cfield_of exclude inner s.
Proof.
  intros ws inner tag ns m nillable k H exclude s.
  assert (G : fk_salias (fd_kwargs inner) <> None /\ fk_valias (fd_kwargs inner) <> None).
  { destruct H as [-> | ->]; unfold element_decl, attr_decl, prepare_field_kwargs; simpl; clear;
      destruct (kget (fk_salias k)), (kget (fk_valias k)); split; discriminate. }
  clear H. destruct G as (G1 & G2).
  set (d := fold_right _ _ _).
  assert (E : fk_salias (fd_kwargs d) = fk_salias (fd_kwargs inner) /\ fk_valias (fd_kwargs d) = fk_valias (fd_kwargs inner)).
  { subst d. induction ws as [|[[[path ns'] m'] k'] ws IH]; [auto|]. cbn [fold_right].
    set (e := fold_right _ _ _) in *. clearbody e. unfold wrapped_decl, merge_kwargs. cbn [fd_kwargs fk_salias fk_valias].
    destruct IH as (-> & ->).
    destruct (fk_salias (fd_kwargs inner)), (fk_valias (fd_kwargs inner)); try congruence; auto. }
  unfold cfield_of. destruct E as (-> & ->); auto.
Qed.

(** a bare wrapped() ignores alias, unlike attr(), element() and pydantic's Field() *)
Theorem C53_wrapped_alias_refuted : exists k path s,
  fk_alias k = Some (Some "other") /\
  cfield_of false (wrapped_decl path None None None k) s = CField false None None s /\
  cfield_of false (element_decl None None None None k) s = CField false (Some "other") (Some "other") s.
Proof. exists (FKwargs (Some (Some "other")) None None), "p", (CType "int"). repeat split; reflexivity. Qed.

Example C53_ex :
  cfield_of false (element_decl None None None None (FKwargs (Some (Some "a")) (Some (Some "s")) None)) (CType "int")
  = CField false (Some "s") (Some "a") (CType "int").
Proof. reflexivity. Qed.

(** the XML part of a wrapped declaration: the path, and inside it what the inner declaration says *)
Theorem C53_wrapped_declares : forall path inner ns m k, (forall d, m = Some d -> NoDup (dkeys d)) ->
  exists i, extract_info (fd_meta (wrapped_decl path (Some inner) ns m k)) = Some i /\
    same_info i (EInfo (Some LocWrapped) (Some path) ns m None (extract_info (fd_meta inner))).
Proof.
  intros path inner ns m k G. apply wrapped_says. unfold good_map; simpl. destruct m; auto.
Qed.

(** ---- C54 ---- *)

(** C54.  A version "M.N.P", with any suffix not starting with a digit ("2.12.0rc1"), and "M.N" with
    a suffix like "b1" are read as the numbers they denote, and the comparison is the lexicographic
    one. *)
Theorem C54_three_numbers : forall a b c ka kb kc rest, denotes a ka -> denotes b kb -> denotes c kc ->
  no_digit_first rest -> parse_version (a ++ "." ++ b ++ "." ++ c ++ rest) = (ka, kb, kc).
Proof. exact parse_version_full. Qed.

Theorem C54_two_numbers : forall a b ka kb rest, denotes a ka -> denotes b kb ->
  match rest with String c r => c <> "."%char /\ is_digit c = false | EmptyString => True end ->
  parse_version (a ++ "." ++ b ++ rest) = (ka, kb, 0%N).
Proof. exact parse_version_two. Qed.

Theorem C54_comparison : forall a b, version_ge a b = true <-> version_le b a.
Proof. exact version_ge_iff. Qed.

Theorem C54_new_merge_from_2_12 : forall a b c ka kb kc rest, denotes a ka -> denotes b kb -> denotes c kc ->
  no_digit_first rest ->
  (uses_construct (a ++ "." ++ b ++ "." ++ c ++ rest) = true <-> version_le (2, 12, 0)%N (ka, kb, kc)).
Proof.
  intros. unfold uses_construct. rewrite (@parse_version_full a b c ka kb kc rest); auto. apply version_ge_iff.
Qed.

(** a leading "v" is not understood: everything after it is lost *)
Theorem C54_leading_letter_refuted : parse_version "v2.12.0" = (0, 0, 0)%N.
Proof. reflexivity. Qed.

Example C54_ex : parse_version "2.12.0rc1" = (2, 12, 0)%N /\ uses_construct "2.12.0rc1" = true /\
  uses_construct "2.9.2" = false /\ denotes "12" 12.
Proof.
  repeat split. change 12%N with (1 * 10 + (N_of_ascii "2" - 48))%N.
  apply (@den_snoc "1" "2" 1); [|reflexivity].
  change 1%N with (0 * 10 + (N_of_ascii "1" - 48))%N. apply (@den_snoc "" "1" 0); [constructor|reflexivity].
Qed.

(** ---- C55 ---- *)

(** C55.  A field annotated NoXml is treated as if it were not declared: the class has the same
    serializer (or the same error) as the class without the field. *)
Theorem C55_as_if_not_declared : forall cl ev n cls k fs cs, cl cls = Some k ->
  build_class cl ev n k (CModel cls false (CFields fs cs)) =
  build_class cl ev n k (CModel cls false (CFields (filter (fun nf => negb (existsb is_noxml (ci_meta k (fst nf)))) fs) cs)).
Proof. intros. apply build_class_skips; auto. Qed.

(** so it is not among the fields read and written *)
Theorem C55_not_among_fields : forall cl ev, classes_ok cl -> forall n k s b cls body fs cs f,
  build_class cl ev n k s = Ok b -> stands_for [] s (CModel cls false body) -> cl cls = Some k ->
  fields_behind body fs cs -> fields_ok k fs cs -> In f (map fst fs) -> no_xml k f ->
  ~ In f (map fst (bm_fields b)).
Proof.
  intros cl ev Hcl n k s b cls body fs cs f B S K FB OK I NX.
  destruct (@C18_class_names cl ev Hcl n k s b cls body fs cs B S K FB OK) as (own & comp & E & F1 & F2 & _).
  rewrite E, map_app, in_app_iff.
  assert (G : forall A (R : (string * A) -> (string * ser) -> Prop) l l', (forall x y, R x y -> fst y = fst x) ->
    Forall2 R l l' -> map fst l' = map fst l).
  { intros A R l l' HR H. induction H; simpl; auto. rewrite IHForall2, (HR _ _ H); auto. }
  rewrite (G _ _ _ _ (fun x y H => proj1 H) F1), (G _ _ _ _ (fun x y H => proj1 H) F2).
  destruct OK as (ND & _). intros [J|J].
  - apply in_map_iff in J as ([g c] & <- & J). apply filter_In in J as (_ & J). simpl in *.
    apply noxml_iff in NX. rewrite NX in J. discriminate.
  - revert ND I J. clear. generalize (map fst fs) as l, (map fst cs) as l'. intros l l' ND I J.
    induction l as [|x l IH]; [destruct I|]. simpl in ND. inversion ND; subst.
    destruct I as [->|I]; auto. apply H1. rewrite in_app_iff; auto.
Qed.

(** to_xml_tree gives the same result for two instances that differ only in such a field *)
Theorem C55_output_ignores_it : forall n ev encode v v' fl f m cls,
  model_type v = Some cls -> en_model ev cls = Some m -> md_root m = false -> ~ In f (map fst (md_fields m)) ->
  (forall g, md_cser m g = None) -> differ_in f v v' (encode v) (encode v') ->
  to_xml_tree n ev encode v fl = to_xml_tree n ev encode v' fl.
Proof. exact to_xml_ignores. Qed.

(** reading never passes a value for it to the validation: dropping it there changes nothing *)
Theorem C55_never_supplied : forall n ev m f eas loc s, md_root m = false ->
  ~ In f (map fst (md_fields m)) -> ~ In f (map snd (md_valias m)) ->
  read_model (read n ev) m eas loc s =
  read_model (read n ev) (with_validate m (fun input => md_validate m (forget f input))) eas loc s.
Proof. intros. apply read_never_supplies; auto. Qed.

(** the marker is not taken from a computed field's metadata, nor needed there; for the root of a
    root model it has no effect *)
Theorem C55_root_field_refuted : exists k b, no_xml k "root" /\
  build_class (fun _ => Some k) (Env Lxml (fun _ => None)) 9 k (CModel "R" true (CType "int")) = Ok b /\
  map fst (bm_fields b) = ["root"].
Proof.
  exists (plain_info [MetaNoXml]). eexists. split; [left; reflexivity|]. split; vm_compute; reflexivity.
Qed.

Definition hidden_info : cls_info :=
  ClsInfo "H" (CParams None None None false None Strict)
    (fun f => if String.eqb f "secret" then [MetaNoXml] else element None None None None) (fun _ => None) None.

Example C55_ex : exists b,
  build_class (fun _ => Some hidden_info) (Env Lxml (fun _ => None)) 9 hidden_info
    (CModel "H" false (CFields [("a", CField false None None (CType "int"));
      ("secret", CField false None None (CType "unsupported")); ("b", CField false None None (CType "int"))] [])) = Ok b /\
  map fst (bm_fields b) = ["a"; "b"] /\ no_xml hidden_info "secret".
Proof. eexists. split; [vm_compute; reflexivity|]. split; [vm_compute; reflexivity|left; reflexivity]. Qed.

(** ---- C56 ---- *)

(** C56.  create_model gives a class the same XML parameters as the class statement with the same
    bases and arguments, with or without a __config__. *)
Theorem C56_like_a_class_statement : forall ss w a w', define_all builtin_world ss = Some w ->
  create_model w a = Some w' -> cm_base a <> Some [] ->
  let bases := match cm_base a with Some bs => bs | None => ["BaseXmlModel"] end in
  makes_model (trace [] ss) bases = true ->
  params_in w' (cm_name a) = class_chain (default [] (first_model (trace [] ss) bases) ++ [cm_decl a]).
Proof. exact create_model_params. Qed.

(** the __module__ argument does not become the module of the class *)
Theorem C56_module_refuted : exists a, cm_module a = Some "app.models" /\ cm_result_module a = "pydantic_xml.model".
Proof. exists (CmArgs "M" no_decl None false (Some "app.models") None). split; reflexivity. Qed.

(** XML parameters in a __cls_kwargs__ argument are overwritten, even by parameters not given *)
Theorem C56_cls_kwargs_refuted : exists a w, cm_cls_kwargs a = Some (tagged_decl "t") /\
  create_model builtin_world a = Some w /\ chain_get c_tag (params_in w "M") = None.
Proof.
  exists (CmArgs "M" no_decl None false None (Some (tagged_decl "t"))). eexists. repeat split; reflexivity.
Qed.

Example C56_ex : exists w w', define_all builtin_world [CStmt "A" ["BaseXmlModel"] (tagged_decl "a")] = Some w /\
  create_model w (CmArgs "M" (CDecl None (Some "p") None None None None) (Some ["A"]) true None None) = Some w' /\
  chain_get c_tag (params_in w' "M") = Some "a" /\ chain_get c_ns (params_in w' "M") = Some "p".
Proof. do 2 eexists. repeat split; reflexivity. Qed.

(** ---- C57 ---- *)

(** C57.  A decorator made by computed_attr or computed_element describes the property it is applied
    to as it was told. *)
Theorem C57_decorator_describes : forall name ns tag ns' m nillable rest p,
  (let '(loc, k) := computed_attr name ns rest in
   computed_applies loc k [p] = [(p, EInfo (Some LocAttribute) name ns None None None)]) /\
  (let '(loc, k) := computed_element tag ns' m nillable rest in
   computed_applies loc k [p] = [(p, EInfo (Some LocElement) tag ns' m nillable None)]).
Proof. intros; split; reflexivity. Qed.

(** Applied again, it has forgotten its arguments: exactly the first property gets them. *)
Theorem C57_decorator_reuse : forall loc k p ps,
  computed_applies loc k (p :: ps) =
  (p, EInfo (Some loc) (ck_path k) (ck_ns k) (ck_nsmap k) (ck_nillable k) None) ::
  map (fun q => (q, EInfo (Some loc) None None None None None)) ps.
Proof.
  intros loc k p ps. simpl. f_equal. generalize (ck_rest k) as rest. clear.
  induction ps as [|q ps IH]; intros rest; simpl; auto. rewrite IH. auto.
Qed.

(** so two properties decorated by the same object are not described alike *)
Theorem C57_decorator_reuse_refuted : exists loc k p q i j,
  computed_applies loc k [p; q] = [(p, i); (q, j)] /\ ei_path i = Some "n" /\ ei_path j = None.
Proof.
  exists LocAttribute, (CKwargs (Some "n") None None None []), "p", "q". do 2 eexists. repeat split; reflexivity.
Qed.

Print Assumptions C50_first_model_base_decides.
Print Assumptions C50_last_given_wins.
Print Assumptions C50_linearisation.
Print Assumptions C50_later_base_tag_refuted.
Print Assumptions C50_diamond_refuted.
Print Assumptions C51_method_is_used.
Print Assumptions C51_annotation_is_used.
Print Assumptions C51_nothing_else.
Print Assumptions C51_order_irrelevant.
Print Assumptions C51_nearest_definition.
Print Assumptions C51_two_methods_refuted.
Print Assumptions C51_shadowed_name_refuted.
Print Assumptions C52_new_class.
Print Assumptions C52_rebuild_history.
Print Assumptions C52_never_lost.
Print Assumptions C52_unusable_asserts.
Print Assumptions C52_forced_rebuild_refuted.
Print Assumptions C52_late_annotations_refuted.
Print Assumptions C53_alias_arguments.
Print Assumptions C53_wrapped_uses_inner.
Print Assumptions C53_wrapped_alias_refuted.
Print Assumptions C54_three_numbers.
Print Assumptions C54_two_numbers.
Print Assumptions C54_comparison.
Print Assumptions C54_new_merge_from_2_12.
Print Assumptions C54_leading_letter_refuted.
Print Assumptions C55_as_if_not_declared.
Print Assumptions C55_not_among_fields.
Print Assumptions C55_output_ignores_it.
Print Assumptions C55_never_supplied.
Print Assumptions C55_root_field_refuted.
Print Assumptions C56_like_a_class_statement.
Print Assumptions C56_module_refuted.
Print Assumptions C56_cls_kwargs_refuted.
Print Assumptions C57_decorator_describes.
Print Assumptions C57_decorator_reuse.
Print Assumptions C57_decorator_reuse_refuted.

Print Assumptions C50_linearisation_found.
Print Assumptions C51_no_annotation.
Print Assumptions C52_functions_collected.
Print Assumptions C53_wrapped_declares.
Print Assumptions C53_wrapped_any_depth.
