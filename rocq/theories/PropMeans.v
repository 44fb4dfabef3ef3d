(** PropMeans.v -- what a declaration means: C62. *)

From Verif Require Import Base Elem Native Errs Names Fields Ser SpecNames SpecRead Build SpecBuild SpecMeans Samples
  PfBuild PfBuild3 PfBuild4 PfBuild5 PfMeans PfMeans2 PfMeans3 PfMeans4 PropBuild.

(** C62.  The type of a field and its annotation decide how the field is bound.  [class_means] gives the
    binding by typing rules: a scalar is text, an attribute or an element; a list, set or variadic tuple
    repeats the binding of its item; a fixed-length or named tuple strings the bindings of its items
    together; a dict or typed dict is a set of attributes; a model is an element of its class; a union
    of scalars is one string, a union of models a choice of elements; a wrapped field is what it wraps,
    below a path. *)
Theorem C62_bound_by_type : forall cl ev k s ds s0 cls body fs cs n b,
  classes_ok cl -> cl cls = Some k -> flat_class k s ds s0 false body ->
  stands_for (dict_of ds) s0 (CModel cls false body) -> fields_behind body fs cs -> fields_ok k fs cs ->
  build_class cl ev n k s = Ok b ->
  class_means cl ev (dict_of ds) k fs cs (bm_fields b) /\ class_element k (bm_elem_name b).
Proof. intros cl ev k s ds s0 cls body fs cs n b Hcl K FC ST B O H. exact (@class_meant cl ev Hcl k s ds s0 cls false body K FC ST n b fs cs eq_refl B O H). Qed.

(** ... and the one field of a root model likewise *)
Theorem C62_root_bound_by_type : forall cl ev k s ds s0 cls body n b,
  classes_ok cl -> cl cls = Some k -> flat_class k s ds s0 true body ->
  stands_for (dict_of ds) s0 (CModel cls true body) -> maybe_info_ok (extract_info (ci_meta k "root")) ->
  build_class cl ev n k s = Ok b ->
  (exists r, bm_fields b = [("root", r)] /\ root_means cl ev (dict_of ds) k body r) /\ class_element k (bm_elem_name b).
Proof. intros cl ev k s ds s0 cls body n b Hcl K FC ST O H. exact (@root_meant cl ev Hcl k s ds s0 cls true body K FC ST n b eq_refl O H). Qed.

(** Exactly the classes all of whose fields have a binding by those rules can be defined. *)
Theorem C62_accepted_exactly : forall cl ev k s ds s0 cls body fs cs,
  classes_ok cl -> cl cls = Some k -> flat_class k s ds s0 false body ->
  stands_for (dict_of ds) s0 (CModel cls false body) -> fields_behind body fs cs -> fields_ok k fs cs ->
  ((exists n b, build_class cl ev n k s = Ok b) <->
   (exists bound, class_means cl ev (dict_of ds) k fs cs bound) /\ (exists name, class_element k name)).
Proof.
  intros cl ev k s ds s0 cls body fs cs Hcl K FC ST B O. split.
  - intros (n & b & H). destruct (@class_meant cl ev Hcl k s ds s0 cls false body K FC ST n b fs cs eq_refl B O H) as [M E]. eauto.
  - intros [(bound & M) (name & E)]. exact (@class_accepted cl ev Hcl k s ds s0 cls false body K FC ST fs cs bound name eq_refl B O M E).
Qed.

Theorem C62_root_accepted_exactly : forall cl ev k s ds s0 cls body,
  classes_ok cl -> cl cls = Some k -> flat_class k s ds s0 true body ->
  stands_for (dict_of ds) s0 (CModel cls true body) -> maybe_info_ok (extract_info (ci_meta k "root")) ->
  ((exists n b, build_class cl ev n k s = Ok b) <->
   (exists r, root_means cl ev (dict_of ds) k body r) /\ (exists name, class_element k name)).
Proof.
  intros cl ev k s ds s0 cls body Hcl K FC ST O. split.
  - intros (n & b & H). destruct (@root_meant cl ev Hcl k s ds s0 cls true body K FC ST n b eq_refl O H) as [(r & _ & M) E]. eauto.
  - intros [(r & M) (name & E)]. exact (@root_accepted cl ev Hcl k s ds s0 cls true body K FC ST r name eq_refl O M E).
Qed.

(** A class has one meaning only, up to the order of the entries of its namespace maps. *)
Theorem C62_one_meaning : forall cl ev defs k fs cs b b',
  class_means cl ev defs k fs cs b -> class_means cl ev defs k fs cs b' ->
  map (fun nf => (fst nf, unmapped (snd nf))) b = map (fun nf => (fst nf, unmapped (snd nf))) b'.
Proof. exact class_means_unique. Qed.

(** ---- the hypotheses are met ---- *)

Lemma person_flat : flat_class person_info person_schema person_defs (CRef "Person") false person_body.
Proof.
  split; [right; reflexivity|]. split; [constructor|]. split.
  - intros r t. simpl. destruct (String.eqb r "Person"); [|discriminate]. intros E; injection E as <-. repeat constructor.
  - intros parts (fs & cs & B & ->). inversion B; subst. match goal with H : fields_behind _ _ _ |- _ => inversion H; subst end.
    simpl. repeat constructor.
Qed.

Example person_means : class_means people no_env (dict_of person_defs) person_info person_fields person_computed (bm_fields person_model).
Proof.
  refine (proj1 (@C62_bound_by_type people no_env person_info person_schema person_defs (CRef "Person") "Person" person_body
    person_fields person_computed 20 person_model people_ok eq_refl person_flat _ person_fields_behind person_fields_ok person_model_built)).
  eapply sf_ref; [reflexivity|]. apply sf_meta. eapply sf_here; [reflexivity|]. simpl. intuition congruence.
Qed.

(** a class whose list of strings has no annotation cannot be defined: it has no meaning *)
Definition loose_info : cls_info := plain_info [].
Definition loose_schema : cschema := one_field (CList (CType "str")).

Lemma loose_flat : flat_class loose_info loose_schema [] loose_schema false (CFields [("f", CField false None None (CList (CType "str")))] []).
Proof.
  split; [left; auto|]. split; [constructor|]. split; [discriminate|].
  intros parts (fs & cs & B & ->). inversion B; subst. simpl. repeat constructor.
Qed.

Example loose_rejected : forall n b, build_class (fun _ => Some loose_info) no_env n loose_info loose_schema <> Ok b.
Proof.
  intros n b H.
  assert (M : class_means (fun _ => Some loose_info) no_env [] loose_info [("f", CField false None None (CList (CType "str")))] [] (bm_fields b)).
  { refine (proj1 (@C62_bound_by_type (fun _ => Some loose_info) no_env loose_info loose_schema [] loose_schema "M"
      (CFields [("f", CField false None None (CList (CType "str")))] []) [("f", CField false None None (CList (CType "str")))] [] n b _ eq_refl loose_flat _ _ _ H)).
    - intros cls k [= <-]. split; [discriminate|]. simpl. auto.
    - apply (@sf_here _ _ FModel); [reflexivity|]. simpl. intuition discriminate.
    - constructor.
    - repeat constructor; simpl; intuition discriminate. }
  destruct M as (own & comp & _ & F & _). inversion F as [|? y ? ? FM _]; subst. destruct FM as [_ FM]. simpl in FM. destruct FM as (t & St & Sh).
  assert (E : t = CList (CType "str")) by (inversion St; auto). subst t.
  inversion Sh; subst; try discriminate.
  - match goal with Q : stringlike _ |- _ => destruct Q as [(ty & Q & _)|Q]; discriminate end.
  - match goal with B : says_loc _ = None -> bare_list_item _, Q : stands_for _ (CType "str") _ |- _ => inversion Q; subst; exact (B eq_refl) end.
Qed.

Print Assumptions C62_bound_by_type.
Print Assumptions C62_root_bound_by_type.
Print Assumptions C62_accepted_exactly.
Print Assumptions C62_root_accepted_exactly.
Print Assumptions C62_one_meaning.
