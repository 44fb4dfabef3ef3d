(** PfClasses3.v -- proofs about fields kept out of XML. *)

From Verif Require Import Base Elem Native Errs Names Fields Ser Build Write Read Api Classes SpecNames SpecBuild
  SpecClasses PfNames PfBuild PfBuild2 PfClasses.

Lemma noxml_iff : forall k f, existsb is_noxml (ci_meta k f) = true <-> no_xml k f.
Proof.
  intros k f; unfold no_xml. rewrite existsb_exists. split.
  - intros (m & I & E). destruct m; simpl in E; try discriminate. auto.
  - intros I. exists MetaNoXml. auto.
Qed.

Section P.
  Variable cl : classes.
  Variable ev : env.

  Lemma build_fields_skips : forall n k hide fs c sers va ex,
    build_fields cl ev n k hide fs c sers va ex = build_fields cl ev n k hide (xml_fields k fs) c sers va ex.
  Proof.
    intros n k hide fs c. induction fs as [|[name [e sa va0 s]] fs IH]; intros sers va ex; auto.
    unfold xml_fields. cbn [filter fst build_fields].
    destruct (existsb is_noxml (ci_meta k name)) eqn:X; cbn [negb]; [apply IH|].
    cbn [build_fields]. rewrite X.
    destruct (parse cl ev n s _) as [t| |]; cbn [obind]; auto.
  Qed.

  Lemma build_model_skips : forall n cls k fs cs c, cl cls = Some k ->
    build_model cl ev n cls (CFields fs cs) c = build_model cl ev n cls (CFields (xml_fields k fs) cs) c.
  Proof.
    intros n cls k fs cs c K. unfold build_model. rewrite K. cbn [skip_before].
    rewrite build_fields_skips. auto.
  Qed.

  Lemma build_class_skips : forall n cls k fs cs, cl cls = Some k ->
    build_class cl ev n k (CModel cls false (CFields fs cs)) =
    build_class cl ev n k (CModel cls false (CFields (xml_fields k fs) cs)).
  Proof.
    intros n cls k fs cs K. unfold build_class. destruct n; auto. cbn [preprocess family_of obind].
    apply build_model_skips; auto.
  Qed.

  Lemma build_class_skips_defs : forall n cls k ds fs cs, cl cls = Some k ->
    build_class cl ev n k (CDefinitions ds (CModel cls false (CFields fs cs))) =
    build_class cl ev n k (CDefinitions ds (CModel cls false (CFields (xml_fields k fs) cs))).
  Proof.
    intros n cls k ds fs cs K. unfold build_class. destruct n; auto. destruct n; auto.
    cbn [preprocess family_of obind]. apply build_model_skips; auto.
  Qed.
End P.

(** writing *)
Lemma write_fields_ignores : forall w m fs fl f v v' enc enc', ~ In f (map fst fs) ->
  (forall g, md_cser m g = None) -> differ_in f v v' enc enc' ->
  forall e, write_fields w m fs fl e v enc = write_fields w m fs fl e v' enc'.
Proof.
  intros w m fs fl f v v' enc enc' N Cs (cls & attrs & attrs' & st & st' & d & d' & -> & -> & -> & -> & H).
  induction fs as [|[name s] fs IH]; intros e; auto.
  simpl in N. cbn [write_fields]. assert (Nf : name <> f) by tauto. specialize (IH ltac:(tauto)).
  destruct (H _ Nf) as (H1 & H2 & H3).
  destruct (str_in name (md_sexclude m)); auto.
  cbn [is_unset py_getattr py_getitem]. rewrite Cs, H1, H3.
  assert (Es : str_in name st = str_in name st').
  { destruct (str_in name st) eqn:A, (str_in name st') eqn:B; auto; exfalso.
    - apply str_in_iff, H2, str_in_iff in A. congruence.
    - apply str_in_iff, H2, str_in_iff in B. congruence. }
  rewrite Es. destruct (if fl_exclude_unset fl then Ok (negb (str_in name st')) else Ok false) as [u| |]; cbn [obind]; auto.
  destruct u; auto.
  destruct (dget name attrs') as [x|]; cbn [obind]; auto.
  destruct (dget name d') as [xe|]; cbn [obind]; auto.
  destruct (w s fl e x xe) as [e'| |]; cbn [obind]; auto.
Qed.

Lemma to_xml_ignores : forall n ev encode v v' fl f m cls,
  model_type v = Some cls -> en_model ev cls = Some m -> md_root m = false -> ~ In f (map fst (md_fields m)) ->
  (forall g, md_cser m g = None) -> differ_in f v v' (encode v) (encode v') ->
  to_xml_tree n ev encode v fl = to_xml_tree n ev encode v' fl.
Proof.
  intros n ev encode v v' fl f m cls T M R N Cs H. pose proof H as D.
  destruct D as (c & attrs & attrs' & st & st' & d & d' & Ev & Ev' & _).
  unfold to_xml_tree. rewrite T. assert (T' : model_type v' = Some cls) by (subst; simpl in *; auto).
  rewrite T', M. unfold write_model.
  assert (is_none v = false) as -> by (subst; auto). assert (is_none v' = false) as -> by (subst; auto).
  rewrite R. rewrite (@write_fields_ignores _ m _ _ f v v' (encode v) (encode v')); auto.
Qed.

(** reading *)
Lemma read_fields_keys : forall r m fs eas result errors s result' errors' s',
  read_fields r m fs eas result errors s = (Ok (result', errors'), s') ->
  forall key, In key (dkeys result') -> In key (dkeys result) \/ In key (map fst fs) \/ In key (map snd (md_valias m)).
Proof.
  intros r m fs eas. induction fs as [|[name t] fs IH]; intros result errors s result' errors' s'; cbn [read_fields].
  - intros [= <- <- <-]; auto.
  - set (o := match md_cval m name with Some custom => _ | None => _ end). destruct o as [[v|x|] s2]; [| |discriminate].
    + set (key := match dget name (md_valias m) with Some a => a | None => name end).
      assert (K : In key (name :: map snd (md_valias m))).
      { unfold key. destruct (dget name (md_valias m)) as [a|] eqn:A; simpl; auto. right.
        apply dget_Some_in in A. apply in_map_iff. exists (name, a); auto. }
      intros H key' I.
      destruct (is_none v) eqn:V.
      * destruct v; try discriminate V. specialize (IH _ _ _ _ _ _ H key' I). simpl. tauto.
      * assert (H' : read_fields r m fs eas (dset key v result) errors s2 = (Ok (result', errors'), s'))
          by (destruct v; auto; discriminate V).
        specialize (IH _ _ _ _ _ _ H' key' I). rewrite dkeys_dset in IH. simpl.
        destruct (dmem key result); [tauto|]. rewrite in_app_iff in IH. simpl in *.
        destruct IH as [[IH|[->|[]]]|IH]; tauto.
    + destruct x; try discriminate. intros H key' I. specialize (IH _ _ _ _ _ _ H key' I). simpl. tauto.
Qed.

Lemma forget_absent : forall f d, ~ In f (dkeys d) -> forget f (Some (VDict d)) = Some (VDict d).
Proof.
  intros f d N. simpl. do 2 f_equal. induction d as [|[k v] d IH]; simpl in *; auto.
  destruct (String.eqb k f) eqn:E; [apply String.eqb_eq in E; subst; tauto|]. simpl. rewrite IH; tauto.
Qed.

Lemma read_never_supplies : forall r m f eas loc s, md_root m = false ->
  ~ In f (map fst (md_fields m)) -> ~ In f (map snd (md_valias m)) ->
  read_model r m eas loc s = read_model r (with_validate m (fun input => md_validate m (forget f input))) eas loc s.
Proof.
  intros r m f eas loc s R N Nv. set (m' := with_validate _ _).
  unfold read_model. change (md_root m') with (md_root m). rewrite R. unfold read_plain_model.
  change (md_fields m') with (md_fields m).
  assert (E : forall fs result errors s0, read_fields r m' fs eas result errors s0 = read_fields r m fs eas result errors s0).
  { induction fs as [|[name t] fs IH]; intros; auto. cbn [read_fields].
    change (md_cval m') with (md_cval m). change (md_valias m') with (md_valias m).
    set (o := match md_cval m name with Some custom => _ | None => _ end). destruct o as [[v|x|] s2]; auto.
    - destruct v; rewrite ?IH; auto.
    - destruct x; rewrite ?IH; auto. }
  rewrite E. destruct (read_fields r m (md_fields m) eas [] [] s) as [[[result errors]| |] s'] eqn:F; auto.
  destruct errors; auto. unfold validate_result. change (md_forbid m') with (md_forbid m).
  change (md_name m') with (md_name m). change (md_hide m') with (md_hide m).
  change (md_validate m' (Some (VDict result))) with (md_validate m (forget f (Some (VDict result)))).
  rewrite forget_absent; auto. intros I.
  destruct (@read_fields_keys _ _ _ _ _ _ _ _ _ _ F f I) as [[]|[|]]; auto.
Qed.
