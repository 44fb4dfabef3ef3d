(** PfOut3.v -- the pieces of a value are what the code writes: both directions. *)

From Verif Require Import Base Elem Native Errs Names Ser Write Read Api SpecElem SpecRead SpecWrite SpecScalar SpecSim SpecOut
  PfScalar PfElem PfWrite PfWrite2 PfWSim PfOut PfOut2.

Local Ltac inv H := inversion H; subst; clear H.

Section Complete.
  Variable ev : env.
  Hypothesis NC : no_customs ev.
  Let b := en_backend ev.

  Definition no_custom (m : mdef) : Prop := forall name, md_cser m name = None.

  (** with enough fuel *)
  Definition surely (P : nat -> Prop) : Prop := exists N, forall n, N <= n -> P n.

  Lemma surely_all : forall (P : nat -> Prop), (forall n, P n) -> surely P.
  Proof. intros P H. exists 0. auto. Qed.

  Lemma surely_imp : forall (P Q : nat -> Prop), (forall n, P n -> Q n) -> surely P -> surely Q.
  Proof. intros P Q I (N & H). exists N. auto. Qed.

  Lemma surely_and : forall (P Q R : nat -> Prop), (forall n, P n -> Q n -> R n) -> surely P -> surely Q -> surely R.
  Proof. intros P Q R I (N & H) (M & H'). exists (Nat.max N M). intros n L. apply I; [apply H|apply H']; lia. Qed.

  Lemma surely_step : forall fl s v enc ps, surely (fun n => does b ps (fun e => write_step ev (write n ev) s fl e v enc)) ->
    surely (fun n => does b ps (fun e => write n ev s fl e v enc)).
  Proof. intros fl s v enc ps (N & H). exists (S N). intros [|n] L; [lia|]. apply H. lia. Qed.

  Lemma write_text_does : forall fl nillable v enc t, ~ omitted fl v -> written_as enc t ->
    does b (content nillable v t) (fun e => write_text nillable fl e v enc).
  Proof.
    intros fl nillable v enc t O W. unfold write_text. apply not_omitted_test in O. rewrite O.
    apply encode_iff in W. rewrite W. cbn [obind]. unfold content. destruct nillable; cbn [andb]; [|apply does_text].
    destruct v; cbn [is_none]; try apply does_text.
    change [PAttr nil_attribute "true"; PText t] with ([PAttr nil_attribute "true"] ++ [PText t]).
    eapply does_ext; [|apply does_app; [apply does_attr|apply does_text]]. intros e. reflexivity.
  Qed.

  Lemma write_attrs_does : forall fl a v enc ps, writes ev fl (SAttrs a) v enc ps -> does b ps (fun e => write_attrs a fl e v enc).
  Proof.
    intros fl a v enc ps H. inv H.
    - match goal with X : scalar_field _ |- _ => inv X end.
    - apply does_nil.
    - unfold write_attrs. match goal with X : v <> VNone |- _ => apply is_none_false in X; rewrite X end.
      match goal with X : mapping_namespace _ _ |- _ => apply mapping_uri in X; rewrite X end.
      match goal with X : Forall2 _ _ _ |- _ => apply items_iff in X; rewrite X end. apply does_attrs.
  Qed.

  (** an element of its own *)
  Lemma sub_does : forall fl tag ns k ps0 d ps, does b ps0 k -> puts ps0 (fresh tag ns) = Some d -> as_child fl d ps ->
    does b ps (fun e => obind (k (make_element b tag ns)) (fun sub => Ok (append_unless_empty fl sub e))).
  Proof.
    intros fl tag ns k ps0 d ps K P A. destruct (K _ _ _ (rep_fresh b tag ns) P) as (e' & -> & R). cbn [obind].
    apply does_as_child with (c := d); auto.
  Qed.

  Lemma complete :
    (forall fl s v enc ps, writes ev fl s v enc ps -> surely (fun n => does b ps (fun e => write n ev s fl e v enc))) /\
    (forall fl s vs encs ps, writes_items ev fl s vs encs ps -> surely (fun n => does b ps (fun e => write_items (write n ev s) fl e vs encs))) /\
    (forall fl l vs encs ps, writes_tuple ev fl l vs encs ps -> surely (fun n => does b ps (fun e => write_tuple (map (write n ev) l) fl e vs encs))) /\
    (forall fl p v enc ps, writes_sub ev fl p v enc ps -> surely (fun n => does b ps (fun e => write_proxy ev (write n ev) p fl e v enc))) /\
    (forall fl m v enc ps, writes_model ev fl m v enc ps -> no_custom m -> surely (fun n => does b ps (fun e => write_model (write n ev) m fl e v enc))) /\
    (forall fl m fs v enc ps, writes_fields ev fl m fs v enc ps -> no_custom m -> surely (fun n => does b ps (fun e => write_fields (write n ev) m fs fl e v enc))).
  Proof.
    apply writes_all; intros.
    - (* omitted *) apply surely_step, surely_all. intros n. apply omitted_test in H0.
      inv H; cbn [write_step]; unfold write_text, write_attr, write_elem; rewrite H0; apply does_nil.
    - apply surely_step, surely_all. intros n. apply write_text_does; auto.
    - apply surely_step, surely_all. intros n. cbn [write_step]. unfold write_attr. apply not_omitted_test in H. rewrite H.
      apply encode_iff in H0. rewrite H0. apply does_attr.
    - apply surely_step, surely_all. intros n. cbn [write_step]. unfold write_elem. pose proof (write_text_does nillable H H0) as K.
      apply not_omitted_test in H. rewrite H. exact (@sub_does fl name ns _ _ _ _ K H1 H2).
    - apply surely_step, surely_all. intros n. apply does_nil.
    - apply surely_step, surely_all. intros n. cbn [write_step]. apply write_attrs_does. econstructor; eauto.
    - apply surely_step, surely_all. intros n. cbn [write_step]. unfold write_map_elem. rewrite H.
      apply empty_iff in H0. rewrite H0. apply does_nil.
    - apply surely_step, surely_all. intros n. cbn [write_step]. unfold write_map_elem.
      pose proof (@sub_does fl name (as_nsmap a) _ _ _ _ (write_attrs_does H0) H2 H3) as K. cbv beta in K. destruct (fl_skip_empty fl) eqn:Sk; auto.
      destruct (H eq_refl) as [C E]. rewrite <- empty_iff in E. destruct (py_len v) as [[|k]|] eqn:L; try congruence; auto.
      destruct v as [| | | |? [|]| | | |]; simpl in *; try contradiction; discriminate.
    - apply surely_step, surely_all. intros n. apply does_nil.
    - apply surely_step, surely_all. intros n. cbn [write_step]. unfold write_homo. cbn [is_none py_iter obind length Nat.eqb]. rewrite H. apply does_nil.
    - apply surely_step. revert H1. apply surely_imp. intros n K. cbn [write_step]. unfold write_homo. cbn [is_none py_iter obind].
      destruct (fl_skip_empty fl) eqn:Sk; cbn [andb]; auto. destruct vs; [exfalso; apply H; auto|auto].
    - apply surely_step, surely_all. intros n. apply does_nil.
    - apply surely_step, surely_all. intros n. cbn [write_step]. unfold write_hetero. cbn [is_none py_iter obind length Nat.eqb]. rewrite H. apply does_nil.
    - apply surely_step. revert H2. apply surely_imp. intros n K. cbn [write_step]. unfold write_hetero. cbn [is_none py_iter obind].
      rewrite map_length, H0, Nat.eqb_refl. cbn [negb]. rewrite <- H0.
      destruct (fl_skip_empty fl) eqn:Sk; cbn [andb]; auto. destruct vs; [exfalso; apply H; auto|auto].
    - apply surely_step. revert H0. apply surely_imp. intros n K. exact K.
    - apply surely_step. revert H2. apply surely_imp. intros n K. cbn [write_step].
      clear H1. induction before as [|q before IH]; cbn [app write_union model_type].
      + rewrite H, String.eqb_refl. auto.
      + inversion H0; subst. destruct (String.eqb_spec (px_model q) (px_model p)); [contradiction|]. apply IH; auto.
    - apply surely_step, surely_all. intros n. cbn [write_step]. induction vs as [|q vs IH]; cbn [write_union]; [apply does_nil|].
      destruct v; cbn [model_type]; try (apply IH; intros; discriminate).
      specialize (H _ _ _ eq_refl). inversion H; subst. destruct (String.eqb_spec (px_model q) cls); [contradiction|].
      apply IH. intros ? ? ? E. injection E as <- <- <-. auto.
    - apply surely_step. revert H3. apply surely_imp. intros n K. cbn [write_step write_tagged]. rewrite H.
      destruct tag; [congruence|]. cbn [py_truthy py_len String.length]. rewrite H1. auto.
    - apply surely_step, surely_all. intros n. cbn [write_step write_tagged]. destruct (dget disc d) as [x|]; [|apply does_nil].
      specialize (H _ eq_refl). apply falsy_test in H. rewrite H. apply does_nil.
    - apply surely_step, surely_all. intros n. apply does_nil.
    - apply surely_step, surely_all. intros n. cbn [write_step]. unfold write_wrap. destruct (is_none v); [apply does_nil|].
      apply len_zero in H0. rewrite H, H0. apply does_nil.
    - apply surely_step. revert H2. apply surely_imp. intros n K. cbn [write_step]. unfold write_wrap.
      apply is_none_false in H. rewrite H. destruct (fl_skip_empty fl && len_is_zero v) eqn:X.
      + exfalso. apply H0. apply andb_true_iff in X as [X1 X2]. split; auto. apply len_zero; auto.
      + apply does_path. exact K.
    - apply surely_step, surely_all. intros n0. apply does_nil.
    - apply surely_step, surely_all. intros n0. cbn [write_step write_raw]. eapply does_as_child; eauto. constructor; auto.
    - apply surely_step. revert H0. apply surely_imp. intros n K. exact K.
    - apply surely_all. intros n. apply does_nil.
    - apply surely_all. intros n. destruct vs; apply does_nil.
    - revert H1. apply surely_imp. intros n K. cbn [write_items]. rewrite H. auto.
    - revert H1 H3. apply surely_and. intros n K1 K2. cbn [write_items].
      destruct (fl_skip_empty fl && is_none v) eqn:X.
      + exfalso. apply H. apply andb_true_iff in X as [X1 X2]. split; auto. destruct v; try discriminate; auto.
      + eapply does_app; eauto.
    - apply surely_all. intros n. destruct l, vs, encs; try apply does_nil; destruct H as [H|[H|H]]; discriminate.
    - revert H0 H2. apply surely_and. intros n K1 K2. cbn [write_tuple map]. eapply does_app; eauto.
    - apply surely_all. intros n. unfold write_proxy. rewrite H, H0, H1. cbn [andb is_none]. apply does_child.
      constructor; simpl; auto. fold b. intros ->; auto.
    - apply surely_all. intros n. unfold write_proxy. rewrite H. cbn [is_none].
      destruct H0 as [-> | ->]; cbn [andb]; [|apply does_nil]. destruct (fl_exclude_none fl); apply does_nil.
    - specialize (H2 (fun name => @NC _ _ name H)). revert H2. apply surely_imp. intros n K. unfold write_proxy. rewrite H.
      apply is_none_false in H0. rewrite H0, !andb_false_r. exact (@sub_does fl (px_name p) (px_nsmap p) _ _ _ _ K H3 H4).
    - specialize (H2 H3). revert H2. apply surely_imp. intros n K. unfold write_model. apply is_none_false in H0. rewrite H0, H. exact K.
    - apply surely_all. intros n. unfold write_model. rewrite H. cbn [is_none]. rewrite H0. cbn [is_unset obind].
      assert (str_in "root" set = false) as -> by (destruct (str_in "root" set) eqn:X; auto; apply str_in_spec in X; contradiction). apply does_nil.
    - revert H4. apply surely_imp. intros n K. unfold write_model. rewrite H, H1. cbn [is_none py_getattr]. rewrite H2.
      destruct (fl_exclude_unset fl) eqn:X; cbn [is_unset obind]; [|exact K].
      destruct (str_in "root" set) eqn:Y; [exact K|]. exfalso. apply H0. split; auto. intros I. apply str_in_spec in I. congruence.
    - apply surely_all. intros n. apply does_nil.
    - specialize (H1 H2). revert H1. apply surely_imp. intros n K. cbn [write_fields]. apply str_in_spec in H. rewrite H. exact K.
    - specialize (H3 H4). revert H3. apply surely_imp. intros n K. cbn [write_fields].
      assert (str_in name (md_sexclude m) = false) as -> by (destruct (str_in name (md_sexclude m)) eqn:X; auto; apply str_in_spec in X; contradiction).
      rewrite H0. cbn [is_unset obind]. 
      assert (str_in name set = false) as -> by (destruct (str_in name set) eqn:X; auto; apply str_in_spec in X; contradiction). exact K.
    - specialize (H6 H7). revert H4 H6. apply surely_and. intros n K1 K2. cbn [write_fields].
      assert (str_in name (md_sexclude m) = false) as -> by (destruct (str_in name (md_sexclude m)) eqn:X; auto; apply str_in_spec in X; contradiction).
      rewrite H7. cbn [py_getattr py_getitem]. rewrite H1, H2.
      assert (X : (if fl_exclude_unset fl then is_unset (VModel cls attrs set) name else Ok false) = Ok false).
      { destruct (fl_exclude_unset fl) eqn:X; auto. cbn [is_unset]. destruct (str_in name set) eqn:Y; auto. exfalso. apply H0. split; auto. intros I. apply str_in_spec in I. congruence. }
      rewrite X. cbn [obind]. eapply does_app; eauto.
  Qed.
End Complete.
