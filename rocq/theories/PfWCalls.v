(** PfWCalls.v -- proofs for C80: the recorded calls are those that are made. *)

From Verif Require Import Base Elem Native Errs Names Ser Write Api WCalls SpecCrash SpecWCalls PfFuel PfWrite.

Section Tied.
  Variables ev ev' : env.
  Hypothesis HE : same_writers ev ev'.
  Variables ok bad : wcall -> Prop.
  Variable x : exn.
  Hypothesis Hok : forall c, ok c -> yields_alike ev ev' c.
  Hypothesis Hbad : forall c, bad c -> forall o, yields ev' c o -> o = Raise x.

  (** the second run does the same and no bad call is made, or a bad call is made and raises *)
  Definition tied {A} (tr : list wcall) (p p' : out A) : Prop :=
    Forall (fun c => ok c \/ bad c) tr ->
    (p' = p /\ Forall ok tr) \/ (Exists bad tr /\ p' = Raise x).
  Definition writer_tied (w w' : writer) (t : wtracer) : Prop :=
    forall pl fl e v enc, tied (t pl fl e v enc) (w fl e v enc) (w' fl e v enc).

  Lemma tied_nil : forall A (p : out A), tied [] p p.
  Proof. intros A p _; left; auto. Qed.

  Lemma tied_bind : forall A B tr tr2 (p p' : out A) (k k' : A -> out B), tied tr p p' ->
    (forall a, p = Ok a -> tied (tr2 a) (k a) (k' a)) ->
    tied (tr ++ match p with Ok a => tr2 a | _ => [] end) (obind p k) (obind p' k').
  Proof.
    intros A B tr tr2 p p' k k' H K F. apply Forall_app in F as [F1 F2].
    destruct (H F1) as [[-> O]|[X ->]].
    - destruct p as [a|y|]; simpl.
      + destruct (K a eq_refl F2) as [[-> O2]|[X E]]; [left; split; auto; apply Forall_app; auto|]. right; split; auto. apply Exists_app; auto.
      + left; split; auto. rewrite app_nil_r; auto.
      + left; split; auto. rewrite app_nil_r; auto.
    - right; split; auto. apply Exists_app; auto.
  Qed.

  Lemma tied_map : forall A B tr (p p' : out A) (k : A -> out B), tied tr p p' -> tied tr (obind p k) (obind p' k).
  Proof.
    intros A B tr p p' k H F. destruct (H F) as [[-> O]|[X ->]]; [left; auto|right; auto].
  Qed.

  Lemma items_tied : forall w w' t, writer_tied w w' t -> forall fl vs encs pl idx e,
    tied (wt_items w t pl idx fl e vs encs) (write_items w fl e vs encs) (write_items w' fl e vs encs).
  Proof.
    intros w w' t H fl vs; induction vs as [|v vs IH]; intros encs pl idx e; cbn [wt_items write_items]; [apply tied_nil|].
    destruct encs as [|enc encs]; [apply tied_nil|]. destruct (_ && _); [apply IH|].
    apply tied_bind with (tr2 := fun e' => wt_items w t pl (S idx) fl e' vs encs); [apply H|]. intros a _. apply IH.
  Qed.

  Definition list_tied (wts : list (writer * wtracer)) (ws' : list writer) : Prop :=
    Forall2 (fun wt w' => writer_tied (fst wt) w' (snd wt)) wts ws'.

  Lemma tuple_tied : forall wts ws', list_tied wts ws' -> forall fl vs encs pl idx e,
    tied (wt_tuple wts pl idx fl e vs encs) (write_tuple (map fst wts) fl e vs encs) (write_tuple ws' fl e vs encs).
  Proof.
    intros wts ws' H; induction H as [|[w t] w' wts ws' Hw _ IH]; intros fl vs encs pl idx e; cbn [wt_tuple write_tuple map fst]; [apply tied_nil|].
    destruct vs as [|v vs]; [apply tied_nil|]. destruct encs as [|enc encs]; [apply tied_nil|].
    apply tied_bind with (tr2 := fun e' => wt_tuple wts pl (S idx) fl e' vs encs); [apply Hw|]. intros a _. apply IH.
  Qed.

  Lemma path_tied : forall b mode ns k k' t path e, (forall c, tied (t c) (k c) (k' c)) ->
    tied (wt_path b mode ns path t e) (write_path b mode ns path k e) (write_path b mode ns path k' e).
  Proof.
    intros b mode ns k k' t path; induction path as [|p rest IH]; intros e K; cbn [wt_path write_path]; auto.
    destruct (find_element_or_create b e p mode ns) as [[|i|] e']; try apply tied_nil.
    destruct (nth_error (e_elems e') i) as [c|]; [|apply tied_nil]. apply tied_map; auto.
  Qed.

  Definition mrel (m m' : mdef) : Prop :=
    m' = with_code m (md_cser m') (md_cval m') (md_validate m') /\
    forall name, both_there (fun _ _ => True) (md_cser m name) (md_cser m' name).

  Lemma classes_rel : forall cls, both_there mrel (en_model ev cls) (en_model ev' cls).
  Proof. intros cls. apply (proj2 HE). Qed.

  Lemma call_tied : forall cls m m' f f' name pl v e y, en_model ev cls = Some m -> en_model ev' cls = Some m' ->
    md_cser m name = Some f -> md_cser m' name = Some f' ->
    tied [WCall pl cls name v e y] (f v e y) (f' v e y).
  Proof.
    intros cls m m' f f' name pl v e y Hm Hm' Hf Hf' F. inversion F as [|? ? [O|X] _]; subst.
    - left; split; auto. destruct (Hok O (f v e y)) as [H _]. destruct H as (m2 & f2 & E2 & F2 & E); [exists m, f; auto|].
      simpl in *. rewrite Hm' in E2. injection E2 as <-. rewrite Hf' in F2. injection F2 as <-. auto.
    - right; split; auto. eapply Hbad; eauto. exists m', f'; auto.
  Qed.

  Lemma fields_tied : forall (w w' : ser -> writer) (t : ser -> wtracer), (forall s, writer_tied (w s) (w' s) (t s)) ->
    forall cls m m', en_model ev cls = Some m -> en_model ev' cls = Some m' -> mrel m m' ->
    forall fs pl fl e v enc, tied (wt_fields w t cls m fs pl fl e v enc) (write_fields w m fs fl e v enc) (write_fields w' m' fs fl e v enc).
  Proof.
    intros w w' t H cls m m' Hm Hm' (Em & Cs) fs; induction fs as [|[name s] fs IH]; intros pl fl e v enc; cbn [wt_fields write_fields]; [apply tied_nil|].
    assert (X : md_sexclude m' = md_sexclude m) by (rewrite Em; auto). rewrite X. destruct (str_in name (md_sexclude m)); [apply IH|].
    destruct (if fl_exclude_unset fl then is_unset v name else Ok false) as [[|]|y|]; cbn [obind]; try apply tied_nil; [apply IH|].
    destruct (py_getattr v name) as [a|y|]; cbn [obind]; try apply tied_nil.
    specialize (Cs name). unfold both_there in Cs. destruct (md_cser m name) as [f|] eqn:Ef, (md_cser m' name) as [f'|] eqn:Ef'; try contradiction.
    - apply (tied_bind (tr := [WCall pl cls name v e a]) (fun e' => wt_fields w t cls m fs pl fl e' v enc)); [eapply call_tied; eauto|].
      intros e' _. apply IH.
    - destruct (py_getitem enc name) as [xe|y|]; cbn [obind]; try apply tied_nil.
      apply (tied_bind (fun e' => wt_fields w t cls m fs pl fl e' v enc)); [apply H|]. intros e' _. apply IH.
  Qed.

  Lemma model_tied : forall (w w' : ser -> writer) (t : ser -> wtracer), (forall s, writer_tied (w s) (w' s) (t s)) ->
    forall cls m m', en_model ev cls = Some m -> en_model ev' cls = Some m' -> mrel m m' ->
    writer_tied (write_model w m) (write_model w' m') (wt_model w t cls m).
  Proof.
    intros w w' t H cls m m' Hm Hm' R pl fl e v enc. pose proof R as (Em & Cs). unfold wt_model, write_model.
    assert (X : md_root m' = md_root m /\ md_fields m' = md_fields m /\ with_skip_empty m' fl = with_skip_empty m fl) by (rewrite Em; auto).
    destruct X as (-> & -> & ->). destruct (is_none v); [apply tied_nil|]. destruct (md_root m); [|apply fields_tied; auto].
    destruct (if fl_exclude_unset fl then is_unset v "root" else Ok false) as [[|]|y|]; cbn [obind]; try apply tied_nil.
    destruct (md_fields m) as [|[name s] fs]; [apply tied_nil|]. destruct (py_getattr v "root") as [a|y|]; cbn [obind]; try apply tied_nil. apply H.
  Qed.

  Lemma proxy_tied : forall (w w' : ser -> writer) (t : ser -> wtracer), (forall s, writer_tied (w s) (w' s) (t s)) ->
    forall p, writer_tied (write_proxy ev w p) (write_proxy ev' w' p) (wt_proxy ev w t p).
  Proof.
    intros w w' t H p pl fl e v enc. unfold wt_proxy, write_proxy. pose proof (classes_rel (px_model p)) as R. unfold both_there in R.
    destruct (en_model ev (px_model p)) as [m|] eqn:Hm, (en_model ev' (px_model p)) as [m'|] eqn:Hm'; try contradiction; [|apply tied_nil].
    rewrite <- (proj1 HE). destruct (is_none v); [rewrite !andb_true_r; destruct (fl_exclude_none fl), (px_nillable p); apply tied_nil|].
    rewrite !andb_false_r. apply tied_map. eapply model_tied; eauto.
  Qed.

  Lemma write_tied : forall n s, writer_tied (write n ev s) (write n ev' s) (wtrace n ev s).
  Proof.
    induction n as [|n IH]; intros s pl fl e v enc; [apply tied_nil|]. pose proof (proj1 HE) as Eb.
    destruct s; cbn [write write_step wtrace wtrace_step]; rewrite <- ?Eb; try apply tied_nil.
    - unfold wt_homo, write_homo. destruct (is_none v); [apply tied_nil|]. destruct (py_iter v) as [vs|y|]; cbn [obind]; try apply tied_nil.
      destruct (_ && _); [apply tied_nil|]. destruct (py_iter enc) as [encs|y|]; cbn [obind]; try apply tied_nil. apply items_tied. exact (IH _).
    - unfold wt_hetero, write_hetero. destruct (is_none v); [apply tied_nil|]. destruct (py_iter v) as [vs|y|]; cbn [obind]; try apply tied_nil.
      rewrite !map_length. destruct (_ && _); [apply tied_nil|]. destruct (negb _); [apply tied_nil|].
      destruct (py_iter enc) as [encs|y|]; cbn [obind]; try apply tied_nil.
      match goal with |- tied (wt_tuple ?l _ _ _ _ _ _) _ _ => replace (map (write n ev) inners) with (map fst l) by (rewrite map_map; reflexivity) end.
      apply tuple_tied. clear - IH. induction inners as [|s l IHl]; simpl; constructor; auto. exact (IH s).
    - apply IH.
    - induction variants as [|p vs IHv]; cbn [wt_union write_union]; [apply tied_nil|].
      destruct (match model_type v with Some _ => _ | None => _ end); auto. apply (proxy_tied _ _ _ IH).
    - unfold wt_tagged, write_tagged. destruct enc; try apply tied_nil. destruct (dget _ _) as [tag|]; [|apply tied_nil].
      destruct tag; try (destruct (py_truthy _); apply tied_nil). destruct (py_truthy (VStr s)); [|apply tied_nil].
      destruct (dget s _) as [p|]; [|apply tied_nil]. apply (proxy_tied _ _ _ IH).
    - unfold wt_wrap, write_wrap. destruct (is_none v); [apply tied_nil|]. destruct (_ && _); [apply tied_nil|]. apply path_tied. intros c. apply IH.
    - apply (proxy_tied _ _ _ IH).
  Qed.

  Lemma to_xml_tied : forall n encode v fl,
    tied (wcalls n ev encode v fl) (to_xml_tree n ev encode v fl) (to_xml_tree n ev' encode v fl).
  Proof.
    intros n encode v fl. unfold wcalls, to_xml_tree. destruct (model_type v) as [cls|]; [|apply tied_nil].
    pose proof (classes_rel cls) as R. unfold both_there in R.
    destruct (en_model ev cls) as [m|] eqn:Hm, (en_model ev' cls) as [m'|] eqn:Hm'; try contradiction; [|apply tied_nil].
    rewrite <- (proj1 HE). assert (X : md_elem_name m' = md_elem_name m /\ md_nsmap m' = md_nsmap m) by (destruct R as [-> _]; auto).
    destruct X as (-> & ->). apply tied_map. eapply model_tied; eauto. apply write_tied.
  Qed.
End Tied.
