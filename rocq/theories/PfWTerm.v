(** PfWTerm.v -- writing terminates: the recursion follows the value. *)

From Verif Require Import Base Elem Native Errs Names Ser Write Api SpecWrite PfFuel.

Lemma vmax_in : forall l x, In x l -> vdepth x <= fold_right (fun y n => Nat.max (vdepth y) n) 0 l.
Proof.
  intros l x; induction l as [|y l IH]; intros H; [destruct H|]. cbn [fold_right].
  destruct H as [->|H]; [lia|]. specialize (IH H); lia.
Qed.

Lemma vdict_in : forall (l : list (string * val)) k x, In (k, x) l ->
  vdepth x <= fold_right (fun (kv : string * val) n => Nat.max (let (_, y) := kv in vdepth y) n) 0 l.
Proof.
  intros l k x; induction l as [|[k' y] l IH]; intros H; [destruct H|]. cbn [fold_right].
  destruct H as [H|H]; [injection H as _ ->; lia|]. specialize (IH H); lia.
Qed.

Lemma getattr_depth : forall v name x, py_getattr v name = Ok x -> vdepth x < vdepth v.
Proof.
  intros v name x; destruct v; simpl; try discriminate. destruct (dget name attrs) as [y|] eqn:G; [|discriminate].
  intros H; injection H as ->. apply dget_Some_in in G. apply vdict_in in G. simpl in G. lia.
Qed.

Section WTerm.
  Variable ev : env.
  Hypothesis Hev : customs_return ev.

  Definition whalts (s : ser) (v : val) : Prop :=
    forall fl e enc, exists n, write n ev s fl e v enc <> Fuel.

  Lemma write_upto : forall s fl e v enc n, write n ev s fl e v enc <> Fuel -> forall n', n <= n' ->
    write n' ev s fl e v enc = write n ev s fl e v enc.
  Proof. intros s fl e v enc n H n' Hn. destruct (write_le ev Hn s fl e v enc); congruence. Qed.

  Lemma items_whalt : forall inner vs, Forall (whalts inner) vs -> forall fl e encs,
    exists n, write_items (write n ev inner) fl e vs encs <> Fuel.
  Proof.
    intros inner vs F; induction F as [|v vs Hv F IH]; intros fl e encs; [exists 0; destruct encs; discriminate|].
    destruct encs as [|enc encs]; [exists 0; discriminate|]. cbn [write_items].
    destruct (fl_skip_empty fl && is_none v); auto.
    destruct (Hv fl e enc) as [n1 N1]. destruct (write n1 ev inner fl e v enc) as [e1|x|] eqn:E1; [| |congruence].
    - destruct (IH fl e1 encs) as [n2 N2]. exists (Nat.max n1 n2).
      rewrite (@write_upto inner fl e v enc n1) by (try lia; congruence). rewrite E1. simpl.
      destruct (@write_items_le (write n2 ev inner) (write (Nat.max n1 n2) ev inner) (write_le ev (n1:=n2) (n2:=Nat.max n1 n2) ltac:(lia) inner) fl vs encs e1); congruence.
    - exists n1. rewrite E1. discriminate.
  Qed.

  Lemma tuple_whalt : forall H inners, (forall inner, In inner inners -> forall v, vdepth v < H -> whalts inner v) ->
    forall vs, (forall v, In v vs -> vdepth v < H) -> forall fl e encs,
    exists n, write_tuple (map (write n ev) inners) fl e vs encs <> Fuel.
  Proof.
    intros H inners; induction inners as [|inner inners IH]; intros Hi vs Hv fl e encs; [exists 0; discriminate|].
    destruct vs as [|v vs]; [exists 0; discriminate|]. destruct encs as [|enc encs]; [exists 0; discriminate|].
    cbn [map write_tuple].
    destruct (Hi inner (or_introl eq_refl) v (Hv v (or_introl eq_refl)) fl e enc) as [n1 N1].
    destruct (write n1 ev inner fl e v enc) as [e1|x|] eqn:E1; [| |congruence].
    - destruct (IH (fun i Hin => Hi i (or_intror Hin)) vs (fun v Hin => Hv v (or_intror Hin)) fl e1 encs) as [n2 N2].
      exists (Nat.max n1 n2).
      rewrite (@write_upto inner fl e v enc n1) by (try lia; congruence). rewrite E1. simpl.
      destruct (@write_tuple_le (map (write n2 ev) inners) (map (write (Nat.max n1 n2) ev) inners)
        (Forall2_map_wle (write n2 ev) (write (Nat.max n1 n2) ev) inners (write_le ev (n1:=n2) (n2:=Nat.max n1 n2) ltac:(lia))) fl vs encs e1); congruence.
    - exists n1. rewrite E1. discriminate.
  Qed.

  Lemma fields_whalt : forall H cls m v, en_model ev cls = Some m -> vdepth v <= H ->
    (forall s x, vdepth x < H -> whalts s x) ->
    forall fs fl e enc, exists n, write_fields (write n ev) m fs fl e v enc <> Fuel.
  Proof.
    intros H cls m v Hm Hd Hs fs; induction fs as [|[name s] fs IH]; intros fl e enc; cbn [write_fields]; [exists 0; discriminate|].
    destruct (str_in name (md_sexclude m)); auto.
    destruct (if fl_exclude_unset fl then is_unset v name else Ok false) as [u|x|] eqn:Eu; cbn [obind];
      [|exists 0; discriminate|].
    2: { exfalso. destruct (fl_exclude_unset fl); [|discriminate]. unfold is_unset in Eu. destruct v; discriminate. }
    destruct u; auto.
    destruct (py_getattr v name) as [x|x|] eqn:Ex; cbn [obind]; [|exists 0; discriminate|].
    2: { exfalso. unfold py_getattr in Ex. destruct v; try discriminate. destruct (dget name attrs); discriminate. }
    assert (Head : exists n1 o, o <> Fuel /\ forall n, n1 <= n ->
      (match md_cser m name with Some custom => custom v e x
       | None => obind (py_getitem enc name) (fun xe => write n ev s fl e x xe) end) = o).
    { destruct (md_cser m name) as [f|] eqn:Ec.
      - exists 0, (f v e x). split; auto. eapply Hev; eauto.
      - destruct (py_getitem enc name) as [xe|y|] eqn:Ei; cbn [obind].
        + destruct (Hs s x (Nat.lt_le_trans _ _ _ (getattr_depth v name Ex) Hd) fl e xe) as [n1 N1].
          exists n1, (write n1 ev s fl e x xe). split; auto. intros n Hn; apply write_upto; auto.
        + exists 0, (Raise y). split; auto; discriminate.
        + exfalso. unfold py_getitem in Ei. destruct enc; try discriminate. destruct (dget name d); discriminate. }
    destruct Head as (n1 & o & No & Step).
    destruct o as [e1|y|]; [| |congruence].
    - destruct (IH fl e1 enc) as [n2 N2]. exists (Nat.max n1 n2). rewrite (Step (Nat.max n1 n2)) by lia. cbn [obind].
      destruct (@write_fields_le (write n2 ev) (write (Nat.max n1 n2) ev) (write_le ev (n1:=n2) (n2:=Nat.max n1 n2) ltac:(lia)) m fs fl e1 v enc); congruence.
    - exists n1. rewrite (Step n1) by lia. discriminate.
  Qed.

  Lemma model_whalt : forall H cls m v, en_model ev cls = Some m -> vdepth v <= H ->
    (forall s x, vdepth x < H -> whalts s x) ->
    forall fl e enc, exists n, write_model (write n ev) m fl e v enc <> Fuel.
  Proof.
    intros H cls m v Hm Hd Hs fl e enc; unfold write_model. destruct (is_none v); [exists 0; discriminate|].
    destruct (md_root m); [|eapply fields_whalt; eauto].
    destruct (if fl_exclude_unset fl then is_unset v "root" else Ok false) as [u|x|] eqn:Eu; cbn [obind];
      [|exists 0; discriminate|].
    2: { exfalso. destruct (fl_exclude_unset fl); [|discriminate]. unfold is_unset in Eu. destruct v; discriminate. }
    destruct u; [exists 0; discriminate|]. destruct (md_fields m) as [|[nm s] fs]; [exists 0; discriminate|].
    destruct (py_getattr v "root") as [x|x|] eqn:Ex; cbn [obind]; [|exists 0; discriminate|].
    2: { exfalso. unfold py_getattr in Ex. destruct v; try discriminate. destruct (dget "root" attrs); discriminate. }
    apply Hs. apply getattr_depth in Ex; lia.
  Qed.

  Lemma proxy_whalt : forall H p v, vdepth v <= H -> (forall s x, vdepth x < H -> whalts s x) ->
    forall fl e enc, exists n, write_proxy ev (write n ev) p fl e v enc <> Fuel.
  Proof.
    intros H p v Hd Hs fl e enc; unfold write_proxy. destruct (en_model ev (px_model p)) as [m|] eqn:Em; [|exists 0; discriminate].
    destruct (_ && _); [exists 0; discriminate|]. destruct (_ && _); [exists 0; discriminate|].
    destruct (is_none v); [exists 0; discriminate|].
    destruct (@model_whalt H (px_model p) m v Em Hd Hs fl (make_element (en_backend ev) (px_name p) (px_nsmap p)) enc) as [n N].
    exists n. destruct (write_model _ _ _ _ _ _); simpl; congruence.
  Qed.

  Lemma path_whalt : forall b mode nsm inner v, whalts inner v -> forall fl enc path e,
    exists n, write_path b mode nsm path (fun c => write n ev inner fl c v enc) e <> Fuel.
  Proof.
    intros b mode nsm inner v Hw fl enc path; induction path as [|part path IH]; intros e; cbn [write_path]; [apply Hw|].
    destruct (find_element_or_create _ _ _ _ _) as [[|i|] e']; try (exists 0; discriminate).
    destruct (nth_error (e_elems e') i) as [c|]; [|exists 0; discriminate].
    destruct (IH c) as [n N]. exists n. destruct (write_path _ _ _ _ _ _); simpl; congruence.
  Qed.

  Lemma py_str_not_fuel : forall v, py_str v <> Fuel.
  Proof. intros v; destruct v; simpl; try discriminate. destruct b; discriminate. Qed.

  Lemma encode_not_fuel : forall v, encode_primitive v <> Fuel.
  Proof.
    intros v; unfold encode_primitive; destruct v; try apply py_str_not_fuel; try discriminate.
    destruct b; discriminate.
  Qed.

  Lemma write_text_not_fuel : forall n fl e v enc, write_text n fl e v enc <> Fuel.
  Proof.
    intros n fl e v enc; unfold write_text. destruct (_ && _); [discriminate|]. cbv zeta.
    pose proof (encode_not_fuel enc). destruct (encode_primitive enc); simpl; congruence.
  Qed.

  Lemma write_attrs_not_fuel : forall a fl e v enc, write_attrs a fl e v enc <> Fuel.
  Proof.
    intros a fl e v enc; unfold write_attrs. destruct (is_none v); [discriminate|]. destruct enc; try discriminate.
    assert (H : attrs_items (attrs_uri a) d <> Fuel).
    { induction d as [|[k x] d IH]; simpl; [discriminate|].
      pose proof (py_str_not_fuel x). destruct (py_str x); simpl; try congruence.
      destruct (attrs_items (attrs_uri a) d); simpl; congruence. }
    destruct (attrs_items _ _); simpl; congruence.
  Qed.

  Lemma py_iter_not_fuel : forall v, py_iter v <> Fuel.
  Proof. intros v; destruct v; simpl; discriminate. Qed.

  Lemma py_iter_in : forall v l, py_iter v = Ok l -> forall x, In x l -> vdepth x < vdepth v.
  Proof.
    intros v l; destruct v; simpl; try discriminate. intros H; injection H as ->. intros x Hx.
    apply vmax_in in Hx; lia.
  Qed.

  Lemma ser_whalt : forall H, (forall s x, vdepth x < H -> whalts s x) ->
    forall s v, vdepth v <= H -> whalts s v.
  Proof.
    intros H Hs s; induction s using ser_ind'; intros v Hd fl e enc.
    - exists 1; simpl. apply write_text_not_fuel.
    - exists 1; simpl. unfold write_attr. destruct (_ && _); [discriminate|].
      pose proof (encode_not_fuel enc). destruct (encode_primitive enc); simpl; congruence.
    - exists 1; simpl. unfold write_elem. destruct (_ && _); [discriminate|].
      pose proof (write_text_not_fuel ni fl (make_element (en_backend ev) n m) v enc). destruct (write_text _ _ _ _ _); simpl; congruence.
    - exists 1; simpl. apply write_attrs_not_fuel.
    - exists 1; simpl. unfold write_map_elem. cbv zeta.
      assert (G : obind (write_attrs a fl (make_element (en_backend ev) n (as_nsmap a)) v enc)
                   (fun sub => Ok (append_unless_empty fl sub e)) <> Fuel).
      { pose proof (write_attrs_not_fuel a fl (make_element (en_backend ev) n (as_nsmap a)) v enc).
        destruct (write_attrs _ _ _ _ _); simpl; congruence. }
      destruct (fl_skip_empty fl); auto. destruct (py_len v) as [[|k]|]; auto; discriminate.
    - destruct (is_none v) eqn:Nv; [exists 1; simpl; unfold write_homo; rewrite Nv; discriminate|].
      destruct (py_iter v) as [vs|x|] eqn:Ev;
        [|exists 1; simpl; unfold write_homo; rewrite Nv, Ev; discriminate|exfalso; eapply py_iter_not_fuel; eauto].
      destruct (py_iter enc) as [encs|x|] eqn:Ee;
        [| |exfalso; eapply py_iter_not_fuel; eauto].
      + destruct (@items_whalt s vs) with (fl := fl) (e := e) (encs := encs) as [n N].
        { rewrite Forall_forall. intros x Hx. apply IHs. pose proof (py_iter_in v Ev x Hx). lia. }
        exists (S n); simpl. unfold write_homo. rewrite Nv, Ev. simpl. destruct (_ && _); [discriminate|].
        rewrite Ee. exact N.
      + exists 1; simpl. unfold write_homo. rewrite Nv, Ev. simpl. destruct (_ && _); [discriminate|]. rewrite Ee; discriminate.
    - destruct (is_none v) eqn:Nv; [exists 1; simpl; unfold write_hetero; rewrite Nv; discriminate|].
      destruct (py_iter v) as [vs|x|] eqn:Ev;
        [|exists 1; simpl; unfold write_hetero; rewrite Nv, Ev; discriminate|exfalso; eapply py_iter_not_fuel; eauto].
      destruct (py_iter enc) as [encs|x|] eqn:Ee;
        [| |exfalso; eapply py_iter_not_fuel; eauto].
      + destruct (@tuple_whalt H l) with (vs := vs) (fl := fl) (e := e) (encs := encs) as [n N].
        { intros inner Hin x Hx. apply Hs; auto. }
        { intros x Hx. pose proof (py_iter_in v Ev x Hx). lia. }
        exists (S n); simpl. unfold write_hetero. rewrite Nv, Ev. simpl. destruct (_ && _); [discriminate|].
        destruct (negb _); [discriminate|]. rewrite Ee. exact N.
      + exists 1; simpl. unfold write_hetero. rewrite Nv, Ev. simpl. destruct (_ && _); [discriminate|].
        destruct (negb _); [discriminate|]. rewrite Ee; discriminate.
    - destruct (IHs v Hd fl e enc) as [n N]. exists (S n). exact N.
    - induction vs as [|p vs IHv]; [exists 1; simpl; discriminate|].
      destruct (match model_type v with Some k => String.eqb (px_model p) k | None => false end) eqn:Em.
      + destruct (@proxy_whalt H p v Hd Hs fl e enc) as [n N]. exists (S n). cbn [write write_step write_union]. rewrite Em. exact N.
      + destruct IHv as [n N]. destruct n as [|n]; [exfalso; apply N; reflexivity|]. exists (S n).
        cbn [write write_step write_union] in *. rewrite Em. exact N.
    - assert (G : forall p, exists n, write_proxy ev (write n ev) p fl e v enc <> Fuel) by (intros p; eapply proxy_whalt; eauto).
      destruct enc as [| | | | | |en| |]; try (exists 1; simpl; discriminate).
      destruct (dget d en) as [t|] eqn:Ed; [|exists 1; simpl; rewrite Ed; discriminate].
      destruct (py_truthy t) eqn:Et; [|exists 1; simpl; rewrite Ed, Et; discriminate].
      destruct t; try (exists 1; simpl; rewrite Ed, Et; discriminate).
      destruct (dget s vs) as [p|] eqn:Es; [|exists 1; simpl; rewrite Ed, Et, Es; discriminate].
      destruct (G p) as [n N]. exists (S n). simpl. rewrite Ed, Et, Es. exact N.
    - destruct (is_none v) eqn:Nv; [exists 1; simpl; unfold write_wrap; rewrite Nv; discriminate|].
      destruct (@path_whalt (en_backend ev) md m s v (IHs v Hd) fl enc p e) as [n N].
      exists (S n). simpl. unfold write_wrap. rewrite Nv. destruct (_ && _); [discriminate|exact N].
    - exists 1; simpl. unfold write_raw. destruct v; discriminate.
    - destruct (@proxy_whalt H p v Hd Hs fl e enc) as [n N]. exists (S n). exact N.
  Qed.

  Lemma all_whalt : forall H s v, vdepth v <= H -> whalts s v.
  Proof.
    intros H; induction H as [|H IH]; intros s v Hv.
    - apply (@ser_whalt 0); [intros; lia|auto].
    - apply (@ser_whalt (S H)); auto. intros s' x Hx. apply IH; lia.
  Qed.

  Lemma to_xml_halts : forall encode v fl, exists n, to_xml_tree n ev encode v fl <> Fuel.
  Proof.
    intros encode v fl; unfold to_xml_tree. destruct (model_type v) as [cls|]; [|exists 0; discriminate].
    destruct (en_model ev cls) as [m|] eqn:Em; [|exists 0; discriminate]. cbv zeta.
    destruct (@model_whalt (vdepth v) cls m v Em (Nat.le_refl _)
      (fun s x _ => @all_whalt (vdepth x) s x (Nat.le_refl _)) fl
      (new_elem (TName (md_elem_name m)) None None None [] (md_nsmap m) (-1)) (encode v)) as [n N].
    exists n. destruct (write_model _ _ _ _ _ _); simpl; [|discriminate|congruence].
    destruct (to_native _ _); discriminate.
  Qed.
End WTerm.
