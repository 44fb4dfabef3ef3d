(** PfCrash.v -- an exception of user code stops the call and reaches the caller (C77). *)

From Verif Require Import Base Elem Native Errs Names Ser Write Read Api SpecCrash PfFuel.

Section Crash.
  Variable New : exn -> Prop.
  Hypothesis HN : forall x, New x -> foreign x.

  (** the first run raised one of [New], or both agree *)
  Definition cr {A B} (p q : out A * B) : Prop := (exists x, New x /\ fst p = Raise x) \/ p = q.
  Definition reader_cr (r1 r2 : reader) : Prop := forall eas loc s, cr (r1 eas loc s) (r2 eas loc s).

  Lemma cr_refl : forall A B (p : out A * B), cr p p.
  Proof. intros; right; auto. Qed.

  Lemma cr_raise : forall A B x (s : B) (q : out A * B), New x -> cr (Raise x, s) q.
  Proof. intros; left; eauto. Qed.

  (** a raised exception is not one that is caught *)
  Local Ltac out_of H :=
    let x := fresh "x" in let Nx := fresh "Nx" in let F := fresh "F" in
    destruct H as [(x & Nx & F)|E]; [match type of F with fst ?p = _ => destruct p as [? ?]; simpl in F; subst end;
      try (apply cr_raise; exact Nx);
      try (destruct x; try (apply cr_raise; exact Nx); exfalso; eapply (HN Nx); reflexivity)|].

  Lemma on_child_cr : forall A i (f1 f2 : st -> rres A) s, (forall c, cr (f1 c) (f2 c)) ->
    cr (on_child i f1 s) (on_child i f2 s).
  Proof.
    intros A i f1 f2 s H; unfold on_child. destruct (nth_error _ i) as [c|]; [|apply cr_refl].
    specialize (H (St c (st_sm s))). out_of H. rewrite E. apply cr_refl.
  Qed.

  Lemma with_found_cr : forall p (f1 f2 : st -> rres val) s, (forall c, cr (f1 c) (f2 c)) ->
    cr (with_found p f1 s) (with_found p f2 s).
  Proof. intros [[|i|] e] f1 f2 s H; simpl; try apply cr_refl. apply on_child_cr; auto. Qed.

  Lemma read_items_cr : forall r1 r2, reader_cr r1 r2 -> forall k title hide eas loc idx result errors s,
    cr (read_items k r1 title hide eas loc idx result errors s) (read_items k r2 title hide eas loc idx result errors s).
  Proof.
    intros r1 r2 Hr k; induction k as [|k IH]; intros title hide eas loc idx result errors s; [apply cr_refl|].
    cbn [read_items]. pose proof (Hr eas (loc ++ [LIdx idx]) s) as H. out_of H. rewrite <- E.
    destruct (r1 eas (loc ++ [LIdx idx]) s) as [[v|x|] s'].
    - destruct v; try apply cr_refl; apply IH.
    - destruct x; try apply cr_refl; apply IH.
    - apply cr_refl.
  Qed.

  Lemma read_tuple_cr : forall rs1 rs2, Forall2 reader_cr rs1 rs2 -> forall title hide eas loc idx result errors s,
    cr (read_tuple rs1 title hide eas loc idx result errors s) (read_tuple rs2 title hide eas loc idx result errors s).
  Proof.
    intros rs1 rs2 H; induction H as [|r1 r2 rs1 rs2 Hr Hrs IH]; intros title hide eas loc idx result errors s; [apply cr_refl|].
    cbn [read_tuple]. pose proof (Hr eas (loc ++ [LIdx idx]) s) as H. out_of H. rewrite <- E.
    destruct (r1 eas (loc ++ [LIdx idx]) s) as [[v|x|] s'].
    - apply IH.
    - destruct x; try apply cr_refl; apply IH.
    - apply cr_refl.
  Qed.

  Lemma read_variants_cr : forall rs1 rs2, Forall2 reader_cr rs1 rs2 -> forall title hide eas loc errors s,
    cr (read_variants rs1 title hide eas loc errors s) (read_variants rs2 title hide eas loc errors s).
  Proof.
    intros rs1 rs2 H; induction H as [|r1 r2 rs1 rs2 Hr Hrs IH]; intros title hide eas loc errors s; [apply cr_refl|].
    cbn [read_variants]. pose proof (Hr eas loc (set_el (create_snapshot (st_el s)) s)) as H. out_of H. rewrite <- E.
    destruct (r1 _ _ _) as [[v|x|] s'].
    - destruct v; try apply cr_refl; apply IH.
    - destruct x; try apply cr_refl; apply IH.
    - apply cr_refl.
  Qed.

  Lemma read_tagged_cr : forall rp1 rp2, (forall p, reader_cr (rp1 p) (rp2 p)) -> forall a mode vs eas loc s,
    cr (read_tagged rp1 a mode vs eas loc s) (read_tagged rp2 a mode vs eas loc s).
  Proof.
    intros rp1 rp2 H a mode vs; induction vs as [|[tag p] vs IH]; intros eas loc s; cbn [read_tagged]; [apply cr_refl|].
    destruct (find_element _ _ _ _ _) as [[|i|] e']; try apply cr_refl; try apply IH.
    destruct (nth_error (e_elems e') i) as [c|]; [|apply cr_refl].
    destruct (match get_attrib a c with Some t => _ | None => _ end); [apply H|apply IH].
  Qed.

  Lemma on_path_cr : forall A path (f1 f2 : st -> rres A) s, (forall c, cr (f1 c) (f2 c)) ->
    cr (on_path path f1 s) (on_path path f2 s).
  Proof.
    intros A path f1 f2; induction path as [|i path IH]; intros s H; cbn [on_path]; auto. apply on_child_cr; auto.
  Qed.

  Lemma read_wrap_cr : forall path mode c r1 r2, reader_cr r1 r2 -> reader_cr (read_wrap path mode c r1) (read_wrap path mode c r2).
  Proof.
    intros path mode c r1 r2 H eas loc s; unfold read_wrap. destruct c; [apply cr_refl|].
    destruct (find_sub_element path mode (st_el s)) as [[idxs|] e']; [|apply cr_refl].
    destruct (_ && _); [|apply cr_refl]. apply on_path_cr. intros c; apply H.
  Qed.

  (** ---- models ---- *)
  Variables ev ev' : env.
  Hypothesis HE : raises_more New ev ev'.

  Definition mcr (m m' : mdef) : Prop :=
    m = with_code m' (md_cser m) (md_cval m) (md_validate m) /\
    (forall name, both_there (serializer_raises New) (md_cser m name) (md_cser m' name)) /\
    (forall name, both_there (validator_raises New) (md_cval m name) (md_cval m' name)) /\
    validation_raises New (md_validate m) (md_validate m').

  Lemma read_fields_cr : forall r1 r2, (forall s, reader_cr (r1 s) (r2 s)) -> forall m m', mcr m m' ->
    forall fs eas result errors s, cr (read_fields r1 m fs eas result errors s) (read_fields r2 m' fs eas result errors s).
  Proof.
    intros r1 r2 H m m' (Em & _ & Hc & _) fs; induction fs as [|[name fser] fs IH]; intros eas result errors s; [apply cr_refl|].
    assert (Va : md_valias m = md_valias m') by (rewrite Em; reflexivity).
    cbn [read_fields]. specialize (Hc name).
    match goal with |- cr (let (o, s1) := ?p in _) (let (o2, s2) := ?q in _) => assert (C : cr p q); [|generalize dependent C; generalize p; intros [o0 s0] C] end.
    { destruct (md_cval m name) as [f|], (md_cval m' name) as [f'|]; simpl in Hc; try contradiction; [|apply H].
      unfold run_custom. destruct (Hc (st_el (note_line [LKey name] s))) as [E|(x & Nx & E)].
      - rewrite E. apply cr_refl.
      - destruct (f (st_el (note_line [LKey name] s))) as [o e']. simpl in E; subst. apply cr_raise; auto. }
    destruct C as [(x & Nx & F)|E]; [simpl in F; subst o0; destruct x; try (apply cr_raise; exact Nx); exfalso; eapply (HN Nx); reflexivity|].
    rewrite <- E, Va. destruct o0 as [v|x|].
    - destruct v; apply IH.
    - destruct x; try apply cr_refl; apply IH.
    - apply cr_refl.
  Qed.

  Lemma validate_cr : forall m m', mcr m m' -> forall i s (s0 : st), cr (validate_result m i s, s0) (validate_result m' i s, s0).
  Proof.
    intros m m' (Em & _ & _ & Hv) i s s0. unfold validate_result.
    assert (Ef : md_forbid m = md_forbid m' /\ md_name m = md_name m' /\ md_hide m = md_hide m') by (rewrite Em; auto).
    destruct Ef as (-> & -> & ->). destruct (if md_forbid m' then _ else _); [apply cr_refl|].
    destruct (Hv i) as [E|(w & Nw & E)]; [rewrite E; apply cr_refl|]. rewrite E. apply cr_raise; auto.
  Qed.

  Lemma read_model_cr : forall r1 r2, (forall s, reader_cr (r1 s) (r2 s)) -> forall m m', mcr m m' ->
    reader_cr (read_model r1 m) (read_model r2 m').
  Proof.
    intros r1 r2 H m m' M eas loc s; unfold read_model. pose proof M as (Em & _).
    assert (Er : md_root m = md_root m' /\ md_fields m = md_fields m' /\ md_name m = md_name m' /\ md_hide m = md_hide m') by (rewrite Em; auto).
    destruct Er as (-> & Ef & En & Eh). destruct (md_root m').
    - unfold read_root_model. rewrite Ef, En, Eh. destruct (md_fields m') as [|[name rser] fs]; [apply cr_refl|].
      pose proof (H rser eas loc s) as X. out_of X. rewrite <- E.
      destruct (r1 rser eas loc s) as [[v|x|] s']; [apply validate_cr; auto|apply cr_refl|apply cr_refl].
    - unfold read_plain_model. rewrite Ef, En, Eh. pose proof (read_fields_cr r1 r2 H M (md_fields m') eas [] [] s) as X.
      out_of X. rewrite <- E. destruct (read_fields r1 m _ _ _ _ _) as [[[result errors]|x|] s']; try apply cr_refl.
      destruct errors; [apply validate_cr; auto|apply cr_refl].
  Qed.

  Lemma classes_cr : forall cls, both_there mcr (en_model ev cls) (en_model ev' cls).
  Proof. intros cls. apply (proj2 HE). Qed.

  Lemma read_proxy_cr : forall r1 r2, (forall s, reader_cr (r1 s) (r2 s)) -> forall p, reader_cr (read_proxy ev r1 p) (read_proxy ev' r2 p).
  Proof.
    intros r1 r2 H p eas loc s; unfold read_proxy. pose proof (classes_cr (px_model p)) as M.
    destruct (en_model ev (px_model p)) as [m|], (en_model ev' (px_model p)) as [m'|]; simpl in M; try contradiction; [|apply cr_refl].
    destruct (px_computed p); [apply cr_refl|]. apply with_found_cr. intros c. cbv zeta.
    destruct (is_element_nill _) as [nil e1]. destruct nil; [apply cr_refl|]. apply read_model_cr; auto.
  Qed.

  Lemma map_cr : forall A (f g : A -> reader) l, (forall x, reader_cr (f x) (g x)) -> Forall2 reader_cr (map f l) (map g l).
  Proof. intros A f g l H; induction l; simpl; constructor; auto. Qed.

  Lemma read_cr : forall n s, reader_cr (read n ev s) (read n ev' s).
  Proof.
    intros n; induction n as [|n IH]; intros s eas loc st0; [apply cr_refl|]. cbn [read].
    destruct s; cbn [read_step]; try apply cr_refl.
    - unfold read_homo. destruct computed; [apply cr_refl|]. apply read_items_cr; auto.
    - unfold read_hetero. destruct computed; [apply cr_refl|]. apply read_tuple_cr. apply map_cr; auto.
    - unfold read_union_prim. destruct computed; [apply cr_refl|]. apply IH.
    - unfold read_union_model. destruct computed; [apply cr_refl|]. apply read_variants_cr.
      apply map_cr. intros p; apply read_proxy_cr; auto.
    - destruct computed; [apply cr_refl|]. apply read_tagged_cr. intros p; apply read_proxy_cr; auto.
    - apply read_wrap_cr; auto.
    - rewrite (proj1 HE). apply cr_refl.
    - apply read_proxy_cr; auto.
  Qed.

  Lemma from_xml_cr : forall n cls root eas,
    from_xml_tree n ev cls root eas = from_xml_tree n ev' cls root eas \/
    exists x, New x /\ from_xml_tree n ev cls root eas = Raise x.
  Proof.
    intros n cls root eas; unfold from_xml_tree. pose proof (classes_cr cls) as M. rewrite (proj1 HE).
    destruct (en_model ev cls) as [m|], (en_model ev' cls) as [m'|]; simpl in M; try contradiction; [|auto].
    assert (Et : md_elem_name m = md_elem_name m') by (destruct M as (Em & _); rewrite Em; auto). rewrite Et.
    destruct (tag_is _ _); [|auto].
    destruct (read_model_cr (read n ev) (read n ev') (read_cr n) M eas [] (St (from_native (en_backend ev') root) [])) as [(x & Nx & E)|E].
    - right; eauto.
    - left. rewrite E; auto.
  Qed.

  (** ---- writing ---- *)
  Definition oc {A} (p q : out A) : Prop := (exists x, New x /\ p = Raise x) \/ p = q.
  Definition writer_cr (w1 w2 : writer) : Prop := forall fl e v enc, oc (w1 fl e v enc) (w2 fl e v enc).

  Lemma oc_refl : forall A (p : out A), oc p p.
  Proof. intros; right; auto. Qed.

  Lemma obind_cr : forall A B (o1 o2 : out A) (f1 f2 : A -> out B), oc o1 o2 ->
    (forall a, oc (f1 a) (f2 a)) -> oc (obind o1 f1) (obind o2 f2).
  Proof.
    intros A B o1 o2 f1 f2 [(x & Nx & ->)| ->] H; [left; simpl; eauto|]. destruct o2; simpl; auto; apply oc_refl.
  Qed.

  Lemma write_items_cr : forall w1 w2, writer_cr w1 w2 -> forall fl vs encs e,
    oc (write_items w1 fl e vs encs) (write_items w2 fl e vs encs).
  Proof.
    intros w1 w2 H fl vs; induction vs as [|v vs IH]; intros [|enc encs] e; cbn [write_items]; try apply oc_refl.
    destruct (_ && _); auto. apply obind_cr; auto.
  Qed.

  Lemma write_homo_cr : forall w1 w2, writer_cr w1 w2 -> writer_cr (write_homo w1) (write_homo w2).
  Proof.
    intros w1 w2 H fl e v enc; unfold write_homo. destruct (is_none v); [apply oc_refl|].
    apply obind_cr; [apply oc_refl|]. intros vs. destruct (_ && _); [apply oc_refl|].
    apply obind_cr; [apply oc_refl|]. intros encs. apply write_items_cr; auto.
  Qed.

  Lemma write_tuple_cr : forall ws1 ws2, Forall2 writer_cr ws1 ws2 -> forall fl vs encs e,
    oc (write_tuple ws1 fl e vs encs) (write_tuple ws2 fl e vs encs).
  Proof.
    intros ws1 ws2 H; induction H as [|w1 w2 ws1 ws2 Hw Hws IH]; intros fl vs encs e; [apply oc_refl|].
    destruct vs as [|v vs], encs as [|enc encs]; cbn [write_tuple]; try apply oc_refl. apply obind_cr; auto.
  Qed.

  Lemma write_hetero_cr : forall ws1 ws2, Forall2 writer_cr ws1 ws2 -> writer_cr (write_hetero ws1) (write_hetero ws2).
  Proof.
    intros ws1 ws2 H fl e v enc; unfold write_hetero. destruct (is_none v); [apply oc_refl|].
    apply obind_cr; [apply oc_refl|]. intros vs. destruct (_ && _); [apply oc_refl|].
    rewrite (Forall2_len H). destruct (negb _); [apply oc_refl|].
    apply obind_cr; [apply oc_refl|]. intros encs. apply write_tuple_cr; auto.
  Qed.

  Lemma write_union_cr : forall wp1 wp2, (forall p, writer_cr (wp1 p) (wp2 p)) -> forall vs,
    writer_cr (write_union wp1 vs) (write_union wp2 vs).
  Proof.
    intros wp1 wp2 H vs; induction vs as [|p vs IH]; intros fl e v enc; cbn [write_union]; [apply oc_refl|].
    destruct (match model_type v with Some c => _ | None => _ end); [apply H|apply IH].
  Qed.

  Lemma write_tagged_cr : forall wp1 wp2, (forall p, writer_cr (wp1 p) (wp2 p)) -> forall d vs,
    writer_cr (write_tagged wp1 d vs) (write_tagged wp2 d vs).
  Proof.
    intros wp1 wp2 H d vs fl e v enc; unfold write_tagged. destruct enc; try apply oc_refl.
    destruct (dget d d0) as [t|]; [|apply oc_refl]. destruct (py_truthy t); [|apply oc_refl].
    destruct t; try apply oc_refl. destruct (dget s vs); [apply H|apply oc_refl].
  Qed.

  Lemma write_path_cr : forall b mode nsm path k1 k2, (forall e, oc (k1 e) (k2 e)) -> forall e,
    oc (write_path b mode nsm path k1 e) (write_path b mode nsm path k2 e).
  Proof.
    intros b mode nsm path k1 k2 H; induction path as [|part path IH]; intros e; cbn [write_path]; auto.
    destruct (find_element_or_create _ _ _ _ _) as [[|i|] e']; try apply oc_refl.
    destruct (nth_error _ i); [|apply oc_refl]. apply obind_cr; auto. intros; apply oc_refl.
  Qed.

  Lemma write_fields_cr : forall w1 w2, (forall s, writer_cr (w1 s) (w2 s)) -> forall m m', mcr m m' -> forall fs fl e v enc,
    oc (write_fields w1 m fs fl e v enc) (write_fields w2 m' fs fl e v enc).
  Proof.
    intros w1 w2 H m m' (Em & Hs & _) fs; induction fs as [|[name s] fs IH]; intros fl e v enc; cbn [write_fields]; [apply oc_refl|].
    assert (Ee : md_sexclude m = md_sexclude m') by (rewrite Em; auto). rewrite Ee.
    destruct (str_in _ _); auto. apply obind_cr; [apply oc_refl|]. intros u. destruct u; auto.
    apply obind_cr; [apply oc_refl|]. intros x. apply obind_cr; auto. specialize (Hs name).
    destruct (md_cser m name) as [f|], (md_cser m' name) as [f'|]; simpl in Hs; try contradiction.
    - destruct (Hs v e x) as [E|(y & Ny & E)]; [rewrite E; apply oc_refl|left; eauto].
    - apply obind_cr; [apply oc_refl|]. intros xe; apply H.
  Qed.

  Lemma write_model_cr : forall w1 w2, (forall s, writer_cr (w1 s) (w2 s)) -> forall m m', mcr m m' ->
    writer_cr (write_model w1 m) (write_model w2 m').
  Proof.
    intros w1 w2 H m m' M fl e v enc; unfold write_model. pose proof M as (Em & _).
    assert (Er : md_root m = md_root m' /\ md_fields m = md_fields m' /\ md_skip_empty m = md_skip_empty m') by (rewrite Em; auto).
    destruct Er as (-> & Ef & Es). rewrite Ef. assert (Ew : with_skip_empty m fl = with_skip_empty m' fl) by (unfold with_skip_empty; rewrite Es; auto). rewrite Ew. destruct (is_none v); [apply oc_refl|].
    destruct (md_root m').
    - apply obind_cr; [apply oc_refl|]. intros u. destruct u; [apply oc_refl|].
      destruct (md_fields m') as [|[n s] fs]; [apply oc_refl|]. apply obind_cr; [apply oc_refl|]. intros x; apply H.
    - apply write_fields_cr; auto.
  Qed.

  Lemma write_proxy_cr : forall w1 w2, (forall s, writer_cr (w1 s) (w2 s)) -> forall p,
    writer_cr (write_proxy ev w1 p) (write_proxy ev' w2 p).
  Proof.
    intros w1 w2 H p fl e v enc; unfold write_proxy. pose proof (classes_cr (px_model p)) as M.
    destruct (en_model ev (px_model p)) as [m|], (en_model ev' (px_model p)) as [m'|]; simpl in M; try contradiction; [|apply oc_refl].
    rewrite (proj1 HE).
    destruct (_ && _); [apply oc_refl|]. destruct (_ && _); [apply oc_refl|]. destruct (is_none v); [apply oc_refl|].
    apply obind_cr; [apply write_model_cr; auto|]. intros; apply oc_refl.
  Qed.

  Lemma map_wcr : forall A (f g : A -> writer) l, (forall x, writer_cr (f x) (g x)) -> Forall2 writer_cr (map f l) (map g l).
  Proof. intros A f g l H; induction l; simpl; constructor; auto. Qed.

  Lemma write_cr : forall n s, writer_cr (write n ev s) (write n ev' s).
  Proof.
    intros n; induction n as [|n IH]; intros s; [intros fl e v enc; apply oc_refl|]. cbn [write].
    destruct s; cbn [write_step]; rewrite ?(proj1 HE); try (intros fl e v enc; apply oc_refl).
    - apply write_homo_cr; auto.
    - apply write_hetero_cr. apply map_wcr; auto.
    - apply IH.
    - apply write_union_cr. intros p; apply write_proxy_cr; auto.
    - apply write_tagged_cr. intros p; apply write_proxy_cr; auto.
    - intros fl e v enc; unfold write_wrap. destruct (is_none v); [apply oc_refl|].
      destruct (_ && _); [apply oc_refl|]. apply write_path_cr. intros c; apply IH.
    - apply write_proxy_cr; auto.
  Qed.

  Lemma to_xml_cr : forall n encode v fl,
    to_xml_tree n ev encode v fl = to_xml_tree n ev' encode v fl \/
    exists x, New x /\ to_xml_tree n ev encode v fl = Raise x.
  Proof.
    intros n encode v fl; unfold to_xml_tree. destruct (model_type v) as [cls|]; auto.
    pose proof (classes_cr cls) as M.
    destruct (en_model ev cls) as [m|], (en_model ev' cls) as [m'|]; simpl in M; try contradiction; [|auto]. cbv zeta.
    assert (Et : md_elem_name m = md_elem_name m' /\ md_nsmap m = md_nsmap m') by (destruct M as (Em & _); rewrite Em; auto).
    destruct Et as (-> & ->). rewrite (proj1 HE).
    match goal with |- ?a = ?b \/ _ => assert (O : oc a b) end.
    { apply obind_cr; [apply write_model_cr; auto; apply write_cr|]. intros; apply oc_refl. }
    destruct O as [(x & Nx & E)|E]; [right; eauto|auto].
  Qed.
End Crash.
