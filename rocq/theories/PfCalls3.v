(** PfCalls3.v -- the recorded calls are those that are made (C78): what other user code does matters through
    them only, and each of them matters. *)

From Verif Require Import Base Elem Native Errs Names Ser Read Api Calls SpecCrash SpecCalls PfFuel.

Section Tied.
  Variables ev ev' : env.
  Hypothesis HE : same_classes ev ev'.
  Variables ok bad : call -> Prop.
  Variable w : string.
  Hypothesis Hok : forall c, ok c -> agree ev ev' c.
  Hypothesis Hbad : forall c, bad c -> raises ev' w c.

  (** the second run does the same and no bad call is made, or a bad call is made and raises *)
  Definition tied {A B} (tr : list call) (p p' : out A * B) : Prop :=
    Forall (fun c => ok c \/ bad c) tr ->
    (p' = p /\ Forall ok tr) \/ (Exists bad tr /\ fst p' = Raise (XUser w)).
  Definition reader_tied (r r' : reader) (t : tracer) : Prop :=
    forall eas loc s, tied (t eas loc s) (r eas loc s) (r' eas loc s).

  Lemma tied_nil : forall A B (p : out A * B), tied [] p p.
  Proof. intros A B p _; left; auto. Qed.

  (** first one thing and then, if it was not stopped, another *)
  Local Ltac first_then H :=
    let F := fresh "F" in let F1 := fresh "F" in let F2 := fresh "F" in
    intros F; apply Forall_app in F as [F1 F2]; specialize (H F1);
    let X := fresh "X" in let E := fresh "E" in let O := fresh "O" in
    destruct H as [[E O]|[X E]];
    [rewrite E in *|
     right; split; [apply Exists_app; left; exact X|];
     match type of E with fst ?p = _ => destruct p as [? ?]; simpl in E; subst end; reflexivity].

  Lemma on_child_tied : forall A i (f f' : st -> rres A) t s, (forall c, tied (t c) (f c) (f' c)) ->
    tied (t_on_child i t s) (on_child i f s) (on_child i f' s).
  Proof.
    intros A i f f' t s H; unfold t_on_child, on_child. destruct (nth_error _ i) as [c|]; [|apply tied_nil].
    intros F. destruct (H (St c (st_sm s)) F) as [[E O]|[X E]]; [rewrite E; auto|].
    right; split; auto. destruct (f' (St c (st_sm s))); auto.
  Qed.

  Lemma with_found_tied : forall p (f f' : st -> rres val) t s, (forall c, tied (t c) (f c) (f' c)) ->
    tied (t_with_found p t s) (with_found p f s) (with_found p f' s).
  Proof. intros [[|i|] e] f f' t s H; simpl; try apply tied_nil. apply on_child_tied; auto. Qed.

  Lemma tied_done : forall A B tr (p : out A * B), Forall ok tr -> tied [] p p -> (p = p /\ Forall ok (tr ++ [])) \/ (Exists bad (tr ++ []) /\ fst p = Raise (XUser w)).
  Proof. intros; left; rewrite app_nil_r; auto. Qed.

  Lemma tied_then : forall A B tr tr2 (p p' : out A * B), Forall ok tr -> tied tr2 p p' -> Forall (fun c => ok c \/ bad c) tr2 ->
    (p' = p /\ Forall ok (tr ++ tr2)) \/ (Exists bad (tr ++ tr2) /\ fst p' = Raise (XUser w)).
  Proof.
    intros A B tr tr2 p p' O H F. destruct (H F) as [[-> O2]|[X E]]; [left; split; auto; apply Forall_app; auto|].
    right; split; auto. apply Exists_app; auto.
  Qed.

  Lemma items_tied : forall r r' t, reader_tied r r' t -> forall k title hide eas loc idx result errors s,
    tied (t_items k r t eas loc idx s) (read_items k r title hide eas loc idx result errors s)
         (read_items k r' title hide eas loc idx result errors s).
  Proof.
    intros r r' t Hr k; induction k as [|k IH]; intros title hide eas loc idx result errors s; [apply tied_nil|].
    cbn [t_items read_items]. pose proof (Hr eas (loc ++ [LIdx idx]) s) as H. first_then H.
    destruct (r eas (loc ++ [LIdx idx]) s) as [[v|x|] s'].
    - destruct v; try (eapply tied_then; eauto; apply IH); eapply tied_then; eauto; apply tied_nil.
    - destruct x; try (eapply tied_then; eauto; apply IH); eapply tied_then; eauto; apply tied_nil.
    - eapply tied_then; eauto; apply tied_nil.
  Qed.

  (** readers with their tracers, and the readers of the second run *)
  Definition list_tied (rts : list (reader * tracer)) (rs' : list reader) : Prop :=
    Forall2 (fun rt r' => reader_tied (fst rt) r' (snd rt)) rts rs'.

  Lemma tuple_tied : forall rts rs', list_tied rts rs' -> forall title hide eas loc idx result errors s,
    tied (t_tuple rts eas loc idx s) (read_tuple (map fst rts) title hide eas loc idx result errors s)
         (read_tuple rs' title hide eas loc idx result errors s).
  Proof.
    intros rts rs' H; induction H as [|[r t] r' rts rs' Hr _ IH]; intros title hide eas loc idx result errors s; [apply tied_nil|].
    cbn [t_tuple read_tuple map fst]. pose proof (Hr eas (loc ++ [LIdx idx]) s) as H. cbn [fst snd] in H. first_then H.
    destruct (r eas (loc ++ [LIdx idx]) s) as [[v|x|] s'].
    - eapply tied_then; eauto; apply IH.
    - destruct x; try (eapply tied_then; eauto; apply IH); eapply tied_then; eauto; apply tied_nil.
    - eapply tied_then; eauto; apply tied_nil.
  Qed.

  Lemma variants_tied : forall rts rs', list_tied rts rs' -> forall title hide eas loc errors s,
    tied (t_variants rts eas loc s) (read_variants (map fst rts) title hide eas loc errors s)
         (read_variants rs' title hide eas loc errors s).
  Proof.
    intros rts rs' H; induction H as [|[r t] r' rts rs' Hr _ IH]; intros title hide eas loc errors s; [apply tied_nil|].
    cbn [t_variants read_variants map fst]. pose proof (Hr eas loc (set_el (create_snapshot (st_el s)) s)) as H. cbn [fst snd] in H. first_then H.
    destruct (r eas loc _) as [[v|x|] s'].
    - destruct v; try (eapply tied_then; eauto; apply IH); eapply tied_then; eauto; apply tied_nil.
    - destruct x; try (eapply tied_then; eauto; apply IH); eapply tied_then; eauto; apply tied_nil.
    - eapply tied_then; eauto; apply tied_nil.
  Qed.

  Lemma tagged_tied : forall rp rp' tp, (forall p, reader_tied (rp p) (rp' p) (tp p)) -> forall a mode vs eas loc s,
    tied (t_tagged tp a mode vs eas loc s) (read_tagged rp a mode vs eas loc s) (read_tagged rp' a mode vs eas loc s).
  Proof.
    intros rp rp' tp H a mode vs; induction vs as [|[tag p] vs IH]; intros eas loc s; cbn [t_tagged read_tagged]; [apply tied_nil|].
    destruct (find_element _ _ _ _ _) as [[|i|] e']; try apply tied_nil; try apply IH.
    destruct (nth_error (e_elems e') i) as [c|]; [|apply tied_nil].
    destruct (match get_attrib a c with Some t => _ | None => _ end); [apply H|apply IH].
  Qed.

  Lemma on_path_tied : forall A path (f f' : st -> rres A) t s, (forall c, tied (t c) (f c) (f' c)) ->
    tied (t_on_path path t s) (on_path path f s) (on_path path f' s).
  Proof.
    intros A path f f' t; induction path as [|i path IH]; intros s H; cbn [t_on_path on_path]; auto. apply on_child_tied; auto.
  Qed.

  (** ---- models ---- *)
  Definition mrel (m m' : mdef) : Prop :=
    m' = with_code m (md_cser m') (md_cval m') (md_validate m') /\
    forall name, both_there (fun _ _ => True) (md_cval m name) (md_cval m' name).

  Lemma classes_rel : forall cls, both_there mrel (en_model ev cls) (en_model ev' cls).
  Proof. intros cls. apply (proj2 HE). Qed.

  Lemma call_validate : forall cls m m' i, en_model ev cls = Some m -> en_model ev' cls = Some m' ->
    ok (CValidate cls i) \/ bad (CValidate cls i) ->
    (ok (CValidate cls i) /\ md_validate m' i = md_validate m i) \/ (bad (CValidate cls i) /\ md_validate m' i = Crashed w).
  Proof.
    intros cls m m' i Hm Hm' [O|X].
    - left; split; auto. pose proof (Hok O (AVerdict (md_validate m i))) as [H _]. simpl in H.
      destruct H as (m2 & E2 & E); [eauto|]. rewrite Hm' in E2. congruence.
    - right; split; auto. destruct (Hbad X (AVerdict (md_validate m' i))) as [E|(e & E)]; [simpl; eauto| |discriminate]. congruence.
  Qed.

  Lemma call_field : forall cls m m' f f' name e, en_model ev cls = Some m -> en_model ev' cls = Some m' ->
    md_cval m name = Some f -> md_cval m' name = Some f' -> ok (CField cls name e) \/ bad (CField cls name e) ->
    (ok (CField cls name e) /\ f' e = f e) \/ (bad (CField cls name e) /\ fst (f' e) = Raise (XUser w)).
  Proof.
    intros cls m m' f f' name e Hm Hm' Hf Hf' [O|X].
    - left; split; auto. pose proof (Hok O (AField (fst (f e)) (snd (f e)))) as [H _]. simpl in H.
      destruct H as (m2 & f2 & E2 & F2 & E); [eauto 6|]. rewrite Hm' in E2. injection E2 as <-. rewrite Hf' in F2. injection F2 as <-.
      destruct (f e), (f' e); simpl in E; congruence.
    - right; split; auto. destruct (Hbad X (AField (fst (f' e)) (snd (f' e)))) as [E|(e' & E)]; [simpl; eauto 6|discriminate|congruence].
  Qed.

  Lemma validate_tied : forall cls m m' i s (s0 : st), en_model ev cls = Some m -> en_model ev' cls = Some m' -> mrel m m' ->
    tied (t_validate cls m i s) (validate_result m i s, s0) (validate_result m' i s, s0).
  Proof.
    intros cls m m' i s s0 Hm Hm' (Em & _). unfold t_validate, validate_result.
    assert (Ef : md_forbid m' = md_forbid m /\ md_name m' = md_name m /\ md_hide m' = md_hide m) by (rewrite Em; auto).
    destruct Ef as (-> & -> & ->). destruct (if md_forbid m then _ else _); [apply tied_nil|].
    intros F. inversion F as [|? ? F1 _]; subst. destruct (@call_validate cls m m' i Hm Hm' F1) as [[O E]|[X E]]; rewrite E.
    - left; auto.
    - right; split; auto.
  Qed.

  Lemma fields_tied : forall cls m m' r r' t, en_model ev cls = Some m -> en_model ev' cls = Some m' -> mrel m m' ->
    (forall s, reader_tied (r s) (r' s) (t s)) -> forall fs eas result errors s,
    tied (t_fields r t cls m fs eas s) (read_fields r m fs eas result errors s) (read_fields r' m' fs eas result errors s).
  Proof.
    intros cls m m' r r' t Hm Hm' (Em & Hc) H fs; induction fs as [|[name fser] fs IH]; intros eas result errors s; [apply tied_nil|].
    assert (Va : md_valias m' = md_valias m) by (rewrite Em; reflexivity).
    cbn [t_fields read_fields]. cbv zeta. specialize (Hc name).
    match goal with |- tied (?tr ++ (let (o1, s1) := ?p0 in _)) (let (o2, s2) := ?p in _) (let (o3, s3) := ?q in _) =>
      assert (C : tied tr p q); [|generalize dependent C; generalize p; generalize q; intros p' p1 C] end.
    { unfold t_field. destruct (md_cval m name) as [f|] eqn:Ef, (md_cval m' name) as [f'|] eqn:Ef'; simpl in Hc; try contradiction; [|apply H].
      intros F. inversion F as [|? ? F1 _]; subst. unfold run_custom.
      destruct (@call_field cls m m' f f' name _ Hm Hm' Ef Ef' F1) as [[O E]|[X E]].
      - left. cbn [note_line st_el]. rewrite E; auto.
      - right; split; auto. cbn [note_line st_el]. destruct (f' (st_el s)); simpl in *; auto. }
    first_then C. rewrite Va. destruct p1 as [[v|x|] s2].
    - destruct v; eapply tied_then; eauto; apply IH.
    - destruct x; try (eapply tied_then; eauto; apply IH); eapply tied_then; eauto; apply tied_nil.
    - eapply tied_then; eauto; apply tied_nil.
  Qed.

  Lemma model_tied : forall cls m m' r r' t, en_model ev cls = Some m -> en_model ev' cls = Some m' -> mrel m m' ->
    (forall s, reader_tied (r s) (r' s) (t s)) -> reader_tied (read_model r m) (read_model r' m') (t_model r t cls m).
  Proof.
    intros cls m m' r r' t Hm Hm' M H eas loc s; unfold read_model, t_model. pose proof M as (Em & _).
    assert (Er : md_root m' = md_root m /\ md_fields m' = md_fields m /\ md_name m' = md_name m /\ md_hide m' = md_hide m) by (rewrite Em; auto).
    destruct Er as (-> & Ef & En & Eh). destruct (md_root m).
    - unfold read_root_model, t_root_model. rewrite Ef, En, Eh. destruct (md_fields m) as [|[name rser] fs]; [apply tied_nil|].
      pose proof (H rser eas loc s) as X. first_then X.
      destruct (r rser eas loc s) as [[v|x|] s']; eapply tied_then; eauto; [apply validate_tied; auto|apply tied_nil|apply tied_nil].
    - unfold read_plain_model, t_plain_model. rewrite Ef, En, Eh.
      pose proof (@fields_tied cls m m' r r' t Hm Hm' M H (md_fields m) eas [] [] s) as X. first_then X.
      destruct (read_fields r m (md_fields m) eas [] [] s) as [[[result errors]|x|] s'].
      + destruct errors; eapply tied_then; eauto; [apply validate_tied; auto|apply tied_nil].
      + eapply tied_then; eauto; apply tied_nil.
      + eapply tied_then; eauto; apply tied_nil.
  Qed.

  Lemma proxy_tied : forall r r' t, (forall s, reader_tied (r s) (r' s) (t s)) -> forall p,
    reader_tied (read_proxy ev r p) (read_proxy ev' r' p) (t_proxy ev r t p).
  Proof.
    intros r r' t H p eas loc s; unfold read_proxy, t_proxy. pose proof (classes_rel (px_model p)) as M.
    destruct (en_model ev (px_model p)) as [m|] eqn:Em, (en_model ev' (px_model p)) as [m'|] eqn:Em'; simpl in M; try contradiction; [|apply tied_nil].
    destruct (px_computed p); [apply tied_nil|]. apply with_found_tied. intros c. cbv zeta.
    destruct (is_element_nill _) as [nil e1]. destruct nil; [apply tied_nil|]. eapply model_tied; eauto.
  Qed.

  Lemma map_tied : forall A (f f' : A -> reader) (g : A -> tracer) l, (forall x, reader_tied (f x) (f' x) (g x)) ->
    list_tied (map (fun x => (f x, g x)) l) (map f' l).
  Proof. intros A f f' g l H; induction l; simpl; constructor; auto. apply H. Qed.

  Lemma read_tied : forall n s, reader_tied (read n ev s) (read n ev' s) (trace n ev s).
  Proof.
    intros n; induction n as [|n IH]; intros s eas loc s0; [apply tied_nil|]. cbn [read trace].
    destruct s; cbn [read_step trace_step]; try apply tied_nil.
    - unfold read_homo. destruct computed; [apply tied_nil|]. apply items_tied; auto.
    - unfold read_hetero. destruct computed; [apply tied_nil|].
      replace (map (read n ev) inners) with (map fst (map (fun i => (read n ev i, trace n ev i)) inners)) by (rewrite map_map; reflexivity).
      apply tuple_tied. apply map_tied; auto.
    - unfold read_union_prim. destruct computed; [apply tied_nil|]. apply IH.
    - unfold read_union_model. destruct computed; [apply tied_nil|].
      replace (map (read_proxy ev (read n ev)) variants) with (map fst (map (fun p => (read_proxy ev (read n ev) p, t_proxy ev (read n ev) (trace n ev) p)) variants)) by (rewrite map_map; reflexivity).
      apply variants_tied. apply map_tied. intros p; apply proxy_tied; auto.
    - destruct computed; [apply tied_nil|]. apply tagged_tied. intros p; apply proxy_tied; auto.
    - unfold read_wrap, t_wrap. destruct computed; [apply tied_nil|].
      destruct (find_sub_element path mode (st_el s0)) as [[idxs|] e']; [|apply tied_nil].
      destruct (_ && _); [|apply tied_nil]. apply on_path_tied. intros c; apply IH.
    - rewrite (proj1 HE). apply tied_nil.
    - apply proxy_tied; auto.
  Qed.

  Lemma from_xml_tied : forall n cls root eas,
    Forall (fun c => ok c \/ bad c) (calls n ev cls root eas) ->
    (from_xml_tree n ev' cls root eas = from_xml_tree n ev cls root eas /\ Forall ok (calls n ev cls root eas)) \/
    (Exists bad (calls n ev cls root eas) /\ from_xml_tree n ev' cls root eas = Raise (XUser w)).
  Proof.
    intros n cls root eas; unfold from_xml_tree, calls. pose proof (classes_rel cls) as M. rewrite (proj1 HE).
    destruct (en_model ev cls) as [m|] eqn:Em, (en_model ev' cls) as [m'|] eqn:Em'; simpl in M; try contradiction; [|left; auto].
    assert (Et : md_elem_name m' = md_elem_name m) by (destruct M as (E & _); rewrite E; auto). rewrite Et.
    destruct (tag_is _ _); [|left; auto]. intros F.
    destruct (@model_tied cls m m' (read n ev) (read n ev') (trace n ev) Em Em' M (read_tied n) eas [] (St (from_native (en_backend ev') root) []) F) as [[E O]|[X E]].
    - left. rewrite E; auto.
    - right; auto.
  Qed.
End Tied.
