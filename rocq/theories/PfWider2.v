(** PfWider2.v -- members of unions without instances do not matter for writing. *)

From Verif Require Import Base Elem Native Errs Names Ser Write Api SpecWrite SpecScalar SpecSim SpecOut SpecPage SpecWider PfOut2 PfOut5.
From Verif Require PfNames.

Local Ltac inv H := inversion H; subst; clear H.

Section Wider.
  Variables (C : list string) (ev ev' : env).
  Hypothesis Et : forall cls m, en_model ev cls = Some m -> exists m', en_model ev' cls = Some m' /\ rewidened_class_out C m m'.

  Lemma none_item : forall l v, no_instance C (VList l) -> In v l -> no_instance C v.
  Proof. intros l v H I cls Ic X. apply (H cls Ic). eapply ii_list; eauto. Qed.
  Lemma none_attr : forall cls attrs set name v, no_instance C (VModel cls attrs set) -> dget name attrs = Some v -> no_instance C v.
  Proof. intros cls attrs set name v H E c Ic X. apply (H c Ic). eapply ii_model; [eapply dget_Some_in; eauto|auto]. Qed.
  Lemma none_here : forall cls attrs set, no_instance C (VModel cls attrs set) -> str_in cls C = false.
  Proof. intros cls attrs set H. destruct (str_in cls C) eqn:E; auto. apply PfNames.str_in_In in E. exfalso. apply (H cls E). constructor. Qed.

  Lemma first_member : forall cls p, px_model p = cls -> str_in cls C = false -> forall l fb rest, old_classes C l = fb ++ p :: rest ->
    Forall (fun q => px_model q <> cls) fb -> exists a b, l = a ++ p :: b /\ Forall (fun q => px_model q <> cls) a.
  Proof.
    intros cls p Ep Nc. induction l as [|y l IH]; intros fb rest E F; simpl in E; [destruct fb; discriminate|].
    destruct (str_in (px_model y) C) eqn:Sy; cbn [negb] in E.
    - destruct (IH _ _ E F) as (a & b & -> & Fa). exists (y :: a), b. split; auto. constructor; auto. congruence.
    - destruct fb as [|z fb]; injection E as -> E.
      + exists [], l. auto.
      + inv F. destruct (IH _ _ E H2) as (a & b & -> & Fa). exists (z :: a), b. auto.
  Qed.

  Lemma out_each : forall l, Forall2 (rewidened_out C) l l.
  Proof. induction l; constructor; auto. apply wo_same. Qed.
  Lemma wo_list_inv : forall t c s h s', rewidened_out C (SHomo t c s h) s' -> exists s0, s' = SHomo t c s0 h /\ rewidened_out C s s0.
  Proof. intros t c s h s' W. inv W; eauto using wo_same. Qed.
  Lemma wo_tuple_inv : forall t c s h s', rewidened_out C (SHetero t c s h) s' -> exists s0, s' = SHetero t c s0 h /\ Forall2 (rewidened_out C) s s0.
  Proof. intros t c s h s' W. inv W; eauto using out_each. Qed.
  Lemma wo_prim_inv : forall c s s', rewidened_out C (SUnionPrim c s) s' -> exists s0, s' = SUnionPrim c s0 /\ rewidened_out C s s0.
  Proof. intros c s s' W. inv W; eauto using wo_same. Qed.
  Lemma wo_wrap_inv : forall path ns m c s s', rewidened_out C (SWrap path ns m c s) s' -> exists s0, s' = SWrap path ns m c s0 /\ rewidened_out C s s0.
  Proof. intros path ns m c s s' W. inv W; eauto using wo_same. Qed.
  Lemma wo_union_inv : forall t c l h s', rewidened_out C (SUnionModel t c l h) s' -> exists l', s' = SUnionModel t c l' h /\ old_classes C l = old_classes C l'.
  Proof. intros t c l h s' W. inv W; eauto. Qed.

  Let Wf := Forall2 (fun f f' : string * ser => fst f = fst f' /\ rewidened_out C (snd f) (snd f')).

  Lemma same_pieces :
    (forall fl s v enc ps, writes ev fl s v enc ps -> forall s', rewidened_out C s s' -> no_instance C v -> writes ev' fl s' v enc ps) /\
    (forall fl s vs encs ps, writes_items ev fl s vs encs ps -> forall s', rewidened_out C s s' -> Forall (no_instance C) vs -> writes_items ev' fl s' vs encs ps) /\
    (forall fl l vs encs ps, writes_tuple ev fl l vs encs ps -> forall l', Forall2 (rewidened_out C) l l' -> Forall (no_instance C) vs -> writes_tuple ev' fl l' vs encs ps) /\
    (forall fl p v enc ps, writes_sub ev fl p v enc ps -> no_instance C v -> writes_sub ev' fl p v enc ps) /\
    (forall fl m v enc ps, writes_model ev fl m v enc ps -> forall m', rewidened_class_out C m m' -> no_instance C v -> writes_model ev' fl m' v enc ps) /\
    (forall fl m fs v enc ps, writes_fields ev fl m fs v enc ps -> forall m' fs', rewidened_class_out C m m' -> Wf fs fs' -> no_instance C v -> writes_fields ev' fl m' fs' v enc ps).
  Proof.
    assert (All : forall vs, no_instance C (VList vs) -> Forall (no_instance C) vs) by (intros vs H; apply Forall_forall; intros v I; eapply none_item; eauto).
    apply writes_all; intros.
    - inv H1; try (inv H); apply w_omitted; auto; constructor.
    - inv H1. apply w_text; auto.
    - inv H1. apply w_attr; auto.
    - inv H3. eapply w_elem; eauto.
    - inv H. apply w_no_mapping.
    - inv H2. eapply w_mapping; eauto.
    - inv H1. apply w_empty_mapping; auto.
    - inv H4. eapply w_mapping_element; eauto. apply H1; auto. apply wo_same.
    - apply wo_list_inv in H. destruct H as (s0 & -> & Ws). apply w_no_list.
    - apply wo_list_inv in H0. destruct H0 as (s0 & -> & Ws). apply w_empty_list; auto.
    - apply wo_list_inv in H2. destruct H2 as (s0 & -> & Ws). apply w_list; auto.
    - apply wo_tuple_inv in H. destruct H as (s0 & -> & Ws). apply w_no_tuple.
    - apply wo_tuple_inv in H0. destruct H0 as (s0 & -> & Ws). apply w_empty_tuple; auto.
    - apply wo_tuple_inv in H3. destruct H3 as (s0 & -> & Ws). apply w_tuple; auto.
      rewrite H0. clear - Ws. induction Ws; simpl; auto.
    - apply wo_prim_inv in H1. destruct H1 as (s0 & -> & Ws). apply w_scalar_union; auto.
    - apply wo_union_inv in H3. destruct H3 as (l' & -> & E). pose proof (none_here H4) as Nc.
      unfold old_classes in E at 1. rewrite filter_app in E. cbn [filter] in E. rewrite H, Nc in E. cbn [negb] in E. symmetry in E.
      destruct (@first_member cls p H Nc l' _ _ E) as (a & b & -> & Fa).
      { rewrite Forall_forall in *. intros q I. apply filter_In in I. apply H0. tauto. }
      apply w_union; auto.
    - apply wo_union_inv in H0. destruct H0 as (l' & -> & E). apply w_no_variant. intros cls attrs set ->. specialize (H cls attrs set eq_refl).
      apply Forall_forall. intros q I. destruct (str_in (px_model q) C) eqn:S.
      + pose proof (none_here H1). congruence.
      + assert (I' : In q (old_classes C l')) by (apply filter_In; rewrite S; auto). rewrite <- E in I'. apply filter_In in I'. rewrite Forall_forall in H. apply H. tauto.
    - inv H4. eapply w_tagged; eauto.
    - inv H0. apply w_no_tag; auto.
    - apply wo_wrap_inv in H. destruct H as (s0 & -> & Ws). apply w_no_wrapped.
    - apply wo_wrap_inv in H1. destruct H1 as (s0 & -> & Ws). apply w_empty_wrapped; auto.
    - apply wo_wrap_inv in H3. destruct H3 as (s0 & -> & Ws). apply w_wrapped; auto.
    - inv H. apply w_no_raw.
    - inv H1. apply w_raw; auto.
    - inv H1. apply w_sub; auto.
    - constructor.
    - constructor.
    - inv H3. apply wi_none; auto.
    - inv H5. apply wi_item; auto.
    - apply wt_end. destruct H as [->|X]; auto. inv H0. auto.
    - inv H3. inv H4. apply wt_member; auto.
    - destruct (Et _ H) as (m' & E & W). eapply ws_nil; eauto.
    - destruct (Et _ H) as (m' & E & W). eapply ws_none; eauto.
    - destruct (Et _ H) as (m' & E & W). eapply ws_value; eauto.
    - inversion H3 as [name root tag ns fs fs' alias excl hide forbid skip cser cval validate Wr]; subst. simpl in *. apply wm_fields; auto.
    - inversion H2 as [name root tag ns fs fs' alias excl hide forbid skip cser cval validate Wr]; subst. apply wm_root_unset; auto.
    - inversion H5 as [name0 root tag ns fs fs' alias excl hide forbid skip cser cval validate Wr]; subst. simpl in *. subst fs.
      inversion Wr as [|? [n' s'] ? fs'' [En Ws] Wr']; subst. simpl in En, Ws. subst n'. eapply wm_root; eauto; [reflexivity|]. simpl. apply H4; auto. eapply none_attr; eauto.
    - inv H0. constructor.
    - inversion H3 as [|? [n' s'] ? fs2 [En Ws] Wr]; subst. simpl in En, Ws. subst n'. apply wf_excluded; [inv H2; auto|auto].
    - inversion H5 as [|? [n' s'] ? fs2 [En Ws] Wr]; subst. simpl in En, Ws. subst n'. apply wf_unset; auto. inv H4; auto.
    - inversion H8 as [|? [n' s'] ? fs2 [En Ws] Wr]; subst. simpl in En, Ws. subst n'. eapply wf_field; eauto; [inv H7; auto|]. apply H4; auto. eapply none_attr; eauto.
  Qed.
End Wider.

Lemma out_sym : forall C s s', rewidened_out C s s' -> rewidened_out C s' s.
Proof.
  intros C. fix IH 3. intros s s' W. destruct W as [s|t c s s' h W|t c l l' h W|c s s' W|path ns mode c s s' W|t c l l' h E].
  - apply wo_same.
  - apply wo_list. apply IH. exact W.
  - apply wo_tuple. revert l l' W. fix IHl 3. intros l l' W. destruct W as [|x y l l' X W]; constructor; [apply IH; exact X|apply IHl; exact W].
  - apply wo_prim. apply IH. exact W.
  - apply wo_wrap. apply IH. exact W.
  - apply wo_union; auto.
Qed.

Lemma env_out_sym : forall C ev ev', rewidened_env_out C ev ev' -> rewidened_env_out C ev' ev.
Proof.
  intros C ev ev' [Eb Et Ec]. constructor; auto.
  - intros cls. symmetry. apply Et.
  - intros cls m m' E E'. specialize (Ec _ _ _ E' E). inv Ec. constructor. clear E E'. induction H as [|f f' fs fs' [En W] F IH]; constructor; auto. split; auto. apply out_sym; auto.
Qed.

Lemma step_same : forall C t s s', rewidened_out C s s' -> step_of t s -> step_of t s'.
Proof.
  intros C t s s' W S. revert s' W. induction S; intros s' W.
  - inv W; constructor; auto.
  - inv W; apply so_wrap; auto.
  - inv W; apply so_homo; auto.
  - inv W.
    + eapply so_hetero; eauto.
    + match goal with F : Forall2 _ _ _ |- _ => revert F end. intros F. clear S. induction F as [|x y l l' X F IHF]; [destruct H|].
      destruct H as [->|I]; [eapply so_hetero; [left; reflexivity|apply IHS; auto]|]. specialize (IHF I). inv IHF. eapply so_hetero; [right; eassumption|auto].
  - inv W; apply so_union; auto.
Qed.

Lemma raws_same : forall C ev ev' v, rewidened_env_out C ev ev' -> raws_apart ev v -> raws_apart ev' v.
Proof.
  intros C ev ev' v W RA n X. destruct (RA n X) as [I K]. split; auto. intros cls m' name s tag E In1 S.
  pose proof W as [Eb Et Ec]. destruct (en_model ev cls) as [m|] eqn:Em; [|exfalso; apply (proj2 (Et cls)); congruence].
  specialize (Ec _ _ _ Em E). inv Ec. simpl in In1. assert (Y : exists s0, In (name, s0) fs /\ rewidened_out C s s0).
  { clear - H In1. induction H as [|[a b] [a' b'] l l' [En Ws] F IH]; [destruct In1|]. simpl in *. destruct In1 as [Q|Q]; [injection Q as -> ->; subst; exists b; split; auto; apply out_sym; auto|].
    destruct (IH Q) as (s0 & I0 & W0). eauto. }
  destruct Y as (s0 & I0 & W0). eapply (K cls); eauto. eapply step_same; eauto.
Qed.

Lemma wider_one : forall C ev ev' encode, no_customs ev -> no_customs ev' -> rewidened_env_out C ev ev' -> forall v fl doc, no_instance C v -> raws_apart ev v ->
  (exists n, to_xml_tree n ev encode v fl = Ok doc) -> exists n, to_xml_tree n ev' encode v fl = Ok doc.
Proof.
  intros C ev ev' encode NC NC' We v fl doc NI RA [n H]. pose proof We as [Eb Et Ec].
  assert (T : forall c x, en_model ev c = Some x -> exists x', en_model ev' c = Some x' /\ rewidened_class_out C x x').
  { intros c x E. destruct (en_model ev' c) as [x'|] eqn:E'; [eauto|]. exfalso. apply (proj1 (Et c)); congruence. }
  apply written_document in H; auto. inv H. destruct (T _ _ H0) as (m' & Em' & W).
  edestruct (@document_written ev' encode fl (VModel cls attrs set) doc NC') as [N K]; [|exists N; apply K; auto].
  assert (W2 := W). inv W2. eapply doc_intro; eauto.
  - eapply same_pieces; eauto.
  - rewrite Eb. auto.
Qed.

Lemma wider_written : forall C ev ev' encode, no_customs ev -> no_customs ev' -> rewidened_env_out C ev ev' -> forall v fl doc, no_instance C v -> raws_apart ev v ->
  (exists n, to_xml_tree n ev encode v fl = Ok doc) <-> (exists n, to_xml_tree n ev' encode v fl = Ok doc).
Proof.
  intros C ev ev' encode NC NC' We v fl doc NI RA. split; intros H.
  - exact (@wider_one C ev ev' encode NC NC' We v fl doc NI RA H).
  - exact (@wider_one C ev' ev encode NC' NC (env_out_sym We) v fl doc NI (raws_same We RA) H).
Qed.
