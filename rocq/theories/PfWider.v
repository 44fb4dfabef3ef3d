(** PfWider.v -- members of unions whose elements do not occur in the document do not matter. *)

From Verif Require Import Base Elem Native Errs Names Ser Read Api SpecRead SpecSim SpecOut SpecSub SpecPage SpecMany SpecWider
  PfPage PfPage2 PfPage3 PfPage4 PfMany2.
From Verif Require PfNames.

Local Ltac inv H := inversion H; subst; clear H.

(** ---- pages without the names ---- *)
Inductive free (N : list string) : page -> Prop :=
| fr_intro : forall p, Forall (not_called N) (pg_ahead p) -> Forall (fun c => free N (snd c)) (pg_passed p) -> free N p.

Section Free.
  Variable N : list string.

  Lemma free_unopened : forall d, not_called N d -> free N (unopened d).
  Proof. intros d H. inv H. constructor; simpl; auto. Qed.
  Lemma free_like : forall p p', pg_ahead p' = pg_ahead p -> pg_passed p' = pg_passed p -> free N p -> free N p'.
  Proof. intros p p' E1 E2 H. inv H. constructor; rewrite ?E1, ?E2; auto. Qed.
  Lemma free_text : forall eas n p v p', reads_text eas n p v p' -> free N p -> free N p'.
  Proof. intros eas n p v p' R. inv R; apply free_like; reflexivity. Qed.
  Lemma seeks_not : forall mode tag l sk c rest, seeks mode tag l sk c rest -> Forall (not_called N) l ->
    Forall (not_called N) sk /\ not_called N c /\ Forall (not_called N) rest.
  Proof.
    intros mode tag l sk c rest S F. inv S.
    - inv F. auto.
    - apply Forall_app in F. destruct F as [F1 F2]. inv F2. auto.
    - inv F. auto.
    - inversion F as [|? ? Nk F']; subst. apply Forall_app in F'. destruct F' as [F1 F2]. inv F2. split; auto. split; auto. apply Forall_app. auto.
  Qed.
  Lemma free_pass : forall mode tag p sk c rest left, seeks mode tag (pg_ahead p) sk c rest -> free N p -> (not_called N c -> free N left) -> free N (pass p sk c left rest).
  Proof.
    intros mode tag p sk c rest left S F L. inv F. destruct (seeks_not S H) as (A & B & C). constructor; simpl; auto.
    apply Forall_app. split; auto. apply Forall_app. split; [|constructor; auto]. apply Forall_forall. intros x I. apply in_map_iff in I. destruct I as (k & <- & I).
    simpl. apply free_unopened. rewrite Forall_forall in A. auto.
  Qed.
  Lemma free_peek : forall mode tag p sk c rest, seeks mode tag (pg_ahead p) sk c rest -> free N p -> free N (peek mode p c rest).
  Proof.
    intros mode tag p sk c rest S F. pose proof F as F0. inv F. destruct (seeks_not S H) as (A & B & C). destruct mode; simpl; auto. constructor; simpl; auto.
  Qed.
  Lemma free_last : forall p front c left, last_passed p front c left -> free N p -> free N left.
  Proof. intros p front c left L F. inv F. unfold last_passed in L. rewrite L in H0. apply Forall_app in H0. destruct H0 as [_ H0]. inv H0. auto. Qed.
  Lemma free_reopen : forall p front c left left', last_passed p front c left -> free N p -> free N left' -> free N (reopen p front c left').
  Proof.
    intros p front c left left' L F F'. inv F. unfold last_passed in L. rewrite L in H0. apply Forall_app in H0. destruct H0 as [H0 _].
    constructor; simpl; auto. apply Forall_app. split; auto.
  Qed.

  Lemma no_seek : forall mode tag p sk c rest, In tag N -> free N p -> seeks mode tag (pg_ahead p) sk c rest -> False.
  Proof.
    intros mode tag p sk c rest I F S. inv F. destruct (seeks_not S H) as (_ & B & _). inv B. eapply H1; eauto. inv S; auto.
  Qed.
  Lemma is_missing : forall mode tag p, In tag N -> free N p -> missing mode tag (pg_ahead p).
  Proof.
    intros mode tag p I F. inv F. assert (A : Forall (fun k => ~ SpecPage.named tag k) (pg_ahead p)).
    { eapply Forall_impl; [|exact H]. intros k Nk. inv Nk. auto. }
    destruct mode; simpl; auto. destruct (pg_ahead p); auto. inv A. auto.
  Qed.

  Lemma all_free : forall ev eas,
    (forall s0 p a p', reads ev eas s0 p a p' -> free N p -> free N p') /\
    (forall s0 p l p', reads_items ev eas s0 p l p' -> free N p -> free N p') /\
    (forall ss p l p', reads_each ev eas ss p l p' -> free N p -> free N p') /\
    (forall title qs p noted a p', tries ev eas title qs p noted a p' -> free N p -> free N p') /\
    (forall attr mode qs p a p', picks ev eas attr mode qs p a p' -> free N p -> free N p') /\
    (forall mode s0 path p a p', reads_in ev eas mode s0 path p a p' -> free N p -> free N p') /\
    (forall q p a p', reads_sub ev eas q p a p' -> free N p -> free N p') /\
    (forall fs p l p', reads_fields ev eas fs p l p' -> free N p -> free N p') /\
    (forall m p a p', reads_model ev eas m p a p' -> free N p -> free N p').
  Proof.
    intros ev eas.
    apply rules_ind; intros; auto; try (eapply free_like; [| |eassumption]; reflexivity).
    - eapply free_text; eauto.
    - eapply free_pass; eauto. intros Nc. eapply free_text; eauto. apply free_unopened; auto.
    - eapply free_pass; eauto. intros Nc. eapply free_like; [| |apply free_unopened; exact Nc]; reflexivity.
    - eapply free_pass; eauto. intros Nc. constructor; simpl; auto.
    - inv H. rewrite e in H0. inv H0. constructor; simpl; auto. apply Forall_app. split; auto. constructor; auto. apply free_unopened; auto.
    - apply H. eapply free_peek; eauto.
    - apply H. eapply free_peek; eauto.
    - eapply free_reopen; eauto. apply H. eapply free_last; eauto.
    - eapply free_pass; eauto. intros Nc. apply H. apply free_unopened; auto.
    - eapply free_pass; eauto. intros Nc. eapply free_like; [| |apply free_unopened; exact Nc]; reflexivity.
    - eapply free_pass; eauto. intros Nc. apply H. eapply free_like; [| |apply free_unopened; exact Nc]; reflexivity.
  Qed.
End Free.

Lemma filter_cons : forall A (f : A -> bool) l x l0, filter f l = x :: l0 -> exists a b, l = a ++ x :: b /\ Forall (fun y => f y = false) a /\ filter f b = l0.
Proof.
  intros A f. induction l as [|y l IH]; intros x l0 E; simpl in E; [discriminate|]. destruct (f y) eqn:Fy.
  - injection E as -> E. exists [], l. auto.
  - destruct (IH _ _ E) as (a & b & -> & F & E'). exists (y :: a), b. auto.
Qed.
Lemma filter_none : forall A (f : A -> bool) l, filter f l = [] -> Forall (fun y => f y = false) l.
Proof. intros A f. induction l as [|y l IH]; intros E; simpl in E; constructor; destruct (f y) eqn:Fy; auto; discriminate. Qed.

Section Wider.
  Variables (N : list string) (ev ev' : env) (K : string -> Prop) (eas : bool).
  Hypothesis Eb : en_backend ev' = en_backend ev.
  Hypothesis Ek : forall cls, K cls -> en_model ev' cls <> None.
  Hypothesis Et : forall cls m, en_model ev cls = Some m -> exists m', en_model ev' cls = Some m' /\ rewidened_class K N m m'.

  Lemma new_ones : forall title p noted a p' ns l, free N p -> Forall (fun q => negb (str_in (px_name q) N) = false) ns -> Forall (fun q => K (px_model q)) ns ->
    tries ev' eas title l p noted a p' -> tries ev' eas title (ns ++ l) p noted a p'.
  Proof.
    intros title p noted a p' ns l F. induction ns as [|q ns IH]; intros A B T; simpl; auto. inv A. inv B.
    apply Bool.negb_false_iff, PfNames.str_in_In in H1. pose proof (Ek H3) as X. destruct (en_model ev' (px_model q)) as [m|] eqn:E; [|congruence].
    eapply tr_nothing; [|apply IH; auto]. destruct (px_computed q) eqn:C; [eapply rs_computed; eauto|eapply rs_missing; eauto]. eapply is_missing; eauto.
  Qed.
  Lemma new_tags : forall attr mode p a p' ns l, free N p -> Forall (fun q : string * proxy => negb (str_in (px_name (snd q)) N) = false) ns ->
    picks ev' eas attr mode l p a p' -> picks ev' eas attr mode (ns ++ l) p a p'.
  Proof.
    intros attr mode p a p' ns l F. induction ns as [|[t q] ns IH]; intros A T; simpl; auto. inv A.
    apply Bool.negb_false_iff, PfNames.str_in_In in H1. eapply pk_missing; [|apply IH; auto]. eapply is_missing; eauto.
  Qed.

  Lemma still_known : forall q, known ev q -> known ev' q.
  Proof. intros q. unfold known. destruct (en_model ev (px_model q)) as [m|] eqn:E; [|congruence]. intros _. destruct (Et _ E) as (m' & -> & _). discriminate. Qed.

  Lemma still_computed : forall s s', computed ev s -> rewidened K N s s' -> computed ev' s'.
  Proof.
    intros s s' C W. inv W; inv C; constructor; auto. apply still_known; auto.
  Qed.

  Lemma sub_new : forall q p a p', free N p -> In (px_name q) N -> reads_sub ev eas q p a p' -> a = Got VNone.
  Proof. intros q p a p' F I R. inv R; auto; exfalso; eapply no_seek; eauto. Qed.

  Lemma refl_each : forall l, Forall2 (rewidened K N) l l.
  Proof. induction l; constructor; auto. apply wd_same. Qed.

  Lemma wd_list_inv : forall t c s h s', rewidened K N (SHomo t c s h) s' -> exists s0, s' = SHomo t c s0 h /\ rewidened K N s s0.
  Proof. intros t c s h s' W. inv W; eauto using wd_same. Qed.
  Lemma wd_tuple_inv : forall t c s h s', rewidened K N (SHetero t c s h) s' -> exists s0, s' = SHetero t c s0 h /\ Forall2 (rewidened K N) s s0.
  Proof. intros t c s h s' W. inv W; eauto using refl_each. Qed.
  Lemma wd_prim_inv : forall c s s', rewidened K N (SUnionPrim c s) s' -> exists s0, s' = SUnionPrim c s0 /\ rewidened K N s s0.
  Proof. intros c s s' W. inv W; eauto using wd_same. Qed.
  Lemma wd_wrap_inv : forall path ns m c s s', rewidened K N (SWrap path ns m c s) s' -> exists s0, s' = SWrap path ns m c s0 /\ rewidened K N s s0.
  Proof. intros path ns m c s s' W. inv W; eauto using wd_same. Qed.

  Let W := rewidened K N.
  Let Wf := Forall2 (fun f f' : string * ser => fst f = fst f' /\ rewidened K N (snd f) (snd f')).

  Lemma same_rules :
    (forall s p a p', reads ev eas s p a p' -> free N p -> forall s', W s s' -> reads ev' eas s' p a p') /\
    (forall s p l p', reads_items ev eas s p l p' -> free N p -> forall s', W s s' -> reads_items ev' eas s' p l p') /\
    (forall ss p l p', reads_each ev eas ss p l p' -> free N p -> forall ss', Forall2 W ss ss' -> reads_each ev' eas ss' p l p') /\
    (forall title qs p noted a p', tries ev eas title qs p noted a p' -> free N p -> tries ev' eas title qs p noted a p' /\
       forall qs', old_members N qs = old_members N qs' -> Forall (fun q => K (px_model q)) qs' -> tries ev' eas title qs' p noted a p') /\
    (forall attr mode qs p a p', picks ev eas attr mode qs p a p' -> free N p ->
       forall qs', old_tagged N qs = old_tagged N qs' -> picks ev' eas attr mode qs' p a p') /\
    (forall mode s path p a p', reads_in ev eas mode s path p a p' -> free N p -> forall s', W s s' -> reads_in ev' eas mode s' path p a p') /\
    (forall q p a p', reads_sub ev eas q p a p' -> free N p -> reads_sub ev' eas q p a p') /\
    (forall fs p l p', reads_fields ev eas fs p l p' -> free N p -> forall fs', Wf fs fs' -> reads_fields ev' eas fs' p l p') /\
    (forall m p a p', reads_model ev eas m p a p' -> free N p -> forall m', rewidened_class K N m m' -> reads_model ev' eas m' p a p').
  Proof.
    pose proof (all_free N ev eas) as (F1 & F2 & F3 & F4 & F5 & F6 & F7 & F8 & F9).
    apply rules_ind; intros.
    - apply rd_computed. eapply still_computed; eauto.
    - inv H0. apply rd_text; auto.
    - inv H0. apply rd_attr; auto.
    - inv H0. apply rd_no_elem; auto.
    - inv H0. eapply rd_elem; eauto.
    - inv H0. apply rd_attrs; auto.
    - inv H0. apply rd_no_map; auto.
    - inv H0. eapply rd_map; eauto.
    - apply wd_list_inv in H1. destruct H1 as (s0 & -> & Ws). apply rd_list; auto.
    - apply wd_list_inv in H1. destruct H1 as (s0 & -> & Ws). eapply rd_bad_list; eauto.
    - apply wd_tuple_inv in H1. destruct H1 as (s0 & -> & Ws). eapply rd_tuple; eauto.
    - apply wd_tuple_inv in H1. destruct H1 as (s0 & -> & Ws). eapply rd_bad_tuple; eauto.
    - apply wd_prim_inv in H1. destruct H1 as (s0 & -> & Ws). apply rd_prim; auto.
    - destruct (H H0) as [A B]. inv H1; apply rd_union; auto.
    - inv H1; apply rd_tagged; auto.
    - apply wd_wrap_inv in H1. destruct H1 as (s0 & -> & Ws). apply rd_wrap; auto.
    - inv H0. apply rd_no_raw; auto.
    - inv H0. eapply rd_raw; eauto. rewrite Eb. auto.
    - inv H1. apply rd_model; auto.
    - apply ri_end; auto.
    - eapply ri_item; eauto.
    - apply ri_stop; auto.
    - inv H0. constructor.
    - inv H2. eapply re_member; eauto.
    - inv H1. eapply re_stop; eauto.
    - (* tries *) split; [constructor|]. intros qs' E Kn. symmetry in E. apply filter_none in E. rewrite <- (app_nil_r qs'). apply new_ones; auto. constructor.
    - split; [apply tr_refused; auto|]. intros qs' E Kn. symmetry in E. apply filter_none in E. rewrite <- (app_nil_r qs'). apply new_ones; auto. apply tr_refused; auto.
    - split; [apply tr_fits; auto|]. intros qs' E Kn. unfold old_members in E at 1. cbn [filter] in E. destruct (str_in (px_name q) N) eqn:S; cbn [negb] in E.
      + apply PfNames.str_in_In in S. apply sub_new in r; auto. congruence.
      + symmetry in E. apply filter_cons in E. destruct E as (a & b & -> & Fa & E). apply Forall_app in Kn. destruct Kn as [Ka Kb]. apply new_ones; auto. apply tr_fits; auto.
    - destruct (H0 H1) as [A B]. split; [eapply tr_nothing; eauto|]. intros qs' E Kn. unfold old_members in E at 1. cbn [filter] in E. destruct (str_in (px_name q) N) eqn:S; cbn [negb] in E.
      + apply B; auto.
      + symmetry in E. apply filter_cons in E. destruct E as (x & b & -> & Fa & E). apply Forall_app in Kn. destruct Kn as [Ka Kb]. inv Kb. apply new_ones; auto. eapply tr_nothing; [apply H; auto|]. apply B; auto.
    - destruct (H0 H1) as [A B]. split; [eapply tr_bad; eauto|]. intros qs' E Kn. unfold old_members in E at 1. cbn [filter] in E. destruct (str_in (px_name q) N) eqn:S; cbn [negb] in E.
      + apply PfNames.str_in_In in S. apply sub_new in r; auto. congruence.
      + symmetry in E. apply filter_cons in E. destruct E as (x & b & -> & Fa & E). apply Forall_app in Kn. destruct Kn as [Ka Kb]. inv Kb. apply new_ones; auto. eapply tr_bad; [apply H; auto|]. apply B; auto.
    - split; [eapply tr_stop; eauto|]. intros qs' E Kn. unfold old_members in E at 1. cbn [filter] in E. destruct (str_in (px_name q) N) eqn:S; cbn [negb] in E.
      + apply PfNames.str_in_In in S. apply sub_new in r; auto. congruence.
      + symmetry in E. apply filter_cons in E. destruct E as (x & b & -> & Fa & E). apply Forall_app in Kn. destruct Kn as [Ka Kb]. inv Kb. apply new_ones; auto. eapply tr_stop; eauto.
    - (* picks *) symmetry in H0. apply filter_none in H0. rewrite <- (app_nil_r qs'). apply new_tags; auto. constructor.
    - unfold old_tagged in H1 at 1. cbn [filter snd] in H1. destruct (str_in (px_name q) N) eqn:S; cbn [negb] in H1.
      + apply H; auto.
      + symmetry in H1. apply filter_cons in H1. destruct H1 as (x & b & -> & Fa & E). apply new_tags; auto. apply pk_missing; auto.
    - unfold old_tagged in H1 at 1. cbn [filter snd] in H1. destruct (str_in (px_name q) N) eqn:S; cbn [negb] in H1.
      + apply PfNames.str_in_In in S. exfalso. eapply no_seek; eauto.
      + symmetry in H1. apply filter_cons in H1. destruct H1 as (x & b & -> & Fa & E). apply new_tags; auto. eapply pk_other; eauto. apply H; auto. eapply free_peek; eauto.
    - unfold old_tagged in H1 at 1. cbn [filter snd] in H1. destruct (str_in (px_name q) N) eqn:S; cbn [negb] in H1.
      + apply PfNames.str_in_In in S. exfalso. eapply no_seek; eauto.
      + symmetry in H1. apply filter_cons in H1. destruct H1 as (x & b & -> & Fa & E). apply new_tags; auto. eapply pk_match; eauto. apply H; auto. eapply free_peek; eauto.
    - apply in_here; auto.
    - eapply in_again; eauto. apply H; auto. eapply free_last; eauto.
    - apply in_missing; auto.
    - eapply in_next; eauto. apply H; auto. inv H0. destruct (seeks_not s0 H2) as (_ & B & _). apply free_unopened; auto.
    - destruct (Et _ e) as (m' & E' & _). eapply rs_computed; eauto.
    - destruct (Et _ e) as (m' & E' & _). eapply rs_missing; eauto.
    - destruct (Et _ e) as (m' & E' & _). eapply rs_nil; eauto.
    - destruct (Et _ e) as (m' & E' & Wm). eapply rs_model; eauto. apply H; auto. inv H0. destruct (seeks_not s H1) as (_ & B & _).
      eapply free_like; [| |apply free_unopened; exact B]; reflexivity.
    - inv H0. constructor.
    - inversion H2 as [|? [n' s'] ? fs2 [En Ws] Wr]; subst. simpl in En, Ws. subst n'. eapply rf_field; eauto.
    - inversion H1 as [|? [n' s'] ? fs2 [En Ws] Wr]; subst. simpl in En, Ws. subst n'. eapply rf_stop; eauto.
    - inversion H1 as [name root tag ns fs fs' alias excl hide forbid skip cser cval validate Wr]; subst. simpl in *.
      assert (En : map fst fs' = map fst fs) by (clear - Wr; induction Wr as [|? ? ? ? [E _]]; simpl; congruence).
      eapply rm_fields; eauto. simpl. rewrite En. apply judged_iff. apply judged_iff in j. exact j.
    - inversion H1 as [name root tag ns fs fs' alias excl hide forbid skip cser cval validate Wr]; subst. simpl in *.
      assert (En : map fst fs' = map fst fs) by (clear - Wr; induction Wr as [|? ? ? ? [E _]]; simpl; congruence).
      eapply rm_bad_field; eauto. simpl. rewrite En. auto.
    - inversion H1 as [name0 root tag ns fs fs' alias excl hide forbid skip cser cval validate Wr]; subst. simpl in *. subst fs.
      inversion Wr as [|? [n' s'] ? fs'' [En Ws] Wr']; subst. simpl in En, Ws. subst n'. eapply rm_root; [reflexivity|reflexivity|eauto|].
      apply judged_iff. apply judged_iff in j. exact j.
    - inversion H1 as [name0 root tag ns fs fs' alias excl hide forbid skip cser cval validate Wr]; subst. simpl in *. subst fs.
      inversion Wr as [|? [n' s'] ? fs'' [En Ws] Wr']; subst. simpl in En, Ws. subst n'. eapply (@rm_bad_root ev' eas (MDef _ _ _ _ _ _ _ _ _ _ _ _ _)); [reflexivity|reflexivity|eauto].
    - inversion H1 as [name0 root tag ns fs fs' alias excl hide forbid skip cser cval validate Wr]; subst. simpl in *. subst fs.
      inversion Wr as [|? [n' s'] ? fs'' [En Ws] Wr']; subst. simpl in En, Ws. subst n'. eapply rm_stop_root; [reflexivity|reflexivity|eauto].
  Qed.
End Wider.

Lemma rewidened_sym : forall K N s s', rewidened K N s s' -> rewidened K N s' s.
Proof.
  fix IH 5. intros K N s s' W. destruct W as [s|t c s s' h W|t c l l' h W|c s s' W|path ns mode c s s' W|t c l l' h E A B|c disc attr l l' mode E].
  - apply wd_same.
  - apply wd_list. apply IH. exact W.
  - apply wd_tuple. revert l l' W. fix IHl 3. intros l l' W. destruct W as [|x y l l' X W]; constructor; [apply IH; exact X|apply IHl; exact W].
  - apply wd_prim. apply IH. exact W.
  - apply wd_wrap. apply IH. exact W.
  - apply wd_union; auto.
  - apply wd_tagged; auto.
Qed.
Lemma rewidened_mono : forall (K K' : string -> Prop) N, (forall c, K c -> K' c) -> forall s s', rewidened K N s s' -> rewidened K' N s s'.
Proof.
  intros K K' N Kk. fix IH 3. intros s s' W. destruct W as [s|t c s s' h W|t c l l' h W|c s s' W|path ns mode c s s' W|t c l l' h E A B|c disc attr l l' mode E].
  - apply wd_same.
  - apply wd_list. apply IH. exact W.
  - apply wd_tuple. revert l l' W. fix IHl 3. intros l l' W. destruct W as [|x y l l' X W]; constructor; [apply IH; exact X|apply IHl; exact W].
  - apply wd_prim. apply IH. exact W.
  - apply wd_wrap. apply IH. exact W.
  - apply wd_union; auto; eapply Forall_impl; eauto; simpl; intros; auto.
  - apply wd_tagged; auto.
Qed.

Lemma class_sym : forall (K K' : string -> Prop) N, (forall c, K c -> K' c) -> forall m m', rewidened_class K N m m' -> rewidened_class K' N m' m.
Proof.
  intros K K' N Kk m m' C. inv C. constructor. induction H as [|f f' fs fs' [E W] F IH]; constructor; auto. split; auto. apply rewidened_sym. eapply rewidened_mono; eauto.
Qed.

Lemma env_sym : forall N ev ev', rewidened_env N ev ev' -> rewidened_env N ev' ev.
Proof.
  intros N ev ev' [Eb Et Ec]. constructor; auto.
  - intros cls. symmetry. apply Et.
  - intros cls m m' E E'. eapply class_sym; [|eapply Ec; eauto]. intros c. apply Et.
Qed.

Lemma wider_one_way : forall N ev ev', rewidened_env N ev ev' -> plain_classes ev -> plain_classes ev' -> forall cls m root eas a,
  en_model ev cls = Some m -> Forall (not_called N) (own_children root) -> from_xml_gives ev cls root eas a -> from_xml_gives ev' cls root eas a.
Proof.
  intros N ev ev' We HP HP' cls m root eas a Em F G. pose proof We as [Eb Et Ec].
  assert (T : forall c x, en_model ev c = Some x -> exists x', en_model ev' c = Some x' /\ rewidened_class (fun c => en_model ev c <> None) N x x').
  { intros c x E. destruct (en_model ev' c) as [x'|] eqn:E'; [eauto|]. exfalso. apply (proj1 (Et c)); congruence. }
  destruct (T _ _ Em) as (m' & Em' & C). apply (@gives_iff _ HP _ _ root eas a Em) in G. destruct G as (Nm & left & R).
  apply (@gives_iff _ HP' _ _ root eas a Em'). split.
  - inv C. auto.
  - exists left. eapply same_rules with (N := N) (ev := ev) (K := fun c => en_model ev c <> None); eauto.
    + intros c. apply Et.
    + constructor; simpl; auto.
Qed.

Lemma wider_documents : forall N ev ev', rewidened_env N ev ev' -> plain_classes ev -> plain_classes ev' -> forall cls root eas a,
  en_model ev cls <> None -> Forall (not_called N) (own_children root) -> from_xml_gives ev cls root eas a <-> from_xml_gives ev' cls root eas a.
Proof.
  intros N ev ev' We HP HP' cls root eas a Kn F. pose proof (proj1 (we_there We cls) Kn) as Kn'.
  destruct (en_model ev cls) as [m|] eqn:Em; [|congruence]. destruct (en_model ev' cls) as [m'|] eqn:Em'; [|congruence].
  split; intros G; [eapply wider_one_way; eauto|]. eapply wider_one_way; [apply env_sym; eauto| | | | |]; eauto.
Qed.
