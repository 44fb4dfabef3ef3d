(** PfOneOf.v -- a sub-model and a union of one member read the same values. *)

From Verif Require Import Base Elem Native Errs Names Ser Read Api SpecRead SpecSim SpecOut SpecSub SpecPage SpecMany SpecOneOf
  PfPage PfPage2 PfPage3 PfPage4 PfMany2.

Local Ltac inv H := inversion H; subst; clear H.

(** ---- pages without nil elements of these names ---- *)
Inductive free (T : list string) : page -> Prop :=
| fr_intro : forall p, Forall (no_nil T) (pg_ahead p) -> Forall (fun c => free T (snd c)) (pg_passed p) -> free T p.

Section Free.
  Variable T : list string.

  Lemma free_unopened : forall d, no_nil T d -> free T (unopened d).
  Proof. intros d H. inv H. constructor; simpl; auto. Qed.
  Lemma free_like : forall p p', pg_ahead p' = pg_ahead p -> pg_passed p' = pg_passed p -> free T p -> free T p'.
  Proof. intros p p' E1 E2 H. inv H. constructor; rewrite ?E1, ?E2; auto. Qed.
  Lemma free_text : forall eas n p v p', reads_text eas n p v p' -> free T p -> free T p'.
  Proof. intros eas n p v p' R. inv R; apply free_like; reflexivity. Qed.
  Lemma seeks_not : forall mode tag l sk c rest, seeks mode tag l sk c rest -> Forall (no_nil T) l ->
    Forall (no_nil T) sk /\ no_nil T c /\ Forall (no_nil T) rest.
  Proof.
    intros mode tag l sk c rest S F. inv S.
    - inv F. auto.
    - apply Forall_app in F. destruct F as [F1 F2]. inv F2. auto.
    - inv F. auto.
    - inversion F as [|? ? Nk F']; subst. apply Forall_app in F'. destruct F' as [F1 F2]. inv F2. split; auto. split; auto. apply Forall_app. auto.
  Qed.
  Lemma free_pass : forall mode tag p sk c rest left, seeks mode tag (pg_ahead p) sk c rest -> free T p -> (no_nil T c -> free T left) -> free T (pass p sk c left rest).
  Proof.
    intros mode tag p sk c rest left S F L. inv F. destruct (seeks_not S H) as (A & B & C). constructor; simpl; auto.
    apply Forall_app. split; auto. apply Forall_app. split; [|constructor; auto]. apply Forall_forall. intros x I. apply in_map_iff in I. destruct I as (k & <- & I).
    simpl. apply free_unopened. rewrite Forall_forall in A. auto.
  Qed.
  Lemma free_peek : forall mode tag p sk c rest, seeks mode tag (pg_ahead p) sk c rest -> free T p -> free T (peek mode p c rest).
  Proof.
    intros mode tag p sk c rest S F. pose proof F as F0. inv F. destruct (seeks_not S H) as (A & B & C). destruct mode; simpl; auto. constructor; simpl; auto.
  Qed.
  Lemma free_last : forall p front c left, last_passed p front c left -> free T p -> free T left.
  Proof. intros p front c left L F. inv F. unfold last_passed in L. rewrite L in H0. apply Forall_app in H0. destruct H0 as [_ H0]. inv H0. auto. Qed.
  Lemma free_reopen : forall p front c left left', last_passed p front c left -> free T p -> free T left' -> free T (reopen p front c left').
  Proof.
    intros p front c left left' L F F'. inv F. unfold last_passed in L. rewrite L in H0. apply Forall_app in H0. destruct H0 as [H0 _].
    constructor; simpl; auto. apply Forall_app. split; auto.
  Qed.

  Lemma all_free : forall ev eas,
    (forall s0 p a p', reads ev eas s0 p a p' -> free T p -> free T p') /\
    (forall s0 p l p', reads_items ev eas s0 p l p' -> free T p -> free T p') /\
    (forall ss p l p', reads_each ev eas ss p l p' -> free T p -> free T p') /\
    (forall title qs p noted a p', tries ev eas title qs p noted a p' -> free T p -> free T p') /\
    (forall attr mode qs p a p', picks ev eas attr mode qs p a p' -> free T p -> free T p') /\
    (forall mode s0 path p a p', reads_in ev eas mode s0 path p a p' -> free T p -> free T p') /\
    (forall q p a p', reads_sub ev eas q p a p' -> free T p -> free T p') /\
    (forall fs p l p', reads_fields ev eas fs p l p' -> free T p -> free T p') /\
    (forall m p a p', reads_model ev eas m p a p' -> free T p -> free T p').
  Proof.
    intros ev eas.
    apply rules_ind; intros; auto; try (eapply free_like; [| |eassumption]; reflexivity).
    - eapply free_text; eauto.
    - eapply free_pass; eauto. intros Nc. eapply free_text; eauto. apply free_unopened; auto.
    - eapply free_pass; eauto. intros Nc. eapply free_like; [| |apply free_unopened; exact Nc]; reflexivity.
    - eapply free_pass; eauto. intros Nc. constructor; simpl; auto.
    - inv H. rewrite e in H0. inv H0. constructor; simpl; auto. apply Forall_app. split; auto. constructor; auto. apply free_unopened; auto.
    - apply H. eapply free_peek; eauto.
    - apply H. eapply free_peek; eauto.
    - eapply free_reopen; eauto. apply H. eapply free_last; eauto.
    - eapply free_pass; eauto. intros Nc. apply H. apply free_unopened; auto.
    - eapply free_pass; eauto. intros Nc. eapply free_like; [| |apply free_unopened; exact Nc]; reflexivity.
    - eapply free_pass; eauto. intros Nc. apply H. eapply free_like; [| |apply free_unopened; exact Nc]; reflexivity.
  Qed.
End Free.

Section OneOf.
  Variables (ev : env) (eas : bool) (T : list string).

  Definition alike (s s' : ser) : Prop := forall p v p', free T p -> reads ev eas s p (Got v) p' <-> reads ev eas s' p (Got v) p'.

  Lemma model_value : forall m p v p', reads_model ev eas m p (Got v) p' -> exists i, md_validate m i = Valid v.
  Proof.
    intros m p v p' R. inv R; try (match goal with J : judged _ _ _ _ |- _ => inv J; eauto end). match goal with X : fails _ _ _ _ |- _ => inv X end.
  Qed.

  Lemma not_nil : forall mode tag p sk c rest, In tag T -> free T p -> seeks mode tag (pg_ahead p) sk c rest -> attribute nil_attribute (unopened c) = Some "true" -> False.
  Proof.
    intros mode tag p sk c rest I F S A. inv F. destruct (seeks_not S H) as (_ & B & _). inv B. eapply H1; eauto. inv S; auto.
  Qed.

  Lemma one_member : forall q title hide, In (px_name q) T -> (forall m i, en_model ev (px_model q) = Some m -> md_validate m i <> Valid VNone) ->
    alike (SProxy q) (SUnionModel title false [q] hide).
  Proof.
    intros q title hide I V p v p' F.
    assert (None_back : forall p1, reads_sub ev eas q p (Got VNone) p1 -> p1 = p).
    { intros p1 X. inv X; auto; exfalso; [eapply not_nil; eauto|]. match goal with Y : reads_model _ _ _ _ _ _ |- _ => apply model_value in Y; destruct Y as [i Y] end. eapply V; eauto. }
    split; intros R.
    - assert (X : reads_sub ev eas q p (Got v) p').
      { inv R; auto. match goal with Y : computed _ _ |- _ => inv Y end. unfold known in *. destruct (en_model ev (px_model q)) as [m|] eqn:E; [|congruence]. eapply rs_computed; eauto. }
      apply rd_union. destruct v; try (apply tr_fits; [exact X|discriminate]). rewrite (None_back _ X) in *. eapply tr_nothing; [exact X|constructor].
    - inv R; [match goal with Y : computed _ _ |- _ => inv Y end|]. apply rd_model. match goal with Y : tries _ _ _ _ _ _ _ _ |- _ => inv Y end.
      + auto.
      + match goal with Y : tries _ _ _ [] _ _ _ _ |- _ => inv Y end. match goal with Y : reads_sub _ _ _ _ _ _ |- _ => rewrite (None_back _ Y) in Y; exact Y end.
      + match goal with Y : tries _ _ _ [] _ _ _ _ |- _ => inv Y end.
  Qed.

  Lemma alike_items : forall s s', alike s s' -> forall vs p p', free T p -> reads_items ev eas s p (map Got vs) p' <-> reads_items ev eas s' p (map Got vs) p'.
  Proof.
    intros s s' A. induction vs as [|v vs IH]; intros p p' F; simpl; split; intros R; inv R; try (apply ri_end; apply A; auto).
    - assert (F1 : free T p1) by (eapply (proj1 (all_free T ev eas)); eauto). eapply ri_item; [apply A; eauto|auto|auto|apply IH; auto].
    - assert (F1 : free T p1) by (eapply (proj1 (all_free T ev eas)); eauto). eapply ri_item; [apply A; eauto|auto|auto|apply IH; auto].
  Qed.

  Lemma alike_each : forall l l', Forall2 alike l l' -> forall vs p p', free T p -> reads_each ev eas l p (map Got vs) p' <-> reads_each ev eas l' p (map Got vs) p'.
  Proof.
    induction 1 as [|s s' l l' A L IH]; intros [|v vs] p p' F; simpl; split; intros R; inv R; try constructor.
    - assert (F1 : free T p1) by (eapply (proj1 (all_free T ev eas)); eauto). eapply re_member; [apply A; eauto|auto|apply IH; auto].
    - assert (F1 : free T p1) by (eapply (proj1 (all_free T ev eas)); eauto). eapply re_member; [apply A; eauto|auto|apply IH; auto].
  Qed.

  Lemma alike_in : forall s s', alike s s' -> forall mode path p v p', free T p -> reads_in ev eas mode s path p (Got v) p' <-> reads_in ev eas mode s' path p (Got v) p'.
  Proof.
    intros s s' A mode. induction path as [|t path IH]; intros p v p' F; split; intros R; inv R; try (apply in_here; apply A; auto); try (apply in_missing; auto; fail).
    - eapply in_again; eauto. apply IH; auto. eapply free_last; eauto.
    - eapply in_next; eauto. apply IH; auto. inv F. match goal with X : seeks _ _ _ _ _ _ |- _ => destruct (seeks_not X H) as (_ & B & _) end. apply free_unopened; auto.
    - eapply in_again; eauto. apply IH; auto. eapply free_last; eauto.
    - eapply in_next; eauto. apply IH; auto. inv F. match goal with X : seeks _ _ _ _ _ _ |- _ => destruct (seeks_not X H) as (_ & B & _) end. apply free_unopened; auto.
  Qed.

  Lemma all_alike : forall s s', made_unions ev T s s' -> alike s s'.
  Proof.
    fix IH 3. intros s s' W. destruct W as [s|t c s s' h W|t c l l' h W|path ns mode c s s' W|q t h I V].
    - intros p v p' F. tauto.
    - apply IH in W. pose proof (alike_items W) as A. clear IH W. intros p v p' F. split; intros R; inv R.
      + match goal with Y : computed _ _ |- _ => inv Y end. apply rd_computed. constructor.
      + apply rd_list. apply A; auto.
      + match goal with Y : fails _ _ _ _ |- _ => inv Y end.
      + match goal with Y : computed _ _ |- _ => inv Y end. apply rd_computed. constructor.
      + apply rd_list. apply A; auto.
      + match goal with Y : fails _ _ _ _ |- _ => inv Y end.
    - assert (L : Forall2 alike l l'). { revert l l' W. fix IHl 3. intros l l' W. destruct W as [|x y l l' X W]; constructor; [apply IH; exact X|apply IHl; exact W]. }
      pose proof (alike_each L) as A. clear IH W. intros p v p' F. split; intros R; inv R.
      + match goal with Y : computed _ _ |- _ => inv Y end. apply rd_computed. constructor.
      + eapply rd_tuple; [apply A; eauto|auto].
      + match goal with Y : fails _ _ _ _ |- _ => inv Y end.
      + match goal with Y : computed _ _ |- _ => inv Y end. apply rd_computed. constructor.
      + eapply rd_tuple; [apply A; eauto|auto].
      + match goal with Y : fails _ _ _ _ |- _ => inv Y end.
    - apply IH in W. pose proof (alike_in W) as A. clear IH W. intros p v p' F. split; intros R; inv R.
      + match goal with Y : computed _ _ |- _ => inv Y end. apply rd_computed. constructor.
      + apply rd_wrap; auto. apply A; auto.
      + match goal with Y : computed _ _ |- _ => inv Y end. apply rd_computed. constructor.
      + apply rd_wrap; auto. apply A; auto.
    - apply one_member; auto.
  Qed.

  Lemma alike_fields : forall fs fs', Forall2 (fun f f' : string * ser => fst f = fst f' /\ made_unions ev T (snd f) (snd f')) fs fs' ->
    forall vs p p', free T p -> reads_fields ev eas fs p (map Got vs) p' <-> reads_fields ev eas fs' p (map Got vs) p'.
  Proof.
    induction 1 as [|[n s] [n' s'] fs fs' [En W] L IH]; intros vs p p' F; [tauto|]. simpl in En, W. subst n'. apply all_alike in W.
    destruct vs as [|v vs]; simpl; split; intros R; inv R.
    - assert (F1 : free T p1) by (eapply (proj1 (all_free T ev eas)); eauto). eapply rf_field; [apply W; eauto|auto|apply IH; auto].
    - assert (F1 : free T p1) by (eapply (proj1 (all_free T ev eas)); eauto). eapply rf_field; [apply W; eauto|auto|apply IH; auto].
  Qed.

  Lemma alike_class : forall m m', made_unions_class ev T m m' -> forall p v p', free T p -> reads_model ev eas m p (Got v) p' <-> reads_model ev eas m' p (Got v) p'.
  Proof.
    intros m m' W p v p' F. inv W.
    assert (En : map fst fs' = map fst fs) by (clear - H; induction H as [|? ? ? ? [E _]]; simpl; congruence).
    pose proof (alike_fields H) as A. split; intros R; inv R; simpl in *; subst.
    - eapply rm_fields; [reflexivity|apply A; eauto|]. simpl. rewrite En. apply judged_iff. match goal with J : judged _ _ _ _ |- _ => apply judged_iff in J; exact J end.
    - match goal with Y : fails _ _ _ _ |- _ => inv Y end.
    - inversion H as [|? [n' s'] ? fs'' [E Ws] Wr]; subst. simpl in E, Ws. subst n'. eapply rm_root; [reflexivity|reflexivity|apply (all_alike Ws); eauto|].
      apply judged_iff. match goal with J : judged _ _ _ _ |- _ => apply judged_iff in J; exact J end.
    - eapply rm_fields; [reflexivity|apply A; eauto|]. simpl. rewrite <- En. apply judged_iff. match goal with J : judged _ _ _ _ |- _ => apply judged_iff in J; exact J end.
    - match goal with Y : fails _ _ _ _ |- _ => inv Y end.
    - inversion H as [|[n' s'] ? fs'' ? [E Ws] Wr]; subst. simpl in E, Ws. subst n'. eapply rm_root; [reflexivity|reflexivity|apply (all_alike Ws); eauto|].
      apply judged_iff. match goal with J : judged _ _ _ _ |- _ => apply judged_iff in J; exact J end.
  Qed.
End OneOf.

Lemma unions_documents : forall ev, plain_classes ev -> forall T cls cls' m m', en_model ev cls = Some m -> en_model ev cls' = Some m' ->
  made_unions_class ev T m m' -> forall root eas v, Forall (no_nil T) (own_children root) ->
  (exists n, from_xml_tree n ev cls root eas = Ok v) <-> (exists n, from_xml_tree n ev cls' root eas = Ok v).
Proof.
  intros ev HP T cls cls' m m' Em Em' W root eas v F.
  rewrite (@read_document ev HP cls m root eas v Em), (@read_document ev HP cls' m' root eas v Em').
  assert (Et : md_elem_name m' = md_elem_name m) by (inv W; reflexivity). rewrite Et.
  assert (Fr : free T (unopened root)) by (constructor; simpl; auto).
  split; intros (N & left & R); split; auto; exists left; eapply (alike_class eas W); eauto.
Qed.
