(** PfMany.v -- a field bound to one element, and the list of it. *)

From Verif Require Import Base Elem Native Errs Names Ser Read Api SpecSim SpecOut SpecSub SpecPage SpecMoved SpecSwap SpecMany
  PfPage PfPage2 PfPage3 PfPage4 PfStable.

Local Ltac inv H := inversion H; subst; clear H.

(** ---- children ahead only get fewer ---- *)
Definition fewer (p p' : page) : Prop := forall f : native -> bool, length (filter f (pg_ahead p')) <= length (filter f (pg_ahead p)).

Lemma fewer_refl : forall p, fewer p p.
Proof. intros p f. lia. Qed.
Lemma fewer_same : forall p p', pg_ahead p' = pg_ahead p -> fewer p p'.
Proof. intros p p' E f. rewrite E. lia. Qed.
Lemma fewer_trans : forall p q t, fewer p q -> fewer q t -> fewer p t.
Proof. intros p q t A B f. specialize (A f). specialize (B f). lia. Qed.

Lemma seeks_count : forall mode tag l sk c rest, seeks mode tag l sk c rest -> forall f : native -> bool,
  length (filter f rest) + (if f c then 1 else 0) <= length (filter f l).
Proof.
  intros mode tag l sk c rest S f. inv S; simpl; rewrite ?filter_app, ?app_length; simpl; rewrite ?filter_app, ?app_length; simpl;
    destruct (f c); simpl; try destruct (f k); simpl; rewrite ?app_length; simpl; try lia.
Qed.

Lemma pass_fewer : forall mode tag p sk c rest left, seeks mode tag (pg_ahead p) sk c rest -> fewer p (pass p sk c left rest).
Proof. intros mode tag p sk c rest left S f. simpl. pose proof (seeks_count S f). lia. Qed.

Lemma peek_fewer : forall mode tag p sk c rest, seeks mode tag (pg_ahead p) sk c rest -> fewer p (peek mode p c rest).
Proof.
  intros mode tag p sk c rest S f. pose proof (seeks_count S f). destruct mode; simpl; try lia. destruct (f c); simpl; lia.
Qed.

Lemma text_ahead : forall eas nl p v p', reads_text eas nl p v p' -> pg_ahead p' = pg_ahead p.
Proof. intros eas nl p v p' H. inv H; reflexivity. Qed.

Section Rules.
  Variables (ev : env) (eas : bool).

  Theorem all_fewer :
    (forall s0 p a p', reads ev eas s0 p a p' -> fewer p p') /\
    (forall s0 p l p', reads_items ev eas s0 p l p' -> fewer p p') /\
    (forall ss p l p', reads_each ev eas ss p l p' -> fewer p p') /\
    (forall title qs p noted a p', tries ev eas title qs p noted a p' -> fewer p p') /\
    (forall attr mode qs p a p', picks ev eas attr mode qs p a p' -> fewer p p') /\
    (forall mode s0 path p a p', reads_in ev eas mode s0 path p a p' -> fewer p p') /\
    (forall q p a p', reads_sub ev eas q p a p' -> fewer p p') /\
    (forall fs p l p', reads_fields ev eas fs p l p' -> fewer p p') /\
    (forall m p a p', reads_model ev eas m p a p' -> fewer p p').
  Proof.
    apply rules_ind; intros; auto using fewer_refl; try (apply fewer_same; reflexivity); try (eapply pass_fewer; eassumption);
      try (eapply fewer_trans; [eassumption|]; assumption).
    - apply fewer_same. eapply text_ahead; eauto.
    - intros f. simpl. rewrite e. simpl. destruct (f c); simpl; lia.
    - eapply fewer_trans; [eapply peek_fewer; eassumption|assumption].
    - eapply fewer_trans; [eapply peek_fewer; eassumption|assumption].
  Qed.

  Lemma seek_not_missing : forall mode tag l sk c rest, seeks mode tag l sk c rest -> missing mode tag l -> False.
  Proof. intros mode tag l sk c rest S M. apply seek_some in S. apply seek_none in M. congruence. Qed.

  (** after the only one there is none *)
  Lemma none_after : forall mode tag l sk c rest, seeks mode tag l sk c rest -> length (filter (named_b tag) l) <= 1 -> missing mode tag rest.
  Proof.
    intros mode tag l sk c rest S L. pose proof (seeks_count S (named_b tag)) as C.
    assert (Nc : named_b tag c = true).
    { apply seek_some, seek_found in S. destruct c; simpl in *; try contradiction. apply String.eqb_eq. auto. }
    rewrite Nc in C. assert (N : Forall (fun k => ~ SpecPage.named tag k) rest).
    { apply Forall_forall. intros k Ik Nk. assert (I : In k (filter (named_b tag) rest)).
      { apply filter_In. split; auto. destruct k; simpl in *; try contradiction. apply String.eqb_eq. auto. }
      destruct (filter (named_b tag) rest); [destruct I|]. simpl in C. lia. }
    destruct mode; simpl; auto. destruct rest; auto. apply Forall_inv in N. auto.
  Qed.

  Definition listed (title : string) (a : answer) : answer :=
    match a with
    | Got VNone => Got VNone
    | Got v => Got (VList [v])
    | Refused _ rs => Refused title (map (under (LIdx 0)) rs)
    | Stopped w => Stopped w
    end.

  Lemma sole_read : forall s mode tag, sole s = Some (mode, tag) -> ~ computed ev s.
  Proof.
    intros s mode tag So C. inv C; simpl in So; try discriminate; rewrite H in So; discriminate.
  Qed.

  Ltac cases So := simpl in So; try discriminate; repeat match goal with X : (if ?b then _ else _) = Some _ |- _ => destruct b eqn:?; try discriminate end; inv So.

  (** one more try finds nothing *)
  Lemma no_more : forall s mode tag p b p', sole s = Some (mode, tag) -> missing mode tag (pg_ahead p) -> reads ev eas s p b p' -> b = Got VNone /\ p' = p.
  Proof.
    intros s mode tag p b p' So M R. pose proof (sole_read So) as Nc. inv R; auto; try (destruct (Nc H); fail); cases So;
      try (exfalso; eapply seek_not_missing; eassumption).
    inv H; auto; exfalso; eapply seek_not_missing; eassumption.
  Qed.

  Lemma tried_again : forall s mode tag p a p1, sole s = Some (mode, tag) -> reads ev eas s p a p1 -> length (filter (named_b tag) (pg_ahead p)) <= 1 ->
    missing mode tag (pg_ahead p1) /\ reads ev eas s p1 (Got VNone) p1.
  Proof.
    intros s mode tag p a p1 So R L. pose proof (sole_read So) as Nc. inv R; try (destruct (Nc H); fail); cases So;
      try (split; [assumption|first [apply rd_no_elem|apply rd_no_map|apply rd_no_raw]; auto; fail]);
      try (match goal with S : seeks _ _ _ _ _ _ |- _ => pose proof (none_after S L) as M; split; [exact M|first [apply rd_no_elem|apply rd_no_map|apply rd_no_raw]; auto] end).
    inv H; try congruence.
    - split; auto. apply rd_model. eapply rs_missing; eauto.
    - match goal with S : seeks _ _ _ _ _ _ |- _ => pose proof (none_after S L) as M; split; [exact M|apply rd_model; eapply rs_missing; eauto] end.
    - match goal with S : seeks _ _ _ _ _ _ |- _ => pose proof (none_after S L) as M; split; [exact M|apply rd_model; eapply rs_missing; eauto] end.
  Qed.

  (** the field and the list *)
  Lemma list_of : forall s mode tag title hide p a p1, sole s = Some (mode, tag) -> length (filter (named_b tag) (pg_ahead p)) <= 1 ->
    reads ev eas s p a p1 -> reads ev eas (SHomo title false s hide) p (listed title a) p1.
  Proof.
    intros s mode tag title hide p a p1 So L R. destruct (tried_again So R L) as [M A]. destruct a as [v|t rs|w].
    - destruct (is_none v) eqn:Nv.
      + destruct v; try discriminate. simpl. apply (@rd_list ev eas title s hide p [] p1). apply ri_end. auto.
      + assert (Nn : v <> VNone) by (intros ->; discriminate).
        assert (X : reads ev eas (SHomo title false s hide) p (Got (as_list [v])) p1).
        { apply (@rd_list ev eas title s hide p [v] p1). eapply ri_item; [exact R|congruence|exact I|]. apply ri_end. auto. }
        destruct v; simpl in *; auto; congruence.
    - simpl. eapply rd_bad_list with (answers := [Refused t rs]).
      + eapply ri_item; [exact R|discriminate|exact I|]. apply ri_end. exact A.
      + simpl. rewrite app_nil_r. apply fl_refused; repeat constructor.
    - simpl. eapply rd_bad_list with (answers := [Stopped w]); [apply ri_stop; exact R|]. apply fl_stopped. left. reflexivity.
  Qed.

  Lemma items_of : forall s mode tag p l p1, sole s = Some (mode, tag) -> length (filter (named_b tag) (pg_ahead p)) <= 1 ->
    reads_items ev eas s p l p1 -> exists a, reads ev eas s p a p1 /\ ((a = Got VNone /\ l = []) \/ (a <> Got VNone /\ l = [a])).
  Proof.
    intros s mode tag p l p1 So L R. inv R.
    - exists (Got VNone). auto.
    - destruct (tried_again So H L) as [M A]. exists a. match goal with X : reads_items _ _ _ _ _ _ |- _ => inv X end.
      + destruct (no_more So M H3) as [_ ->]. auto.
      + destruct (no_more So M H3) as [-> _]. congruence.
      + destruct (no_more So M H3) as [X _]. discriminate.
    - exists (Stopped w). split; auto. right. split; auto. discriminate.
  Qed.

  Lemma of_list : forall s mode tag title hide p b p1, sole s = Some (mode, tag) -> length (filter (named_b tag) (pg_ahead p)) <= 1 ->
    reads ev eas (SHomo title false s hide) p b p1 -> exists a, reads ev eas s p a p1 /\ b = listed title a.
  Proof.
    intros s mode tag title hide p b p1 So L R. inv R.
    - inv H.
    - destruct (items_of So L H5) as (a & Ra & [[-> E]|[Na E]]); exists a || exists (Got VNone); (split; [exact Ra|]).
      + destruct vs; [reflexivity|discriminate].
      + destruct vs as [|v [|v' vs]]; try discriminate. inv E. simpl. destruct v; try reflexivity. congruence.
    - destruct (items_of So L H5) as (a & Ra & [[-> ->]|[Na ->]]); [exfalso; inv H6; [inv H|destruct H]|]. exists a. split; auto. inv H6.
      + inv H; [|inv H2]. destruct a; try contradiction. simpl. rewrite app_nil_r. reflexivity.
      + destruct H as [->|[]]. reflexivity.
  Qed.
End Rules.
