(** PfBuild5.v -- consequences of [declared], and environments made by the builder. *)

From Verif Require Import Base Elem Native Errs Names Fields Ser SpecNames SpecRead Build SpecBuild
  PfNames PfBuild PfBuild2 PfBuild3.

Lemma part_declared : forall cl am encl i s encl' i' s', part_of encl i s encl' i' s' ->
  declared cl am encl i s -> declared cl am encl' i' s'.
Proof.
  induction 1; intros D; auto; inversion D; subst; auto.
  - apply IHpart_of. rewrite Forall_forall in *. auto.
  - apply dc_model; auto. rewrite Forall_forall in *; auto.
  - apply dc_model; auto.
    match goal with F : Forall _ vs |- _ => rewrite Forall_forall in F; apply (F _ H) end.
Qed.

Lemma clark_named : forall u t, t <> "" -> clark u t <> "".
Proof.
  intros [u|] t H; simpl; auto. destruct (String.eqb u ""); simpl; auto; discriminate.
Qed.

Lemma picks_named : forall l t, picks l t -> t <> "".
Proof. intros l t (pre & post & _ & N & _); auto. Qed.

Lemma py_split_cons : forall c s, py_split c s <> [].
Proof.
  intros c s. destruct s as [|a s]; simpl; [discriminate|].
  destruct (Ascii.eqb a c); [discriminate|]. destruct (py_split c s); discriminate.
Qed.

Lemma declared_named : forall cl am s encl i, declared cl am encl i s -> maybe_full_paths i -> named s.
Proof.
  intros cl am.
  assert (P : forall encl i p, submodel_of cl am encl i p -> px_name p <> "").
  { intros encl i p (k & t & ns & u & _ & Pk & _ & _ & E & _). rewrite E.
    apply clark_named. eapply picks_named; eauto. }
  assert (Q : forall encl i t name, t <> "" -> element_name encl i t name -> name <> "").
  { intros encl i t name N (ns & u & _ & _ & ->). apply clark_named; auto. }
  assert (O : forall i t, own_name am i t -> t <> "") by (intros; eapply picks_named; eauto).
  induction s using ser_ind'; intros encl i D F; inversion D; subst; constructor; eauto.
  - match goal with A : attribute_name _ _ _ _ _ |- _ => destruct A as (ns & u & _ & _ & _ & ->) end.
    apply clark_named; eauto.
  - rewrite Forall_forall in *. intros x Hx. eauto.
  - rewrite Forall_forall in *. eauto.
  - rewrite Forall_forall in *. intros x Hx. eauto.
  - match goal with A : Forall2 _ (py_split ?c ?p) _ |- _ => intros ->; inversion A as [E|];
      symmetry in E; apply py_split_cons in E; auto end.
  - match goal with A : Forall2 _ (py_split ?c ?p) _ |- _ => assert (N : ~ In "" (py_split c p)) end.
    { unfold says_loc, says_path in *. destruct i as [[lo pa nsx mm ni wr]|]; simpl in *; [|discriminate].
      apply F; auto. }
    match goal with A : Forall2 _ (py_split ?c ?p) _ |- _ => clear - A N Q; induction A as [|x y l l' Hxy A IHA] end; constructor.
    + eapply Q; [|eauto]. intros ->. apply N; simpl; auto.
    + apply IHA. intros I. apply N; simpl; auto.
  - eapply IHs; eauto. unfold says_wrapped. destruct i as [[lo pa nsx mm ni wr]|]; simpl in *; auto.
    destruct wr; simpl; tauto.
Qed.

Lemma declared_attribute : forall cl am encl i s, declared cl am encl i s ->
  says_loc i = Some LocAttribute ->
  (exists name c, s = SAttr name c) \/
  (exists c s', s = SUnionPrim c s' /\ declared cl am encl i s').
Proof.
  intros cl am encl i s D L. inversion D; subst; eauto; unfold at_element_or_bare in *;
    try congruence; intuition congruence.
Qed.

Lemma class_stands : forall s ds s0 t, class_schema s ds s0 -> stands_for (dict_of ds) s0 t ->
  stands_for [] s t.
Proof.
  intros s ds s0 t [[-> ->]| ->] H; [exact H|].
  apply sf_defs. rewrite dict_of_twice. exact H.
Qed.

Lemma Forall2_snd : forall A B (P : A -> B -> Prop) (Q : B -> Prop) l m,
  Forall2 P l m -> (forall a b, P a b -> Q b) -> Forall Q m.
Proof. induction 1; constructor; eauto. Qed.

Section Env.
  Variable T : xtag -> Prop.
  Variable U : string -> Prop.
  Variable cl : classes.
  Variable ev : env.
  Hypothesis Hcl : classes_ok cl.
  Hypothesis Hev : built_env T U cl ev.

  Lemma built_model : forall cls m, en_model ev cls = Some m ->
    Forall (fun nf => wf_ser ev (snd nf) /\ solid (snd nf)) (md_fields m) /\
    (md_root m = true -> md_fields m <> []) /\
    (forall name f, md_cval m name = Some f -> good_custom T U f /\ only_reads f) /\
    (forall input what, md_validate m input = Crashed what -> U what).
  Proof.
    destruct Hev as [Hk H]. intros cls m E.
    destruct (H _ _ E) as (n & k & b & forbid & skip & cser & cval & validate & ds & s & s0 & root &
      body & parts & K & C & S & Ss & HD & P & F & I & B & -> & V & Vc).
    pose proof (class_fine n K HD Ss C S P F) as Fb. rewrite B in Fb. simpl in Fb.
    pose proof (class_stands C S) as S'. simpl. destruct root; simpl in P.
    - destruct (@root_built cl ev Hcl _ _ _ _ _ _ B S' K I) as (r & Ef & Dr & _ & _ & _ & R & _).
      rewrite Ef in *. split; [|split; [auto; discriminate|auto]].
      inversion Fb; subst. constructor; auto. split; auto. simpl.
      eapply declared_wf; eauto.
    - destruct P as (fs & cs & Fd & _).
      destruct (@class_built cl ev Hcl _ _ _ _ _ _ _ _ B S' K Fd (I _ _ Fd)) as (own & comp & Ef & D1 & D2 & _ & _ & _ & R & _).
      rewrite R. split; [|split; [auto; discriminate|auto]].
      assert (W : Forall (fun nf => wf_ser ev (snd nf)) (bm_fields b)).
      { rewrite Ef. apply Forall_app. split.
        - eapply Forall2_snd; [exact D1|]. intros [nm [e sa va sc]] nf [_ D]. simpl in D.
          eapply declared_wf; eauto.
        - eapply Forall2_snd; [exact D2|]. intros cf nf [_ D]. eapply declared_wf; eauto. }
      rewrite Forall_forall in *. auto.
  Qed.

  Lemma built_wf : wf_env T U ev.
  Proof.
    intros cls m E. destruct (built_model _ E) as (F & R & V & Vc). split; [|split; [auto|split; auto]].
    - eapply Forall_impl; [|exact F]. simpl; tauto.
    - intros name f Hf. apply (V name f Hf).
  Qed.

  Lemma built_lists : forall eas,
    (eas = true -> forall cls m, en_model ev cls = Some m ->
       Forall (fun nf => no_text_union (snd nf)) (md_fields m)) -> env_lists_ok eas ev.
  Proof.
    intros eas N cls m E. destruct (built_model _ E) as (F & R & V & Vc). split.
    - rewrite Forall_forall in *. intros nf Hn. apply solid_lists_ok; [apply F; auto|].
      intros X. specialize (N X _ _ E). rewrite Forall_forall in N. auto.
    - intros name f Hf. apply (V name f Hf).
  Qed.
End Env.

Lemma Forall2_len : forall A B (P : A -> B -> Prop) l l', Forall2 P l l' -> length l = length l'.
Proof. intros A B P l l' H; induction H; simpl; auto. Qed.

Lemma Forall2_nth_error_l : forall A B (P : A -> B -> Prop) l l', Forall2 P l l' ->
  forall j x, nth_error l j = Some x -> exists y, nth_error l' j = Some y /\ P x y.
Proof.
  intros A B P l l' H; induction H as [|x y l l' Hx H IH]; intros [|j] z E; simpl in *; try discriminate; eauto.
  injection E as <-; eauto.
Qed.

Lemma field_of_declared : forall cl ev k i s, classes_ok cl -> field_of cl ev k i s ->
  exists hide name alias comp, declared cl (field_ambient k hide name alias comp) [class_scope k] i s.
Proof.
  intros cl ev k i s Hcl H. destruct H as [n s b cls body fs cs j name f t B S K FB FO N1 N2|n s b cls body fs cs j name a t B S K FB FO N1 N2|n s b cls body t B S K M E].
  - edestruct class_built as (own & comp & E & F1 & _); eauto.
    destruct (Forall2_nth_error_l F1 _ N1) as (y & Ny & D). rewrite E in N2.
    rewrite nth_error_app1 in N2 by (apply nth_error_Some; congruence). rewrite Ny in N2. injection N2 as ->.
    destruct D as [_ D]. cbn [fst snd] in D. destruct f. eauto.
  - edestruct class_built as (own & comp & E & F1 & F2 & _); eauto.
    destruct (Forall2_nth_error_l F2 _ N1) as (y & Ny & D). rewrite E in N2.
    rewrite (Forall2_len F1) in N2. rewrite nth_error_app2 in N2 by lia.
    replace (length own + j - length own) with j in N2 by lia. rewrite Ny in N2. injection N2 as ->.
    destruct D as [_ D]. cbn [fst snd] in D. eauto.
  - edestruct root_built as (r & E' & D & _); eauto. rewrite E in E'. injection E' as <-. eauto.
Qed.
