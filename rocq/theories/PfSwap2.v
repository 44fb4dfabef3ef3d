(** PfSwap2.v -- the rules of SpecPage on pages that agree on the parts a field is read from. *)

From Verif Require Import Base Elem Native Errs Names Ser SpecSim SpecOut SpecSub SpecPage SpecMoved SpecSwap PfPage PfPage2 PfPage3 PfSwap.

Local Ltac inv H := inversion H; subst; clear H.

Section Rules.
  Variables (ev : env) (eas : bool).

  Definition spots (s : ser) (r : spot) : Prop := exists q, takes s q /\ r = spot_of q.
  Definition good (a : answer) : Prop := exists v, a = Got v.
  Definition names_in (N : spot -> Prop) (qs : list proxy) : Prop :=
    Forall (fun q => px_mode q = Unordered /\ N (SKids' (Some (px_name q)))) qs.
  Definition only (t : string) : spot -> Prop := fun r => r = SKids' (Some t).

  Lemma fails_bad : forall title rs l a, fails title rs l a -> ~ good a.
  Proof. intros title rs l a F [v ->]. inv F. Qed.

  (** what is left alone *)
  Definition F_reads (s : ser) p (a : answer) p' : Prop := good a -> any_order s -> framed (spots s) p p'.
  Definition F_items (s : ser) p (l : list answer) p' : Prop := Forall good l -> any_order s -> framed (spots s) p p'.
  Definition F_each (ss : list ser) p (l : list answer) p' : Prop := Forall good l ->
    forall N : spot -> Prop, (forall s, In s ss -> any_order s /\ forall r, spots s r -> N r) -> framed N p p'.
  Definition F_tries (title : string) (qs : list proxy) p (noted : dict (list remark)) (a : answer) p' : Prop := good a ->
    forall N, names_in N qs -> framed N p p'.
  Definition F_picks (attr : string) (mode : smode) (qs : list (string * proxy)) p (a : answer) p' : Prop := mode = Unordered ->
    forall N, names_in N (map snd qs) -> framed N p p'.
  Definition F_in (mode : smode) (s : ser) (path : list string) p (a : answer) p' : Prop := mode = Unordered ->
    match path with [] => True | tag :: _ => framed (only tag) p p' end.
  Definition F_sub (q : proxy) p (a : answer) p' : Prop := px_mode q = Unordered -> framed (only (px_name q)) p p'.

  Lemma only_kid : forall (N : spot -> Prop) t r, N (SKids' (Some t)) -> only t r -> N r.
  Proof. intros N t r H ->. exact H. Qed.

  Ltac stopped := match goal with G : Forall good (Stopped _ :: _) |- _ => apply Forall_inv in G; destruct G; discriminate end.

  Theorem left_alone :
    (forall s0 p a p', reads ev eas s0 p a p' -> F_reads s0 p a p') /\
    (forall s0 p l p', reads_items ev eas s0 p l p' -> F_items s0 p l p') /\
    (forall ss p l p', reads_each ev eas ss p l p' -> F_each ss p l p') /\
    (forall title qs p noted a p', tries ev eas title qs p noted a p' -> F_tries title qs p noted a p') /\
    (forall attr mode qs p a p', picks ev eas attr mode qs p a p' -> F_picks attr mode qs p a p') /\
    (forall mode s0 path p a p', reads_in ev eas mode s0 path p a p' -> F_in mode s0 path p a p') /\
    (forall q p a p', reads_sub ev eas q p a p' -> F_sub q p a p') /\
    (forall fs p l p', reads_fields ev eas fs p l p' -> True) /\
    (forall m p a p', reads_model ev eas m p a p' -> True).
  Proof.
    apply rules_ind; intros; try exact I;
      unfold F_reads, F_items, F_each, F_tries, F_picks, F_in, F_sub in *; intros;
      try (match goal with F : fails _ _ _ ?a, G : good ?a |- _ => destruct (fails_bad F G) end);
      try apply framed_refl.
    - eapply framed_sub; [|eapply text_framed; eauto]. intros r0 [->|[-> ->]]; [exists OwnText|exists (OwnAttr nil_attribute)]; simpl; auto.
    - eapply framed_sub; [|apply drop_attr_framed]. intros r0 ->. exists (OwnAttr name). simpl. auto.
    - simpl in H0. subst mode. eapply framed_sub; [|eapply pass_framed; eauto]. intros r0 ->. exists (OwnKids name). simpl. auto.
    - destruct H0.
    - simpl in H0. subst mode. eapply framed_sub; [|eapply pass_framed; eauto]. intros r0 ->. exists (OwnKids name). simpl. auto.
    - apply H; auto. clear. induction vs; simpl; constructor; auto. eexists; eauto.
    - apply H; [clear; induction vs; simpl; constructor; auto; eexists; eauto|]. simpl in H1. intros s Is. split.
      + clear - H1 Is. induction ss as [|s0 ss IH]; [destruct Is|]. simpl in H1. destruct H1 as [A B]. destruct Is as [->|Is]; auto.
      + intros r0 (q & Tq & ->). exists q. split; auto. simpl. clear - Tq Is. induction ss as [|s0 ss IH]; [destruct Is|]. simpl. destruct Is as [->|Is]; auto.
    - apply H; auto.
    - apply H; auto. simpl in H1. apply Forall_forall. intros q Iq. rewrite Forall_forall in H1. split; auto.
      exists (OwnKids (px_name q)). split; auto. simpl. apply Exists_exists. eauto.
    - simpl in H1. destruct H1 as [Hm Hq]. apply H; auto. apply Forall_forall. intros q Iq. apply in_map_iff in Iq. destruct Iq as (tq & <- & Iq).
      rewrite Forall_forall in Hq. split; auto. exists (OwnKids (px_name (snd tq))). split; auto. simpl. apply Exists_exists. eauto.
    - simpl in H1. specialize (H H1). destruct path as [|tag path]; [congruence|]. eapply framed_sub; [|exact H].
      intros r0 ->. exists (OwnKids tag). simpl. auto.
    - simpl in H0. subst mode. eapply framed_sub; [|eapply pass_framed; eauto]. intros r0 ->. exists (OwnKids name). simpl. auto.
    - simpl in H1. eapply framed_sub; [|apply H; auto]. intros r0 ->. exists (OwnKids (px_name q)). simpl. auto.
    - apply H; auto. eexists; eauto.
    - inv H1. eapply framed_trans; [apply H; auto|apply H0; auto].
    - exfalso. stopped.
    - inv H1. destruct (H2 s (or_introl eq_refl)) as [Ao Sb]. eapply framed_trans; [eapply framed_sub; [exact Sb|apply H; auto]|].
      apply H0; auto. intros s' Is. apply H2. right; auto.
    - exfalso. stopped.
    - destruct H; discriminate.
    - inv H1. destruct H4 as [Hm Hn]. eapply framed_sub; [|apply H; auto]. intros r0. apply only_kid; auto.
    - inv H2. apply H0; auto.
    - inv H2. apply H0; auto.
    - inv H1. apply H; auto.
    - subst mode. inv H1. eapply framed_trans; [eapply peek_framed; eauto|]. apply H; auto.
    - subst mode. inv H1. destruct H3 as [Hm Hn]. eapply framed_trans; [eapply peek_framed; eauto|].
      eapply framed_sub; [|apply H; auto]. intros r0. apply only_kid; auto.
    - exact I.
    - eapply framed_sub; [|eapply reopen_framed; eauto]. intros r0 ->. unfold only. f_equal. apply kind_named; auto.
    - subst mode. eapply framed_sub; [|eapply pass_framed; eauto]. intros r0 ->. reflexivity.
    - rewrite H in *. eapply framed_sub; [|eapply pass_framed; eauto]. intros r0 ->. reflexivity.
    - rewrite H0 in *. eapply framed_sub; [|eapply pass_framed; eauto]. intros r0 ->. reflexivity.
  Qed.

  (** what is read depends on the parts taken only *)
  Definition T_reads (s : ser) p (a : answer) p' : Prop := good a -> any_order s ->
    forall N : spot -> Prop, (forall r, spots s r -> N r) -> single N p -> forall q, agree N p q ->
    exists q', reads ev eas s q a q' /\ agree N p' q' /\ single N p'.
  Definition T_items (s : ser) p (l : list answer) p' : Prop := Forall good l -> any_order s ->
    forall N : spot -> Prop, (forall r, spots s r -> N r) -> single N p -> forall q, agree N p q ->
    exists q', reads_items ev eas s q l q' /\ agree N p' q' /\ single N p'.
  Definition T_each (ss : list ser) p (l : list answer) p' : Prop := Forall good l ->
    forall N : spot -> Prop, (forall s, In s ss -> any_order s /\ forall r, spots s r -> N r) -> single N p -> forall q, agree N p q ->
    exists q', reads_each ev eas ss q l q' /\ agree N p' q' /\ single N p'.
  Definition T_tries (title : string) (qs : list proxy) p (noted : dict (list remark)) (a : answer) p' : Prop := good a ->
    forall N, names_in N qs -> single N p -> forall q, agree N p q ->
    exists q', tries ev eas title qs q noted a q' /\ agree N p' q' /\ single N p'.
  Definition T_picks (attr : string) (mode : smode) (qs : list (string * proxy)) p (a : answer) p' : Prop := mode = Unordered ->
    forall N, names_in N (map snd qs) -> single N p -> forall q, agree N p q ->
    exists q', picks ev eas attr mode qs q a q' /\ agree N p' q' /\ single N p'.
  Definition T_in (mode : smode) (s : ser) (path : list string) p (a : answer) p' : Prop := mode = Unordered ->
    match path with
    | [] => True
    | tag :: _ => forall N : spot -> Prop, N (SKids' (Some tag)) -> single N p -> forall q, agree N p q ->
        exists q', reads_in ev eas mode s path q a q' /\ agree N p' q' /\ single N p'
    end.
  Definition T_sub (x : proxy) p (a : answer) p' : Prop := px_mode x = Unordered ->
    forall N : spot -> Prop, N (SKids' (Some (px_name x))) -> single N p -> forall q, agree N p q ->
    exists q', reads_sub ev eas x q a q' /\ agree N p' q' /\ single N p'.

  Lemma spots_kid : forall (N : spot -> Prop) s t, (forall r, spots s r -> N r) -> takes s (OwnKids t) -> N (SKids' (Some t)).
  Proof. intros N s t H T. apply H. exists (OwnKids t). auto. Qed.

  (** a child is taken on both pages *)
  Lemma both : forall (N : spot -> Prop) p q t c sk rest, N (SKids' (Some t)) -> single N p -> agree N p q -> seeks Unordered t (pg_ahead p) sk c rest ->
    exists rest', seeks Unordered t (pg_ahead q) [] c rest' /\
      forall l, agree N (pass p sk c l rest) (pass q [] c l rest') /\ single N (pass p sk c l rest).
  Proof.
    intros N p q t c sk rest Nt Si A S. destruct (taken Nt Si A S) as (-> & rest' & S' & Ag). exists rest'. split; auto.
    intros l. split; auto. eapply pass_single; eauto.
  Qed.

  Theorem transferred :
    (forall s0 p a p', reads ev eas s0 p a p' -> T_reads s0 p a p') /\
    (forall s0 p l p', reads_items ev eas s0 p l p' -> T_items s0 p l p') /\
    (forall ss p l p', reads_each ev eas ss p l p' -> T_each ss p l p') /\
    (forall title qs p noted a p', tries ev eas title qs p noted a p' -> T_tries title qs p noted a p') /\
    (forall attr mode qs p a p', picks ev eas attr mode qs p a p' -> T_picks attr mode qs p a p') /\
    (forall mode s0 path p a p', reads_in ev eas mode s0 path p a p' -> T_in mode s0 path p a p') /\
    (forall q p a p', reads_sub ev eas q p a p' -> T_sub q p a p') /\
    (forall fs p l p', reads_fields ev eas fs p l p' -> True) /\
    (forall m p a p', reads_model ev eas m p a p' -> True).
  Proof.
    apply rules_ind; intros; try exact I;
      unfold T_reads, T_items, T_each, T_tries, T_picks, T_in, T_sub in *; intros;
      try (match goal with F : fails _ _ _ ?a, G : good ?a |- _ => destruct (fails_bad F G) end).
    - (* computed *) exists q. split; auto. apply rd_computed; auto.
    - (* text *) destruct (@text_agree N eas nillable p v p' q) as (q' & R & A); auto.
      + apply H1. exists OwnText. simpl; auto.
      + intros ->. apply H1. exists (OwnAttr nil_attribute). simpl; auto.
      + exists q'. split; [apply rd_text; auto|]. split; auto. eapply single_of; [eassumption|eapply text_framed; eauto].
    - (* attr *) assert (Na : N (SAttr' name)) by (apply H1; exists (OwnAttr name); simpl; auto).
      rewrite (@own_attr_eq N name p q Na H3). eexists. split; [apply rd_attr|]. split; [exact (@drop_attr_agree N name p q Na H3)|].
      eapply single_of; [eassumption|apply drop_attr_framed].
    - (* elements *) simpl in H0. subst mode. exists q. split; auto. apply rd_no_elem. eapply not_there; [|eassumption|eassumption]. eapply spots_kid; [eassumption|]. simpl; auto.
    - simpl in H0. subst mode. assert (Nt : N (SKids' (Some name))) by (eapply spots_kid; [eassumption|simpl; auto]).
      destruct (@both N p q name c skipped rest Nt H2 H3 s) as (rest' & S' & B). eexists. split; [eapply rd_elem; [exact S'|exact r]|]. apply B.
    - destruct H0.
    - simpl in H0. subst mode. exists q. split; auto. apply rd_no_map; auto. eapply not_there; [|eassumption|eassumption]. eapply spots_kid; [eassumption|]. simpl; auto.
    - simpl in H0. subst mode. assert (Nt : N (SKids' (Some name))) by (eapply spots_kid; [eassumption|simpl; auto]).
      destruct (@both N p q name c skipped rest Nt H2 H3 s) as (rest' & S' & B). eexists. split; [eapply rd_map; [assumption|exact S'|exact r]|]. apply B.
    - (* lists *) destruct (H ltac:(clear; induction vs; simpl; constructor; auto; eexists; eauto) H1 N H2 H3 q H4) as (q' & R & X).
      exists q'. split; auto. apply rd_list; auto.
    - simpl in H1. assert (X : forall s, In s ss -> any_order s /\ forall r, spots s r -> N r).
      { intros s Is. split.
        - clear - H1 Is. induction ss as [|s0 ss IH]; [destruct Is|]. simpl in H1. destruct H1 as [A B]. destruct Is as [->|Is]; auto.
        - intros r0 (t & Tq & ->). apply H2. exists t. split; auto. simpl. clear - Tq Is. induction ss as [|s0 ss IH]; [destruct Is|]. simpl. destruct Is as [->|Is]; auto. }
      destruct (H ltac:(clear; induction vs; simpl; constructor; auto; eexists; eauto) N X H3 q H4) as (q' & R & Y).
      exists q'. split; auto. eapply rd_tuple; eauto.
    - destruct (H H0 H1 N H2 H3 q H4) as (q' & R & Y). exists q'. split; auto. apply rd_prim; auto.
    - (* unions *) simpl in H1. assert (X : names_in N variants).
      { apply Forall_forall. intros x Ix. rewrite Forall_forall in H1. split; auto. eapply spots_kid; [eassumption|]. simpl. apply Exists_exists. eauto. }
      destruct (H H0 N X H3 q H4) as (q' & R & Y). exists q'. split; auto. apply rd_union; auto.
    - simpl in H1. destruct H1 as [Hm Hq]. assert (X : names_in N (map snd variants)).
      { apply Forall_forall. intros x Ix. apply in_map_iff in Ix. destruct Ix as (tq & <- & Ix). rewrite Forall_forall in Hq. split; auto.
        eapply spots_kid; [eassumption|]. simpl. apply Exists_exists. eauto. }
      destruct (H Hm N X H3 q H4) as (q' & R & Y). exists q'. split; auto. apply rd_tagged; auto.
    - (* wrappers *) simpl in H1. specialize (H H1). destruct path as [|tag path]; [congruence|].
      destruct (H N ltac:(eapply spots_kid; [eassumption|simpl; auto]) H3 q H4) as (q' & R & Y). exists q'. split; auto. apply rd_wrap; auto.
    - (* raw *) simpl in H0. subst mode. exists q. split; auto. apply rd_no_raw; auto. eapply not_there; [|eassumption|eassumption]. eapply spots_kid; [eassumption|]. simpl; auto.
    - simpl in H0. subst mode. assert (Nt : N (SKids' (Some name))) by (eapply spots_kid; [eassumption|simpl; auto]).
      destruct (@both N p q name c skipped rest Nt H2 H3 s) as (rest' & S' & B). eexists. split; [eapply rd_raw; [exact S'|eassumption]|]. apply B.
    - simpl in H1. destruct (H H1 N ltac:(eapply spots_kid; [eassumption|simpl; auto]) H3 q0 H4) as (q' & R & Y). exists q'. split; auto. apply rd_model; auto.
    - (* items *) destruct (H ltac:(eexists; eauto) H1 N H2 H3 q H4) as (q' & R & Y). exists q'. split; auto. apply ri_end; auto.
    - apply Forall_inv_tail in H1 as G2. apply Forall_inv in H1. destruct (H H1 H2 N H3 H4 q H5) as (q1 & R1 & A1 & S1).
      destruct (H0 G2 H2 N H3 S1 q1 A1) as (q2 & R2 & Y). exists q2. split; auto. eapply ri_item; eauto.
    - exfalso. stopped.
    - (* tuples *) exists q. split; auto. apply re_end.
    - apply Forall_inv_tail in H1 as G2. apply Forall_inv in H1. destruct (H2 s (or_introl eq_refl)) as [Ao Sb].
      destruct (H H1 Ao N Sb H3 q H4) as (q1 & R1 & A1 & S1).
      destruct (H0 G2 N ltac:(intros s' Is; apply H2; right; auto) S1 q1 A1) as (q2 & R2 & Y). exists q2. split; auto. eapply re_member; eauto.
    - exfalso. stopped.
    - (* variants *) exists q. split; auto. apply tr_none.
    - destruct H; discriminate.
    - inv H1. destruct H6 as [Hm Hn]. destruct (H Hm N Hn H2 q0 H3) as (q' & R & Y). exists q'. split; auto. eapply tr_fits; eauto.
    - inv H2. destruct H7 as [Hm Hn]. destruct (H Hm N Hn H3 q0 H4) as (q1 & R1 & _). destruct (H0 H1 N H8 H3 q0 H4) as (q2 & R2 & Y).
      exists q2. split; auto. eapply tr_nothing; eauto.
    - inv H2. destruct H7 as [Hm Hn]. destruct (H Hm N Hn H3 q0 H4) as (q1 & R1 & _). destruct (H0 H1 N H8 H3 q0 H4) as (q2 & R2 & Y).
      exists q2. split; auto. eapply tr_bad; eauto.
    - destruct H0; discriminate.
    - (* discriminated unions *) exists q. split; auto. apply pk_none.
    - subst mode. inv H1. destruct H5 as [Hm Hn]. destruct (H eq_refl N H6 H2 q0 H3) as (q1 & R1 & Y). exists q1. split; auto. apply pk_missing; auto.
      eapply not_there; eauto.
    - subst mode. inv H1. destruct H5 as [Hm Hn]. destruct (@peek_agree N p q0 (px_name q) c skipped rest Hn H2 H3 s) as (rest' & S' & A').
      assert (S1 : single N (peek Unordered p c rest)) by (eapply single_of; [exact H2|apply (@peek_framed _ _ _ _ _ s N)]).
      destruct (H eq_refl N H6 S1 _ A') as (q1 & R1 & Y). exists q1. split; auto. eapply pk_other; eauto.
    - subst mode. inv H1. destruct H5 as [Hm Hn]. destruct (@peek_agree N p q0 (px_name q) c skipped rest Hn H2 H3 s) as (rest' & S' & A').
      assert (S1 : single N (peek Unordered p c rest)) by (eapply single_of; [exact H2|apply (@peek_framed _ _ _ _ _ s N)]).
      destruct (H Hm N Hn S1 _ A') as (q1 & R1 & Y). exists q1. split; auto. eapply pk_match; eauto.
    - (* paths *) exact I.
    - pose proof (proj1 (kind_named _ _) n) as K.
      destruct (@reopen_agree N p q front c left) as (front' & Lq & Ag); auto; [rewrite K; auto|].
      eexists. split; [eapply in_again; eauto|]. split; auto; try (eapply single_of; [eassumption|eapply reopen_framed; eauto]).
    - exists q. subst mode. split; auto. apply in_missing; [eapply no_last; eauto|eapply not_there; eauto].
    - subst mode. destruct (@both N p q tag c skipped rest H1 H2 H3 s0) as (rest' & S' & B). eexists.
      split; [eapply in_next; [eapply no_last; eauto|exact S'|eassumption]|]. apply B.
    - (* sub-models *) exists q0. split; auto. eapply rs_computed; eauto.
    - exists q0. rewrite H in *. split; auto. eapply rs_missing; eauto. rewrite H. eapply not_there; eauto.
    - rewrite H in *. destruct (@both N p q0 (px_name q) c skipped rest H0 H1 H2 s) as (rest' & S' & B). eexists.
      split; [eapply rs_nil; eauto; rewrite H; exact S'|]. apply B.
    - rewrite H0 in *. destruct (@both N p q0 (px_name q) c skipped rest H1 H2 H3 s) as (rest' & S' & B). eexists.
      split; [eapply rs_model; eauto; rewrite H0; exact S'|]. apply B.
  Qed.
End Rules.
