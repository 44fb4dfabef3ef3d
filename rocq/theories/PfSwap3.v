(** PfSwap3.v -- the fields of a class in another order, and whole documents. *)

From Verif Require Import Base Elem Native Errs Names Ser Read Api SpecSim SpecOut SpecSub SpecPage SpecMoved SpecStable SpecSwap PfStable PfPage PfPage2 PfPage3 PfPage4
  PfSwap PfSwap2.

Local Ltac inv H := inversion H; subst; clear H.

Lemma zone_dec : forall r r' : zone, {r = r'} + {r <> r'}.
Proof. intros r r'. decide equality; apply string_dec. Defined.

Lemma takes_dec : forall s r, takes s r \/ ~ takes s r.
Proof.
  induction s using ser_ind'; intros r; simpl;
    try (match goal with |- ?a = ?b \/ _ => destruct (zone_dec a b); auto end; fail).
  - destruct (zone_dec r OwnText); auto. destruct n; [destruct (zone_dec r (OwnAttr nil_attribute)); [auto|right; tauto]|right; intros [E|[E _]]; congruence].
  - destruct r; [right; intros [n E]; discriminate|eauto|right; intros [n E]; discriminate].
  - auto.
  - induction H as [|s l Hs Hl IH]; simpl; [tauto|]. destruct (Hs r), IH; tauto.
  - auto.
  - induction vs as [|q qs IH]; [right; intros E; inv E|]. destruct (zone_dec r (OwnKids (px_name q))); [left; left; auto|].
    destruct IH; [left; right; auto|]. right. intros E. inv E; auto.
  - induction vs as [|q qs IH]; [right; intros E; inv E|]. destruct (zone_dec r (OwnKids (px_name (snd q)))); [left; left; auto|].
    destruct IH; [left; right; auto|]. right. intros E. inv E; auto.
  - destruct p as [|t path]; auto. destruct (zone_dec r (OwnKids t)); auto.
Qed.

Lemma spots_dec : forall s r, spots s r \/ ~ spots s r.
Proof.
  intros s r. unfold spots. destruct r as [|a|[t|]].
  - destruct (takes_dec s OwnText); [left; eexists; split; eauto|]. right. intros (q & T & E). destruct q; try discriminate. auto.
  - destruct (takes_dec s (OwnAttr a)); [left; eexists; split; eauto|]. right. intros (q & T & E). destruct q; try discriminate. inv E. auto.
  - destruct (takes_dec s (OwnKids t)); [left; eexists; split; eauto|]. right. intros (q & T & E). destruct q; try discriminate. inv E. auto.
  - right. intros (q & T & E). destruct q; discriminate.
Qed.

Lemma spots_apart : forall s s', (forall r, takes s r -> ~ takes s' r) -> forall r, spots s r -> ~ spots s' r.
Proof.
  intros s s' H r (q & T & ->) (q' & T' & E). assert (q = q') by (destruct q, q'; simpl in E; congruence). subst q'. exact (H _ T T').
Qed.

Lemma got_length : forall ev eas fs p vs p', reads_fields ev eas fs p (map Got vs) p' -> length vs = length fs.
Proof.
  intros ev eas fs. induction fs as [|f fs IH]; intros p vs p' R; inv R; destruct vs; try discriminate; auto.
  - simpl in *. match goal with X : _ :: _ = _ :: _ |- _ => inv X end. f_equal. eauto.
Qed.

Section Fields.
  Variables (ev : env) (eas : bool).

  Definition fresh (s : ser) (p : page) : Prop := forall c l, lastp p = Some (c, l) -> ~ spots s (SKids' (kind c)).
  Definition allsame (p q : page) : Prop := (forall r, same r p q) /\ pg_tail p = pg_tail q.
  Definition ready (fs : list (string * ser)) (p : page) : Prop :=
    Forall (fun f => any_order (snd f) /\ fresh (snd f) p /\ single (spots (snd f)) p) fs.
  Definition disjoint (s s' : ser) : Prop := forall r, takes s r -> ~ takes s' r.

  Lemma disjoint_sym : forall s s', disjoint s s' -> disjoint s' s.
  Proof. intros s s' H r T T'. exact (H r T' T). Qed.

  Lemma apart_cons : forall f fs, apart (f :: fs) <-> Forall (fun g => disjoint (snd f) (snd g)) fs /\ apart fs.
  Proof.
    intros f fs. simpl. split; intros [A B]; split; auto.
    - apply Forall_forall. intros g Ig r T T'. apply (A r T). apply Exists_exists. eauto.
    - intros r T E. apply Exists_exists in E. destruct E as (g & Ig & T'). rewrite Forall_forall in A. exact (A g Ig r T T').
  Qed.

  Lemma apart_perm : forall fs fs', Permutation fs fs' -> apart fs -> apart fs'.
  Proof.
    intros fs fs' P. induction P; auto.
    - rewrite !apart_cons. intros [A B]. split; auto. rewrite Forall_forall in *. intros g Ig. apply A. eapply Permutation_in; [apply Permutation_sym; eauto|auto].
    - rewrite !apart_cons. intros (A & B & C). inv A. split; [|split]; auto. constructor; auto. apply disjoint_sym; auto.
  Qed.

  Lemma ready_after : forall s fs p p', framed (spots s) p p' -> Forall (fun g => disjoint s (snd g)) fs -> ready fs p -> ready fs p'.
  Proof.
    intros s fs p p' F D R. unfold ready in *. rewrite Forall_forall in *. intros g Ig. destruct (R g Ig) as (A & B & C). split; auto. split.
    - intros c l E. destruct (fr_last F) as [X|(c0 & l0 & X & Y)].
      + apply (B c l). congruence.
      + rewrite X in E. inv E. apply (spots_apart (D g Ig) Y).
    - eapply single_of; eauto.
  Qed.

  Lemma one_field : forall s p q v p', any_order s -> fresh s p -> fresh s q -> single (spots s) p -> (forall r, spots s r -> same r p q) ->
    reads ev eas s p (Got v) p' ->
    framed (spots s) p p' /\ exists q', reads ev eas s q (Got v) q' /\ framed (spots s) q q' /\ forall r, spots s r -> same r p' q'.
  Proof.
    intros s p q v p' Ao Fp Fq Si Sa R. pose proof (proj1 (left_alone ev eas) _ _ _ _ R) as Fr. pose proof (proj1 (transferred ev eas) _ _ _ _ R) as Tr.
    assert (G : good (Got v)) by (eexists; eauto). split; [apply Fr; auto|].
    assert (Ag : agree (spots s) p q).
    { split; auto. intros c l Nc. split; intros E; exfalso; [apply (Fp c l E Nc)|apply (Fq c l E Nc)]. }
    destruct (Tr G Ao (spots s) (fun r H => H) Si q Ag) as (q' & R' & [A' _] & _). exists q'. split; auto. split; auto.
    apply (proj1 (left_alone ev eas) _ _ _ _ R'); auto.
  Qed.

  Lemma same_after : forall s p p' q q', framed (spots s) p p' -> framed (spots s) q q' -> allsame p q -> (forall r, spots s r -> same r p' q') -> allsame p' q'.
  Proof.
    intros s p p' q q' F F' [A T] S. split.
    - intros r. destruct (spots_dec s r) as [Y|N]; auto. eapply same_trans; [apply same_sym, (fr_same F); auto|]. eapply same_trans; [apply A|apply (fr_same F'); auto].
    - rewrite (fr_tail F), (fr_tail F'). auto.
  Qed.

  Lemma fields_transfer : forall fs p q vs p', apart fs -> ready fs p -> ready fs q -> allsame p q -> reads_fields ev eas fs p (map Got vs) p' ->
    exists q', reads_fields ev eas fs q (map Got vs) q' /\ allsame p' q'.
  Proof.
    induction fs as [|[name s] fs IH]; intros p q vs p' Ap Rp Rq Sa R.
    - inv R. exists q. destruct vs; [|discriminate]. split; auto. apply rf_end.
    - destruct vs as [|v vs]; [inv R|]. simpl in R. inv R. apply apart_cons in Ap. destruct Ap as [D Ap].
      pose proof (Forall_inv Rp) as (Ao & Fp & Si). pose proof (Forall_inv Rq) as (_ & Fq & _). simpl in *.
      match goal with X : reads _ _ _ _ _ ?y |- _ => rename y into p1; rename X into R1 end.
      destruct (@one_field s p q v p1) as (F & q1 & R1' & F' & S1); auto; [intros r _; apply Sa|].
      destruct (IH p1 q1 vs p') as (q' & R2 & S2); auto.
      + eapply ready_after; [exact F|exact D|exact (Forall_inv_tail Rp)].
      + eapply ready_after; [exact F'|exact D|exact (Forall_inv_tail Rq)].
      + eapply same_after; eauto.
      + exists q'. split; auto. simpl. eapply rf_field; eauto; try exact I.
  Qed.

  Lemma ready_perm : forall fs fs' p, Permutation fs fs' -> ready fs p -> ready fs' p.
  Proof. intros fs fs' p P R. unfold ready in *. rewrite Forall_forall in *. intros f If. apply R. eapply Permutation_in; [apply Permutation_sym; eauto|auto]. Qed.

  Lemma allsame_refl : forall p, allsame p p.
  Proof. split; auto. intros r. apply same_refl. Qed.
  Lemma allsame_trans : forall p q t, allsame p q -> allsame q t -> allsame p t.
  Proof. intros p q t [A B] [C D]. split; [|congruence]. intros r. eapply same_trans; eauto. Qed.

  Lemma fields_perm : forall fs fs', Permutation fs fs' -> forall p q vs p', apart fs -> ready fs p -> ready fs q -> allsame p q ->
    reads_fields ev eas fs p (map Got vs) p' ->
    exists vs' q', reads_fields ev eas fs' q (map Got vs') q' /\ Permutation (combine (map fst fs) vs) (combine (map fst fs') vs') /\ allsame p' q'.
  Proof.
    intros fs fs' P. induction P; intros p q vs p' Ap Rp Rq Sa R.
    - exists vs, q. inv R. destruct vs; [|discriminate]. split; [apply rf_end|]. split; auto.
    - destruct x as [name s]. destruct vs as [|v vs]; [inv R|]. simpl in R. inv R. apply apart_cons in Ap. destruct Ap as [D Ap].
      pose proof (Forall_inv Rp) as (Ao & Fp & Si). pose proof (Forall_inv Rq) as (_ & Fq & _). simpl in *.
      match goal with X : reads _ _ _ _ _ ?y |- _ => rename y into p1; rename X into R1 end.
      destruct (@one_field s p q v p1) as (F & q1 & R1' & F' & S1); auto; [intros r _; apply Sa|].
      destruct (IHP p1 q1 vs p') as (vs' & q' & R2 & P2 & S2); auto.
      + eapply ready_after; [exact F|exact D|exact (Forall_inv_tail Rp)].
      + eapply ready_after; [exact F'|exact D|exact (Forall_inv_tail Rq)].
      + eapply same_after; eauto.
      + exists (v :: vs'), q'. split; [simpl; eapply rf_field; eauto; try exact I|]. split; auto; try (simpl; apply perm_skip; auto).
    - destruct x as [nx sx], y as [ny sy]. pose proof (@got_length _ _ _ _ _ _ R) as Ln. destruct vs as [|v [|w vs]]; try discriminate. simpl in R.
      assert (X : exists p1 p2, reads ev eas sy p (Got v) p1 /\ reads ev eas sx p1 (Got w) p2 /\ reads_fields ev eas l p2 (map Got vs) p').
      { inversion R as [|? ? ? ? ? p1 ? ? R1 _ R2|]; subst. inversion R2 as [|? ? ? ? ? p2 ? ? R3 _ R4|]; subst. eauto 6. }
      destruct X as (p1 & p2 & R1 & R2 & R3). clear R.
      apply apart_cons in Ap. destruct Ap as [Dy Ap]. apply apart_cons in Ap. destruct Ap as [Dx Ap].
      pose proof (Forall_inv Dy) as Dyx. simpl in Dyx, Dx. pose proof (Forall_inv_tail Dy) as Dyl. simpl in Dyl.
      pose proof (Forall_inv Rp) as (Aoy & Fyp & Siy). pose proof (Forall_inv Rq) as (_ & Fyq & Siyq). simpl in Aoy, Fyp, Siy, Fyq, Siyq.
      pose proof (Forall_inv (Forall_inv_tail Rp)) as (Aox & Fxp & Six). pose proof (Forall_inv (Forall_inv_tail Rq)) as (_ & Fxq & Sixq). simpl in Aox, Fxp, Six, Fxq, Sixq.
      pose proof (Forall_inv_tail (Forall_inv_tail Rp)) as Rpl. pose proof (Forall_inv_tail (Forall_inv_tail Rq)) as Rql.
      (* y from q *)
      destruct (@one_field sy p p v p1) as (F1 & _); auto; [intros; apply same_refl|].
      assert (Rx1 : ready [(nx, sx)] p1) by (eapply (@ready_after sy); [exact F1|constructor; auto|constructor; auto]).
      pose proof (Forall_inv Rx1) as (_ & Fxp1 & Six1). simpl in Fxp1, Six1.
      destruct (@one_field sx p1 q w p2) as (F2 & q1 & Rq1 & Fq1 & Sx); auto.
      { intros r Hr. eapply same_trans; [apply same_sym, (fr_same F1)|apply Sa]. intros Y. exact (spots_apart Dyx Y Hr). }
      assert (Ry1 : ready [(ny, sy)] q1) by (eapply (@ready_after sx); [exact Fq1|constructor; [apply disjoint_sym; exact Dyx|auto]|constructor; auto]).
      pose proof (Forall_inv Ry1) as (_ & Fyq1 & _). simpl in Fyq1.
      destruct (@one_field sy p q1 v p1) as (_ & q2 & Rq2 & Fq2 & Sy); auto.
      { intros r Hr. eapply same_trans; [apply Sa|apply (fr_same Fq1)]. exact (spots_apart Dyx Hr). }
      assert (S2 : allsame p2 q2).
      { split.
        - intros r. destruct (spots_dec sx r) as [Hx|Nx].
          + eapply same_trans; [apply Sx; auto|]. apply (fr_same Fq2). intros Y. exact (spots_apart Dyx Y Hx).
          + eapply same_trans; [apply same_sym, (fr_same F2); auto|]. destruct (spots_dec sy r) as [Hy|Ny]; auto.
            eapply same_trans; [apply same_sym, (fr_same F1); auto|]. eapply same_trans; [apply Sa|].
            eapply same_trans; [apply (fr_same Fq1); auto|apply (fr_same Fq2); auto].
        - rewrite (fr_tail F2), (fr_tail F1), (fr_tail Fq2), (fr_tail Fq1). apply Sa. }
      destruct (@fields_transfer l p2 q2 vs p') as (q' & R4 & S4); auto.
      + eapply ready_after; [exact F2|exact Dx|]. eapply ready_after; [exact F1|exact Dyl|exact Rpl].
      + eapply ready_after; [exact Fq2|exact Dyl|]. eapply ready_after; [exact Fq1|exact Dx|exact Rql].
      + exists (w :: v :: vs), q'. split; [|split; auto].
        * simpl. eapply rf_field; eauto; try exact I. eapply rf_field; eauto; try exact I.
        * simpl. apply perm_swap.
    - destruct (IHP1 p q vs p') as (vs1 & q1 & R1 & P1' & S1); auto.
      destruct (IHP2 q q vs1 q1) as (vs2 & q2 & R2 & P2' & S2); auto.
      + eapply apart_perm; eauto.
      + eapply ready_perm; eauto.
      + eapply ready_perm; eauto.
      + apply allsame_refl.
      + exists vs2, q2. split; auto. split; [eapply perm_trans; eauto|eapply allsame_trans; eauto].
  Qed.
End Fields.

(** ---- classes ---- *)
Lemma allsame_sym : forall p q, allsame p q -> allsame q p.
Proof. intros p q [A B]. split; auto. intros r. apply same_sym. auto. Qed.

Lemma used_up_same : forall p q, allsame p q -> used_up p -> used_up q.
Proof.
  intros p q [A T] U. inv U. constructor.
  - pose proof (A SText') as X. simpl in X. congruence.
  - congruence.
  - destruct (pg_attrs q) as [d|] eqn:E; auto. right. destruct d as [|[k v] d]; auto. exfalso.
    pose proof (A (SAttr' k)) as X. simpl in X. unfold attrs_of in X. rewrite E in X. simpl in X. rewrite String.eqb_refl in X.
    match goal with Y : _ \/ _ |- _ => destruct Y as [Y|Y]; rewrite Y in X; discriminate end.
  - apply Forall_forall. intros x Ix. pose proof (A (SKids' (kind (fst x)))) as [_ X].
    assert (I2 : In x (pkids (kind (fst x)) q)) by (apply filter_In; split; auto; apply kind_eqb_iff; auto).
    rewrite <- X in I2. apply filter_In in I2. match goal with Y : Forall _ (pg_passed p) |- _ => rewrite Forall_forall in Y; apply Y; tauto end.
  - apply Forall_forall. intros x Ix. pose proof (A (SKids' (kind x))) as [X _].
    assert (I2 : In x (akids (kind x) q)) by (apply filter_In; split; auto; apply kind_eqb_iff; auto).
    apply (Permutation_in _ (Permutation_sym X)) in I2. apply filter_In in I2.
    match goal with Y : Forall bare (pg_ahead p) |- _ => rewrite Forall_forall in Y; apply Y; tauto end.
Qed.

Lemma unopened_ready : forall fs d, Forall (fun f => any_order (snd f)) fs ->
  (forall name s tag, In (name, s) fs -> takes s (OwnKids tag) -> at_most_once tag d) -> ready fs (unopened d).
Proof.
  intros fs d Ao Am. unfold ready. rewrite Forall_forall in *. intros [name s] If. split; [apply (Ao _ If)|]. split; [intros c l E; discriminate|].
  intros t (q & Tq & E). destruct q; try discriminate. simpl in E. inv E. specialize (Am _ _ _ If Tq). unfold at_most_once in Am.
  unfold akids. replace (filter (of_kind (Some name0)) (pg_ahead (unopened d))) with (filter (named_b name0) (own_children d)); auto.
  simpl. apply filter_ext. intros [| |]; reflexivity.
Qed.

Lemma data_perm : forall m m' (fs fs' : list (string * ser)) (vs vs' : list val), md_valias m' = md_valias m -> NoDup (map (fun f => key_of m (fst f)) fs) -> Permutation fs fs' ->
  length vs = length fs -> length vs' = length fs' -> Permutation (combine (map fst fs) vs) (combine (map fst fs') vs') ->
  Permutation (given m (combine (map fst fs) vs)) (given m' (combine (map fst fs') vs')).
Proof.
  intros m m' fs fs' vs vs' Ea Nd P L L' Pc.
  assert (K : forall (fs0 : list (string * ser)) (vs0 : list val), length vs0 = length fs0 -> map (fun nv : string * val => data_key m (fst nv)) (combine (map fst fs0) vs0) = map (fun f => key_of m (fst f)) fs0).
  { induction fs0 as [|[n s] fs0 IH]; intros [|v vs0] E; try discriminate; simpl; auto. f_equal; auto. }
  assert (Eg : given m' (combine (map fst fs') vs') = given m (combine (map fst fs') vs')).
  { unfold given. f_equal. apply map_ext. intros nv. unfold input_key. rewrite Ea. auto. }
  rewrite Eg, !given_entries.
  - unfold entries. apply Permutation_map, filter_perm. auto.
  - rewrite K; auto. eapply Permutation_NoDup; [|exact Nd]. apply Permutation_map; auto.
  - rewrite K; auto.
Qed.

Lemma redeclared_reads : forall ev eas m m' root, redeclared m m' -> apart (md_fields m) -> Forall (fun f => any_order (snd f)) (md_fields m) ->
  (forall name s tag, In (name, s) (md_fields m) -> takes s (OwnKids tag) -> at_most_once tag root) ->
  (forall v left, reads_model ev eas m (unopened root) (Got v) left ->
     exists v' left', reads_model ev eas m' (unopened root) (Got v') left' /\ moved_val v v') /\
  (forall v' left', reads_model ev eas m' (unopened root) (Got v') left' ->
     exists v left, reads_model ev eas m (unopened root) (Got v) left /\ moved_val v v').
Proof.
  intros ev eas m m' root [[R0 R0'] _ Ef Ea P Nd Va] Ap Ao Am. pose proof (@unopened_ready _ root Ao Am) as Rd. split.
  - intros v left R. inv R; try congruence.
    + match goal with X : reads_fields _ _ _ _ _ _ |- _ => rename X into Rf end. match goal with X : judged _ _ _ _ |- _ => inv X end.
      destruct (@fields_perm ev eas _ _ P (unopened root) (unopened root) vs left Ap Rd Rd (@allsame_refl _) Rf) as (vs' & q' & Rf' & Pc & Sa).
      pose proof (@data_perm m m' _ _ vs vs' Ea Nd P (@got_length _ _ _ _ _ _ Rf) (@got_length _ _ _ _ _ _ Rf') Pc) as Pd. specialize (Va _ _ Pd).
      match goal with X : md_validate m _ = Valid _ |- _ => rewrite X in Va end.
      destruct (md_validate m' _) as [v'| |] eqn:Ev; simpl in Va; try contradiction.
      exists v', q'. split; auto. eapply rm_fields; eauto. apply jg_valid; auto. rewrite Ef. intros Hf. eapply used_up_same; eauto.
    + match goal with X : fails _ _ _ _ |- _ => inv X end.
  - intros v left R. inv R; try congruence.
    + match goal with X : reads_fields _ _ _ _ _ _ |- _ => rename X into Rf end. match goal with X : judged _ _ _ _ |- _ => inv X end.
      destruct (@fields_perm ev eas _ _ (Permutation_sym P) (unopened root) (unopened root) vs left (apart_perm P Ap) (ready_perm P Rd) (ready_perm P Rd) (@allsame_refl _) Rf) as (vs' & q' & Rf' & Pc & Sa).
      pose proof (@data_perm m m' _ _ vs' vs Ea Nd P (@got_length _ _ _ _ _ _ Rf') (@got_length _ _ _ _ _ _ Rf) (Permutation_sym Pc)) as Pd. specialize (Va _ _ Pd).
      match goal with X : md_validate m' _ = Valid _ |- _ => rewrite X in Va end.
      destruct (md_validate m _) as [v'| |] eqn:Ev; simpl in Va; try contradiction.
      exists v', q'. split; auto. eapply rm_fields; eauto. apply jg_valid; auto. rewrite <- Ef. intros Hf. eapply used_up_same; eauto.
    + match goal with X : fails _ _ _ _ |- _ => inv X end.
Qed.

Lemma redeclared_documents : forall ev, plain_classes ev -> forall cls cls' m m', en_model ev cls = Some m -> en_model ev cls' = Some m' ->
  redeclared m m' -> apart (md_fields m) -> Forall (fun f => any_order (snd f)) (md_fields m) -> forall root eas,
  (forall name s tag, In (name, s) (md_fields m) -> takes s (OwnKids tag) -> at_most_once tag root) ->
  (forall v, (exists n, from_xml_tree n ev cls root eas = Ok v) -> exists v', (exists n, from_xml_tree n ev cls' root eas = Ok v') /\ moved_val v v') /\
  (forall v', (exists n, from_xml_tree n ev cls' root eas = Ok v') -> exists v, (exists n, from_xml_tree n ev cls root eas = Ok v) /\ moved_val v v').
Proof.
  intros ev HP cls cls' m m' Em Em' Rd Ap Ao root eas Am. destruct (@redeclared_reads ev eas m m' root Rd Ap Ao Am) as [A B].
  pose proof (SpecSwap.rd_name Rd) as En. split.
  - intros v H. apply (@read_document ev HP cls m root eas v Em) in H. destruct H as (Nr & left & R). destruct (A _ _ R) as (v' & left' & R' & Mv).
    exists v'. split; auto. apply (@read_document ev HP cls' m' root eas v' Em'). rewrite En. eauto.
  - intros v H. apply (@read_document ev HP cls' m' root eas v Em') in H. destruct H as (Nr & left & R). destruct (B _ _ R) as (v' & left' & R' & Mv).
    exists v'. split; auto. apply (@read_document ev HP cls m root eas v' Em). rewrite <- En. eauto.
Qed.
