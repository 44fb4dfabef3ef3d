(** PfClasses.v -- proofs about base classes: the linearisation and what is inherited. *)

From Verif Require Import Base Elem Native Errs Names Fields Ser Build Classes SpecNames SpecClasses PfNames.

Lemma str_in_iff : forall x l, str_in x l = true <-> In x l.
Proof.
  intros x l; unfold str_in. rewrite existsb_exists. split.
  - intros (y & I & E). apply String.eqb_eq in E. subst; auto.
  - intros I. exists x. split; auto. apply String.eqb_refl.
Qed.

Lemma in_order_incl : forall A (l m : list A), in_order l m -> incl l m.
Proof. induction 1; intros y Y; simpl in *; auto. destruct Y; auto. Qed.

Lemma in_order_nil : forall A (m : list A), in_order [] m.
Proof. induction m; constructor; auto. Qed.

Lemma in_order_refl : forall A (m : list A), in_order m m.
Proof. induction m; constructor; auto. Qed.

(** ---- the merge ---- *)

Lemma good_head_iff : forall ls c, good_head ls c = true <-> forall l, In l ls -> ~ In c (tl l).
Proof.
  intros ls c; unfold good_head. rewrite forallb_forall. split; intros H l L.
  - specialize (H _ L). rewrite negb_true_iff in H. intros I. apply str_in_iff in I. congruence.
  - rewrite negb_true_iff. destruct (str_in c (tl l)) eqn:E; auto.
    apply str_in_iff in E. destruct (H _ L E).
Qed.

Lemma drop_head_in : forall c l x, In x (drop_head c l) -> In x l.
Proof.
  intros c [|y l] x; simpl; auto. destruct (String.eqb y c); simpl; auto.
Qed.

Lemma drop_head_gone : forall c l, ~ In c (tl l) -> ~ In c (drop_head c l).
Proof.
  intros c [|y l]; simpl; auto. destruct (String.eqb y c) eqn:E; simpl; auto.
  intros T [->|I]; auto. rewrite String.eqb_refl in E; discriminate.
Qed.

Lemma heads_in : forall A (ls : list (list A)) c, In c (heads ls) <-> exists r, In (c :: r) ls.
Proof.
  intros A ls c; unfold heads. rewrite in_flat_map. split.
  - intros ([|y l] & I & J); simpl in J; [contradiction|]. destruct J as [->|[]]. exists l; auto.
  - intros (r & I). exists (c :: r); simpl; auto.
Qed.

Lemma merge_spec : forall n ls r, c3_merge n ls = Some r ->
  (forall l, In l ls -> in_order l r) /\ (forall x, In x r -> exists l, In l ls /\ In x l) /\ NoDup r.
Proof.
  induction n; intros ls r; cbn [c3_merge].
  - destruct (filter nonempty ls) as [|l0 ls0] eqn:F; [|discriminate].
    intros [= <-]. repeat split; try constructor; [|intros x []].
    intros l L. destruct l; [constructor|].
    assert (In (s :: l) (filter nonempty ls)) by (apply filter_In; auto). rewrite F in *; contradiction.
  - destruct (filter nonempty ls) as [|l0 ls0] eqn:F.
    { intros [= <-]. repeat split; try constructor; [|intros x []].
      intros l L. destruct l; [constructor|].
      assert (In (s :: l) (filter nonempty ls)) by (apply filter_In; auto). rewrite F in *; contradiction. }
    set (ne := l0 :: ls0) in *.
    destruct (find (good_head ne) (heads ne)) as [c|] eqn:Fd; [|discriminate].
    destruct (c3_merge n (map (drop_head c) ne)) as [r'|] eqn:M; simpl; [|discriminate].
    intros [= <-].
    apply find_some in Fd as (Hc & G). rewrite good_head_iff in G.
    destruct (IHn _ _ M) as (O & B & N).
    clearbody ne. subst ne.
    set (ne := filter nonempty ls) in *.
    assert (Gone : ~ In c r').
    { intros I. destruct (B _ I) as (l & L & I'). apply in_map_iff in L as (l' & <- & L').
      exact (drop_head_gone _ _ (G _ L') I'). }
    repeat split.
    + intros l L. destruct l as [|y l]; [apply in_order_nil|].
      assert (Ln : In (y :: l) ne) by (apply filter_In; auto).
      specialize (O _ (in_map (drop_head c) _ _ Ln)). simpl in O.
      destruct (String.eqb y c) eqn:E.
      * apply String.eqb_eq in E; subst. constructor; auto.
      * constructor; auto.
    + intros x [<-|I].
      * apply heads_in in Hc as (t & I). exists (c :: t). split; simpl; auto.
        apply filter_In in I; tauto.
      * destruct (B _ I) as (l & L & I'). apply in_map_iff in L as (l' & <- & L').
        exists l'. split; [apply filter_In in L'; tauto|]. eapply drop_head_in; eauto.
    + constructor; auto.
Qed.

Lemma c3_spec : forall mros bases r, c3 mros bases = Some r ->
  (forall l, In l mros -> in_order l r) /\ in_order bases r /\
  (forall x, In x r -> In x bases \/ exists l, In l mros /\ In x l) /\ NoDup r.
Proof.
  intros mros bases r H. destruct (@merge_spec _ _ _ H) as (O & B & N).
  repeat split; auto.
  - intros l L. apply O. rewrite in_app_iff; auto.
  - apply O. rewrite in_app_iff; simpl; auto.
  - intros x I. destruct (B _ I) as (l & L & I'). rewrite in_app_iff in L.
    destruct L as [L|[<-|[]]]; eauto.
Qed.

(** in a list without repetition: what comes not later than *)
Definition upto {A} (x y : A) (r : list A) : Prop := exists a b, r = a ++ x :: b /\ In y (x :: b).

Lemma in_order_cons_upto : forall A (x : A) l r, in_order (x :: l) r -> forall y, In y (x :: l) -> upto x y r.
Proof.
  intros A x l r H. remember (x :: l) as xl eqn:E. revert x l E.
  induction H as [|z l0 m H IH|z l0 m H IH]; intros x l E y Y; subst; try discriminate.
  - inversion E; subst. exists [], m. split; auto. destruct Y as [->|Y]; simpl; auto.
    right. eapply in_order_incl; eauto.
  - destruct (IH _ _ eq_refl _ Y) as (a & b & -> & I). exists (z :: a), b. auto.
Qed.

Lemma upto_trans : forall A (x y z : A) r, NoDup r -> upto x y r -> upto y z r -> upto x z r.
Proof.
  intros A x y z r N (a & b & -> & Y) (a' & b' & E & Z). exists a, b. split; auto.
  destruct Y as [->|Y].
  - (* x = y *)
    assert (a = a' /\ b = b') as (-> & ->); [|auto].
    clear Z. revert a' E N. induction a as [|w a IH]; intros [|w' a'] E N; simpl in *; inversion E; subst; auto.
    + exfalso. inversion N; subst. apply H1. rewrite in_app_iff; simpl; auto.
    + exfalso. inversion N; subst. apply H1. rewrite in_app_iff; simpl; auto.
    + inversion N; subst. destruct (IH _ H1 H3). subst; auto.
  - apply in_split in Y as (b1 & b2 & ->).
    assert (b' = b2) as ->.
    { assert (E' : (a ++ x :: b1) ++ y :: b2 = a' ++ y :: b') by (rewrite <- app_assoc; simpl; auto).
      assert (N' : NoDup ((a ++ x :: b1) ++ y :: b2)) by (rewrite <- app_assoc; simpl; auto).
      clear - E' N'. revert a' E' N'. generalize (a ++ x :: b1) as p. clear.
      induction p as [|w p IH]; intros [|w' a'] E N; simpl in *; inversion E; subst; auto.
      - exfalso. inversion N; subst. apply H1. rewrite in_app_iff; simpl; auto.
      - exfalso. inversion N; subst. apply H1. rewrite in_app_iff; simpl; auto.
      - inversion N; subst. eapply IH; eauto. }
    destruct Z as [->|Z]; simpl; rewrite in_app_iff; simpl; auto.
Qed.

Lemma upto_anti : forall A (x y : A) r, NoDup r -> upto x y r -> upto y x r -> x = y.
Proof.
  intros A x y r N (a & b & -> & Y) (a' & b' & E & X).
  destruct Y as [|Y]; auto. destruct X as [->|X]; auto. exfalso.
  apply in_split in Y as (b1 & b2 & ->).
  assert (E' : (a ++ x :: b1) ++ y :: b2 = a' ++ y :: b') by (rewrite <- app_assoc; simpl; auto).
  assert (N' : NoDup ((a ++ x :: b1) ++ y :: b2)) by (rewrite <- app_assoc; simpl; auto).
  assert (b' = b2) as ->.
  { clear - E' N'. revert a' E' N'. generalize (a ++ x :: b1) as p. clear.
    induction p as [|w p IH]; intros [|w' a'] E N; simpl in *; inversion E; subst; auto.
    - exfalso. inversion N; subst. apply H1. rewrite in_app_iff; simpl; auto.
    - exfalso. inversion N; subst. apply H1. rewrite in_app_iff; simpl; auto.
    - inversion N; subst. eapply IH; eauto. }
  apply NoDup_remove_2 in N. apply N. rewrite in_app_iff. right. rewrite in_app_iff; simpl; auto.
Qed.

(** ---- worlds ---- *)

(** what holds of every class of a world *)
Definition wf_class (w : world) (c : string) (k : pyclass) : Prop :=
  (exists anc, k_mro k = c :: anc) /\
  (forall x, In x (k_mro k) -> exists kx, dget x w = Some kx /\ incl (k_mro kx) (k_mro k)) /\
  (k_params k <> None <-> In "BaseXmlModel" (tl (k_mro k))).

Definition wf_world (w : world) : Prop :=
  (forall c k, dget c w = Some k -> wf_class w c k) /\
  (forall c k, dget c builtin_world = Some k -> dget c w = Some k).

Lemma wf_builtin : wf_world builtin_world.
Proof.
  split; [|auto].
  intros c k. unfold builtin_world at 1. cbn [dget].
  destruct (String.eqb c "object") eqn:E1; [|destruct (String.eqb c "BaseModel") eqn:E2;
    [|destruct (String.eqb c "BaseXmlModel") eqn:E3; [|discriminate]]]; intros [= <-];
    apply String.eqb_eq in E1 || apply String.eqb_eq in E2 || apply String.eqb_eq in E3; subst;
    (split; [eexists; reflexivity|split; simpl;
      [intros x I; repeat (destruct I as [<-|I]; [eexists; split; [reflexivity|intros y Y; simpl in *; tauto]|]); contradiction
      |split; [congruence|intros I; repeat (destruct I as [I|I]; [discriminate|]); contradiction]]]).
Qed.

Lemma base_mros_spec : forall w bases mros, base_mros w bases = Some mros ->
  (forall b, In b bases -> exists k, dget b w = Some k /\ In (k_mro k) mros) /\
  (forall l, In l mros -> exists b k, In b bases /\ dget b w = Some k /\ k_mro k = l).
Proof.
  induction bases as [|b bases IH]; simpl; intros mros H.
  - injection H as <-. split; intros ? [].
  - destruct (dget b w) as [k|] eqn:D; [|discriminate].
    destruct (base_mros w bases) as [l|] eqn:B; [|discriminate].
    injection H as <-. destruct (IH _ eq_refl) as (I1 & I2). split.
    + intros x [<-|X]; [exists k; simpl; auto|]. destruct (I1 _ X) as (k' & D' & M). exists k'; simpl; auto.
    + intros l' [<-|L]; [exists b, k; simpl; auto|]. destruct (I2 _ L) as (b' & k' & X & D' & M).
      exists b', k'; simpl; auto.
Qed.

(** what a class statement does *)
Lemma define_inv : forall w s w', define_class w s = Some w' ->
  dget (cs_name s) w = None /\
  exists mros anc, base_mros w (cs_bases s) = Some mros /\ c3 mros (cs_bases s) = Some anc /\
  w' = dset (cs_name s) (PyClass (cs_name s :: anc)
         (if str_in "BaseXmlModel" anc then Some (init_subclass (nearest_params w anc) (cs_decl s)) else None)) w.
Proof.
  intros w s w'; unfold define_class, dmem.
  destruct (dget (cs_name s) w) eqn:D; [discriminate|].
  destruct (base_mros w (cs_bases s)) as [mros|]; [|discriminate].
  destruct (c3 mros (cs_bases s)) as [anc|] eqn:C; [|discriminate].
  intros H. split; auto. exists mros, anc. repeat split; auto.
  destruct (str_in "BaseXmlModel" anc); [injection H as <-; auto|].
  destruct (decl_given (cs_decl s)); [discriminate|]. injection H as <-; auto.
Qed.

Section Step.
  Variable w : world.
  Hypothesis W : wf_world w.
  Variables (bases : list string) (mros : list (list string)) (anc : list string).
  Hypothesis Bm : base_mros w bases = Some mros.
  Hypothesis C : c3 mros bases = Some anc.

  (** an ancestor is an ancestor of, or is, some base *)
  Lemma anc_from : forall x, In x anc -> exists b k, In b bases /\ dget b w = Some k /\ In x (k_mro k).
  Proof.
    intros x I. destruct (@c3_spec _ _ _ C) as (_ & _ & B & _). destruct (@base_mros_spec _ _ _ Bm) as (B1 & B2).
    destruct (B _ I) as [J|(l & L & J)].
    - destruct (B1 _ J) as (k & D & _). exists x, k. repeat split; auto.
      destruct W as (Wc & _). destruct (Wc _ _ D) as ((a & ->) & _). simpl; auto.
    - destruct (B2 _ L) as (b & k & X & D & <-). exists b, k. auto.
  Qed.

  Lemma anc_known : forall x, In x anc -> exists kx, dget x w = Some kx /\ incl (k_mro kx) anc.
  Proof.
    intros x I. destruct (@anc_from _ I) as (b & k & X & D & J).
    destruct W as (Wc & _). destruct (Wc _ _ D) as (_ & Cl & _). destruct (Cl _ J) as (kx & D' & In').
    exists kx. split; auto. intros y Y.
    destruct (@c3_spec _ _ _ C) as (O & _ & _ & _). destruct (@base_mros_spec _ _ _ Bm) as (B1 & _).
    destruct (B1 _ X) as (k0 & D0 & L). assert (k0 = k) by congruence; subst.
    eapply in_order_incl; [apply (O _ L)|auto].
  Qed.

  Lemma builtin_no_params : forall x, In x ["BaseXmlModel"; "BaseModel"; "object"] -> params_in w x = None.
  Proof.
    intros x I. destruct W as (_ & Wb). unfold params_in.
    repeat (destruct I as [<-|I]; [erewrite Wb by reflexivity; reflexivity|]). destruct I.
  Qed.

  (** an ancestor with parameters is below or is a base with parameters *)
  Lemma model_from : forall x, In x anc -> params_in w x <> None ->
    exists b k, In b bases /\ dget b w = Some k /\ In x (k_mro k) /\ k_params k <> None.
  Proof.
    intros x I P. destruct (@anc_from _ I) as (b & k & X & D & J).
    destruct W as (Wc & Wb). exists b, k. repeat split; auto.
    destruct (Wc _ _ D) as ((a & Ea) & Cl & Pk). apply Pk.
    destruct (Cl _ J) as (kx & Dx & In').
    pose proof P as P'. unfold params_in in P. rewrite Dx in P.
    destruct (Wc _ _ Dx) as ((ax & Eax) & _ & Px). apply Px in P. rewrite Eax in *; simpl in P.
    assert (Bi : In "BaseXmlModel" (k_mro k)) by (apply In'; simpl; auto).
    rewrite Ea in *; simpl in *. destruct Bi as [E|]; auto. subst b.
    exfalso. apply P'. apply builtin_no_params.
    erewrite Wb in D by reflexivity. injection D as <-. simpl in Ea. injection Ea as <-. auto.
  Qed.

  (** being an XML model *)
  Lemma xml_iff : In "BaseXmlModel" anc <->
    In "BaseXmlModel" bases \/ exists b, In b bases /\ params_in w b <> None.
  Proof.
    destruct W as (Wc & Wb). destruct (@c3_spec _ _ _ C) as (O & Ob & _ & _).
    destruct (@base_mros_spec _ _ _ Bm) as (B1 & _). split.
    - intros I. destruct (@anc_from _ I) as (b & k & X & D & J).
      destruct (Wc _ _ D) as ((a & Ea) & _ & Pk). rewrite Ea in *; simpl in *.
      destruct J as [<-|J]; auto. right. exists b. split; auto. unfold params_in; rewrite D. tauto.
    - intros [I|(b & X & P)]; [eapply in_order_incl; eauto|].
      destruct (B1 _ X) as (k & D & L). unfold params_in in P; rewrite D in P.
      destruct (Wc _ _ D) as ((a & Ea) & _ & Pk). apply Pk in P.
      eapply in_order_incl; [apply (O _ L)|]. rewrite Ea in *; simpl in *; auto.
  Qed.

  (** the nearest model among the ancestors is the first base that is a model *)
  Lemma nearest_first_base : nearest_params w anc = nearest_params w bases.
  Proof.
    destruct W as (Wc & Wb). destruct (@c3_spec _ _ _ C) as (O & Ob & _ & N).
    destruct (@base_mros_spec _ _ _ Bm) as (B1 & _).
    assert (Nr : forall l, match nearest_params w l with
      | Some p => exists l1 x l2, l = l1 ++ x :: l2 /\ params_in w x = Some p /\
                                  forall y, In y l1 -> params_in w y = None
      | None => forall y, In y l -> params_in w y = None end).
    { induction l as [|y l IH]; simpl; [intros y []|].
      destruct (params_in w y) as [p|] eqn:P.
      - exists [], y, l. repeat split; auto. intros ? [].
      - destruct (nearest_params w l).
        + destruct IH as (l1 & x & l2 & -> & Px & A). exists (y :: l1), x, l2. repeat split; auto.
          intros z [<-|Z]; auto.
        + intros z [<-|Z]; auto. }
    pose proof (Nr anc) as Na. pose proof (Nr bases) as Nb.
    destruct (nearest_params w anc) as [p|].
    - destruct Na as (l1 & x & l2 & Ea & Px & Fx).
      assert (Ix : In x anc) by (rewrite Ea, in_app_iff; simpl; auto).
      destruct (@model_from _ Ix ltac:(congruence)) as (m & km & Xm & Dm & Jm & Pm).
      destruct (nearest_params w bases) as [q|].
      2:{ specialize (Nb _ Xm). unfold params_in in Nb. rewrite Dm in Nb. contradiction. }
      destruct Nb as (b1 & b & b2 & Eb & Pb & Fb).
      (* b before m before x *)
      assert (U1 : upto b m anc).
      { assert (Io : in_order (b :: b2) anc).
        { clear - Ob Eb. revert Ob. rewrite Eb. clear. revert b1.
          assert (G : forall (l : list string) r, in_order l r -> forall l1 l2, l = l1 ++ l2 -> in_order l2 r).
          { induction 1; intros l1 l2 E.
            - destruct l1; [|discriminate]. simpl in E; subst; constructor.
            - destruct l1; simpl in E; [subst; constructor; auto|]. inversion E; subst. constructor. eauto.
            - constructor. eauto. }
          intros b1 H. eapply G; eauto. }
        eapply in_order_cons_upto; eauto.
        rewrite Eb, in_app_iff in Xm. destruct Xm as [Xm|]; auto.
        specialize (Fb _ Xm). unfold params_in in Fb; rewrite Dm in Fb; contradiction. }
      assert (U2 : upto m x anc).
      { destruct (B1 _ Xm) as (k & D & L). assert (k = km) by congruence; subst.
        destruct (Wc _ _ D) as ((a & Em) & _). specialize (O _ L). rewrite Em in *.
        eapply in_order_cons_upto; eauto. }
      pose proof (@upto_trans _ _ _ _ _ N U1 U2) as U.
      (* x is the first model: nothing before it is *)
      assert (U' : upto x b anc).
      { exists l1, l2. split; auto.
        assert (Ib : In b anc) by (eapply in_order_incl; eauto; rewrite Eb, in_app_iff; simpl; auto).
        rewrite Ea, in_app_iff in Ib. destruct Ib as [Ib|]; auto.
        specialize (Fx _ Ib). congruence. }
      pose proof (@upto_anti _ _ _ _ N U U'). subst. congruence.
    - destruct (nearest_params w bases) as [q|]; auto.
      destruct Nb as (b1 & b & b2 & Eb & Pb & Fb).
      rewrite Na in Pb; [discriminate|]. eapply in_order_incl; eauto. rewrite Eb, in_app_iff; simpl; auto.
  Qed.

  Lemma step_wf : forall c d, dget c w = None ->
    wf_world (dset c (PyClass (c :: anc)
      (if str_in "BaseXmlModel" anc then Some (init_subclass (nearest_params w anc) d) else None)) w).
  Proof.
    intros c d D. destruct W as (Wc & Wb).
    set (k' := PyClass (c :: anc) _).
    assert (Keep : forall x kx, dget x w = Some kx -> dget x (dset c k' w) = Some kx).
    { intros x kx Dx. rewrite dget_dset_other; auto. congruence. }
    split.
    - intros x kx. destruct (string_dec c x) as [<-|Ne].
      + rewrite dget_dset_same. intros [= <-]. split; [eexists; reflexivity|]. split.
        * simpl. intros y [<-|Y].
          -- exists k'. rewrite dget_dset_same. split; auto. apply incl_refl.
          -- destruct (@anc_known _ Y) as (ky & Dy & Iy). exists ky. split; auto.
             intros z Z. simpl. auto.
        * simpl. destruct (str_in "BaseXmlModel" anc) eqn:X.
          -- apply str_in_iff in X. split; auto. discriminate.
          -- split; [congruence|]. intros I. apply str_in_iff in I. congruence.
      + rewrite dget_dset_other by auto. intros Dx. destruct (Wc _ _ Dx) as (A & B & P).
        split; auto. split; auto. intros y Y. destruct (B _ Y) as (ky & Dy & Iy). exists ky. auto.
    - intros x kx Dx. auto.
  Qed.
End Step.

(** the specification's table describes the world *)
Definition traced (w : world) (known : lineages) : Prop :=
  (forall c ds, dget c known = Some (Some ds) -> params_in w c = class_chain ds /\ ds <> []) /\
  (forall c, dget c known = Some None \/ dget c known = None -> params_in w c = None).

Lemma chain_some : forall ds, ds <> [] -> class_chain ds <> None.
Proof.
  intros ds N. destruct (exists_last N) as (l & d & ->). rewrite chain_snoc. discriminate.
Qed.

Lemma traced_first : forall w known, traced w known -> forall bases,
  nearest_params w bases = match first_model known bases with Some ds => class_chain ds | None => None end.
Proof.
  intros w known (T1 & T2). induction bases as [|b bases IH]; simpl; auto.
  destruct (dget b known) as [[ds|]|] eqn:D.
  - destruct (T1 _ _ D) as (-> & N). pose proof (@chain_some _ N).
    destruct (class_chain ds); auto; contradiction.
  - rewrite T2 by auto. auto.
  - rewrite T2 by auto. auto.
Qed.

Lemma traced_model : forall w known, traced w known -> forall bases,
  (In "BaseXmlModel" bases \/ exists b, In b bases /\ params_in w b <> None) <-> makes_model known bases = true.
Proof.
  intros w known (T1 & T2) bases. unfold makes_model. rewrite orb_true_iff, str_in_iff, existsb_exists.
  split; intros [H|(b & I & P)]; auto; right; exists b; split; auto.
  - destruct (dget b known) as [[ds|]|] eqn:D; auto; rewrite T2 in P by auto; congruence.
  - destruct (dget b known) as [[ds|]|] eqn:D; try discriminate.
    destruct (T1 _ _ D) as (-> & N). apply chain_some; auto.
Qed.

Lemma define_step : forall w s w' known, wf_world w -> traced w known -> define_class w s = Some w' ->
  wf_world w' /\
  traced w' (dset (cs_name s)
     (if makes_model known (cs_bases s)
      then Some (default [] (first_model known (cs_bases s)) ++ [cs_decl s]) else None) known).
Proof.
  intros w s w' known W T H. destruct (@define_inv _ _ _ H) as (Fr & mros & anc & Bm & C & ->).
  split; [eapply step_wf; eauto|].
  pose proof (@xml_iff _ W _ _ _ Bm C) as X.
  rewrite (@traced_model _ _ T) in X. rewrite <- str_in_iff in X.
  rewrite (@nearest_first_base _ W _ _ _ Bm C), (@traced_first _ _ T).
  set (k' := PyClass _ _).
  assert (Ps : params_in (dset (cs_name s) k' w) (cs_name s) = k_params k').
  { unfold params_in. rewrite dget_dset_same. auto. }
  assert (Po : forall c, cs_name s <> c -> params_in (dset (cs_name s) k' w) c = params_in w c).
  { intros c N. unfold params_in. rewrite dget_dset_other; auto. }
  destruct T as (T1 & T2). split.
  - intros c ds. destruct (string_dec (cs_name s) c) as [<-|N].
    + rewrite dget_dset_same, Ps. simpl.
      destruct (makes_model known (cs_bases s)); [|discriminate]. intros [= <-].
      rewrite (proj2 X eq_refl). split; [|destruct (default [] (first_model known (cs_bases s))); discriminate].
      rewrite chain_snoc. destruct (first_model known (cs_bases s)); auto.
    + rewrite dget_dset_other by auto. rewrite Po by auto. apply T1.
  - intros c. destruct (string_dec (cs_name s) c) as [<-|N].
    + rewrite dget_dset_same, Ps. simpl.
      destruct (makes_model known (cs_bases s)); [intros [|]; discriminate|]. intros _.
      destruct (str_in "BaseXmlModel" anc); auto. discriminate (proj1 X eq_refl).
    + rewrite dget_dset_other by auto. rewrite Po by auto. apply T2.
Qed.

Lemma define_all_traced : forall ss w w' known, wf_world w -> traced w known -> define_all w ss = Some w' ->
  wf_world w' /\ traced w' (trace known ss).
Proof.
  induction ss as [|s ss IH]; simpl; intros w w' known W T H.
  - injection H as <-; auto.
  - destruct (define_class w s) as [w1|] eqn:D; [|discriminate].
    destruct (@define_step _ _ _ _ W T D) as (W1 & T1). eauto.
Qed.

Lemma traced_builtin : traced builtin_world [].
Proof.
  split; simpl; [discriminate|]. intros c _. unfold params_in, builtin_world; simpl.
  repeat (match goal with |- context[String.eqb ?a ?b] => destruct (String.eqb a b) end; auto).
Qed.

Lemma module_params : forall ss w c, define_all builtin_world ss = Some w ->
  params_in w c = match lineage ss c with Some ds => class_chain ds | None => None end.
Proof.
  intros ss w c H. destruct (@define_all_traced _ _ _ _ wf_builtin traced_builtin H) as (_ & T1 & T2).
  unfold lineage, default. destruct (dget c (trace [] ss)) as [[ds|]|] eqn:D; auto.
  apply T1; auto.
Qed.

Lemma module_mro : forall ss w c k, define_all builtin_world ss = Some w -> dget c w = Some k ->
  exists anc, k_mro k = c :: anc.
Proof.
  intros ss w c k H D. destruct (@define_all_traced _ _ _ _ wf_builtin traced_builtin H) as ((W & _) & _).
  apply (W _ _ D).
Qed.

(** ---- create_model ---- *)

Lemma first_model_app : forall known l l', (forall c, In c l' -> dget c known = Some None \/ dget c known = None) ->
  first_model known (l ++ l') = first_model known l.
Proof.
  intros known l l' H. induction l as [|b l IH]; simpl.
  - induction l' as [|c l' IH]; simpl; auto. destruct (H c) as [-> | ->]; simpl; auto; apply IH; intros; apply H; simpl; auto.
  - rewrite IH. auto.
Qed.

Lemma first_model_fresh : forall known c l, ~ In c l -> first_model (dset c None known) l = first_model known l.
Proof.
  intros known c l. induction l as [|b l IH]; simpl; intros N; auto.
  rewrite dget_dset_other by (intros ->; tauto). rewrite IH by tauto. auto.
Qed.

Lemma create_model_params : forall ss w a w', define_all builtin_world ss = Some w ->
  create_model w a = Some w' -> cm_base a <> Some [] ->
  let bases := match cm_base a with Some bs => bs | None => ["BaseXmlModel"] end in
  makes_model (trace [] ss) bases = true ->
  params_in w' (cm_name a) = class_chain (default [] (first_model (trace [] ss) bases) ++ [cm_decl a]).
Proof.
  intros ss w a w' H C Nb bases Mm.
  destruct (@define_all_traced _ _ _ _ wf_builtin traced_builtin H) as (W & T).
  assert (Eb : cm_bases a = bases).
  { unfold cm_bases, bases. destruct (cm_base a) as [[|]|]; auto. congruence. }
  assert (Ed : cm_kwargs a = cm_decl a) by (unfold cm_kwargs; destruct (cm_cls_kwargs a); auto).
  assert (Fin : forall w0 known s w1, wf_world w0 -> traced w0 known -> define_class w0 s = Some w1 ->
    makes_model known (cs_bases s) = true ->
    params_in w1 (cs_name s) = class_chain (default [] (first_model known (cs_bases s)) ++ [cs_decl s])).
  { intros w0 known s w1 W0 T0 D M. destruct (@define_step _ _ _ _ W0 T0 D) as (_ & T1 & _).
    rewrite M in T1. apply T1. apply dget_dset_same. }
  unfold create_model in C. destruct (cm_config a).
  - destruct (define_class w (CStmt (config_base a) ["BaseModel"] no_decl)) as [w1|] eqn:D1; [|discriminate].
    destruct (@define_step _ _ _ _ W T D1) as (W1 & T1). cbn [cs_name cs_bases cs_decl] in *.
    assert (NM : makes_model (trace [] ss) ["BaseModel"] = false).
    { destruct (makes_model (trace [] ss) ["BaseModel"]) eqn:E; auto. exfalso.
      apply (traced_model T) in E as [[E|[]]|(b & [<-|[]] & P)]; [discriminate|].
      apply P. apply builtin_no_params; auto. simpl; auto. }
    rewrite NM in T1.
    assert (Fr : ~ In (config_base a) bases).
    { (* a base is known before, the new class is not *)
      destruct (@define_inv _ _ _ D1) as (Fr & _). destruct (@define_inv _ _ _ C) as (_ & mros & anc & Bm & Cc & _).
      cbn [cs_name cs_bases cs_decl] in *. rewrite Eb in *.
      intros I.
      (* it would occur twice among the bases, which have an order without repetition *)
      destruct (@c3_spec _ _ _ Cc) as (_ & Ob & _ & N).
      assert (ND : NoDup (bases ++ [config_base a])).
      { clear - Ob N. revert N. induction Ob; intros N; auto.
        - inversion N; subst. constructor; auto. intros I. apply H1. eapply in_order_incl; eauto.
        - inversion N; auto. }
      apply NoDup_remove_2 in ND. rewrite app_nil_r in ND. auto. }
    pose proof (Fin _ _ _ _ W1 T1 C) as G. cbn [cs_name cs_bases cs_decl] in G. rewrite G.
    + rewrite Eb, Ed, first_model_app.
      * rewrite first_model_fresh; auto.
      * intros c [<-|[]]. rewrite dget_dset_same; auto.
    + rewrite Eb. apply (traced_model T1). apply (traced_model T) in Mm.
      destruct Mm as [I|(b & I & P)]; [left; rewrite in_app_iff; auto|].
      right. exists b. split; [rewrite in_app_iff; auto|].
      destruct (@define_inv _ _ _ D1) as (Fr1 & mros & anc & _ & _ & Ew). cbn [cs_name] in *. subst w1.
      unfold params_in in *. rewrite dget_dset_other; auto. intros Eq. apply Fr. rewrite Eq. auto.
  - pose proof (Fin _ _ _ _ W T C) as G. cbn [cs_name cs_bases cs_decl] in G. rewrite G; [|rewrite Eb; auto].
    rewrite Eb, Ed. auto.
Qed.
