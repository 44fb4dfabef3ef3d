(** PfNest4.v -- proofs for C82: building wrappers, fields and classes. *)

From Verif Require Import Base Elem Native Errs Names Fields Ser Build SpecDecl SpecSim SpecAlias SpecNest PfDecl PfNest PfNest3.

Local Ltac inv H := inversion H; subst; clear H.

(** ---- the steps of a wrapper ---- *)
Definition wu (ns : option string) (m : nsmap) (md : smode) (comp : bool) (parts : list string) (x : out ser) : out ser :=
  obind x (fun inner => obind (omap (fun part => uri_of part ns m false) parts) (fun us => Ok (SWrap us (Some m) md comp inner))).

Lemma uri_uniform : forall ns m, (exists f, forall part, uri_of part ns m false = Ok (f part)) \/
  (exists e, forall part, uri_of part ns m false = Raise e).
Proof.
  intros ns m. destruct ns as [a|].
  - destruct m as [|kv m]; [left; exists (fun part => uri (QName part None)); reflexivity|].
    destruct (nsmap_get (Some (kv :: m)) a) as [u|] eqn:D; [left; exists (fun part => uri (QName part (Some u)))|right; exists XModelError];
      intros part; change (uri_of part (Some a) (kv :: m) false) with
        (obind (match nsmap_get (Some (kv :: m)) a with Some u => Ok (QName part (Some u)) | None => Raise XModelError end) (fun q => Ok (uri q)));
      rewrite D; reflexivity.
  - left. exists (fun part => uri (QName part (if nsmap_truthy (Some m) then nsmap_get (Some m) "" else None))). reflexivity.
Qed.

Lemma omap_ok : forall A B (f : A -> out B) g l, (forall a, f a = Ok (g a)) -> omap f l = Ok (map g l).
Proof. induction l; simpl; intros H; auto. rewrite H, IHl by auto. auto. Qed.

Lemma omap_raise : forall A B (f : A -> out B) e l, l <> [] -> (forall a, f a = Raise e) -> omap f l = Raise e.
Proof. intros A B f e [|a l] N H; simpl; [congruence|]. rewrite H; auto. Qed.

Lemma wu_ag : forall ns m md comp parts x y, sag x y -> sag (wu ns m md comp parts x) (wu ns m md comp parts y).
Proof.
  intros ns m md comp parts x y H. unfold wu. eapply ag_bind; [apply H|]. intros a b E.
  eapply ag_bind; [apply ag_refl|]. intros us ? <-. constructor. simpl. rewrite E; auto.
Qed.

Lemma wu_app : forall ns m md comp p q x y, p <> [] -> q <> [] -> sag x (wu ns m md comp q y) ->
  sag (wu ns m md comp p x) (wu ns m md comp (p ++ q) y).
Proof.
  intros ns m md comp p q x y Np Nq H. unfold wu in *. destruct (uri_uniform ns m) as [[f F]|[e F]].
  - rewrite (omap_ok _ _ (p ++ q) F). rewrite (omap_ok _ _ q F) in H. 
    destruct y as [i|e|]; simpl in *.
    + inv H; simpl; [constructor|]. rewrite (omap_ok _ _ p F). simpl. constructor.
      rewrite map_app, !nest_wrap, steps_app.
      * match goal with X : nest _ = _ |- _ => rewrite X end. f_equal. apply nest_wrap. destruct q; [congruence|discriminate].
      * destruct p; [congruence|discriminate].
      * destruct p; [congruence|discriminate].
    + inv H; simpl; constructor.
    + constructor.
  - assert (Npq : p ++ q <> []) by (destruct p; [congruence|discriminate]).
    rewrite (omap_raise _ Npq F). rewrite (omap_raise _ Nq F) in H. destruct y as [i|e'|]; simpl in *.
    + inv H; simpl; constructor.
    + inv H; simpl; constructor.
    + constructor.
Qed.

Lemma ag_sym : forall x y, sag x y -> sag y x.
Proof. intros x y H; destruct H; constructor; auto. Qed.

(** ---- schemas that preprocessing leaves alone ---- *)
Definition normal (s : cschema) : Prop := forall k c, preprocess (S k) s c = Ok (s, c).

Lemma preprocess_normal : forall n s c s' c', preprocess n s c = Ok (s', c') -> normal s'.
Proof.
  induction n as [|n IH]; intros s c s' c' H; [discriminate|]. cbn [preprocess] in H.
  destruct s; cbn [family_of] in H; try (inv H; intros ? ?; reflexivity); try (eapply IH; eauto; fail); try discriminate.
  - destruct (str_in ty prim_types) eqn:E; inv H. intros ? ?. cbn [preprocess family_of]. rewrite E; auto.
  - destruct ser; [eapply IH; eauto|discriminate].
  - destruct (dget ref (cx_defs c)); [eapply IH; eauto|discriminate].
Qed.

Lemma normal_family : forall s, normal s -> exists f, family_of s = Some f.
Proof.
  intros s N. specialize (N 0 (Ctx "" None None false None false Strict false false [] false None)).
  destruct s; cbn [preprocess family_of] in *; eauto; try discriminate. destruct (str_in ty prim_types); eauto. discriminate.
Qed.

Definition Related (cl cl' : classes) (ev ev' : env) : Prop := same_classes cl cl' /\ same_env ev ev'.

Lemma related_sym : forall cl cl' ev ev', Related cl cl' ev ev' -> Related cl' cl ev' ev.
Proof.
  intros cl cl' ev ev' [A B]. split; [|apply same_env_sym; auto]. intros c. specialize (A c).
  destruct (cl c), (cl' c); auto. destruct A as (A1 & A2 & A3 & A4 & A5 & A6). repeat split; auto.
Qed.

(** the context of the remaining steps [q] of [c']'s wrapper *)
Record inside_of (d c' : ctx) (q : list string) : Prop := Inside {
  io_ctx : crel d (child_wrapped c');
  io_nsmap : cx_nsmap c' = None;
  io_info : nest_oinfo (cx_info d) = step_infos q (nest_oinfo (cx_wrapped c'));
  io_q : q <> [];
  io_map : exists M, parent_nsmap c' = Some M
}.

Lemma select_wrap : forall cl ev p n s c, normal s -> cx_location c = Some LocWrapped -> select cl ev p n s c = build_wrap p s c.
Proof. intros cl ev p n s c N L. destruct (normal_family N) as [f F]. unfold select. rewrite F, L; auto. Qed.

Lemma build_wrap_wu : forall p s c path, cx_path c = Some path ->
  build_wrap p s c = wu (entity_ns c) (entity_nsmap c) (cx_mode c) (cx_computed c) (py_split "/"%char path) (p s (child_wrapped c)).
Proof. intros p s c path P. unfold build_wrap. rewrite P; auto. Qed.

Theorem parse_ag : forall k n n', n + n' <= k -> forall cl cl' ev ev', Related cl cl' ev ev' ->
  (forall s c c', both c c' -> sag (parse cl ev n s c) (parse cl' ev' n' s c')) /\
  (forall s d c' q, normal s -> inside_of d c' q ->
     sag (parse cl ev n s d)
         (wu (entity_ns c') (entity_nsmap c') (cx_mode c') (cx_computed c') q (parse cl' ev' n' s (child_wrapped c')))).
Proof.
  induction k as [|k IH]; intros n n' L cl cl' ev ev' Rel.
  - destruct n; [|lia]. split; intros; constructor.
  - destruct n as [|n]; [split; intros; constructor|].
    assert (I1 : forall m m', m + m' <= k -> forall cl cl' ev ev', Related cl cl' ev ev' ->
       forall s c c', both c c' -> sag (parse cl ev m s c) (parse cl' ev' m' s c')) by (intros; apply IH; auto).
    assert (I2 : forall m m', m + m' <= k -> forall cl cl' ev ev', Related cl cl' ev ev' ->
       forall s d c' q, normal s -> inside_of d c' q -> sag (parse cl ev m s d)
         (wu (entity_ns c') (entity_nsmap c') (cx_mode c') (cx_computed c') q (parse cl' ev' m' s (child_wrapped c'))))
      by (intros m m' Lm c1 c2 e1 e2 R s d c' q; apply (IH m m' Lm c1 c2 e1 e2 R)).
    clear IH. split.
    + intros s c c' B. destruct n' as [|n']; [constructor|]. cbn [parse].
      pose proof (preprocess_ag n n' s B) as P.
      destruct (preprocess n s c) as [[s1 d]|e|] eqn:Q; [|inv P; simpl; constructor|simpl; constructor].
      assert (Nm := preprocess_normal _ _ _ Q).
      destruct (preprocess n' s c') as [[s2 d']|e'|] eqn:Q'; [|inv P|constructor].
      inv P. destruct H1 as [E D]. simpl in E, D. subst s2. cbn [obind]. clear Q Q' B c c'.
      destruct (nbnd (cx_location d)) as [W|W].
      * assert (W' : cx_location d' = Some LocWrapped) by (rewrite <- W; symmetry; apply loc_eq; auto).
        rewrite (@select_wrap cl ev _ _ _ _ Nm W), (@select_wrap cl' ev' _ _ _ _ Nm W').
        destruct D as [C I]. pose proof (irel_acc I) as (_ & Ens & Em & _ & _).
        pose proof (crel_child C Ens Em) as CC.
        pose proof (ens_eq (conj C I)) as EN. pose proof (ensmap_eq (conj C I)) as EM.
        pose proof I as I'. apply oinfo_some in I'.
        unfold cx_location, of_info in W, W'. unfold cx_nsmap, of_info in Em.
        destruct (cx_info d) as [i|] eqn:Ei; [|discriminate]. destruct (cx_info d') as [i'|] eqn:Ei'; [|discriminate].
        assert (Pd : cx_path d = ei_path i) by (unfold cx_path; rewrite Ei; auto).
        assert (Pd' : cx_path d' = ei_path i') by (unfold cx_path; rewrite Ei'; auto).
        assert (Wd : cx_wrapped d = ei_wrapped i) by (unfold cx_wrapped; rewrite Ei; auto).
        assert (Wd' : cx_wrapped d' = ei_wrapped i') by (unfold cx_wrapped; rewrite Ei'; auto).
        assert (Md : cx_nsmap d = ei_nsmap i) by (unfold cx_nsmap; rewrite Ei; auto).
        assert (Md' : cx_nsmap d' = ei_nsmap i') by (unfold cx_nsmap; rewrite Ei'; auto).
        assert (Same : ei_path i = ei_path i' -> nest_oinfo (ei_wrapped i) = nest_oinfo (ei_wrapped i') ->
                       sag (build_wrap (parse cl ev n) s1 d) (build_wrap (parse cl' ev' n') s1 d')).
        { intros E F. unfold build_wrap. rewrite Pd, Pd', E, EN, EM, (cr_mode C), (cr_computed C). destruct (ei_path i'); [|constructor].
          apply (@wu_ag (entity_ns d') (entity_nsmap d') (cx_mode d') (cx_computed d')).
          apply I1; auto; [lia|]. split; auto. unfold irel. simpl. rewrite Wd, Wd'. auto. }
        destruct (ei_nsmap i) as [m|] eqn:Mi.
        { destruct (@nest_wrapped _ _ I') as [E F]; [right; left; congruence|]. apply Same; auto. }
        destruct (ei_path i) as [path|] eqn:Pi.
        2: { destruct (@nest_wrapped _ _ I') as [E F]; [auto|]. apply Same; auto. congruence. }
        destruct (ei_path i') as [path'|] eqn:Pi'.
        2: { exfalso. pose proof (nest_kept i) as (_ & _ & _ & _ & _ & K). pose proof (nest_kept i') as (_ & _ & _ & _ & _ & K').
             rewrite I' in K. assert (X : ei_path (nest_info i') = None) by (apply K'; auto). apply K in X. congruence. }
        rewrite (@build_wrap_wu _ _ _ _ Pd), (@build_wrap_wu _ _ _ _ Pd').
        rewrite EN, EM, (cr_mode C), (cr_computed C).
        destruct (@nest_paths _ _ _ _ I' W Mi Pi Pi') as [[E F]|[(q & Nq & E & F)|(q & Nq & E & F)]].
        -- rewrite E. apply wu_ag. apply I1; auto; [lia|]. split; auto. unfold irel. simpl. rewrite Wd, Wd'. auto.
        -- rewrite E. apply wu_app; [apply split_nonempty|auto|]. apply I2; auto; [lia|].
           constructor; auto; [congruence| |].
           ++ simpl. rewrite Wd, Wd'. auto.
           ++ destruct (cr_dict C) as (M & A & _). exists M. rewrite <- (cr_pmap C). auto.
        -- rewrite E. apply ag_sym. apply wu_app; [apply split_nonempty|auto|].
           rewrite <- EN, <- EM, <- (cr_mode C), <- (cr_computed C).
           apply I2; auto using related_sym; [lia|].
           apply Inside; auto; [apply crel_sym; auto| |].
           ++ simpl. rewrite Wd, Wd'. auto.
           ++ destruct (cr_dict C) as (M & A & _). eauto.
      * apply select_ag; auto; [apply Rel|apply Rel|]. intros. apply I1; auto. lia.
    + intros s d c' q Nm [CC Mc Ji Nq [M HM]]. cbn [parse].
      destruct n as [|n]; [constructor|]. rewrite (Nm n d). cbn [obind].
      destruct (nest_is_steps _ _ Nq Ji) as (j & path & Jd & Lj & Nsj & Mj & _ & Pj & Cases). cbv zeta in Cases.
      assert (Ld : cx_location d = Some LocWrapped) by (unfold cx_location; rewrite Jd; auto).
      assert (Pd : cx_path d = Some path) by (unfold cx_path; rewrite Jd; auto).
      assert (Md : cx_nsmap d = None) by (unfold cx_nsmap; rewrite Jd; auto).
      assert (Nd : cx_ns d = None) by (unfold cx_ns; rewrite Jd; auto).
      assert (Wd : cx_wrapped d = ei_wrapped j) by (unfold cx_wrapped; rewrite Jd; auto).
      rewrite (@select_wrap cl ev _ _ _ _ Nm Ld), (@build_wrap_wu _ _ _ _ Pd).
      assert (EN : entity_ns d = entity_ns c').
      { unfold entity_ns at 1. rewrite Nd. simpl. rewrite (cr_pns CC), child_ns. destruct (entity_ns c'); auto. }
      destruct (child_nsmap c' Mc HM) as [Hc Ec].
      assert (HD : parent_nsmap d = Some M) by (rewrite (cr_pmap CC); auto).
      destruct (child_nsmap d Md HD) as [Hd Ed].
      assert (EM : entity_nsmap d = entity_nsmap c') by congruence.
      assert (CD : crel (child_wrapped d) (child_wrapped c')).
      { destruct CC. constructor; try assumption.
        - congruence.
        - exists M. split; auto. apply (pmap_dict _ HM). }
      rewrite EN, EM. assert (Emd := cr_mode CC). assert (Ecp := cr_computed CC). simpl in Emd, Ecp. rewrite Emd, Ecp.
      destruct Cases as [[E F]|[(q' & Nq' & E & F)|(q' & Nq' & E & F)]].
      * rewrite E. apply wu_ag. apply I1; auto; [lia|]. split; auto. unfold irel. simpl. rewrite Wd. auto.
      * rewrite E. apply wu_app; [apply split_nonempty|auto|]. apply I2; auto; [lia|].
        constructor; auto; [|eauto]. simpl. rewrite Wd. auto.
      * rewrite E. apply ag_sym. apply wu_app; auto. rewrite <- EN, <- EM, <- Emd, <- Ecp.
        apply I2; auto using related_sym; [lia|].
        constructor; auto; [apply crel_sym; auto| |eauto]. simpl. rewrite Wd. auto.
Qed.

(** ---- classes ---- *)
Lemma dset_nest : forall k s s' (d d' : dict ser), nest s = nest s' -> nest_fields d = nest_fields d' ->
  nest_fields (dset k s d) = nest_fields (dset k s' d').
Proof.
  intros k s s' d d' E H. apply nest_fields_ag in H.
  induction H as [|[a x] [b y] d d' [A B] H IH]; simpl in *; [rewrite E; auto|].
  subst b. destruct (String.eqb k a); simpl; f_equal; auto; try (f_equal; auto; fail).
  clear -H. unfold nest_fields. induction H as [|[a x] [b y] d d' [A B] H IH]; simpl in *; auto. subst. rewrite B, IH; auto.
Qed.

Lemma crel_field : forall c name alias comp info info' hide, nest_oinfo info = nest_oinfo info' ->
  both (child_field c name alias comp info hide) (child_field c name alias comp info' hide).
Proof.
  intros. split; auto. constructor; auto.
  simpl. eexists; split; eauto. apply fresh_dict. repeat apply nodup_dupdate. constructor.
Qed.

Section Class.
  Variables cl cl' : classes.
  Variables ev ev' : env.
  Hypothesis Rel : Related cl cl' ev ev'.

  Lemma field_parse : forall n n' s c name alias comp info info' hide, nest_oinfo info = nest_oinfo info' ->
    sag (parse cl ev n s (child_field c name alias comp info hide)) (parse cl' ev' n' s (child_field c name alias comp info' hide)).
  Proof. intros. eapply parse_ag; eauto. apply crel_field; auto. Qed.

  Lemma fields_ag : forall n n' i i' hide, same_class i i' -> forall fs c sers sers' va ex, nest_fields sers = nest_fields sers' ->
    ag (fun a b : dict ser * dict string * list string =>
          nest_fields (fst (fst a)) = nest_fields (fst (fst b)) /\ snd (fst a) = snd (fst b) /\ snd a = snd b)
      (build_fields cl ev n i hide fs c sers va ex) (build_fields cl' ev' n' i' hide fs c sers' va ex).
  Proof.
    intros n n' i i' hide (A1 & A2 & A3 & A4 & A5 & A6).
    induction fs as [|[name [exclude salias v s]] fs IH]; intros c sers sers' va ex E; simpl; [constructor; auto|].
    rewrite <- A4. destruct (existsb is_noxml (ci_meta i name)); auto.
    eapply ag_bind; [apply field_parse; apply A5|]. intros x y Exy. apply IH. apply dset_nest; auto.
  Qed.

  Lemma computed_ag : forall n n' i i' hide, same_class i i' -> forall fs c sers sers', nest_fields sers = nest_fields sers' ->
    ag (fun a b : dict ser => nest_fields a = nest_fields b)
      (build_computed cl ev n i hide fs c sers) (build_computed cl' ev' n' i' hide fs c sers').
  Proof.
    intros n n' i i' hide (A1 & A2 & A3 & A4 & A5 & A6).
    induction fs as [|[name [alias s]] fs IH]; intros c sers sers' E; simpl; [constructor; auto|].
    eapply ag_bind; [apply field_parse; apply A6|]. intros x y Exy. apply IH. apply dset_nest; auto.
  Qed.

  Definition bag (a b : bmodel) : Prop := nest_bmodel a = nest_bmodel b.

  Lemma elem_name_eq : forall i i', same_class i i' -> class_elem_name i = class_elem_name i'.
  Proof. intros i i' (A1 & A2 & _). unfold class_elem_name. rewrite A1, A2. auto. Qed.

  Lemma model_ag : forall n n' cls body c, ag bag (build_model cl ev n cls body c) (build_model cl' ev' n' cls body c).
  Proof.
    intros n n' cls body c. unfold build_model. pose proof (proj1 Rel cls) as H.
    destruct (cl cls) as [i|], (cl' cls) as [i'|]; try contradiction; [|constructor].
    destruct (skip_before body); try constructor.
    assert (Hh : ci_hide i = ci_hide i') by apply H. rewrite Hh.
    eapply ag_bind; [apply fields_ag; auto|]. intros [[s1 v1] e1] [[s2 v2] e2] (P & Q & R). simpl in P, Q, R. subst v2 e2.
    eapply ag_bind; [apply computed_ag; eauto|]. intros s3 s4 P2. rewrite (elem_name_eq H).
    eapply ag_bind; [apply ag_refl|]. intros nm ? <-. constructor. unfold bag, nest_bmodel. simpl. rewrite P2.
    assert (Hp : ci_params i = ci_params i') by apply H. rewrite Hp. auto.
  Qed.

  Lemma root_ag : forall n n' cls body c, ag bag (build_root_model cl ev n cls body c) (build_root_model cl' ev' n' cls body c).
  Proof.
    intros n n' cls body c. unfold build_root_model. pose proof (proj1 Rel cls) as H.
    destruct (cl cls) as [i|], (cl' cls) as [i'|]; try contradiction; [|constructor].
    assert (Hh : ci_hide i = ci_hide i') by apply H. rewrite Hh.
    eapply ag_bind; [apply field_parse; apply H|]. intros a b E. rewrite (elem_name_eq H).
    eapply ag_bind; [apply ag_refl|]. intros nm ? <-. constructor. unfold bag, nest_bmodel. simpl. rewrite E.
    assert (Hp : ci_params i = ci_params i') by apply H. rewrite Hp. auto.
  Qed.

  Lemma top_preprocess : forall n n' s c, ag eq (preprocess n s c) (preprocess n' s c).
  Proof.
    induction n as [|n IH]; intros n' s c; [constructor|]. destruct n' as [|n']; [constructor|].
    destruct s; cbn [preprocess]; auto; try apply ag_refl.
    - destruct ser; auto. constructor.
    - destruct (dget ref (cx_defs c)); auto. constructor.
  Qed.

  Theorem class_ag : forall n n' i i' s, same_class i i' -> ag bag (build_class cl ev n i s) (build_class cl' ev' n' i' s).
  Proof.
    intros n n' i i' s H. unfold build_class.
    assert (E : class_ctx i = class_ctx i') by (destruct H as (A1 & A2 & _); unfold class_ctx; rewrite A1, A2; auto). rewrite E.
    eapply ag_bind; [apply top_preprocess|]. intros [x c] ? <-. destruct x; try constructor.
    destruct root; [apply root_ag|apply model_ag].
  Qed.
End Class.
