(** PfBuild2.v -- the builder rejects a definition only with definition errors, and what it builds
    is solid. *)

From Verif Require Import Base Elem Native Errs Names Fields Ser SpecNames Build SpecBuild PfNames PfBuild.

Definition fine {A} (P : A -> Prop) (o : out A) : Prop :=
  match o with Ok a => P a | Raise x => definition_error x | Fuel => True end.

Lemma fine_bind : forall A B (P : A -> Prop) (Q : B -> Prop) o f,
  fine P o -> (forall a, P a -> fine Q (f a)) -> fine Q (obind o f).
Proof. intros A B P Q [a|x|] f H F; simpl in *; auto. Qed.

Lemma fine_impl : forall A (P Q : A -> Prop) o, (forall a, P a -> Q a) -> fine P o -> fine Q o.
Proof. intros A P Q [a|x|] H F; simpl in *; auto. Qed.

Lemma fine_field : forall A (P : A -> Prop), fine P (Raise XModelFieldError).
Proof. intros; simpl; right; auto. Qed.

Lemma fine_model : forall A (P : A -> Prop), fine P (Raise XModelError).
Proof. intros; simpl; left; auto. Qed.

Lemma fine_type : forall A (P : A -> Prop), fine P (Raise XTypeError).
Proof. intros; simpl; right; right; auto. Qed.

#[local] Hint Resolve fine_field fine_model fine_type : core.

Lemma fine_uri : forall t ns m a, fine (fun _ => True) (uri_of t ns m a).
Proof.
  intros t ns m a. unfold uri_of.
  destruct (from_alias_total t ns (Some m) a) as [[u E]|[E _]]; rewrite E; simpl; auto.
  left; auto.
Qed.

Lemma fine_omap : forall A B (P : A -> Prop) (Q : B -> Prop) f l, Forall P l ->
  (forall a, P a -> fine Q (f a)) -> fine (Forall Q) (omap f l).
Proof.
  intros A B P Q f l F H. induction F as [|a l Ha F IH]; simpl; auto.
  eapply fine_bind; [apply H; auto|]. intros b Hb. cbv beta.
  eapply fine_bind; [exact IH|]. intros bs Hbs. simpl. auto.
Qed.

Lemma fine_omap_len : forall A B (P : A -> Prop) (Q : B -> Prop) f l, Forall P l ->
  (forall a, P a -> fine Q (f a)) -> fine (fun ys => Forall Q ys /\ length ys = length l) (omap f l).
Proof.
  intros A B P Q f l F H. induction F as [|a l Ha F IH]; simpl; auto.
  eapply fine_bind; [apply H; auto|]. intros b Hb. cbv beta.
  eapply fine_bind; [exact IH|]. intros bs [Hbs Hl]. simpl. auto.
Qed.

Section Fine.
  Variable cl : classes.
  Variable ev : env.
  Variable D : dict cschema.
  Hypothesis HD : forall r s, dget r D = Some s -> supported cl ev D s.

  Let sup := supported cl ev D.

  Definition ci (c : ctx) : Prop := cx_defs c = D /\ maybe_paths_ok (cx_info c).

  (** what preprocessing leaves *)
  Definition prepared (s : cschema) (c : ctx) (r : cschema * ctx) : Prop :=
    stands_for D s (fst r) /\ sup (fst r) /\ ci (snd r) /\ like c (snd r).

  Lemma prep_fine : forall n s c, sup s -> ci c -> fine (prepared s c) (preprocess n s c).
  Proof.
    intros n s c Hs Hc.
    assert (G : forall n s c, sup s -> cx_defs c = D ->
      fine (fun r => sup (fst r) /\ cx_defs (snd r) = D) (preprocess n s c)).
    { clear n s c Hs Hc. induction n as [|n IH]; intros s c Hs Hc; [simpl; auto|]. cbn [preprocess].
      destruct s; cbn [family_of]; try (simpl; auto; fail); auto.
      - destruct (str_in ty prim_types); simpl; auto. left; auto.
      - inversion Hs; subst. apply IH; auto. destruct k; auto.
      - inversion Hs; subst. apply IH; auto.
      - inversion Hs; subst. apply IH; auto.
      - inversion Hs.
      - rewrite Hc. destruct (dget ref D) as [d|] eqn:E; [apply IH; eauto; apply (HD _ E)|]. auto. }
    specialize (G n s c Hs (proj1 Hc)).
    destruct (preprocess n s c) as [[t d]|x|] eqn:E; simpl in *; auto.
    pose proof (preprocess_like _ _ _ E) as L.
    pose proof (preprocess_stands _ _ _ E) as S. rewrite (proj1 Hc) in S.
    repeat split; simpl; try tauto; auto.
    - destruct Hc as [_ P]. rewrite <- (like_info L). exact P.
    - apply L.
    - apply L.
    - apply L.
    - apply L.
    - apply L.
    - apply L.
    - apply L.
    - apply L.
    - apply L.
  Qed.

  Lemma like_loc : forall c d, like c d -> cx_location c = cx_location d.
  Proof. intros c d L. unfold cx_location. rewrite (like_info L). auto. Qed.

  (** the result of building a field of core schema [t] that is not wrapped *)
  Definition shape (t : cschema) (l : option eloc) (r : ser) : Prop :=
    match t with
    | CType _ | CIsInstance _ => simple r /\ (l = Some LocElement -> item r)
    | CModel cls _ _ => exists p, r = SProxy p /\ px_model p = cls
    | CDict _ _ | CTypedDict _ => l = Some LocElement -> item r
    | _ => item r
    end.

  Lemma elem_fine : forall c, fine (fun r => exists n m md co ni, r = SElem n m md co ni) (build_elem c).
  Proof.
    intros c. unfold build_elem. destruct (entity_name c); auto.
    eapply fine_bind; [apply fine_uri|]. intros u _. simpl. eauto 10.
  Qed.

  Lemma attr_fine : forall c, fine (fun r => exists n co, r = SAttr n co) (build_attr c).
  Proof.
    intros c. unfold build_attr. cbv zeta. destruct (match _ with Some s => _ | None => false end); auto.
    destruct (entity_name c); auto.
    eapply fine_bind; [apply fine_uri|]. intros u _. simpl. eauto.
  Qed.

  Lemma prim_fine : forall c t, cx_location c <> Some LocWrapped ->
    match t with CType _ | CIsInstance _ => True | _ => False end ->
    fine (fun r => solid r /\ shape t (cx_location c) r) (build_prim c).
  Proof.
    intros c t L T. unfold build_prim.
    destruct (cx_location c) as [[| |]|] eqn:E; try congruence.
    - eapply fine_impl; [|apply elem_fine]. simpl. intros r (n & m & md & co & ni & ->).
      split; [constructor|]. destruct t; simpl in *; tauto.
    - eapply fine_impl; [|apply attr_fine]. simpl. intros r (n & co & ->).
      split; [constructor|]. destruct t; simpl in *; try tauto; split; auto; discriminate.
    - simpl. split; [constructor|]. destruct t; simpl in *; try tauto; split; auto; discriminate.
  Qed.

  Lemma raw_fine : forall c t, cx_location c <> Some LocWrapped ->
    match t with CType _ | CIsInstance _ => True | _ => False end ->
    fine (fun r => solid r /\ shape t (cx_location c) r) (build_raw c).
  Proof.
    intros c t L T. unfold build_raw.
    assert (G : fine (fun r => solid r /\ shape t (cx_location c) r) (build_raw_elem c)).
    { unfold build_raw_elem. destruct (entity_name c); auto.
      eapply fine_bind; [apply fine_uri|]. intros u _. simpl. split; [constructor|].
      destruct t; simpl in *; tauto. }
    destruct (cx_location c) as [[| |]|] eqn:E; try congruence; auto.
  Qed.

  Lemma mapping_at_fine : forall c, cx_location c <> Some LocWrapped ->
    fine (fun r => solid r /\ (cx_location c = Some LocElement -> item r)) (build_mapping_at c).
  Proof.
    intros c L. unfold build_mapping_at.
    destruct (cx_location c) as [[| |]|] eqn:E; try congruence; auto.
    - unfold build_map_elem. destruct (entity_name c); auto.
      eapply fine_bind; [apply fine_uri|]. intros u _. simpl. split; [constructor|auto].
    - simpl. split; [constructor|discriminate].
  Qed.

  Lemma mapping_fine : forall n k v c, sup k -> sup v -> ci c -> cx_location c <> Some LocWrapped ->
    fine (fun r => solid r /\ (cx_location c = Some LocElement -> item r)) (build_mapping n k v c).
  Proof.
    intros n k v c Hk Hv Hc L. unfold build_mapping.
    eapply fine_bind; [apply (prep_fine n Hk Hc)|]. intros [k' ck] _.
    eapply fine_bind; [apply (prep_fine n Hv Hc)|]. intros [v' cv] _.
    destruct (negb _); auto. destruct (negb _); auto. apply mapping_at_fine; auto.
  Qed.

  Lemma typed_fine : forall n l c, Forall sup l -> ci c -> cx_location c <> Some LocWrapped ->
    fine (fun r => solid r /\ (cx_location c = Some LocElement -> item r)) (build_typed_mapping n l c).
  Proof.
    intros n l c Hl Hc L. unfold build_typed_mapping.
    eapply (@fine_bind unit); [|intros _ _; apply mapping_at_fine; auto].
    instantiate (1 := fun _ => True).
    induction Hl as [|s l Hs F IH]; simpl; auto.
    eapply fine_bind; [apply (prep_fine n Hs Hc)|]. intros [k' ck] _.
    destruct (negb _); auto.
  Qed.

  Lemma submodel_fine : forall cls c, cl cls <> None -> cx_location c <> Some LocWrapped ->
    fine (fun r => solid r /\ exists p, r = SProxy p /\ px_model p = cls) (build_submodel cl cls c).
  Proof.
    intros cls c K L. unfold build_submodel.
    assert (G : fine (fun r => solid r /\ exists p, r = SProxy p /\ px_model p = cls) (build_proxy cl cls c)).
    { unfold build_proxy. destruct (cl cls) as [k|]; [|congruence]. cbv zeta.
      eapply fine_bind; [apply fine_uri|]. intros u _. simpl. split; [constructor|]. eauto. }
    destruct (cx_location c) as [[| |]|] eqn:E; try congruence; auto.
  Qed.

  Section Step.
    Variable rec : cschema -> ctx -> out ser.
    Variable n : nat.
    Hypothesis Hrec : forall s c, sup s -> ci c ->
      fine (fun r => solid r /\ (cx_location c <> Some LocWrapped ->
              forall t, stands_for D s t -> shape t (cx_location c) r)) (rec s c).

    Lemma wrap_fine : forall s c, sup s -> ci c -> cx_location c = Some LocWrapped ->
      fine solid (build_wrap rec s c).
    Proof.
      intros s c Hs Hc L. unfold build_wrap.
      assert (P : cx_path c <> None /\ maybe_paths_ok (cx_wrapped c)).
      { destruct Hc as [_ Hp]. unfold cx_path, cx_wrapped, cx_location, of_info in *.
        destruct (cx_info c) as [[lo pa nsx mm ni wr]|]; simpl in *; [|discriminate].
        destruct Hp as [Hp Hw]. split; auto. }
      destruct P as [P W]. destruct (cx_path c) as [path|]; [|congruence].
      eapply fine_bind; [apply Hrec; auto; split; [apply Hc | exact W]|].
      intros inner [Hi _].
      eapply fine_bind with (P := fun _ => True).
      - eapply fine_impl; [|eapply fine_omap with (P := fun _ => True) (Q := fun _ => True)]; auto.
        + rewrite Forall_forall; auto.
        + intros a _. apply fine_uri.
      - intros parts _. simpl. constructor; auto.
    Qed.

    Lemma in_families_In : forall s l, in_families s l = true ->
      exists f, In f l /\ is_family f s = true.
    Proof. intros s l H. unfold in_families in H. apply existsb_exists in H. auto. Qed.

    Lemma homo_fine : forall s c, sup s -> ci c -> cx_location c <> Some LocWrapped ->
      fine (fun r => solid r /\ item r) (build_homo rec n s c).
    Proof.
      intros s c Hs Hc L. unfold build_homo.
      eapply fine_bind; [apply (prep_fine n Hs Hc)|]. intros [t d] Pd.
      destruct (negb (in_families t _)) eqn:F1; auto.
      destruct (_ && _) eqn:F2; auto.
      destruct Pd as (St & Ut & Cd & Lk). simpl in *.
      rewrite (like_loc Lk) in L.
      assert (G : cx_location d <> Some LocAttribute -> fine (fun r => solid r /\ item r) (rec s d)).
      { intros NA. eapply fine_impl; [|apply (Hrec Hs Cd)]. simpl. intros r [Hr Hsh]. split; auto.
        specialize (Hsh L t St).
        destruct (cx_location d) as [[| |]|]; try congruence.
        - destruct t; simpl in Hsh; try tauto; auto.
          destruct Hsh as (p & -> & _); simpl; auto.
        - unfold in_families, is_family in F1, F2.
          destruct t; cbn [family_of] in F1, F2; try (destruct (str_in ty prim_types));
            simpl in F1, F2, Hsh; try discriminate; auto.
          destruct Hsh as (p & -> & _); simpl; auto. }
      destruct (cx_location d) as [[| |]|] eqn:E; try congruence; auto;
        (eapply fine_bind; [apply G; congruence|]; intros r [Hr Hi]; simpl; split; auto; constructor; auto).
    Qed.

    (** the items of a tuple: standing for something the check lets pass *)
    Definition passing (l : option eloc) (s : cschema) : Prop :=
      exists t, stands_for D s t /\
        (l = None -> match t with CModel _ _ _ | CUnion _ => True | _ => False end) /\
        match t with CFields _ _ | CList _ | CTuple _ _ => False | _ => True end.

    Lemma check_fine : forall l c, Forall sup l -> ci c ->
      fine (fun d => ci d /\ like c d /\ Forall (passing (cx_location c)) l) (check_items n l c).
    Proof.
      intros l c F. revert c. induction F as [|s l Hs F IH]; intros c Hc.
      - simpl. split; [auto|split; [apply like_refl|constructor]].
      - cbn [check_items].
        eapply fine_bind; [apply (prep_fine n Hs Hc)|]. intros [t d] (St & Ut & Cd & Lk). simpl in St, Ut, Cd, Lk.
        destruct (negb (in_families t _)) eqn:F1; auto.
        destruct (_ && _) eqn:F2; auto.
        eapply fine_impl; [|apply (IH _ Cd)]. simpl. intros e (Ce & Le & Pe).
        split; [auto|]. split; [eapply like_trans; eauto|].
        rewrite <- (like_loc Lk) in *.
        constructor; auto. exists t. split; auto.
        unfold in_families, is_family in F1, F2. split.
        + intros E. rewrite E in F2.
          destruct t; cbn [family_of] in F1, F2; try (destruct (str_in ty prim_types));
            simpl in F1, F2; try discriminate; auto.
        + destruct t; cbn [family_of] in F1; try (destruct (str_in ty prim_types));
            simpl in F1; try discriminate; auto.
    Qed.

    Lemma passing_item : forall s c, sup s -> ci c -> cx_location c = Some LocElement \/ cx_location c = None ->
      passing (cx_location c) s -> fine (fun r => solid r /\ item r) (rec s c).
    Proof.
      intros s c Hs Hc L (t & St & P1 & P2).
      eapply fine_impl; [|apply (Hrec Hs Hc)]. simpl. intros r [Hr Hsh]. split; auto.
      assert (LW : cx_location c <> Some LocWrapped) by (destruct L; congruence).
      specialize (Hsh LW t St). destruct L as [L|L]; rewrite L in *.
      - destruct t; simpl in Hsh; try tauto; auto. destruct Hsh as (p & -> & _); simpl; auto.
      - specialize (P1 eq_refl). destruct t; simpl in Hsh; try tauto; auto.
        destruct Hsh as (p & -> & _); simpl; auto.
    Qed.

    Lemma hetero_fine : forall l c, Forall sup l -> ci c -> cx_location c <> Some LocWrapped ->
      fine (fun r => solid r /\ item r) (build_hetero rec n l c).
    Proof.
      intros l c F Hc L. unfold build_hetero.
      eapply fine_bind; [apply (check_fine F Hc)|]. intros d (Cd & Lk & P).
      rewrite (like_loc Lk) in *.
      assert (G : cx_location d = Some LocElement \/ cx_location d = None ->
        fine (Forall (fun r => solid r /\ item r)) (omap (fun s => rec s d) l)).
      { intros LE. eapply fine_omap with (P := fun s => sup s /\ passing (cx_location d) s).
        - clear - F P. induction F; inversion P; subst; constructor; auto.
        - intros s [Hs Ps]. apply passing_item; auto. }
      assert (H : forall rs, Forall (fun r => solid r /\ item r) rs ->
        solid (SHetero (cx_model d) (cx_computed d) rs (cx_hide d)) /\
        item (SHetero (cx_model d) (cx_computed d) rs (cx_hide d))).
      { intros rs Fr. split; [|exact I]. constructor; eapply Forall_impl; try exact Fr; simpl; tauto. }
      destruct (cx_location d) as [[| |]|] eqn:E; try congruence; auto;
        (eapply fine_bind; [apply G; auto|]; intros rs Fr; simpl; apply H; auto).
    Qed.

    Lemma tuple_fine : forall v l c, (v = Some 0 -> length l = 1) -> Forall sup l -> ci c ->
      cx_location c <> Some LocWrapped -> fine (fun r => solid r /\ item r) (build_tuple rec n v l c).
    Proof.
      intros v l c Hv F Hc L. destruct v as [[|v]|]; cbn [build_tuple]; auto.
      - specialize (Hv eq_refl). destruct l as [|s [|]]; try discriminate.
        inversion F; subst. apply homo_fine; auto.
      - apply hetero_fine; auto.
    Qed.

    Lemma call_fine : forall b l c, Forall sup l -> ci c -> cx_location c <> Some LocWrapped ->
      fine (fun r => solid r /\ item r) (build_call rec n b l c).
    Proof. intros [|] l c F Hc L; cbn [build_call]; [apply hetero_fine; auto | auto]. Qed.

    (** the choices of a union: the families found and what each choice stands for *)
    Definition of_family (s : cschema) (f : family) : Prop :=
      exists t, stands_for D s t /\ family_of t = Some f /\
        match f with FPrim | FIsInstance | FModel => True | _ => False end.

    Lemma choices_fine : forall l c, Forall sup l -> ci c ->
      fine (fun r => ci (snd r) /\ like c (snd r) /\ Forall2 of_family l (fst r)) (choice_families n l c).
    Proof.
      intros l c F. revert c. induction F as [|s l Hs F IH]; intros c Hc.
      - simpl. split; [auto|split; [apply like_refl|constructor]].
      - cbn [choice_families].
        eapply fine_bind; [apply (prep_fine n Hs Hc)|]. intros [t d] (St & Ut & Cd & Lk). simpl in St, Ut, Cd, Lk.
        assert (G : forall f, family_of t = Some f ->
          match f with FPrim | FIsInstance | FModel => True | _ => False end ->
          fine (fun r => ci (snd r) /\ like c (snd r) /\ Forall2 of_family (s :: l) (fst r))
            (obind (choice_families n l d) (fun '(fs, c) => Ok (default FMeta (family_of t) :: fs, c)))).
        { intros f Ef Hf. eapply fine_bind; [apply (IH _ Cd)|]. intros [fs e] (Ce & Le & Fe).
          simpl in *. split; [auto|]. split; [eapply like_trans; eauto|].
          constructor; auto. rewrite Ef. simpl. exists t; auto. }
        destruct (family_of t) as [[]|] eqn:Ef; auto; eapply G; eauto; exact I.
    Qed.

    Lemma family_In : forall f fs, existsb (family_eqb f) fs = true <-> In f fs.
    Proof.
      intros f fs. rewrite existsb_exists. split.
      - intros (x & Hx & E). destruct f, x; simpl in E; try discriminate; auto.
      - intros H. exists f. split; auto. destruct f; reflexivity.
    Qed.

    Lemma union_fine : forall l c, Exists (ordinary D) l -> Forall sup l -> ci c ->
      cx_location c <> Some LocWrapped -> fine (fun r => solid r /\ item r) (build_union rec n l c).
    Proof.
      intros l c O F Hc L. unfold build_union.
      eapply fine_bind; [apply (choices_fine F Hc)|]. intros [fs d] (Cd & Lk & P). simpl in Cd, Lk, P.
      rewrite (like_loc Lk) in L. cbv zeta.
      destruct fs as [|f0 fs0]; [inversion P; subst; inversion O|].
      remember (f0 :: fs0) as fs.
      destruct ((existsb (family_eqb FPrim) fs || existsb (family_eqb FIsInstance) fs)
                && existsb (family_eqb FModel) fs) eqn:Mx; auto.
      destruct (existsb (family_eqb FModel) fs) eqn:HM.
      - (* models only *)
        unfold build_union_model.
        assert (AM : Forall (fun s => sup s /\ exists cls root body, stands_for D s (CModel cls root body)) l).
        { rewrite andb_true_r in Mx. apply orb_false_elim in Mx as [M1 M2].
          clear - P M1 M2 F. induction P as [|s f l fs (t & St & Ef & Hf) P IH]; [constructor|].
          simpl in M1, M2. apply orb_false_elim in M1 as [A1 B1]. apply orb_false_elim in M2 as [A2 B2].
          inversion F; subst. constructor; [|auto]. split; auto.
          destruct f; simpl in *; try tauto; try discriminate.
          destruct t; cbn [family_of] in Ef; try discriminate; eauto.
          destruct (str_in ty prim_types); discriminate. }
        eapply fine_bind.
        + eapply fine_omap_len with (Q := fun _ : proxy => True); [exact AM|]. simpl.
          intros s [Hs (cls & root & body & St)].
          eapply fine_bind; [apply (Hrec Hs Cd)|]. intros r [_ Hsh].
          destruct (Hsh L _ St) as (p & -> & _). simpl. auto.
        + intros vs [_ Hl]. destruct vs as [|v vs].
          { destruct l; [inversion O | discriminate]. }
          simpl. split; [constructor | exact I].
      - assert (NM : Forall (fun s => sup s /\ exists t, stands_for D s t /\
                   match t with CType _ | CIsInstance _ => True | _ => False end) l).
        { clear - P HM F. induction P as [|s f l fs (t & St & Ef & Hf) P IH]; [constructor|].
          simpl in HM. apply orb_false_elim in HM as [A1 B1].
          inversion F; subst. constructor; [|auto]. split; auto. exists t. split; auto.
          destruct f; simpl in *; try tauto; try discriminate;
            destruct t; cbn [family_of] in Ef; try discriminate; auto. }
        destruct (existsb (family_eqb FPrim) fs) eqn:HP.
        + unfold build_union_prim. eapply fine_bind.
          * eapply fine_omap_len with (Q := simple); [exact NM|]. simpl.
            intros s [Hs (t & St & Ht)].
            eapply fine_impl; [|apply (Hrec Hs Cd)]. simpl. intros r [_ Hsh].
            specialize (Hsh L t St). destruct t; simpl in Hsh; tauto.
          * intros rs [Fr Hl]. destruct rs as [|r rs].
            { destruct l; [inversion O | discriminate]. }
            destruct (forallb _ rs); auto. inversion Fr; subst. simpl. split; [constructor; auto | exact I].
        + (* only arbitrary classes *)
          exfalso. clear - P HM HP O. induction P as [|s f l fs (t & St & Ef & Hf) P IH]; [inversion O|].
          simpl in HM, HP. apply orb_false_elim in HM as [A1 B1]. apply orb_false_elim in HP as [A2 B2].
          inversion O as [x xs Hx|x xs Hx]; subst; [|auto].
          specialize (Hx t St).
          destruct f; simpl in *; try tauto; try discriminate.
          destruct t; cbn [family_of] in Ef; try discriminate; auto.
          destruct (str_in ty prim_types); discriminate.
    Qed.

    Lemma check_tagged_fine : forall l c, Forall (fun kv => sup (snd kv)) l -> ci c ->
      fine (fun d => ci d /\ like c d /\
              Forall (fun kv => exists cls body, stands_for D (snd kv) (CModel cls false body)) l)
        (check_tagged n l c).
    Proof.
      intros l c F. revert c. induction F as [|[tag s] l Hs F IH]; intros c Hc.
      - simpl. split; [auto|split; [apply like_refl|constructor]].
      - cbn [check_tagged]. simpl in Hs.
        eapply fine_bind; [apply (prep_fine n Hs Hc)|]. intros [t d] (St & Ut & Cd & Lk). simpl in St, Ut, Cd, Lk.
        destruct t; auto. destruct root; auto.
        eapply fine_impl; [|apply (IH _ Cd)]. simpl. intros e (Ce & Le & Pe).
        split; [auto|]. split; [eapply like_trans; eauto|]. constructor; simpl; eauto.
    Qed.

    Lemma variants_fine : forall disc l c a acc,
      Forall (fun kv => sup (snd kv)) l -> Forall (fun kv => ready_variant ev D (snd kv)) l ->
      Forall (fun kv => exists cls body, stands_for D (snd kv) (CModel cls false body)) l ->
      ci c -> cx_location c <> Some LocWrapped ->
      fine (fun r => fst r = None -> l = [] /\ a = None) (build_variants ev rec disc l c a acc).
    Proof.
      intros disc l. induction l as [|[tag s] l IH]; intros c a acc F1 F2 F3 Hc L; cbn [build_variants].
      - simpl. auto.
      - inversion F1 as [|x1 y1 Q1 R1]; inversion F2 as [|x2 y2 Q2 R2];
          inversion F3 as [|x3 y3 Q3 R3]; subst. cbn [snd] in Q1, Q2, Q3.
        destruct tag as [tag|]; auto.
        destruct Q3 as (cls & body & St).
        eapply fine_bind; [apply (Hrec Q1 Hc)|]. intros r [_ Hsh].
        destruct (Hsh L _ St) as (p & -> & Ep). cbn [as_proxy obind]. subst cls.
        destruct (Q2 _ St _ _ _ eq_refl) as (m & -> & ->).
        destruct (dget disc (md_fields m)) as [[]|]; auto.
        destruct a as [b|]; [destruct (String.eqb name b); auto|];
          (eapply fine_impl; [|apply IH; auto]; simpl; intros r Hr E; destruct (Hr E); discriminate).
    Qed.

    Lemma tagged_fine : forall disc l c, l <> [] -> Forall (fun kv => sup (snd kv)) l ->
      Forall (fun kv => ready_variant ev D (snd kv)) l -> ci c -> cx_location c <> Some LocWrapped ->
      fine (fun r => solid r /\ item r) (build_tagged ev rec n disc l c).
    Proof.
      intros disc l c N F1 F2 Hc L. unfold build_tagged.
      eapply fine_bind; [apply (check_tagged_fine F1 Hc)|]. intros d (Cd & Lk & P).
      rewrite (like_loc Lk) in L. destruct disc as [disc|]; auto.
      eapply fine_bind; [apply (variants_fine disc None [] F1 F2 P Cd L)|].
      intros [[a|] vs] H; simpl in *.
      - split; [constructor | exact I].
      - destruct (H eq_refl); congruence.
    Qed.

    Lemma select_fine : forall s c, sup s -> ci c ->
      (forall f, family_of s = Some f -> ~ In f [FMeta; FDefs; FRef; FJsonOrPython]) ->
      fine (fun r => solid r /\ (cx_location c <> Some LocWrapped -> shape s (cx_location c) r))
        (select cl ev rec n s c).
    Proof.
      intros s c Hs Hc Hst. unfold select.
      destruct (family_of s) eqn:Ef; auto. specialize (Hst _ eq_refl).
      assert (W : cx_location c = Some LocWrapped \/ cx_location c <> Some LocWrapped).
      { destruct (cx_location c) as [[| |]|]; auto; right; discriminate. }
      destruct W as [W|W].
      - rewrite W. eapply fine_impl; [|apply wrap_fine; auto]. simpl. intros r Hr. split; auto. congruence.
      - assert (G : fine (fun r => solid r /\ shape s (cx_location c) r)
          match s with
              | CType _ => build_prim c
              | CModel cls _ _ => build_submodel cl cls c
              | CList item => build_homo rec n item c
              | CTuple variadic items => build_tuple rec n variadic items c
              | CDict keys values => build_mapping n keys values c
              | CTypedDict values => build_typed_mapping n values c
              | CUnion choices => build_union rec n choices c
              | CTagged disc choices => build_tagged ev rec n disc choices c
              | CIsInstance raw => build_is_instance raw c
              | CCall tuple_class args => build_call rec n tuple_class args c
              | _ => Raise XAssertion
        end).
        { destruct s; inversion Hs; subst;
            try (simpl in Ef; injection Ef as <-; exfalso; apply Hst; simpl; tauto).
          - apply prim_fine; simpl; auto.
          - destruct raw; simpl build_is_instance; [apply raw_fine | apply prim_fine]; simpl; auto.
          - apply submodel_fine; auto.
          - discriminate.
          - apply homo_fine; auto.
          - apply tuple_fine; auto.
          - apply mapping_fine; auto.
          - apply typed_fine; auto.
          - apply union_fine; auto.
          - apply tagged_fine; auto.
          - apply call_fine; auto. }
        eapply fine_impl with (P := fun r => solid r /\ shape s (cx_location c) r); [simpl; tauto|].
        destruct (cx_location c) as [[| |]|]; try congruence; exact G.
    Qed.
  End Step.

  Lemma stands_family : forall s t, stands_for D s t ->
    forall f, family_of t = Some f -> ~ In f [FMeta; FDefs; FRef; FJsonOrPython].
  Proof.
    assert (G : forall d s t, stands_for d s t ->
      forall f, family_of t = Some f -> ~ In f [FMeta; FDefs; FRef; FJsonOrPython]).
    { induction 1; auto. intros g E. congruence. }
    eauto.
  Qed.

  Lemma parse_fine : forall n s c, sup s -> ci c ->
    fine (fun r => solid r /\ (cx_location c <> Some LocWrapped ->
            forall t, stands_for D s t -> shape t (cx_location c) r)) (parse cl ev n s c).
  Proof.
    induction n as [|n IH]; intros s c Hs Hc; [simpl; auto|]. cbn [parse].
    eapply fine_bind; [apply (prep_fine n Hs Hc)|]. intros [t d] (St & Ut & Cd & Lk). simpl in St, Ut, Cd, Lk.
    eapply fine_impl; [|apply (@select_fine _ n IH t d Ut Cd)].
    - simpl. intros r [H1 H2]. split; auto. rewrite (like_loc Lk). intros L t' St'.
      rewrite (stands_for_unique St' St). auto.
    - eapply stands_family; eauto.
  Qed.
End Fine.
