(** PfBuild3.v -- building terminates; built classes meet the conditions of the reading theorems. *)

From Verif Require Import Base Elem Native Errs Names Fields Ser SpecNames Build SpecBuild SpecRead
  PfNames PfBuild PfBuild2.

Definition ends {A} (P : A -> Prop) (o : out A) : Prop :=
  match o with Ok a => P a | Raise _ => True | Fuel => False end.

Lemma ends_bind : forall A B (P : A -> Prop) (Q : B -> Prop) o f,
  ends P o -> (forall a, P a -> ends Q (f a)) -> ends Q (obind o f).
Proof. intros A B P Q [a|x|] f H F; simpl in *; auto. Qed.

Lemma ends_impl : forall A (P Q : A -> Prop) o, (forall a, P a -> Q a) -> ends P o -> ends Q o.
Proof. intros A P Q [a|x|] H F; simpl in *; auto. Qed.

Lemma ends_omap : forall A B (P : A -> Prop) f l, Forall P l ->
  (forall a, P a -> ends (fun _ : B => True) (f a)) -> ends (fun _ : list B => True) (omap f l).
Proof.
  intros A B P f l F H. induction F as [|a l Ha F IH]; simpl; auto.
  eapply ends_bind; [apply H; auto|]. intros b _. cbv beta.
  eapply ends_bind; [exact IH|]. intros bs _. simpl. auto.
Qed.

Definition any {A} : A -> Prop := fun _ => True.

Lemma ends_uri : forall t ns m a, ends any (uri_of t ns m a).
Proof.
  intros t ns m a. unfold uri_of.
  destruct (from_alias_total t ns (Some m) a) as [[u E]|[E _]]; rewrite E; simpl; auto. exact I.
Qed.

Section Ends.
  Variable cl : classes.
  Variable ev : env.
  Variable D : dict cschema.

  Lemma prep_ends : forall h s, unfolds D h s -> forall n c, h <= n -> cx_defs c = D ->
    ends (fun r => unfolds D h (fst r) /\ cx_defs (snd r) = D /\ like c (snd r)) (preprocess n s c).
  Proof.
    assert (Up : forall h s, unfolds D h s -> unfolds D (S h) s).
    { assert (Ups : forall h (l : list cschema), (forall s, unfolds D h s -> unfolds D (S h) s) ->
        Forall (unfolds D h) l -> Forall (unfolds D (S h)) l).
      { intros h l H F. eapply Forall_impl; [|exact F]. auto. }
      induction h as [|h IH]; intros s H; inversion H; subst; constructor; auto.
      eapply Forall_impl; [|eassumption]. simpl; auto. }
    assert (G : forall h s, unfolds D h s -> forall n c, h <= n -> cx_defs c = D ->
      ends (fun r => unfolds D h (fst r) /\ cx_defs (snd r) = D) (preprocess n s c)).
    { induction h as [|h IH]; intros s H n c Hn Hc; [inversion H|].
      destruct n as [|n]; [lia|]. cbn [preprocess].
      assert (R : forall s c, cx_defs c = D -> unfolds D h s ->
        ends (fun r => unfolds D (S h) (fst r) /\ cx_defs (snd r) = D) (preprocess n s c)).
      { intros s' c' Hc' H'. eapply ends_impl; [|apply IH; auto; lia]. simpl. intros r [A B]; auto. }
      inversion H; subst; cbn [family_of]; try (simpl; auto; fail).
      - destruct (str_in ty prim_types); simpl; auto.
      - apply R; auto. destruct k; auto.
      - destruct s0 as [t|]; simpl; auto.
      - destruct (dget r (cx_defs c)) eqn:E; simpl; auto. }
    intros h s H n c Hn Hc. specialize (G h s H n c Hn Hc).
    destruct (preprocess n s c) as [[t d]|x|] eqn:E; simpl in *; auto.
    apply preprocess_like in E. tauto.
  Qed.

  Definition ranked (h : nat) (n : nat) (c : ctx) : Prop :=
    h + maybe_wrap_depth (cx_info c) < n /\ cx_defs c = D.

  Lemma ranked_like : forall h n c d, like c d -> cx_defs d = D -> ranked h n c -> ranked h n d.
  Proof. intros h n c d L E [A B]. split; auto. rewrite <- (like_info L). auto. Qed.

  Lemma ends_elem : forall c, ends any (build_elem c).
  Proof.
    intros c. unfold build_elem. destruct (entity_name c); [|exact I].
    eapply ends_bind; [apply ends_uri|]. intros u _. exact I.
  Qed.

  Lemma ends_attr : forall c, ends any (build_attr c).
  Proof.
    intros c. unfold build_attr. cbv zeta. destruct (match _ with Some s => _ | None => false end); [exact I|].
    destruct (entity_name c); [|exact I].
    eapply ends_bind; [apply ends_uri|]. intros u _. exact I.
  Qed.

  Lemma ends_prim : forall c, ends any (build_prim c).
  Proof.
    intros c. unfold build_prim. destruct (cx_location c) as [[| |]|]; try exact I;
      [apply ends_elem | apply ends_attr].
  Qed.

  Lemma ends_raw : forall c, ends any (build_raw c).
  Proof.
    intros c. unfold build_raw.
    assert (G : ends any (build_raw_elem c)).
    { unfold build_raw_elem. destruct (entity_name c); [|exact I].
      eapply ends_bind; [apply ends_uri|]. intros u _. exact I. }
    destruct (cx_location c) as [[| |]|]; auto; exact I.
  Qed.

  Lemma ends_mapping_at : forall c, ends any (build_mapping_at c).
  Proof.
    intros c. unfold build_mapping_at. destruct (cx_location c) as [[| |]|]; try exact I.
    unfold build_map_elem. destruct (entity_name c); [|exact I].
    eapply ends_bind; [apply ends_uri|]. intros u _. exact I.
  Qed.

  Lemma ends_submodel : forall cls c, ends any (build_submodel cl cls c).
  Proof.
    intros cls c. unfold build_submodel.
    assert (G : ends any (build_proxy cl cls c)).
    { unfold build_proxy. destruct (cl cls); [|exact I]. cbv zeta.
      eapply ends_bind; [apply ends_uri|]. intros u _. exact I. }
    destruct (cx_location c) as [[| |]|]; auto; exact I.
  Qed.

  Section Step.
    Variable rec : cschema -> ctx -> out ser.
    Variable n : nat.
    Hypothesis Hrec : forall h s c, unfolds D h s -> ranked h n c -> ends any (rec s c).

    (** [below h c]: sub-schemas of height [h] may be built in the context [c] *)
    Definition below (h : nat) (c : ctx) : Prop :=
      S h + maybe_wrap_depth (cx_info c) <= n /\ cx_defs c = D.

    Lemma below_ranked : forall h c, below h c -> ranked h n c.
    Proof. intros h c [A B]. split; auto. Qed.

    Lemma below_like : forall h c d, like c d -> cx_defs d = D -> below h c -> below h d.
    Proof. intros h c d L E [A B]. split; auto. rewrite <- (like_info L). auto. Qed.

    Lemma prep_below : forall h s c, unfolds D h s -> below h c ->
      ends (fun r => below h (snd r)) (preprocess n s c).
    Proof.
      intros h s c H [A B]. eapply ends_impl; [|apply (@prep_ends h s H n c); auto; lia].
      simpl. intros r (_ & E & L). eapply below_like; eauto. split; auto.
    Qed.

    Lemma ends_homo : forall h s c, unfolds D h s -> below h c -> ends any (build_homo rec n s c).
    Proof.
      intros h s c H B. unfold build_homo.
      eapply ends_bind; [apply (prep_below H B)|]. intros [t d] Bd. simpl in Bd.
      destruct (negb (in_families t _)); [exact I|]. destruct (_ && _); [exact I|].
      assert (R : ends any (rec s d)) by (eapply Hrec; [exact H | apply below_ranked; auto]).
      destruct (cx_location d) as [[| |]|]; try exact I;
        (eapply ends_bind; [exact R|]; intros r _; exact I).
    Qed.

    Lemma ends_check : forall h l c, Forall (unfolds D h) l -> below h c ->
      ends (below h) (check_items n l c).
    Proof.
      intros h l c F. revert c. induction F as [|s l Hs F IH]; intros c B; cbn [check_items]; [exact B|].
      eapply ends_bind; [apply (prep_below Hs B)|]. intros [t d] Bd. simpl in Bd.
      destruct (negb (in_families t _)); [exact I|]. destruct (_ && _); [exact I|]. auto.
    Qed.

    Lemma ends_hetero : forall h l c, Forall (unfolds D h) l -> below h c ->
      ends any (build_hetero rec n l c).
    Proof.
      intros h l c F B. unfold build_hetero.
      eapply ends_bind; [apply (ends_check F B)|]. intros d Bd.
      assert (G : ends any (omap (fun s => rec s d) l)).
      { eapply ends_omap; [exact F|]. intros s Hs. eapply Hrec; [exact Hs | apply below_ranked; auto]. }
      destruct (cx_location d) as [[| |]|]; try exact I;
        (eapply ends_bind; [exact G|]; intros r _; exact I).
    Qed.

    Lemma ends_choices : forall h l c, Forall (unfolds D h) l -> below h c ->
      ends (fun r => below h (snd r)) (choice_families n l c).
    Proof.
      intros h l c F. revert c. induction F as [|s l Hs F IH]; intros c B; cbn [choice_families]; [exact B|].
      eapply ends_bind; [apply (prep_below Hs B)|]. intros [t d] Bd. simpl in Bd.
      assert (G : ends (fun r => below h (snd r))
        (obind (choice_families n l d) (fun '(fs, c) => Ok (default FMeta (family_of t) :: fs, c)))).
      { eapply ends_bind; [apply (IH d Bd)|]. intros [fs e] Be. exact Be. }
      destruct (family_of t) as [[]|]; try exact I; exact G.
    Qed.

    Lemma ends_union : forall h l c, Forall (unfolds D h) l -> below h c ->
      ends any (build_union rec n l c).
    Proof.
      intros h l c F B. unfold build_union.
      eapply ends_bind; [apply (ends_choices F B)|]. intros [fs d] Bd. simpl in Bd. cbv zeta.
      destruct fs as [|f fs]; [exact I|].
      destruct (_ && _); [exact I|].
      assert (R : forall s, unfolds D h s -> ends any (rec s d)).
      { intros s Hs. eapply Hrec; [exact Hs | apply below_ranked; auto]. }
      destruct (existsb _ _).
      - unfold build_union_model. eapply ends_bind.
        + eapply ends_omap; [exact F|]. intros s Hs. eapply ends_bind; [apply R; auto|].
          intros [] _; exact I.
        + intros [|v vs] _; exact I.
      - destruct (existsb _ _); [|exact I].
        unfold build_union_prim. eapply ends_bind.
        + eapply ends_omap; [exact F|]. intros s Hs. apply R; auto.
        + intros [|v vs] _; [exact I|]. destruct (forallb _ _); exact I.
    Qed.

    Lemma ends_check_tagged : forall h l c, Forall (fun kv => unfolds D h (snd kv)) l -> below h c ->
      ends (below h) (check_tagged n l c).
    Proof.
      intros h l c F. revert c. induction F as [|[tag s] l Hs F IH]; intros c B; cbn [check_tagged]; [exact B|].
      eapply ends_bind; [apply (prep_below Hs B)|]. intros [t d] Bd. simpl in Bd.
      destruct t; try exact I. destruct root; [exact I|]. auto.
    Qed.

    Lemma ends_variants : forall h disc l c a acc, Forall (fun kv => unfolds D h (snd kv)) l -> below h c ->
      ends any (build_variants ev rec disc l c a acc).
    Proof.
      intros h disc l. induction l as [|[tag s] l IH]; intros c a acc F B; cbn [build_variants]; [exact I|].
      destruct tag as [tag|]; [|exact I]. inversion F as [|x y F1 F2]; subst. simpl in F1.
      eapply ends_bind; [eapply Hrec; [exact F1 | apply below_ranked; auto]|]. intros r _.
      eapply ends_bind with (P := any); [destruct r; exact I|]. intros p _.
      destruct (en_model ev (px_model p)) as [m|]; [|exact I].
      destruct (md_root m); [exact I|].
      destruct (dget disc (md_fields m)) as [[]|]; try exact I.
      destruct a as [b|]; [destruct (String.eqb name b); [|exact I]|]; apply IH; auto.
    Qed.

    Lemma ends_tagged : forall h disc l c, Forall (fun kv => unfolds D h (snd kv)) l -> below h c ->
      ends any (build_tagged ev rec n disc l c).
    Proof.
      intros h disc l c F B. unfold build_tagged.
      eapply ends_bind; [apply (ends_check_tagged F B)|]. intros d Bd.
      destruct disc as [disc|]; [|exact I].
      eapply ends_bind; [apply (ends_variants disc None [] F Bd)|]. intros [[a|] vs] _; exact I.
    Qed.

    Lemma ends_wrap : forall h s c, unfolds D h s -> h + maybe_wrap_depth (cx_info c) <= n ->
      cx_defs c = D -> cx_location c = Some LocWrapped -> ends any (build_wrap rec s c).
    Proof.
      intros h s c H L E W. unfold build_wrap. destruct (cx_path c) as [path|]; [|exact I].
      assert (R : ranked h n (child_wrapped c)).
      { split; [|exact E]. unfold cx_location, of_info in W. simpl. unfold cx_wrapped, of_info.
        destruct (cx_info c) as [[lo pa nsx mm ni wr]|]; simpl in *; [|discriminate].
        destruct wr; simpl; lia. }
      eapply ends_bind; [apply (Hrec H R)|]. intros inner _.
      eapply ends_bind.
      - eapply ends_omap with (P := any); [rewrite Forall_forall; intros; exact I|].
        intros a _. apply ends_uri.
      - intros parts _. exact I.
    Qed.

    Lemma ends_select : forall h s c, unfolds D h s -> h + maybe_wrap_depth (cx_info c) <= n ->
      cx_defs c = D -> ends any (select cl ev rec n s c).
    Proof.
      intros h s c H L E. unfold select. destruct (family_of s) eqn:Ef; [|exact I].
      assert (W : cx_location c = Some LocWrapped \/ cx_location c <> Some LocWrapped).
      { destruct (cx_location c) as [[| |]|]; auto; right; discriminate. }
      destruct W as [W|W]; [rewrite W; eapply ends_wrap; eauto|].
      assert (G : ends any
          match s with
              | CType _ => build_prim c
              | CModel cls _ _ => build_submodel cl cls c
              | CList item => build_homo rec n item c
              | CTuple variadic items => build_tuple rec n variadic items c
              | CDict keys values => build_mapping n keys values c
              | CTypedDict values => build_typed_mapping n values c
              | CUnion choices => build_union rec n choices c
              | CTagged disc choices => build_tagged ev rec n disc choices c
              | CIsInstance raw => build_is_instance raw c
              | CCall tuple_class args => build_call rec n tuple_class args c
              | _ => Raise XAssertion
        end).
      { destruct h as [|h]; [inversion H|].
        assert (B : below h c) by (split; auto; lia).
        destruct s; inversion H; subst; try exact I.
        - apply ends_prim.
        - destruct raw; simpl build_is_instance; [apply ends_raw | apply ends_prim].
        - apply ends_submodel.
        - eapply ends_homo; eauto.
        - destruct variadic as [[|v]|]; cbn [build_tuple]; try exact I.
          + destruct items as [|s [|]]; try exact I. match goal with F : Forall _ [_] |- _ => inversion F; subst end. eapply ends_homo; eauto.
          + eapply ends_hetero; eauto.
        - unfold build_mapping.
          eapply ends_bind; [eapply prep_below; [|exact B]; eauto|]. intros [k' ck] _.
          eapply ends_bind; [eapply prep_below; [|exact B]; eauto|]. intros [v' cv] _.
          destruct (negb _); [exact I|]. destruct (negb _); [exact I|]. apply ends_mapping_at.
        - unfold build_typed_mapping. eapply ends_bind with (P := any); [|intros; apply ends_mapping_at].
          match goal with F : Forall _ _ |- _ => clear - F B; induction F as [|s l Hs F IH] end;
            simpl; [exact I|].
          eapply ends_bind; [apply (prep_below Hs B)|]. intros [k' ck] _.
          destruct (negb _); [exact I|]. auto.
        - eapply ends_union; eauto.
        - eapply ends_tagged; eauto.
        - unfold build_call. destruct tuple_class; [|exact I]. eapply ends_hetero; eauto. }
      destruct (cx_location c) as [[| |]|]; try congruence; exact G.
    Qed.
  End Step.

  Lemma parse_ends : forall n h s c, unfolds D h s -> ranked h n c -> ends any (parse cl ev n s c).
  Proof.
    induction n as [|n IH]; intros h s c H [L E]; [lia|]. cbn [parse].
    eapply ends_bind; [apply (@prep_ends h s H n c); auto; lia|]. intros [t d] (Ht & Ed & Lk). simpl in *.
    eapply ends_select; eauto. rewrite <- (like_info Lk). lia.
  Qed.
End Ends.

(** ---- a whole class ---- *)

(** [P] of every part and of what is built from it *)
Section Class.
  Variable cl : classes.
  Variable ev : env.
  (** a property of outcomes preserved by sequencing *)
  Variable good : forall A, (A -> Prop) -> out A -> Prop.
  Variable part : nat -> cschema -> option einfo -> Prop.
  Variable D : dict cschema.
  Variable R : ser -> Prop.
  Hypothesis good_bind : forall A B (P : A -> Prop) (Q : B -> Prop) o f,
    good P o -> (forall a, P a -> good Q (f a)) -> good Q (obind o f).
  Hypothesis good_ok : forall A (P : A -> Prop) a, P a -> good P (Ok a).
  Hypothesis good_name : forall k, good (fun _ => True) (class_elem_name k).
  Hypothesis good_part : forall n s c, cx_defs c = D -> part n s (cx_info c) ->
    good R (parse cl ev n s c).

  Lemma build_fields_all : forall n k hide fs c sers va ex, cx_defs c = D ->
    Forall (fun nf => part n (field_schema (snd nf)) (extract_info (ci_meta k (fst nf)))) (xml_fields k fs) ->
    Forall (fun nf => R (snd nf)) sers ->
    good (fun r => Forall (fun nf => R (snd nf)) (fst (fst r))) (build_fields cl ev n k hide fs c sers va ex).
  Proof.
    intros n k hide fs. induction fs as [|[name [e sa v s]] fs IH]; intros c sers va ex Hc F Hs;
      cbn [build_fields]; [apply good_ok; exact Hs|].
    unfold xml_fields in F. cbn [filter fst] in F.
    destruct (existsb is_noxml (ci_meta k name)); cbn [negb] in F; [apply IH; auto|].
    inversion F as [|x y F1 F3]; subst. simpl in F1.
    eapply good_bind; [apply (@good_part n s); auto|].
    intros r Hr. apply IH; auto. apply (Forall_dset R); auto.
  Qed.

  Lemma build_computed_all : forall n k hide cs c sers, cx_defs c = D ->
    Forall (fun cf => part n (snd (snd cf)) (ci_computed k (fst cf))) cs ->
    Forall (fun nf => R (snd nf)) sers ->
    good (fun r => Forall (fun nf => R (snd nf)) r) (build_computed cl ev n k hide cs c sers).
  Proof.
    intros n k hide cs. induction cs as [|[name [sa s]] cs IH]; intros c sers Hc F Hs;
      cbn [build_computed]; [apply good_ok; exact Hs|].
    inversion F as [|x y F1 F3]; subst. simpl in F1.
    eapply good_bind; [apply (@good_part n s); auto|].
    intros r Hr. apply IH; auto. apply (Forall_dset R); auto.
  Qed.

  Lemma class_all : forall n k s cls root body parts, cl cls = Some k ->
    good (fun r => fst r = CModel cls root body /\ cx_defs (snd r) = D) (preprocess n s (class_ctx k)) ->
    class_parts k root body parts -> Forall (fun p => part n (fst p) (snd p)) parts ->
    good (fun b => Forall (fun nf => R (snd nf)) (bm_fields b)) (build_class cl ev n k s).
  Proof.
    intros n k s cls root body parts K P C F. unfold build_class.
    eapply good_bind; [exact P|]. intros [s' c] [E Hc]. cbn [fst snd] in E, Hc. subst s'.
    destruct root; simpl in C.
    - subst parts. inversion F as [|x y F1 F2]; subst. simpl in F1.
      unfold build_root_model. rewrite K. cbv zeta.
      eapply good_bind; [apply (@good_part n body); auto|].
      intros r Hr. eapply good_bind; [apply good_name|]. intros name _. apply good_ok. simpl. auto.
    - destruct C as (fs & cs & B & ->). apply Forall_app in F as [F1 F2].
      unfold build_model. rewrite K. apply fields_behind_skip in B. rewrite B. cbv zeta.
      eapply good_bind.
      + apply build_fields_all; auto. rewrite Forall_map in F1. exact F1.
      + intros [[sers va] ex] Hs. cbn [fst] in Hs. eapply good_bind.
        * apply build_computed_all; [auto | | exact Hs]. rewrite Forall_map in F2. exact F2.
        * intros r Hr. cbv beta in Hr. eapply good_bind; [apply good_name|]. intros name _.
          apply good_ok. simpl. auto.
  Qed.
End Class.

Section ClassFacts.
  Variable cl : classes.
  Variable ev : env.
  Variable ds : list (string * cschema).
  Notation D := (dict_of ds).

  Lemma dict_of_twice : forall A (l : list (string * A)), dupdate [] (dict_of l) = dict_of l.
  Proof. intros A l. apply (@dict_of_nodup A (dict_of l)), nodup_dict_of. Qed.

  Lemma class_prep_fine : forall n k s s0 cls root body,
    (forall r t, dget r D = Some t -> supported cl ev D t) -> supported cl ev D s0 ->
    class_schema s ds s0 -> stands_for D s0 (CModel cls root body) ->
    fine (fun r => fst r = CModel cls root body /\ cx_defs (snd r) = D) (preprocess n s (class_ctx k)).
  Proof.
    intros n k s s0 cls root body HD Hs C S.
    assert (G : forall n c, cx_defs c = D -> cx_info c = cx_info (class_ctx k) ->
      fine (fun r => fst r = CModel cls root body /\ cx_defs (snd r) = D) (preprocess n s0 c)).
    { intros n' c E I. eapply fine_impl; [|apply (@prep_fine cl ev D HD n' s0 c Hs)].
      - simpl. intros r (St & _ & [E' _] & _). split; auto. eapply stands_for_unique; eauto.
      - split; auto. rewrite I. simpl. split; auto. discriminate. }
    destruct C as [[-> E]| ->].
    - apply G; auto. simpl. rewrite E. reflexivity.
    - destruct n as [|n]; [exact I|]. cbn [preprocess]. apply G; auto. simpl. apply dict_of_twice.
  Qed.

  Lemma class_prep_ends : forall n k s s0 h cls root body,
    unfolds D h s0 -> h < n ->
    class_schema s ds s0 -> stands_for D s0 (CModel cls root body) ->
    ends (fun r => fst r = CModel cls root body /\ cx_defs (snd r) = D) (preprocess n s (class_ctx k)).
  Proof.
    intros n k s s0 h cls root body Hs Hn C S.
    assert (G : forall n c, h <= n -> cx_defs c = D ->
      ends (fun r => fst r = CModel cls root body /\ cx_defs (snd r) = D) (preprocess n s0 c)).
    { intros n' c L E. pose proof (@prep_ends D h s0 Hs n' c L E) as P.
      destruct (preprocess n' s0 c) as [[t d]|x|] eqn:Q; simpl in *; auto.
      apply preprocess_stands in Q. rewrite E in Q. split; [|tauto]. eapply stands_for_unique; eauto. }
    destruct C as [[-> E]| ->].
    - apply G; auto; [lia|]. simpl. rewrite E. reflexivity.
    - destruct n as [|n]; [lia|]. cbn [preprocess]. apply G; [lia|]. simpl. apply dict_of_twice.
  Qed.

  Lemma class_fine : forall n k s s0 cls root body parts, cl cls = Some k ->
    (forall r t, dget r D = Some t -> supported cl ev D t) -> supported cl ev D s0 ->
    class_schema s ds s0 -> stands_for D s0 (CModel cls root body) ->
    class_parts k root body parts ->
    Forall (fun p => supported cl ev D (fst p) /\ maybe_paths_ok (snd p)) parts ->
    fine (fun b => Forall (fun nf => solid (snd nf)) (bm_fields b)) (build_class cl ev n k s).
  Proof.
    intros n k s s0 cls root body parts K HD Hs C S P F.
    eapply (@class_all cl ev (@fine) (fun _ s i => supported cl ev D s /\ maybe_paths_ok i) D solid);
      eauto.
    - intros; eapply fine_bind; eauto.
    - intros k'. unfold class_elem_name. cbv zeta.
      match goal with |- fine _ (obind (from_alias ?t ?a ?m ?b) _) =>
        destruct (from_alias_total t a m b) as [[u E]|[E _]]; rewrite E; simpl; auto end.
      left; auto.
    - intros n' s' c E [A B]. eapply fine_impl; [|apply (@parse_fine cl ev D HD n' s' c A)].
      + simpl. tauto.
      + split; auto.
    - eapply class_prep_fine; eauto.
  Qed.

  Lemma class_ends : forall n h k s s0 cls root body parts, cl cls = Some k ->
    unfolds D h s0 -> h < n -> class_schema s ds s0 -> stands_for D s0 (CModel cls root body) ->
    class_parts k root body parts ->
    Forall (fun p => exists h, unfolds D h (fst p) /\ h + maybe_wrap_depth (snd p) < n) parts ->
    build_class cl ev n k s <> Fuel.
  Proof.
    intros n h k s s0 cls root body parts K Hs Hn C S P F.
    assert (G : ends (fun b => Forall (fun nf => any (snd nf)) (bm_fields b)) (build_class cl ev n k s)).
    { eapply (@class_all cl ev (@ends)
        (fun n s i => exists h, unfolds D h s /\ h + maybe_wrap_depth i < n) D any); eauto.
      - intros; eapply ends_bind; eauto.
      - intros k'. unfold class_elem_name. cbv zeta.
        match goal with |- ends _ (obind (from_alias ?t ?a ?m ?b) _) =>
          destruct (from_alias_total t a m b) as [[u E]|[E _]]; rewrite E; simpl; auto end.
      - intros n' s' c E (h' & A & B). eapply parse_ends; eauto. split; auto.
      - eapply class_prep_ends; eauto. }
    intros E. rewrite E in G. exact G.
  Qed.
End ClassFacts.

(** ---- what the reading theorems need ---- *)

Lemma item_from_elements : forall s, item s -> solid s -> no_text_union s -> from_elements s.
Proof.
  induction s using ser_ind'; simpl; intros Hi Hs Hn; try contradiction; try (constructor; fail).
  - inversion Hs; inversion Hn; subst. constructor; auto.
  - inversion Hs; inversion Hn; subst. constructor.
    rewrite Forall_forall in *. intros x Hx. apply H; auto.
  - inversion Hs; inversion Hn; subst. constructor.
    destruct s; simpl in *; try tauto; try constructor. destruct (H4 computed nillable); auto.
Qed.

Lemma solid_lists_ok : forall eas s, solid s -> (eas = true -> no_text_union s) -> lists_ok eas s.
Proof.
  induction s using ser_ind'; intros Hs Hn; constructor;
    inversion Hs; subst; auto; try (intros E; specialize (Hn E); inversion Hn; subst).
  - apply item_from_elements; auto.
  - apply IHs; auto. intros E; specialize (Hn E); inversion Hn; auto.
  - rewrite Forall_forall in *. intros x Hx. apply H; auto.
    intros E; specialize (Hn E); inversion Hn; subst. rewrite Forall_forall in *; auto.
  - apply IHs; [destruct s; simpl in *; try tauto; constructor|].
    intros E; destruct s; simpl in *; try tauto; constructor.
  - apply IHs; auto. intros E; specialize (Hn E); inversion Hn; auto.
Qed.

Lemma declared_wf : forall cl ev am,
  (forall cls, cl cls <> None -> en_model ev cls <> None) ->
  forall s encl i, declared cl am encl i s -> wf_ser ev s.
Proof.
  intros cl ev am H.
  assert (P : forall encl i p, submodel_of cl am encl i p -> known ev p).
  { intros encl i p (k & t & ns & u & E & _). apply H. congruence. }
  induction s using ser_ind'; intros encl i Hd; inversion Hd; subst; constructor; eauto.
  - rewrite Forall_forall in *. intros x Hx. eauto.
  - rewrite Forall_forall in *. intros x Hx. eauto.
  - rewrite Forall_forall in *. intros x Hx. eauto.
Qed.
