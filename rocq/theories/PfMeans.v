(** PfMeans.v -- the builder gives every field the binding its type and annotation mean. *)

From Verif Require Import Base Elem Native Errs Names Fields Ser SpecNames SpecRead Build SpecBuild SpecMeans PfNames PfBuild.

Section ShapeInd.
  Variable cl : classes.
  Variable ev : env.
  Variable defs : dict cschema.
  Variable am : ambient.
  Variable P : list scope -> option einfo -> cschema -> ser -> Prop.
  Hypothesis Hwrap : forall encl i t path names m s, says_loc i = Some LocWrapped -> says_path i = Some path ->
      Forall2 (element_name encl i) (py_split "/"%char path) names -> same_map m (maps_of [says_nsmap i] encl) ->
      shape cl ev defs am (scope_of i :: encl) (says_wrapped i) t s -> P (scope_of i :: encl) (says_wrapped i) t s ->
      P encl i t (SWrap names m (am_mode am) (am_computed am) s).
  Hypothesis Hstring : forall encl i t s, stringlike t -> string_at am encl i s -> P encl i t s.
  Hypothesis Hraw : forall encl i t name, at_element_or_bare i -> own_name am i t -> element_name encl i t name ->
      P encl i (CIsInstance true) (SRaw name (am_mode am) (am_computed am)).
  Hypothesis Hmodel : forall encl i cls root body p, model_at cl am encl i cls p -> P encl i (CModel cls root body) (SProxy p).
  Hypothesis Hlist : forall encl i item t s, at_element_or_bare i -> stands_for defs item t ->
      list_item t -> (says_loc i = None -> bare_list_item t) -> shape cl ev defs am encl i t s -> P encl i t s ->
      P encl i (CList item) (SHomo (am_title am) (am_computed am) s (am_hide am)).
  Hypothesis Hvariadic : forall encl i item s, says_loc i <> Some LocWrapped -> shape cl ev defs am encl i (CList item) s -> P encl i (CList item) s -> P encl i (CTuple (Some 0) [item]) s.
  Hypothesis Htuple : forall encl i items ts l, at_element_or_bare i -> Forall2 (stands_for defs) items ts ->
      Forall tuple_item ts -> (says_loc i = None -> Forall bare_tuple_item ts) -> Forall2 (shape cl ev defs am encl i) ts l ->
      Forall2 (P encl i) ts l ->
      P encl i (CTuple None items) (SHetero (am_title am) (am_computed am) l (am_hide am)).
  Hypothesis Hnamed : forall encl i items s, says_loc i <> Some LocWrapped -> shape cl ev defs am encl i (CTuple None items) s -> P encl i (CTuple None items) s -> P encl i (CCall true items) s.
  Hypothesis Hdict : forall encl i k v tk tv s, stands_for defs k tk -> scalar tk -> stands_for defs v tv -> scalar tv ->
      mapping_at am encl i s -> P encl i (CDict k v) s.
  Hypothesis Htyped : forall encl i vs ts s, Forall2 (stands_for defs) vs ts -> Forall scalar ts ->
      mapping_at am encl i s -> P encl i (CTypedDict vs) s.
  Hypothesis Hunion : forall encl i choices ts s, Forall2 (stands_for defs) choices ts -> Forall stringlike ts ->
      Exists scalar ts -> string_at am encl i s -> P encl i (CUnion choices) (SUnionPrim (am_computed am) s).
  Hypothesis Hmodels : forall encl i choices vs, choices <> [] ->
      Forall2 (fun s p => exists cls root body, stands_for defs s (CModel cls root body) /\ model_at cl am encl i cls p) choices vs ->
      P encl i (CUnion choices) (SUnionModel (am_title am) (am_computed am) vs (am_hide am)).
  Hypothesis Htagged : forall encl i d a choices vs, choices <> [] -> Forall2 (variant_at cl ev defs am encl i d a) choices vs ->
      P encl i (CTagged (Some d) choices) (STagged (am_computed am) d a (dict_of vs) (am_mode am)).

  Fixpoint shape_ind' encl i t s (H : shape cl ev defs am encl i t s) {struct H} : P encl i t s.
  Proof.
    destruct H as [? ? ? ? ? ? ? H1 H2 H3 H4 H5|? ? ? ? H1 H2|? ? ? ? H1 H2 H3|? ? ? ? ? ? H1|? ? ? ? ? H1 H2 H3 H4 H5|? ? ? ? H0 H1
                  |? ? ? ? ? H1 H2 H3 H4 H5|? ? ? ? H0 H1|? ? ? ? ? ? ? H1 H2 H3 H4 H5|? ? ? ? ? H1 H2 H3|? ? ? ? ? H1 H2 H3 H4|? ? ? ? H1 H2|? ? ? ? ? ? H1 H2];
      [eapply Hwrap|eapply Hstring|eapply Hraw|eapply Hmodel|eapply Hlist|eapply Hvariadic|eapply Htuple|eapply Hnamed|eapply Hdict|eapply Htyped
      |eapply Hunion|eapply Hmodels|eapply Htagged]; eauto.
    clear H2 H3 H4. induction H5; constructor; auto.
  Qed.
End ShapeInd.

(** ---- stripping ---- *)

Lemma preprocess_flat : forall n s c s' c', (forall r t, dget r (cx_defs c) = Some t -> flat t) -> flat s ->
  preprocess n s c = Ok (s', c') -> cx_defs c' = cx_defs c /\ flat s'.
Proof.
  induction n as [|n IH]; intros s c s' c' HD Hs H; [discriminate|]; cbn [preprocess] in H.
  destruct s; cbn [family_of] in H; try (injection H as <- <-; auto; fail); try discriminate; inversion Hs; subst.
  - destruct (str_in ty prim_types); [injection H as <- <-|discriminate]; auto using fl_type.
  - apply IH in H; [|destruct k; auto|auto]. destruct H as [E F]. split; auto. rewrite E. destruct k; auto.
  - destruct ser as [s|]; [|discriminate]. apply IH in H; auto.
  - apply IH in H; auto.
  - destruct (dget ref (cx_defs c)) as [d|] eqn:D; [|discriminate]. apply IH in H; eauto.
Qed.

Lemma stands_fam : forall defs s t, stands_for defs s t -> exists f, family_of t = Some f /\ ~ In f [FMeta; FDefs; FRef; FJsonOrPython].
Proof. intros defs s t H; induction H; eauto. Qed.

Lemma stands_self : forall defs s t, stands_for defs s t -> stands_for defs t t.
Proof. intros defs s t H. destruct (stands_fam H) as (f & F & N). eapply sf_here; eauto. Qed.

Lemma family_scalar : forall t, is_family FPrim t = true <-> scalar t.
Proof.
  intros t. unfold is_family, scalar. split.
  - destruct t; cbn [family_of]; try discriminate. destruct (str_in ty prim_types) eqn:E; [intros _|intros X; discriminate X].
    exists ty. split; auto. unfold str_in in E. apply existsb_exists in E. destruct E as (x & I & E). apply String.eqb_eq in E. subst; auto.
  - intros (ty & -> & I). cbn [family_of]. replace (str_in ty prim_types) with true; [reflexivity|]. symmetry.
    unfold str_in. apply existsb_exists. exists ty. split; auto. apply String.eqb_refl.
Qed.

(** the item checks *)
Lemma list_item_ok : forall defs s t, stands_for defs s t ->
  (in_families t [FPrim; FModel; FMapping; FTyped; FUnion; FTagged; FIsInstance; FCall; FTuple] = true <-> list_item t) /\
  (in_families t [FModel; FUnion; FTagged; FTuple; FCall] = true <-> bare_list_item t).
Proof.
  intros defs s t H. destruct (stands_fam H) as (f & F & N). unfold in_families, is_family. rewrite F.
  destruct t; cbn [family_of] in F; try discriminate; try (injection F as <-; simpl in *; intuition congruence).
  destruct (str_in ty prim_types); [|discriminate]. injection F as <-. simpl. intuition congruence.
Qed.

Lemma tuple_item_ok : forall defs s t, stands_for defs s t ->
  (in_families t [FPrim; FModel; FMapping; FTyped; FUnion; FTagged; FIsInstance; FCall] = true <-> tuple_item t) /\
  (in_families t [FModel; FUnion] = true <-> bare_tuple_item t).
Proof.
  intros defs s t H. destruct (stands_fam H) as (f & F & N). unfold in_families, is_family. rewrite F.
  destruct t; cbn [family_of] in F; try discriminate; try (injection F as <-; simpl in *; intuition congruence).
  destruct (str_in ty prim_types); [|discriminate]. injection F as <-. simpl. intuition congruence.
Qed.

Section Sound.
  Variable cl : classes.
  Variable ev : env.
  Hypothesis Hcl : classes_ok cl.
  Variable defs : dict cschema.
  Hypothesis HD : forall r t, dget r defs = Some t -> flat t.

  (** contexts of the fields of a class with definitions [defs] *)
  Definition cok (c : ctx) : Prop := ctx_ok c /\ cx_defs c = defs.
  Definition shp (c : ctx) (t : cschema) (r : ser) : Prop := shape cl ev defs (amb c) (scopes c) (cx_info c) t r.
  Definition mns (c : ctx) (s : cschema) (r : ser) : Prop := means cl ev defs (amb c) (scopes c) (cx_info c) s r.

  Definition alike (c d : ctx) : Prop := like c d /\ cx_defs d = cx_defs c.

  Lemma alike_refl : forall c, alike c c.
  Proof. split; auto using like_refl. Qed.
  Lemma alike_trans : forall a b c, alike a b -> alike b c -> alike a c.
  Proof. intros a b c [L E] [L' E']. split; [eapply like_trans; eauto|congruence]. Qed.
  Lemma alike_cok : forall c d, alike c d -> cok c -> cok d.
  Proof. intros c d [L E] [O D]. split; [eapply like_ok; eauto|congruence]. Qed.
  Lemma alike_shp : forall c d t r, alike c d -> shp d t r -> shp c t r.
  Proof. unfold shp. intros c d t r [L _] H. rewrite (like_amb L), (like_scopes L), (like_info L). exact H. Qed.
  Lemma alike_mns : forall c d t r, alike c d -> mns d t r -> mns c t r.
  Proof. intros c d t r A (t' & S & H). exists t'. split; auto. eapply alike_shp; eauto. Qed.

  Lemma prep : forall n s c s' c', cok c -> flat s -> preprocess n s c = Ok (s', c') ->
    alike c c' /\ stands_for defs s s' /\ flat s'.
  Proof.
    intros n s c s' c' [Hc Hd] Fs H. pose proof (preprocess_like _ _ _ H) as L. pose proof (preprocess_stands _ _ _ H) as S.
    rewrite Hd in S. destruct (@preprocess_flat n s c s' c') as [E F]; auto. { rewrite Hd; auto. }
    split; [split; auto|auto].
  Qed.

  (** what [declared] says of the leaves, with the type added *)
  Lemma prim_string : forall c s, ctx_ok c -> build_prim c = Ok s -> string_at (amb c) (scopes c) (cx_info c) s.
  Proof.
    intros c s Hc H. pose proof (@prim_good cl c s Hc H) as G. unfold good in G. unfold build_prim in H.
    destruct (cx_location c) as [[| |]|] eqn:L; try discriminate.
    - unfold build_elem in H. destruct (entity_name c); [|discriminate]. destruct (uri_of _ _ _ _); try discriminate.
      injection H as <-. inversion G; subst. eapply sa_elem; eauto.
    - unfold build_attr in H. cbv zeta in H. destruct (match _ with Some _ => _ | None => _ end) in H; [discriminate|].
      destruct (entity_name c); [|discriminate]. destruct (uri_of _ _ _ _); try discriminate.
      injection H as <-. inversion G; subst. eapply sa_attr; eauto.
    - injection H as <-. rewrite nillable_says. apply (@sa_text (amb c)). exact L.
  Qed.

  Lemma mapping_mapping : forall c s, ctx_ok c -> build_mapping_at c = Ok s -> mapping_at (amb c) (scopes c) (cx_info c) s.
  Proof.
    intros c s Hc H. pose proof (@mapping_at_good cl c s Hc H) as G. unfold good in G. unfold build_mapping_at in H.
    destruct (cx_location c) as [[| |]|] eqn:L; try discriminate.
    - unfold build_map_elem in H. destruct (entity_name c); [|discriminate]. destruct (uri_of _ _ _ _); try discriminate.
      injection H as <-. inversion G; subst. eapply ma_elem; eauto.
    - injection H as <-. inversion G; subst. apply ma_attrs; auto.
  Qed.

  Lemma instance_shape : forall raw c s, ctx_ok c -> build_is_instance raw c = Ok s -> shp c (CIsInstance raw) s.
  Proof.
    intros [|] c s Hc H; simpl in H.
    - pose proof (@raw_good cl c s Hc H) as G. unfold good in G. unfold build_raw, build_raw_elem in H.
      assert (E : exists u, s = SRaw u (cx_mode c) (cx_computed c)).
      { destruct (cx_location c) as [[| |]|]; try discriminate; destruct (entity_name c); try discriminate;
          destruct (uri_of _ _ _ _); try discriminate; injection H as <-; eauto. }
      destruct E as (u & ->). inversion G; subst. eapply sh_raw; eauto.
    - apply sh_string; [right; auto|]. apply prim_string; auto.
  Qed.

  Lemma submodel_shape : forall cls c s, ctx_ok c -> build_submodel cl cls c = Ok s ->
    exists p, s = SProxy p /\ model_at cl (amb c) (scopes c) (cx_info c) cls p.
  Proof.
    intros cls c s Hc H. destruct (@submodel_good cl Hcl cls c s Hc H) as (A & p & -> & S). exists p. split; auto. split; auto. split; auto.
    unfold build_submodel, build_proxy in H. destruct (cl cls); [|destruct (cx_location c) as [[| |]|]; discriminate]. cbv zeta in H.
    destruct (cx_location c) as [[| |]|]; try discriminate; destruct (uri_of _ _ _ _); try discriminate; injection H as <-; reflexivity.
  Qed.

  Section Step.
    Variable rec : cschema -> ctx -> out ser.
    Variable n : nat.
    Hypothesis Hrec : forall s c r, cok c -> flat s -> rec s c = Ok r -> mns c s r.

    Lemma located' : forall c, (cx_location c = Some LocElement \/ cx_location c = None) -> at_element_or_bare (cx_info c).
    Proof. auto. Qed.

    Lemma homo_shape : forall s c r, cok c -> flat s -> build_homo rec n s c = Ok r -> shp c (CList s) r.
    Proof.
      intros s c r Hc Fs H. unfold build_homo, obind in H.
      destruct (preprocess n s c) as [[t d]| |] eqn:P; try discriminate.
      apply prep in P; auto. destruct P as (A & St & Ft). pose proof (alike_cok A Hc) as Hd.
      destruct (list_item_ok St) as [I1 I2].
      destruct (in_families t [FPrim; _; _; _; _; _; _; _; _]) eqn:E1; [|discriminate]. cbn [negb] in H.
      assert (X : (cx_location d = Some LocElement \/ cx_location d = None) /\ (cx_location d = None -> bare_list_item t) /\
                  exists inner, rec s d = Ok inner /\ r = SHomo (cx_model d) (cx_computed d) inner (cx_hide d)).
      { destruct (negb (in_families t [FModel; FUnion; FTagged; FTuple; FCall]) && match cx_location d with None => true | Some _ => false end) eqn:E2;
          [discriminate|].
        assert (B : cx_location d = None -> bare_list_item t).
        { intros N. rewrite N, andb_true_r in E2. apply negb_false_iff in E2. apply I2; auto. }
        clear E2. destruct (cx_location d) as [[| |]|]; try discriminate;
          (destruct (rec s d) as [inner| |]; [|discriminate|discriminate]); injection H as <-; eauto 6. }
      destruct X as (L & B & inner & R & ->). apply Hrec in R; auto. destruct R as (t' & St' & Sh).
      rewrite (stands_for_unique St' St) in Sh. apply (alike_shp A). eapply sh_list; [apply located'; exact L|exact St|apply I1; reflexivity|exact B|exact Sh].
    Qed.

    Lemma check_items_means : forall l c d, cok c -> Forall flat l -> check_items n l c = Ok d ->
      alike c d /\ exists ts, Forall2 (stands_for defs) l ts /\ Forall tuple_item ts /\ (cx_location c = None -> Forall bare_tuple_item ts).
    Proof.
      induction l as [|s l IH]; intros c d Hc F H; cbn [check_items] in H.
      - injection H as <-. split; [apply alike_refl|]. exists []. auto.
      - inversion F as [|? ? Fs Fl]; subst.
        destruct (preprocess n s c) as [[t e]| |] eqn:P; try discriminate. cbn [obind] in H.
        apply prep in P; auto. destruct P as (A & St & Ft). pose proof (alike_cok A Hc) as He.
        destruct (tuple_item_ok St) as [I1 I2].
        destruct (in_families t [FPrim; _; _; _; _; _; _; _]) eqn:E1; [|discriminate]. cbn [negb] in H.
        assert (Lc : cx_location c = cx_location e). { unfold cx_location. destruct A as [L _]. rewrite (like_info L). auto. }
        destruct (negb (in_families t [FModel; FUnion]) && _) eqn:E2; [discriminate|].
        apply IH in H; auto. destruct H as (A' & ts & F1 & F2 & F3). split; [eapply alike_trans; eauto|].
        exists (t :: ts). split; auto. split; [constructor; auto; tauto|]. intros N. constructor; [|apply F3; congruence].
        rewrite <- Lc, N, andb_true_r in E2. apply negb_false_iff in E2. tauto.
    Qed.

    Lemma hetero_shape : forall l c r, cok c -> Forall flat l -> build_hetero rec n l c = Ok r -> shp c (CTuple None l) r.
    Proof.
      intros l c r Hc F H. unfold build_hetero, obind in H.
      destruct (check_items n l c) as [d| |] eqn:P; try discriminate.
      apply check_items_means in P; auto. destruct P as (A & ts & F1 & F2 & F3). pose proof (alike_cok A Hc) as Hd.
      assert (Lc : cx_location c = cx_location d). { unfold cx_location. destruct A as [L _]. rewrite (like_info L). auto. }
      assert (X : (cx_location d = Some LocElement \/ cx_location d = None) /\ exists inners,
         omap (fun s => rec s d) l = Ok inners /\ r = SHetero (cx_model d) (cx_computed d) inners (cx_hide d)).
      { destruct (cx_location d) as [[| |]|] eqn:L; try discriminate; (split; [auto|]);
        (destruct (omap (fun s => rec s d) l) as [inners| |] eqn:E; [|discriminate|discriminate]); injection H as <-; eauto. }
      destruct X as (L & inners & O & ->). apply omap_Forall2 in O. apply (alike_shp A).
      eapply sh_tuple; [apply located'; exact L|exact F1|exact F2|intros N; apply F3; rewrite Lc; exact N|].
      clear - O F1 F Hrec Hd. revert inners O F. induction F1 as [|s t l ts St F1 IH]; intros inners O F; inversion O; subst; constructor.
      - match goal with R : rec s d = Ok _ |- _ => apply Hrec in R; [|auto|inversion F; auto]; destruct R as (t' & St' & Sh) end.
        rewrite (stands_for_unique St' St) in Sh. exact Sh.
      - apply IH; auto. inversion F; auto.
    Qed.

    Lemma tuple_shape : forall v l c r, cok c -> cx_location c <> Some LocWrapped -> Forall flat l -> build_tuple rec n v l c = Ok r -> shp c (CTuple v l) r.
    Proof.
      intros v l c r Hc NW F H. destruct v as [[|v]|]; simpl in H; try discriminate.
      - destruct l as [|s [|]]; try discriminate. inversion F; subst. apply sh_variadic; [exact NW|]. apply homo_shape; auto.
      - apply hetero_shape; auto.
    Qed.

    Lemma all_prim_means : forall l c, cok c -> Forall flat l -> all_prim n l c = Ok tt ->
      exists ts, Forall2 (stands_for defs) l ts /\ Forall scalar ts.
    Proof.
      induction l as [|s l IH]; intros c Hc F H; cbn [all_prim] in H; [exists []; auto|]. inversion F; subst.
      destruct (preprocess n s c) as [[t e]| |] eqn:P; try discriminate. cbn [obind] in H.
      apply prep in P; auto. destruct P as (A & St & Ft).
      destruct (is_family FPrim t) eqn:E; [|discriminate]. apply family_scalar in E. cbn [negb] in H.
      apply IH in H; auto. destruct H as (ts & F1 & F2). exists (t :: ts). auto.
    Qed.

    (** the loop over the choices of a union *)
    Lemma choices_means : forall l c fs d, cok c -> Forall flat l -> choice_families n l c = Ok (fs, d) ->
      alike c d /\ exists ts, Forall2 (stands_for defs) l ts /\ Forall2 (fun t f => family_of t = Some f) ts fs /\
        Forall (fun f => In f [FPrim; FIsInstance; FModel]) fs.
    Proof.
      induction l as [|s l IH]; intros c fs d Hc F H; simpl in H.
      - injection H as <- <-. split; [apply alike_refl|]. exists []. auto.
      - inversion F; subst. destruct (preprocess n s c) as [[t e]| |] eqn:P; try discriminate. simpl in H.
        apply prep in P; auto. destruct P as (A & St & Ft). pose proof (alike_cok A Hc) as He.
        destruct (family_of t) as [f|] eqn:Ef; [|discriminate].
        assert (X : In f [FPrim; FIsInstance; FModel] /\ exists fs', choice_families n l e = Ok (fs', d) /\ fs = f :: fs').
        { destruct f; try discriminate; (destruct (choice_families n l e) as [[fs' d']| |]; [|discriminate|discriminate]);
            simpl in H; injection H as <- <-; simpl; eauto 8. }
        destruct X as (I & fs' & C & ->). apply IH in C; auto. destruct C as (A' & ts & F1 & F2 & F3).
        split; [eapply alike_trans; eauto|]. exists (t :: ts). auto.
    Qed.

    Lemma has_exists : forall f fs, existsb (family_eqb f) fs = true <-> In f fs.
    Proof.
      intros f fs. rewrite existsb_exists. split.
      - intros (g & I & E). destruct f, g; try discriminate; auto.
      - intros I. exists f. split; auto. destruct f; reflexivity.
    Qed.

    Lemma not_has : forall f fs, existsb (family_eqb f) fs = false -> ~ In f fs.
    Proof. intros f fs E I. apply has_exists in I. congruence. Qed.

    Definition string_kind (s : ser) : Prop := match s with SText _ _ | SAttr _ _ | SElem _ _ _ _ _ => True | _ => False end.

    Lemma string_at_kind : forall am encl i s, string_at am encl i s -> string_kind s.
    Proof. intros am encl i s H; destruct H; exact I. Qed.

    Lemma scalar_shape : forall am encl i t r, shape cl ev defs am encl i t r -> says_loc i <> Some LocWrapped -> scalar t ->
      string_at am encl i r.
    Proof. intros am encl i t r H N (ty & -> & I). inversion H; subst; auto; congruence. Qed.

    Lemma union_shape : forall l c r, cok c -> cx_location c <> Some LocWrapped -> Forall flat l -> build_union rec n l c = Ok r -> shp c (CUnion l) r.
    Proof.
      intros l c r Hc NW F H. unfold build_union, obind in H.
      destruct (choice_families n l c) as [[fs d]| |] eqn:C; try discriminate.
      apply choices_means in C; auto. destruct C as (A & ts & F1 & F2 & F3). pose proof (alike_cok A Hc) as Hd. apply (alike_shp A).
      assert (Lc : cx_location c = cx_location d). { unfold cx_location. destruct A as [L _]. rewrite (like_info L). auto. }
      rewrite Lc in NW. change (says_loc (cx_info d) <> Some LocWrapped) in NW.
      cbv zeta in H. destruct fs as [|f fs]; [discriminate|].
      destruct ((existsb (family_eqb FPrim) (f :: fs) || existsb (family_eqb FIsInstance) (f :: fs)) && existsb (family_eqb FModel) (f :: fs)) eqn:Mix; [discriminate|].
      assert (Nl : l <> []) by (intros ->; inversion F1; subst; inversion F2).
      destruct (existsb (family_eqb FModel) (f :: fs)) eqn:HM.
      - rewrite andb_true_r in Mix. apply orb_false_iff in Mix. destruct Mix as [M1 M2]. apply not_has in M1, M2.
        unfold build_union_model in H. destruct (omap (fun s => obind (rec s d) as_proxy) l) as [vs| |] eqn:O; try discriminate.
        apply omap_Forall2 in O. simpl in H. destruct vs as [|v vs]; [discriminate|]. injection H as <-.
        apply (@sh_models cl ev defs (amb d)); auto.
        assert (AM : Forall (fun t => exists cls root body, t = CModel cls root body) ts).
        { clear - F2 F3 M1 M2. induction F2 as [|t g ts gs E F2 IH]; constructor.
          - inversion F3 as [|? ? I F3']; subst. simpl in I, M1, M2. destruct I as [<-|[<-|[<-|[]]]]; try tauto.
            destruct t; cbn [family_of] in E; try discriminate; eauto. destruct (str_in ty prim_types); discriminate.
          - apply IH; [inversion F3; auto| |]; simpl in *; tauto. }
        clear - O F1 AM F Hrec Hd NW. revert v vs O F. revert AM.
        assert (Q : forall vs, Forall flat l -> Forall (fun t => exists cls root body, t = CModel cls root body) ts ->
          Forall2 (fun s p => obind (rec s d) as_proxy = Ok p) l vs ->
          Forall2 (fun s p => exists cls root body, stands_for defs s (CModel cls root body) /\
             model_at cl (amb d) (scopes d) (cx_info d) cls p) l vs).
        { induction F1 as [|s t l ts St F1 IH]; intros vs F AM O; inversion O; subst; constructor.
          - inversion AM as [|? ? (cls & root & body & ->) AM']; subst. inversion F; subst.
            match goal with R : obind (rec s d) as_proxy = Ok _ |- _ => destruct (rec s d) as [x| |] eqn:R1; try discriminate; simpl in R;
              destruct x; try discriminate; injection R as -> end.
            apply Hrec in R1; auto. destruct R1 as (t' & St' & Sh). rewrite (stands_for_unique St' St) in Sh.
            exists cls, root, body. split; auto. inversion Sh; subst; auto.
            + exfalso. match goal with K : string_at _ _ _ _ |- _ => apply string_at_kind in K; exact K end.
          - apply IH; inversion F; inversion AM; auto. }
        intros AM v vs O F. apply Q; auto.
      - destruct (existsb (family_eqb FPrim) (f :: fs)) eqn:HP; [|discriminate]. apply not_has in HM. apply has_exists in HP.
        unfold build_union_prim, obind in H. destruct (omap (fun s => rec s d) l) as [inners| |] eqn:O; try discriminate.
        apply omap_Forall2 in O. destruct inners as [|x rest]; [discriminate|].
        destruct (forallb _ rest) eqn:K; [|discriminate]. injection H as <-.
        assert (SH : Forall2 (fun t r => shp d t r) ts (x :: rest)).
        { clear - O F1 F Hrec Hd. revert O. generalize (x :: rest) as rs. revert F.
          induction F1 as [|s t l ts St F1 IH]; intros F rs O; inversion O; subst; constructor.
          - inversion F; subst. match goal with R : rec s d = Ok _ |- _ => apply Hrec in R; auto; destruct R as (t' & St' & Sh) end.
            rewrite (stands_for_unique St' St) in Sh. exact Sh.
          - apply IH; auto. inversion F; auto. }
        assert (KK : Forall (fun s => kind s = kind x) (x :: rest)).
        { constructor; auto. rewrite forallb_forall in K. apply Forall_forall. intros s I. apply Nat.eqb_eq. auto. }
        (* some choice is a scalar, so all have a string's kind *)
        assert (SC : exists t r, In (t, r) (combine ts (x :: rest)) /\ scalar t).
        { clear - F2 HP SH. revert SH. generalize (x :: rest) as rs. revert HP. induction F2 as [|t g ts gs E F2 IH]; intros HP rs SH; [destruct HP|].
          inversion SH as [|? r ? rs' S1 S2]; subst. destruct HP as [->|HP].
          - exists t, r. split; [left; auto|]. apply family_scalar. unfold is_family. rewrite E. reflexivity.
          - destruct (IH HP _ S2) as (t' & r' & I & Q). exists t', r'. split; auto. right; auto. }
        destruct SC as (t0 & r0 & I0 & S0).
        assert (SR : string_kind r0 /\ kind r0 = kind x).
        { split.
          - assert (S1 : shp d t0 r0). { clear - I0 SH. revert I0. induction SH; simpl; intros I0; [destruct I0|]. destruct I0 as [[= <- <-]|I0]; auto. }
            eapply string_at_kind. eapply scalar_shape; eauto.
          - rewrite Forall_forall in KK. apply KK. apply in_combine_r in I0. exact I0. }
        assert (AS : Forall stringlike ts).
        { clear - SH F2 F3 HM KK SR NW.
          assert (Q : forall t f, family_of t = Some f -> In f [FPrim; FIsInstance; FModel] -> f <> FModel ->
                      forall r, shp d t r -> kind r = kind x -> stringlike t).
          { intros t f' E I Nf r S1 Kr. simpl in I. destruct I as [<-|[<-|[<-|[]]]]; try congruence.
            - left. apply family_scalar. unfold is_family. rewrite E. reflexivity.
            - destruct t; cbn [family_of] in E; try discriminate; [destruct (str_in ty prim_types); discriminate|].
              destruct raw; [|right; auto]. exfalso. destruct SR as [SR Kx]. unfold shp in S1. inversion S1; subst; try congruence.
              + match goal with Q : stringlike (CIsInstance true) |- _ => destruct Q as [(ty & Q & _)|Q]; discriminate end.
              + simpl in Kr. destruct r0; simpl in *; try contradiction; congruence. }
          revert SH KK. generalize (x :: rest) as rs. revert F3 HM. induction F2 as [|t g ts gs E F2 IH]; intros F3 HM rs SH KK; constructor.
          - inversion F3; subst. inversion SH; subst. inversion KK; subst. eapply Q; eauto. intros ->. apply HM; left; auto.
          - inversion F3; inversion SH; subst. inversion KK; subst. eapply IH; eauto. intros I; apply HM; right; auto. }
        eapply sh_union; eauto.
        + apply Exists_exists. exists t0. split; auto. apply in_combine_l in I0. exact I0.
        + inversion SH as [|t1 ? ts1 ? S1 S2]; subst. inversion AS as [|? ? St1 ?]; subst. unfold shp in S1. inversion S1; subst; auto;
            try congruence; try (destruct St1 as [(ty & Q & _)|Q]; discriminate).
    Qed.

    Lemma tagged_shape : forall disc l c r, cok c -> cx_location c <> Some LocWrapped -> Forall (fun kv => flat (snd kv)) l ->
      build_tagged ev rec n disc l c = Ok r -> shp c (CTagged disc l) r.
    Proof.
      intros disc l c r Hc NW F H. unfold build_tagged, obind in H.
      destruct (check_tagged n l c) as [d| |] eqn:C; try discriminate.
      assert (X : alike c d /\ Forall (fun kv => exists cls body, stands_for defs (snd kv) (CModel cls false body)) l).
      { clear H. revert c C Hc NW. induction l as [|[t s] l IH]; intros c C Hc NW; simpl in C; [injection C as <-; split; auto using alike_refl|].
        inversion F; subst. destruct (preprocess n s c) as [[i e]| |] eqn:P; try discriminate. simpl in C.
        apply prep in P; auto. destruct P as (A & St & Ft). destruct i; try discriminate. destruct root; try discriminate.
        apply IH in C; auto; [|eapply alike_cok; eauto|].
        - destruct C as [A' F']. split; [eapply alike_trans; eauto|]. constructor; auto. simpl. eauto.
        - unfold cx_location in *. destruct A as [L _]. rewrite <- (like_info L). exact NW. }
      destruct X as [A FM]. pose proof (alike_cok A Hc) as Hd. apply (alike_shp A).
      assert (NW' : cx_location d <> Some LocWrapped). { unfold cx_location in *. destruct A as [L _]. rewrite <- (like_info L). exact NW. }
      change (says_loc (cx_info d) <> Some LocWrapped) in NW'.
      destruct disc as [disc|]; [|discriminate].
      destruct (build_variants ev rec disc l d None []) as [[a vs]| |] eqn:V; try discriminate.
      destruct a as [a|]; [|discriminate]. injection H as <-.
      assert (Y : forall l a0 acc a vs, Forall (fun kv => flat (snd kv)) l ->
        Forall (fun kv => exists cls body, stands_for defs (snd kv) (CModel cls false body)) l ->
        build_variants ev rec disc l d a0 acc = Ok (a, vs) ->
        exists new, vs = fold_left (fun m kv => dset (fst kv) (snd kv) m) new acc /\
          (l = [] -> a = a0) /\ (forall b, a0 = Some b -> a = Some b) /\
          forall b, a = Some b -> Forall2 (variant_at cl ev defs (amb d) (scopes d) (cx_info d) disc b) l new).
      { clear - Hrec Hd NW'. induction l as [|[[t|] s] l IH]; intros a0 acc a vs F FM H; simpl in H; try discriminate.
        - injection H as <- <-. exists []. auto.
        - destruct (rec s d) as [x| |] eqn:R; try discriminate. simpl in H. destruct x; try discriminate. simpl in H.
          inversion F; subst. inversion FM as [|? ? (cls & body & St) FM']; subst. simpl in *.
          apply Hrec in R; auto. destruct R as (t' & St' & Sh). rewrite (stands_for_unique St' St) in Sh.
          assert (MA : model_at cl (amb d) (scopes d) (cx_info d) cls p).
          { inversion Sh; subst; auto. exfalso. match goal with K : string_at _ _ _ _ |- _ => apply string_at_kind in K; exact K end. }
          assert (Em : px_model p = cls) by (destruct MA as (_ & E & _); exact E). rewrite Em in H.
          destruct (en_model ev cls) as [m|] eqn:EM; [|discriminate].
          destruct (md_root m) eqn:RM; [discriminate|].
          destruct (dget disc (md_fields m)) as [[]|] eqn:DF; try discriminate.
          assert (Z : build_variants ev rec disc l d (Some name) (dset t p acc) = Ok (a, vs) /\ (forall b, a0 = Some b -> name = b)).
          { destruct a0 as [b|]; [|split; auto; discriminate]. destruct (String.eqb_spec name b) as [->|]; [|discriminate]. split; auto.
            intros ? [= <-]. auto. }
          destruct Z as [H' Nb]. apply IH in H'; auto. destruct H' as (new & -> & _ & Ka & Fv). specialize (Ka _ eq_refl).
          exists ((t, p) :: new). split; [reflexivity|]. split; [discriminate|]. split.
          + intros b ->. rewrite <- (Nb b eq_refl). exact Ka.
          + intros b Eb. constructor; auto. split; auto. simpl. rewrite Ka in Eb. injection Eb as <-.
            exists cls, body, m, computed. auto. }
      destruct (Y l None [] (Some a) vs F FM V) as (new & -> & Nl & _ & Fv).
      apply (@sh_tagged cl ev defs (amb d)); auto.
      intros ->. specialize (Nl eq_refl). discriminate.
    Qed.

    Lemma select_shape : forall s c r, cok c -> stands_for defs s s -> flat s -> select cl ev rec n s c = Ok r -> shp c s r.
    Proof.
      intros s c r Hc Ss Fs H. unfold select in H.
      destruct (family_of s) eqn:Fam; [|discriminate].
      destruct (cx_location c) as [[| |]|] eqn:L.
      3: { unfold build_wrap in H. destruct (cx_path c) as [path|] eqn:P; [|discriminate].
           destruct (rec s (child_wrapped c)) as [inner| |] eqn:E; try discriminate. simpl in H.
           destruct (omap _ _) as [parts| |] eqn:O in H; try discriminate. injection H as <-.
           assert (Hw : cok (child_wrapped c)).
           { destruct Hc as [(Hf & Hi & Hp) Hd]. split; [|exact Hd]. repeat split; simpl; auto.
             unfold cx_wrapped, of_info. destruct (cx_info c) as [[lo pa nsx mm ni [w|]]|]; simpl in *; tauto. }
           apply Hrec in E; auto. destruct E as (t & St & Sh). rewrite (stands_for_unique St Ss) in Sh.
           eapply sh_wrap; eauto.
           - apply omap_Forall2 in O. clear - O Hc. destruct Hc as [Hc _]. induction O; constructor; auto. apply element_named; auto.
           - intros p. simpl. apply entity_nsmap_says. apply Hc. }
      1,2,3: assert (NW : cx_location c <> Some LocWrapped) by (rewrite L; discriminate);
        destruct s; try discriminate; inversion Fs; subst;
        [ apply sh_string; [left; apply family_scalar; unfold is_family; rewrite Fam; cbn [family_of] in Fam; destruct (str_in ty prim_types); [injection Fam as <-; reflexivity|discriminate]|apply prim_string; [apply Hc|auto]]
        | apply instance_shape; [apply Hc|auto]
        | apply submodel_shape in H; [|apply Hc]; destruct H as (p & -> & M); apply sh_model; auto
        | apply homo_shape; auto
        | apply tuple_shape; auto
        | unfold build_mapping, obind in H; destruct (preprocess n s1 c) as [[k ck]| |] eqn:P1; try discriminate;
          destruct (preprocess n s2 c) as [[v cv]| |] eqn:P2; try discriminate;
          destruct (is_family FPrim k) eqn:E1; [|discriminate]; destruct (is_family FPrim v) eqn:E2; [|discriminate];
          apply prep in P1; auto; apply prep in P2; auto; destruct P1 as (_ & S1 & _); destruct P2 as (_ & S2 & _);
          apply family_scalar in E1, E2; eapply sh_dict; eauto; apply mapping_mapping; [apply Hc|exact H]
        | unfold build_typed_mapping, obind in H; destruct (all_prim n values c) as [[]| |] eqn:E; try discriminate;
          apply all_prim_means in E; auto; destruct E as (ts & F1 & F2); eapply sh_typed; eauto; apply mapping_mapping; [apply Hc|exact H]
        | apply union_shape; auto
        | apply tagged_shape; auto
        | destruct tuple_class; [|discriminate]; apply sh_named_tuple; [exact NW|]; apply hetero_shape; auto ].
    Qed.
  End Step.

  Lemma parse_means : forall n s c r, cok c -> flat s -> parse cl ev n s c = Ok r -> mns c s r.
  Proof.
    induction n as [|n IH]; intros s c r Hc Fs H; [discriminate|]. simpl in H.
    destruct (preprocess n s c) as [[s' d]| |] eqn:P; try discriminate. simpl in H.
    apply prep in P; auto. destruct P as (A & St & Ft). exists s'. split; auto. apply (alike_shp A).
    eapply select_shape; [|eapply alike_cok; eauto|eapply stands_self; eauto|auto|exact H]. exact IH.
  Qed.
End Sound.
