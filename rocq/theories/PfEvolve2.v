(** PfEvolve2.v -- what the new classes write is what the old ones write, and new pieces (C85). *)

From Verif Require Import Base Elem Native Errs Names Ser SpecStray SpecOut SpecAttrs SpecTail SpecEvolve PfOut PfOut2 PfEvolve.

Local Ltac inv H := inversion H; subst; clear H.

Lemma asks_looks : forall U W M ev, env_asks U W M ev -> env_looks U W ev.
Proof.
  intros U W M ev H cls m E. destruct (H cls m E) as [F _]. clear H E.
  assert (P : forall s, asks U W M s -> looks_for U W s).
  { fix P 2. intros s A. destruct A; constructor; auto;
      repeat match goal with X : proxy_asks _ _ _ |- _ => destruct X; auto end.
    - clear - H P. induction H; constructor; auto.
    - clear - H. induction H as [|? ? []]; constructor; auto.
    - clear - H. induction H as [|? ? []]; constructor; auto. }
  eapply Forall_impl; [|exact F]. auto.
Qed.

(** ---- the pieces of fields without wrappers ---- *)

Lemma child_flat : forall fl d ps, as_child fl d ps -> Forall (flat false) ps.
Proof. intros fl d ps H; inv H; repeat constructor. Qed.

Lemma content_flat : forall late ni v t, Forall (flat late) (content ni v t).
Proof. intros late ni v t. unfold content. destruct ni, v; repeat constructor. Qed.

Lemma flat_writes : forall ev,
  (forall fl s v enc ps, writes ev fl s v enc ps -> (forall t, ~ step_of t s) -> Forall (flat false) ps) /\
  (forall fl s vs encs ps, writes_items ev fl s vs encs ps -> (forall t, ~ step_of t s) -> Forall (flat false) ps) /\
  (forall fl l vs encs ps, writes_tuple ev fl l vs encs ps -> (forall s t, In s l -> ~ step_of t s) -> Forall (flat false) ps) /\
  (forall fl p v enc ps, writes_sub ev fl p v enc ps -> Forall (flat false) ps) /\
  (forall fl m v enc ps, writes_model ev fl m v enc ps -> True) /\
  (forall fl m fs v enc ps, writes_fields ev fl m fs v enc ps -> (forall f t, In f fs -> ~ step_of t (snd f)) -> Forall (flat false) ps).
Proof.
  intros ev. apply writes_all; intros; auto;
    repeat match goal with H : as_child _ _ _ |- _ => apply child_flat in H end; auto using content_flat; try (repeat constructor; fail).
  - apply H1. intros t0 X. apply (H2 t0). constructor; auto.
  - apply H2. intros s0 t0 I X. apply (H3 t0). econstructor; eauto.
  - apply H0. intros t0 X. apply (H1 t0). constructor; auto.
  - destruct path as [|t0 path]; simpl.
    + apply H2. intros t0 X. apply (H3 t0). apply so_wrap; auto.
    + exfalso. apply (H3 t0). apply so_path. simpl; auto.
  - apply Forall_app; auto.
  - apply Forall_app; split; [apply H0|apply H2]; intros; apply H3; simpl; auto.
  - apply H1. intros; apply H2; simpl; auto.
  - apply H3. intros; apply H4; simpl; auto.
  - apply Forall_app; split; [apply H4|apply H6].
    + intros t. apply (H7 (name, s)); simpl; auto.
    + intros; apply H7; simpl; auto.
Qed.

(** inline fields *)
Lemma inline_writes : forall ev,
  (forall fl s v enc ps, writes ev fl s v enc ps -> inline s -> Forall (flat true) ps) /\
  (forall fl s vs encs ps, writes_items ev fl s vs encs ps -> True) /\
  (forall fl l vs encs ps, writes_tuple ev fl l vs encs ps -> True) /\
  (forall fl p v enc ps, writes_sub ev fl p v enc ps -> True) /\
  (forall fl m v enc ps, writes_model ev fl m v enc ps -> True) /\
  (forall fl m fs v enc ps, writes_fields ev fl m fs v enc ps -> (forall f, In f fs -> inline (snd f)) -> Forall (flat true) ps).
Proof.
  intros ev. apply writes_all; intros; auto; try (match goal with X : inline _ |- _ => inv X end); auto using content_flat; try (repeat constructor; fail).
  - apply H1. intros; apply H2; simpl; auto.
  - apply H3. intros; apply H4; simpl; auto.
  - apply Forall_app; split; [apply H4|apply H6].
    + apply (H7 (name, s)); simpl; auto.
    + intros; apply H7; simpl; auto.
Qed.

(** ---- the pieces of new fields ---- *)

Lemma extra_child : forall U fl d t ps, draft_tag d = Some t -> U t = true -> as_child fl d ps -> Forall (extra U) ps.
Proof. intros U fl d t ps E Ut H; inv H; repeat constructor. simpl; eauto. Qed.

Lemma extra_writes : forall U ev,
  (forall fl s v enc ps, writes ev fl s v enc ps -> new_child U s -> Forall (extra U) ps) /\
  (forall fl s vs encs ps, writes_items ev fl s vs encs ps -> new_child U s -> Forall (extra U) ps) /\
  (forall fl l vs encs ps, writes_tuple ev fl l vs encs ps -> Forall (new_child U) l -> Forall (extra U) ps) /\
  (forall fl p v enc ps, writes_sub ev fl p v enc ps -> U (px_name p) = true -> Forall (extra U) ps) /\
  (forall fl m v enc ps, writes_model ev fl m v enc ps -> True) /\
  (forall fl m fs v enc ps, writes_fields ev fl m fs v enc ps -> True).
Proof.
  intros U ev. apply writes_all; intros; auto;
    repeat match goal with H : puts _ (fresh _ _) = Some _ |- _ => apply puts_tag in H end;
    try (solve [apply Forall_app; auto]);
    try match goal with H : new_child U _ |- _ => inv H end; eauto using extra_child, Forall_app;
    try (match goal with H : Forall (new_child U) (_ :: _) |- _ => inv H end); try (apply Forall_app; auto; fail).
  - match goal with X : U (px_name p) = true -> _ |- _ => apply X end. match goal with H : Forall _ (before ++ _) |- _ => apply Forall_app in H; destruct H as [_ H]; inv H; auto end.
  - match goal with X : U (px_name p) = true -> _ |- _ => apply X end. match goal with H : Forall _ vs |- _ => rewrite Forall_forall in H; apply (H (tag, p)) end. apply dget_Some_in; auto.
  - simpl. repeat constructor; auto.
  - repeat constructor; simpl; eauto.
Qed.

(** ---- values without the new fields ---- *)

Lemma trimmed_none : forall ev U s v enc v' enc', trimmed ev U s v enc v' enc' -> (v = VNone <-> v' = VNone).
Proof.
  intros ev U s v enc v' enc' H; induction H; split; intros E; subst; try discriminate; auto; tauto.
Qed.

Section Sim.
  Variables (U : string -> bool) (A : string -> string -> bool) (T W : string -> bool) (late : bool) (new : string -> string -> bool) (ev ev' : env).
  Hypothesis HE : evolved U A new ev ev'.
  Hypothesis HN : names_apart T W ev.
  Hypothesis HU : env_looks U W ev.
  Hypothesis HL : late = true -> env_appended new ev'.

  Notation drel := (drel U A T W late).
  Notation prel := (prel U A T W late).
  Notation mixed := (mixed U A T W late).

  (** a sub-model of an old class *)
  Definition old_proxy (p : proxy) : Prop :=
    U (px_name p) = false /\ T (px_name p) = false /\ W (px_name p) = false /\ element_of ev (px_model p) (px_name p).

  (** a serializer of an old class *)
  Definition old_ser (s : ser) : Prop :=
    looks_for U W s /\ (forall p, holds p s -> old_proxy p) /\ (forall t, step_of t s -> T t = true /\ W t = false).

  Lemma old_field : forall cls m name s, en_model ev cls = Some m -> In (name, s) (md_fields m) -> old_ser s.
  Proof.
    intros cls m name s Em I. pose proof (HU cls Em) as F. rewrite Forall_forall in F. specialize (F _ I). simpl in F.
    destruct HN as [N1 N2]. destruct (N2 _ _ _ _ Em I) as [N3 N4].
    split; [auto|split; [|auto]]. intros p Hp.
    assert (E : element_of ev (px_model p) (px_name p)) by (eapply eo_field; eauto).
    split; [|split; [auto|split; [eapply N1; eauto|auto]]].
    clear - F Hp. induction Hp; inv F; auto.
    - rewrite Forall_forall in *; eauto.
    - match goal with X : Forall _ vs |- _ => rewrite Forall_forall in X; exact (X _ H) end.
    - match goal with X : Forall _ vs |- _ => rewrite Forall_forall in X; exact (X _ H) end.
  Qed.

  Ltac old_sub := match goal with X : old_ser _ |- old_ser _ =>
    let a := fresh in let b := fresh in let c := fresh in destruct X as (a & b & c); inv a; split; [auto|split; intros; [apply b|apply c]; solve [eapply so_wrap; eauto | econstructor; eauto]] end.

  Lemma kept_child : forall fl d ps, fl_skip_empty fl = false -> as_child fl d ps -> ps = [PChild d].
  Proof. intros fl d ps F H; inv H; auto; congruence. Qed.

  Lemma keep_child : forall fl d, fl_skip_empty fl = false -> as_child fl d [PChild d].
  Proof. intros fl d F. constructor. intros [X _]; congruence. Qed.

  Lemma content_leaf : forall ni v t name ns d, puts (content ni v t) (fresh name ns) = Some d -> exists text a, d = Draft name ns text a [].
  Proof. intros ni v t name ns d H. unfold content in H. destruct ni, v; injection H as <-; eauto. Qed.

  Lemma content_prel : forall ni v t, Forall2 prel (content ni v t) (content ni v t).
  Proof. intros ni v t. unfold content. destruct ni, v; repeat constructor. Qed.

  Definition instance_of (p : proxy) (v enc v' enc' : val) : Prop :=
    v = VNone /\ v' = VNone /\ en_model ev (px_model p) <> None \/ v' <> VNone /\ trimmed_instance ev U (px_model p) v enc v' enc'.

  Lemma nested_prel : forall path ns ps ps', (forall t, In t path -> T t = true /\ W t = false /\ U t = false) -> Forall2 prel ps ps' ->
    Forall2 prel (nested path ns ps) (nested path ns ps').
  Proof.
    intros path ns ps ps' H F; induction path as [|t path IH]; simpl; auto. constructor; [|constructor].
    destruct (H t) as (a & b & c); simpl; auto. constructor; auto. apply IH. intros; apply H; simpl; auto.
  Qed.

  Lemma appended_tail : forall newc f (fs : list (string * ser)), appended newc (f :: fs) -> appended newc fs.
  Proof. intros newc f fs H before g behind E. apply (H (f :: before)). rewrite E; auto. Qed.

  Lemma evolved_old : forall N newc fs fs' g, evolved_fields U N newc fs fs' -> In g fs -> In g fs' /\ newc (fst g) = false.
  Proof.
    intros N newc fs fs' g H; induction H; simpl; intros I; try contradiction; try (destruct (IHevolved_fields I); auto; fail).
    destruct I as [<-|I]; auto. destruct (IHevolved_fields I); auto.
  Qed.

  Lemma new_not_inline : forall s, new_child U s -> ~ inline s.
  Proof. intros s H I. induction I; inv H; auto. Qed.

  Lemma evolved_writes :
    (forall fl s v' enc' ps', writes ev' fl s v' enc' ps' -> fl_skip_empty fl = false -> old_ser s ->
       forall v enc, trimmed ev U s v enc v' enc' -> exists ps, writes ev fl s v enc ps /\ Forall2 prel ps ps') /\
    (forall fl s vs' encs' ps', writes_items ev' fl s vs' encs' ps' -> fl_skip_empty fl = false -> old_ser s ->
       forall l l', vs' = map fst l' -> encs' = map snd l' ->
       Forall2 (fun a b : val * val => trimmed ev U s (fst a) (snd a) (fst b) (snd b)) l l' ->
       exists ps, writes_items ev fl s (map fst l) (map snd l) ps /\ Forall2 prel ps ps') /\
    (forall fl ss vs' encs' ps', writes_tuple ev' fl ss vs' encs' ps' -> fl_skip_empty fl = false -> Forall old_ser ss ->
       forall vs encs, trimmed_members ev U ss vs encs vs' encs' ->
       exists ps, writes_tuple ev fl ss vs encs ps /\ Forall2 prel ps ps') /\
    (forall fl p v' enc' ps', writes_sub ev' fl p v' enc' ps' -> fl_skip_empty fl = false -> old_proxy p ->
       forall v enc, instance_of p v enc v' enc' -> exists ps, writes_sub ev fl p v enc ps /\ Forall2 prel ps ps') /\
    (forall fl m' v' enc' ps', writes_model ev' fl m' v' enc' ps' -> fl_skip_empty fl = false ->
       forall cls m tag v enc, en_model ev cls = Some m -> evolved_class U A ev (new cls) cls m m' -> (late = true -> appended (new cls) (md_fields m')) -> element_of ev cls tag ->
       trimmed_instance ev U cls v enc v' enc' -> exists ps, writes_model ev fl m v enc ps /\ mixed tag ps ps') /\
    (forall fl m' fs' v' enc' ps', writes_fields ev' fl m' fs' v' enc' ps' -> fl_skip_empty fl = false ->
       forall N newc m fs tag c attrs set d attrs' set' d', v' = VModel c attrs' set' -> enc' = VDict d' ->
       evolved_fields U N newc fs fs' -> (late = true -> appended newc fs') -> (forall n, N n = true -> A tag n = false) ->
       (forall f, newc f = false -> (In f (md_sexclude m') <-> In f (md_sexclude m))) ->
       (forall name s, In (name, s) fs -> old_ser s /\ trimmed_field ev U m name s attrs d attrs' d' /\ (In name set <-> In name set')) ->
       exists ps, writes_fields ev fl m fs (VModel c attrs set) (VDict d) ps /\ mixed tag ps ps').
  Proof.
    apply writes_all; intros;
      try match goal with X : trimmed _ _ (SText _ _) _ _ _ _ |- _ => inv X; try contradiction end;
      try match goal with X : trimmed _ _ (SAttr _ _) _ _ _ _ |- _ => inv X; try contradiction end;
      try match goal with X : trimmed _ _ (SElem _ _ _ _ _) _ _ _ _ |- _ => inv X; try contradiction end;
      try match goal with X : trimmed _ _ (SAttrs _) _ _ _ _ |- _ => inv X; try contradiction end;
      try match goal with X : trimmed _ _ (SMapElem _ _ _) _ _ _ _ |- _ => inv X; try contradiction end;
      try congruence.
    - (* omitted *) exists []. split; [|constructor]. apply w_omitted; auto. destruct H0 as [-> ?]. apply trimmed_none in H3. destruct H3 as [_ X]. rewrite (X eq_refl). split; auto.
    - eexists. split; [apply w_text; eauto|apply content_prel].
    - eexists. split; [apply w_attr; eauto|]. repeat constructor.
    - match goal with X : puts _ _ = Some d |- _ => destruct (content_leaf _ _ _ _ _ X) as (tx & a & ->) end.
      match goal with X : as_child _ _ _, F : fl_skip_empty fl = false |- _ => rewrite (kept_child F X) end.
      exists [PChild (Draft name ns tx a [])]. split; [eapply w_elem; eauto using keep_child|].
      repeat constructor. match goal with X : old_ser _ |- _ => destruct X as [X _]; inv X; auto end.
    - exists []. split; [apply w_no_mapping|constructor].
    - eexists. split; [eapply w_mapping; eauto|]. repeat constructor.
    - (* mapping over an element *)
      assert (X : writes ev fl (SAttrs a) v enc ps0 /\ exists tx at0, d = Draft name (as_nsmap a) tx at0 []).
      { match goal with X : puts _ _ = Some d, Y : writes ev' _ _ _ _ _ |- _ => inv Y; try (match goal with Z : scalar_field _ |- _ => inv Z end); simpl in X; injection X as <- end;
          (split; [first [eapply w_mapping; eassumption|apply w_no_mapping]|unfold fresh; eauto]). }
      destruct X as (X1 & tx & at0 & ->).
      match goal with X : as_child _ _ _, F : fl_skip_empty fl = false |- _ => rewrite (kept_child F X) end.
      exists [PChild (Draft name (as_nsmap a) tx at0 [])]. split; [eapply w_mapping_element; eauto using keep_child|].
      repeat constructor. match goal with X : old_ser _ |- _ => destruct X as [X _]; inv X; auto end.
    - exists []. match goal with X : trimmed _ _ _ _ _ _ _ |- _ => inv X; try contradiction end. split; [apply w_no_list|constructor].
    - (* list *) match goal with X : trimmed _ _ _ _ _ _ _ |- _ => inv X; try contradiction end.
      match goal with F : Forall2 _ l l', R : _ -> _ -> forall l l', _ |- _ => destruct (R ltac:(auto) ltac:(old_sub) l l' eq_refl eq_refl F) as (qs & Q1 & Q2) end.
      exists qs. split; auto. apply w_list; auto. congruence.
    - exists []. match goal with X : trimmed _ _ _ _ _ _ _ |- _ => inv X; try contradiction end. split; [apply w_no_tuple|constructor].
    - (* tuple *) match goal with X : trimmed _ _ _ _ _ _ _ |- _ => inv X; try contradiction end.
      assert (OS : Forall old_ser l).
      { apply Forall_forall. intros s I. match goal with X : old_ser _ |- _ => destruct X as (a & b & c0); inv a end.
        rewrite Forall_forall in *. split; [auto|split; intros; [apply b|apply c0]; econstructor; eauto]. }
      match goal with R : _ -> _ -> forall vs encs, _, M : trimmed_members _ _ _ _ _ _ _ |- _ => destruct (R ltac:(auto) OS _ _ M) as (qs & Q1 & Q2);
        exists qs; split; auto; apply w_tuple; auto; [congruence|]; replace (length l) with (length vs) by auto; clear - M; induction M; simpl; auto end.
    - (* scalar union *) match goal with X : trimmed _ _ _ _ _ _ _ |- _ => inv X; try contradiction end.
      match goal with R : _ -> _ -> forall v enc, _, M : trimmed _ _ _ _ _ _ _ |- _ => destruct (R ltac:(auto) ltac:(old_sub) _ _ M) as (qs & Q1 & Q2) end.
      exists qs. split; auto. apply w_scalar_union; auto.
    - (* union *) match goal with X : trimmed _ _ _ _ _ _ _ |- _ => inv X; try contradiction end.
      match goal with R : _ -> _ -> forall v enc, _, M : trimmed_instance _ _ _ ?w ?ew _ _ |- _ => destruct (R ltac:(auto)) with (v := w) (enc := ew) as (qs & Q1 & Q2) end.
      + match goal with X : old_ser _ |- _ => destruct X as (_ & b & _) end. apply b. constructor. apply in_or_app; simpl; auto.
      + right. split; [discriminate|auto].
      + exists qs. split; auto. eapply w_union; eauto.
    - (* no variant *) exists []. split; [|constructor]. apply w_no_variant. match goal with X : trimmed _ _ _ _ _ _ _ |- _ => inv X; try contradiction; try discriminate end.
      intros c0 a0 s0 E. injection E as <- <- <-. eauto.
    - (* tagged *) match goal with X : trimmed _ _ _ _ _ _ _ |- _ => inv X; try contradiction end.
      match goal with E : dget disc ?d0 = dget disc d, R : _ -> _ -> forall v enc, _, M : forall tag p, _ -> _ -> trimmed_instance _ _ _ ?w ?ew _ _ |- _ =>
        destruct (R ltac:(auto)) with (v := w) (enc := ew) as (qs & Q1 & Q2); [| |exists qs; split; auto; eapply w_tagged; eauto; rewrite E; auto];
        [|right; split; [discriminate|]; eapply M; eauto; rewrite E; auto] end.
      match goal with X : old_ser _ |- _ => destruct X as (_ & b & _) end. apply b. econstructor. apply dget_Some_in; eauto.
    - (* no tag *) match goal with X : trimmed _ _ _ _ _ _ _ |- _ => inv X; try contradiction end. exists []. split; [apply w_no_tag|constructor].
      match goal with E : dget disc _ = dget disc d |- _ => rewrite E; auto end.
    - exists []. split; [|constructor]. match goal with X : trimmed _ _ _ _ _ _ _ |- _ => apply trimmed_none in X; destruct X as [_ X]; rewrite (X eq_refl) end. apply w_no_wrapped.
    - (* wrapped *) match goal with X : trimmed _ _ _ _ _ _ _ |- _ => inv X; try congruence; try contradiction end.
      match goal with R : _ -> _ -> forall v enc, _, M : trimmed _ _ _ _ _ _ _ |- _ => destruct (R ltac:(auto) ltac:(old_sub) _ _ M) as (qs & Q1 & Q2) end.
      exists (nested path ns qs). split.
      + apply w_wrapped; auto.
        * intros ->. match goal with M : trimmed _ _ _ _ _ _ _, X : v <> VNone |- _ => apply X; apply (proj1 (trimmed_none M)); auto end.
        * intros [X _]; congruence.
      + apply nested_prel; auto. intros t It. match goal with X : old_ser _ |- _ => destruct X as (a & _ & b) end. inv a. destruct (b t) as [b1 b2]; [constructor; auto|].
        rewrite Forall_forall in *. auto.
    - exists []. match goal with X : trimmed _ _ _ _ _ _ _ |- _ => inv X; try contradiction end. split; [apply w_no_raw|constructor].
    - (* raw *) match goal with X : trimmed _ _ _ _ _ _ _ |- _ => inv X; try contradiction end.
      match goal with X : as_child _ _ _, F : fl_skip_empty fl = false |- _ => rewrite (kept_child F X) end.
      exists [PChild (Given x)]. split; [apply w_raw; auto using keep_child|].
      destruct x; try contradiction. repeat constructor. eapply dr_given; [reflexivity|]. match goal with X : forall t, _ -> U t = false |- _ => eapply X; reflexivity end.
    - (* sub-model *) match goal with R : _ -> _ -> forall v enc, _ |- context [writes _ _ _ ?w ?ew _] => destruct (R ltac:(auto)) with (v := w) (enc := ew) as (qs & Q1 & Q2) end.
      + match goal with X : old_ser _ |- _ => destruct X as (_ & b & _) end. apply b. constructor.
      + match goal with X : trimmed _ _ _ _ _ _ _ |- _ => inv X; try contradiction end; [left; auto|right; split; [discriminate|auto]].
      + exists qs. split; auto. apply w_sub; auto.
    - (* items *) destruct l'; [|discriminate]. match goal with F : Forall2 _ _ _ |- _ => inv F end. exists []. split; constructor.
    - destruct l'; [|discriminate]. match goal with F : Forall2 _ _ _ |- _ => inv F end. exists []. split; constructor.
    - destruct l' as [|[a b] l']; [discriminate|]. simpl in *.
      repeat match goal with E : _ :: _ = _ :: _ |- _ => inv E end. match goal with F : Forall2 _ _ (_ :: _) |- _ => inv F end.
      match goal with R : _ -> _ -> forall v enc, _, M : trimmed _ _ _ _ _ _ _ |- _ => destruct (R ltac:(auto) ltac:(auto) _ _ M) as (qs & Q1 & Q2) end.
      match goal with F : Forall2 _ ?l0 l', R : _ -> _ -> forall l l', _ |- _ => destruct (R ltac:(auto) ltac:(auto) l0 l' eq_refl eq_refl F) as (qs' & Q1' & Q2') end.
      exists (qs ++ qs'). split; [|apply Forall2_app; auto]. simpl. constructor; auto. intros [X _]; congruence.
    - (* tuple *) exists []. split; [|constructor]. apply wt_end.
      match goal with X : trimmed_members _ _ _ _ _ _ _ |- _ => inv X; auto end. intuition discriminate.
    - match goal with X : trimmed_members _ _ _ _ _ _ _ |- _ => inv X end. match goal with X : Forall old_ser _ |- _ => inv X end.
      match goal with R : _ -> _ -> forall v enc, _, M : trimmed _ _ _ _ _ _ _ |- _ => destruct (R ltac:(auto) ltac:(auto) _ _ M) as (qs & Q1 & Q2) end.
      match goal with R : _ -> _ -> forall vs encs, _, M : trimmed_members _ _ _ _ _ _ _ |- _ => destruct (R ltac:(auto) ltac:(auto) _ _ M) as (qs' & Q1' & Q2') end.
      exists (qs ++ qs'). split; [|apply Forall2_app; auto]. constructor; auto.
    - (* nil *) match goal with X : instance_of _ _ _ _ _ |- _ => destruct X as [(-> & _ & X)|[X _]]; [|congruence] end.
      destruct (en_model ev (px_model p)) as [m0|] eqn:Em; [|congruence].
      eexists. split; [eapply ws_nil; eauto|]. repeat constructor. match goal with X : old_proxy _ |- _ => apply X end.
    - match goal with X : instance_of _ _ _ _ _ |- _ => destruct X as [(-> & _ & X)|[X _]]; [|congruence] end.
      destruct (en_model ev (px_model p)) as [m0|] eqn:Em; [|congruence].
      exists []. split; [eapply ws_none; eauto|constructor].
    - (* an element of its own *) match goal with X : instance_of _ _ _ _ _ |- _ => destruct X as [(_ & X & _)|[_ X]]; [congruence|] end.
      assert (K : exists m0, en_model ev (px_model p) = Some m0 /\ v0 <> VNone).
      { match goal with X : trimmed_instance _ _ _ _ _ _ _ |- _ => inv X; eexists; split; eauto; discriminate end. }
      destruct K as (m0 & Em & Nv). destruct HE as [_ HC]. destruct (HC _ _ Em) as (m1 & Em1 & EC).
      assert (m1 = m) by congruence. subst m1.
      match goal with O : old_proxy p, X : trimmed_instance _ _ _ _ _ _ _, R : _ -> forall cls m tag v enc, _ |- _ =>
        destruct O as (O1 & O2 & O3 & O4); destruct (R ltac:(auto) _ _ _ _ _ Em EC (fun l => HL l Em1) O4 X) as (qs & Q1 & Q2) end.
      match goal with P : puts _ _ = Some d |- _ => destruct (puts_mixed Q2 (tight_fresh U A T W late (px_name p) (px_nsmap p)) P) as (e & E1 & E2); pose proof (puts_tag _ _ _ _ _ _ P) as G end.
      match goal with X : as_child _ _ _, F : fl_skip_empty fl = false |- _ => rewrite (kept_child F X) end.
      exists [PChild e]. split; [eapply ws_value; eauto using keep_child|]. repeat constructor. inv E2. simpl in G. injection G as ->. apply dr_loose; auto.
    - (* the fields *) match goal with X : trimmed_instance _ _ _ _ _ _ _ |- _ => inv X end; [|match goal with E : evolved_class _ _ _ _ _ _ _ |- _ => pose proof (ec_root E) end; congruence].
      assert (m1 = m0) by congruence. subst m1.
      match goal with E : evolved_class _ _ _ _ _ _ _ |- _ => pose proof E as EC; destruct (ec_fields E) as (N & EF & NA); destruct (ec_skip_empty E) as [Sk1 Sk2] end.
      assert (Fl : class_flags m fl = class_flags m0 fl) by (unfold class_flags; rewrite Sk1; auto).
      assert (Fs : fl_skip_empty (class_flags m0 fl) = false).
      { unfold class_flags. destruct (md_skip_empty m0) as [[|]|]; simpl; auto; congruence. }
      match goal with R : _ -> forall N newc m fs tag c attrs set d attrs' set' d', _, M : forall name s, In _ _ -> trimmed_field _ _ _ _ _ _ ?d0 _ _ /\ (In _ ?set0 <-> _) |- _ =>
        rewrite Fl in R; destruct (R Fs) with (m := m0) (tag := tag) (1 := @eq_refl val (VModel c attrs' set')) (2 := @eq_refl val (VDict d')) (3 := EF) (attrs := attrs) (d := d0) (set := set0) as (qs & Q1 & Q2) end; auto.
      + apply (ec_excluded EC).
      + intros name s I. split; [eapply old_field; eauto|]. auto.
      + exists qs. split; auto. constructor; auto; discriminate.
    - (* root *) match goal with X : trimmed_instance _ _ _ _ _ _ _ |- _ => inv X end; [match goal with E : evolved_class _ _ _ _ _ _ _ |- _ => pose proof (ec_root E) end; congruence|].
      assert (m1 = m0) by congruence. subst m1. exists []. split; [|constructor]. apply wm_root_unset; auto. tauto.
    - match goal with X : trimmed_instance _ _ _ _ _ _ _ |- _ => inv X end; [match goal with E : evolved_class _ _ _ _ _ _ _ |- _ => pose proof (ec_root E) end; congruence|].
      assert (m1 = m0) by congruence. subst m1.
      match goal with E : evolved_class _ _ _ _ _ _ _ |- _ => pose proof (ec_root_fields E ltac:(auto)) as EF; destruct (ec_skip_empty E) as [Sk1 Sk2] end.
      assert (Fl : class_flags m fl = class_flags m0 fl) by (unfold class_flags; rewrite Sk1; auto).
      assert (Fs : fl_skip_empty (class_flags m0 fl) = false).
      { unfold class_flags. destruct (md_skip_empty m0) as [[|]|]; simpl; auto; congruence. }
      assert (name0 = name /\ s0 = s /\ rest0 = rest) as (-> & -> & ->) by (repeat split; congruence).
      assert (x' = x) by congruence. subst x'.
      match goal with R : _ -> _ -> forall v enc, _, M : trimmed _ _ _ _ _ _ _ |- _ => rewrite Fl in R; destruct (R Fs) with (2 := M) as (qs & Q1 & Q2) end.
      { eapply old_field; eauto. match goal with E : md_fields m0 = _ |- _ => rewrite E; simpl; auto end. }
      exists qs. split; [eapply wm_root; eauto; tauto|]. rewrite <- (app_nil_r qs), <- (app_nil_r ps). apply mixed_old; auto. constructor.
    - (* no field left *) match goal with E : evolved_fields _ _ _ _ _ |- _ => inv E end. exists []. split; constructor.
    - (* excluded *) match goal with X : late = true -> appended newc (_ :: _) |- _ => pose proof (fun l => appended_tail (X l)) as AT end.
      match goal with E : evolved_fields _ _ _ _ _ |- _ => inv E end.
      + match goal with R : _ -> forall N newc m fs tag c attrs set d attrs' set' d', _ |- _ => edestruct (R ltac:(auto)) with (m := m0) (tag := tag) (attrs := attrs) (set := set) (d := d) as (qs & Q1 & Q2); eauto end.
        { intros; match goal with M : forall name s, In _ _ -> _ |- _ => apply M; simpl; auto end. }
        exists qs. split; auto. apply wf_excluded; auto. match goal with X : forall f, newc f = false -> _ |- _ => apply X; auto end.
      + match goal with R : _ -> forall N newc m fs tag c attrs set d attrs' set' d', _ |- _ => edestruct (R ltac:(auto)) with (m := m0) (tag := tag) (attrs := attrs) (set := set) (d := d) as (qs & Q1 & Q2); eauto end.
      + match goal with R : _ -> forall N newc m fs tag c attrs set d attrs' set' d', _ |- _ => edestruct (R ltac:(auto)) with (m := m0) (tag := tag) (attrs := attrs) (set := set) (d := d) as (qs & Q1 & Q2); eauto end.
    - (* not set *) match goal with E : VModel _ _ _ = VModel _ _ _ |- _ => injection E as -> -> -> end. match goal with X : late = true -> appended newc (_ :: _) |- _ => pose proof (fun l => appended_tail (X l)) as AT end.
      match goal with E : evolved_fields _ _ _ _ _ |- _ => inv E end.
      + match goal with R : _ -> forall N newc m fs tag c attrs set d attrs' set' d', _ |- _ => edestruct (R ltac:(auto)) with (m := m0) (tag := tag) (attrs := attrs0) (set := set0) (d := d) as (qs & Q1 & Q2); eauto end.
        { intros; match goal with M : forall name s, In _ _ -> _ |- _ => apply M; simpl; auto end. }
        exists qs. split; auto. apply wf_unset; auto.
        * intros X. match goal with Y : ~ In name (md_sexclude m) |- _ => apply Y end. match goal with X : forall f, newc f = false -> _ |- _ => apply X; auto end.
        * match goal with M : forall name s, In _ _ -> _ |- _ => destruct (M name s) as (_ & _ & X); [simpl; auto|]; tauto end.
      + match goal with R : _ -> forall N newc m fs tag c attrs set d attrs' set' d', _ |- _ => edestruct (R ltac:(auto)) with (m := m0) (tag := tag) (attrs := attrs0) (set := set0) (d := d) as (qs & Q1 & Q2); eauto end.
      + match goal with R : _ -> forall N newc m fs tag c attrs set d attrs' set' d', _ |- _ => edestruct (R ltac:(auto)) with (m := m0) (tag := tag) (attrs := attrs0) (set := set0) (d := d) as (qs & Q1 & Q2); eauto end.
    - (* written *) match goal with E : VModel _ _ _ = VModel _ _ _ |- _ => injection E as -> -> -> end. match goal with E : VDict _ = VDict _ |- _ => injection E as -> end.
      match goal with X : late = true -> appended newc (_ :: _) |- _ => pose proof (fun l => appended_tail (X l)) as AT end.
      match goal with E : evolved_fields _ _ _ _ _ |- _ => inv E end.
      + match goal with R : _ -> forall N newc m fs tag c attrs set d attrs' set' d', _ |- _ => edestruct (R ltac:(auto)) with (m := m0) (tag := tag) (attrs := attrs0) (set := set0) (d := d0) as (qs & Q1 & Q2); eauto end.
        { intros; match goal with M : forall name s, In _ _ -> _ |- _ => apply M; simpl; auto end. }
        assert (NX : ~ In name (md_sexclude m0)).
        { intros X. match goal with Y : ~ In name (md_sexclude m) |- _ => apply Y end. match goal with X : forall f, newc f = false -> _ |- _ => apply X; auto end. }
        match goal with M : forall name s, In _ _ -> _ |- _ => destruct (M name s) as (OS & TF & SS); [simpl; auto|] end.
        inv TF; [contradiction|].
        assert (x' = x) by congruence. assert (xe' = xe) by congruence. subst x' xe'.
        match goal with R : _ -> _ -> forall v enc, _, M : trimmed _ _ _ _ _ _ _ |- _ => destruct (R ltac:(auto) OS _ _ M) as (rs & R1 & R2) end.
        exists (rs ++ qs). split; [eapply wf_field; eauto; tauto|]. apply mixed_old; auto.
      + match goal with R : _ -> forall N newc m fs tag c attrs set d attrs' set' d', _ |- _ => edestruct (R ltac:(auto)) with (m := m0) (tag := tag) (attrs := attrs0) (set := set0) (d := d0) as (qs & Q1 & Q2); eauto end.
        exists qs. split; auto. match goal with X : writes _ _ (SAttr _ _) _ _ _ |- _ => inv X end; simpl; auto. apply mx_attr; auto.
      + match goal with R : _ -> forall N newc m fs tag c attrs set d attrs' set' d', _ |- _ => edestruct (R ltac:(auto)) with (m := m0) (tag := tag) (attrs := attrs0) (set := set0) (d := d0) as (qs & Q1 & Q2); eauto end.
        exists qs. split; auto. apply mixed_children; auto.
        * match goal with X : writes _ _ s _ _ _ |- _ => apply (proj1 (extra_writes U ev') _ _ _ _ _ X) end; auto.
        * destruct late eqn:El.
          { apply (proj2 (proj2 (proj2 (proj2 (proj2 (inline_writes ev))))) _ _ _ _ _ _ Q1). intros f I.
            match goal with X : true = true -> appended newc (_ :: _), E : evolved_fields _ _ _ _ _, C : new_child U s |- _ =>
              destruct (evolved_old f E I) as [I1 I2]; exact (X eq_refl [] (name, s) _ eq_refl ltac:(auto) (new_not_inline C) f I1 I2) end. }
          apply (proj2 (proj2 (proj2 (proj2 (proj2 (flat_writes ev))))) _ _ _ _ _ _ Q1); auto.
  Qed.
End Sim.
