(** PfOut2.v -- the pieces of a value are what the code writes. *)

From Verif Require Import Base Elem Native Errs Names Ser Write Read Api SpecElem SpecRead SpecWrite SpecScalar SpecSim SpecOut
  PfScalar PfElem PfWrite PfWrite2 PfWSim PfOut.

Local Ltac inv H := inversion H; subst; clear H.

Scheme writes_ind2 := Minimality for writes Sort Prop
  with items_ind2 := Minimality for writes_items Sort Prop
  with tuple_ind2 := Minimality for writes_tuple Sort Prop
  with sub_ind2 := Minimality for writes_sub Sort Prop
  with model_ind2 := Minimality for writes_model Sort Prop
  with fields_ind2 := Minimality for writes_fields Sort Prop.
Combined Scheme writes_all from writes_ind2, items_ind2, tuple_ind2, sub_ind2, model_ind2, fields_ind2.

Section Does.
  Variable b : backend.

  (** the function does to elements what the pieces do to drafts *)
  Definition does (ps : list piece) (k : elem -> out elem) : Prop :=
    forall d e d', rep b d e -> puts ps d = Some d' -> exists e', k e = Ok e' /\ rep b d' e'.

  Lemma does_ext : forall ps k k', (forall e, k e = k' e) -> does ps k -> does ps k'.
  Proof. intros ps k k' E H d e d' R P. rewrite <- E. eauto. Qed.

  Lemma does_nil : does [] (fun e => Ok e).
  Proof. intros d e d' R P. injection P as <-. eauto. Qed.

  Lemma does_app : forall ps qs k k', does ps k -> does qs k' -> does (ps ++ qs) (fun e => obind (k e) k').
  Proof.
    intros ps qs k k' H H' d e d' R P. rewrite puts_app in P. destruct (puts ps d) as [d1|] eqn:P1; [|discriminate].
    destruct (H _ _ _ R P1) as (e1 & -> & R1). simpl. eauto.
  Qed.

  Lemma does_text : forall s, does [PText s] (fun e => Ok (set_text s e)).
  Proof.
    intros s d e d' R P. destruct d as [tag ns text attrs ch|n]; [|discriminate]. injection P as <-. inv R.
    eexists; split; [reflexivity|]. constructor; simpl; auto.
  Qed.

  Lemma does_attr : forall n s, does [PAttr n s] (fun e => Ok (set_attribute n s e)).
  Proof.
    intros n s d e d' R P. destruct d as [tag ns text attrs ch|x]; [|discriminate]. injection P as <-. inv R.
    eexists; split; [reflexivity|]. constructor; simpl; auto.
  Qed.

  Lemma does_attrs : forall m, does [PAttrs m] (fun e => Ok (set_attributes m e)).
  Proof.
    intros m d e d' R P. destruct d as [tag ns text attrs ch|x]; [|discriminate]. injection P as <-. inv R.
    eexists; split; [reflexivity|]. constructor; simpl; auto.
  Qed.

  Lemma does_child : forall c ce, rep b c ce -> does [PChild c] (fun e => Ok (append_element ce e)).
  Proof.
    intros c ce C d e d' R P. destruct d as [tag ns text attrs ch|x]; [|discriminate]. injection P as <-. inv R.
    eexists; split; [reflexivity|]. constructor; simpl; auto.
    - apply Forall2_app; auto.
    - rewrite app_length; simpl. lia.
  Qed.

  Lemma does_as_child : forall fl c ce ps, rep b c ce -> as_child fl c ps -> does ps (fun e => Ok (append_unless_empty fl ce e)).
  Proof.
    intros fl c ce ps C A. unfold append_unless_empty. pose proof (rep_blank C) as B. inv A.
    - destruct (fl_skip_empty fl && is_empty ce) eqn:X.
      + exfalso. apply andb_true_iff in X as [X1 X2]. apply H. split; auto. apply B; auto.
      + apply does_child; auto.
    - rewrite H. apply B in H0. rewrite H0. apply does_nil.
  Qed.

  Lemma does_path : forall ns ps k mode path, does ps k -> does (nested path ns ps) (write_path b mode ns path k).
  Proof.
    intros ns ps k mode path Hk; induction path as [|t path IH]; [exact Hk|].
    intros d e d' R P. cbn [nested puts] in P. destruct d as [tag dns text attrs ch|x]; [|discriminate].
    rewrite put_in in P. pose proof R as R0. inversion R as [? ? ? ? ? ? T1 T2 T3 T4 T5 T6 T7|]; subst. cbn [write_path].
    destruct (@find_or_create_cases b e t mode ns T7) as [(front & c & E & Cl & F)|(NC & F)]; rewrite F.
    - rewrite E in T6. apply Forall2_app_inv_r in T6 as (fd & cd & F1 & F2 & ->).
      inversion F2 as [|cd0 ? ? ? Rc Fn]; subst. inversion Fn; subst. rewrite split_last_app in P.
      apply (rep_tag t Rc) in Cl. rewrite Cl, String.eqb_refl in P.
      destruct cd0 as [tg n1 tx a1 c1|x]; [|discriminate].
      destruct (puts (nested path ns ps) (Draft tg n1 tx a1 c1)) as [c'|] eqn:Pc; [|discriminate]. injection P as <-.
      rewrite (@last_index _ _ front c E). destruct (IH _ _ _ Rc Pc) as (e' & -> & R'). cbn [obind].
      eexists; split; [reflexivity|]. unfold put_child. constructor; cbn [set_elems e_tag e_nsmap e_text e_tail e_attrib e_elems e_next]; auto.
      + rewrite E, list_upd_last. apply Forall2_app; auto.
      + rewrite E, list_upd_last. rewrite T7, E, !app_length. reflexivity.
    - assert (X : match split_last ch with Some (front, c) => if match draft_tag c with Some t' => String.eqb t' t | None => false end then (front, c) else (ch, fresh t ns) | None => (ch, fresh t ns) end = (ch, fresh t ns)).
      { destruct (split_last ch) as [[front c]|] eqn:Sp; auto.
        assert (Ec : ch = front ++ [c]).
        { clear -Sp. revert front c Sp. induction ch as [|x ch IH]; intros front c Sp; [discriminate|]. simpl in Sp.
          destruct (split_last ch) as [[f z]|] eqn:E; injection Sp as <- <-; [rewrite (IH f z); auto|]. destruct ch as [|y ch]; auto.
          simpl in E. destruct (split_last ch) as [[? ?]|]; discriminate. }
        rewrite Ec in T6. apply Forall2_app_inv_l in T6 as (fe & ce & F1 & F2 & Ee). inversion F2 as [|? ce0 ? ? Rc Fn]; subst.
        inversion Fn; subst. destruct (draft_tag c) as [t'|] eqn:Tg; auto. destruct (String.eqb_spec t' t) as [->|]; auto.
        exfalso. apply (NC fe ce0); auto. apply (rep_tag t Rc); auto. }
      rewrite X in P. cbn [fresh] in P. change (Draft t ns None [] []) with (fresh t ns) in P.
      destruct (puts (nested path ns ps) (fresh t ns)) as [c'|] eqn:Pc; [|discriminate]. injection P as <-.
      cbn [append_element set_next set_elems e_elems]. rewrite nth_error_app2, Nat.sub_diag by lia. cbn [nth_error].
      destruct (IH _ _ _ (rep_fresh b t ns) Pc) as (e' & -> & R'). cbn [obind].
      eexists; split; [reflexivity|]. unfold put_child. constructor; cbn [append_element set_next set_elems e_tag e_nsmap e_text e_tail e_attrib e_elems e_next]; auto.
      + rewrite list_upd_last. apply Forall2_app; auto.
      + rewrite list_upd_last. rewrite T7, !app_length. simpl. lia.
  Qed.
End Does.

(** ---- small facts ---- *)

Lemma omitted_test : forall fl v, is_none v && (fl_skip_empty fl || fl_exclude_none fl) = true <-> omitted fl v.
Proof.
  intros fl v. unfold omitted. rewrite andb_true_iff, orb_true_iff. assert (is_none v = true <-> v = VNone) as -> by (destruct v; simpl; split; congruence). tauto.
Qed.

Lemma not_omitted_test : forall fl v, is_none v && (fl_skip_empty fl || fl_exclude_none fl) = false <-> ~ omitted fl v.
Proof. intros fl v. rewrite <- omitted_test. destruct (is_none v && _); split; congruence. Qed.

Lemma is_none_false : forall v, is_none v = false <-> v <> VNone.
Proof. intros v; destruct v; simpl; split; congruence. Qed.

Lemma len_zero : forall v, len_is_zero v = true <-> empty_value v.
Proof. intros v. rewrite <- empty_iff. unfold len_is_zero. destruct (py_len v) as [[|n]|]; split; congruence. Qed.

Lemma mapping_uri : forall a u, mapping_namespace a u <-> attrs_uri a = u.
Proof.
  intros a u. unfold attrs_uri. split.
  - intros H; inv H.
    + rewrite H0, H1, H3. simpl. destruct alias; [congruence|]. destruct m; [congruence|]. reflexivity.
    + destruct (as_namespaced a), (as_ns a) as [[|]|], (as_nsmap a) as [[|]|]; simpl; auto; destruct H0 as [H|[H|[H|[H|H]]]]; discriminate.
  - intros <-. destruct (as_namespaced a) eqn:E1; [|apply mn_none; auto]. destruct (as_ns a) as [alias|] eqn:E2; [|apply mn_none; auto].
    destruct alias as [|x alias]; [apply mn_none; auto|]. destruct (as_nsmap a) as [m|] eqn:E3; [|apply mn_none; auto 6].
    destruct m as [|y m]; [apply mn_none; auto 6|].
    change (mapping_namespace a (dget (String x alias) (y :: m))). apply mn_some with (m := y :: m); auto; discriminate.
Qed.

Lemma falsy_test : forall v, py_truthy v = false <-> falsy v.
Proof.
  intros v. unfold falsy. rewrite <- empty_iff. destruct v as [|[]|z|s|r l|l|d| |n]; simpl; split; intros H; auto;
    try (destruct H as [H|[H|[H|H]]]; congruence); try discriminate.
  - rewrite negb_false_iff, Z.eqb_eq in H. subst; auto.
  - destruct H as [H|[H|[H|H]]]; try discriminate. injection H as ->; auto.
  - right; right; right. destruct (String.length s); congruence.
  - destruct H as [H|[H|[H|H]]]; try discriminate. injection H as ->; auto.
  - right; right; right. destruct l as [[|]|]; congruence.
  - destruct H as [H|[H|[H|H]]]; try discriminate. rewrite H; auto.
  - right; right; right. destruct (length l); congruence.
  - destruct H as [H|[H|[H|H]]]; try discriminate. injection H as ->; auto.
  - right; right; right. destruct (length d); congruence.
  - destruct H as [H|[H|[H|H]]]; try discriminate. injection H as ->; auto.
  - right; right; right. destruct (native_len n); congruence.
  - destruct H as [H|[H|[H|H]]]; try discriminate. injection H as ->; auto.
Qed.

Lemma items_iff : forall u items attrs, attrs_items u items = Ok attrs <->
  Forall2 (fun kv ks => fst ks = uri (QName (fst kv) u) /\ shown_as (snd kv) (snd ks)) items attrs.
Proof.
  intros u items; induction items as [|[k v] items IH]; intros attrs; simpl.
  - split; intros H; [injection H as <-; constructor|inv H; auto].
  - split; intros H.
    + destruct (py_str v) as [s|?|] eqn:E; try discriminate. cbn [obind] in H. destruct (attrs_items u items) as [r|?|]; try discriminate.
      injection H as <-. constructor; [|apply IH; auto]. split; auto. apply py_str_iff; auto.
    + inversion H as [|? [k' s] ? r [E1 E2] Fr]; subst. simpl in E1, E2. apply py_str_iff in E2. rewrite E2. cbn [obind].
      apply IH in Fr. rewrite Fr. simpl. congruence.
Qed.
