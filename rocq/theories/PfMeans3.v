(** PfMeans3.v -- whole classes: what is built is what is meant, and what is meant is built. *)

From Verif Require Import Base Elem Native Errs Names Fields Ser SpecNames SpecRead Build SpecBuild SpecMeans PfNames PfBuild PfBuild3 PfBuild4 PfBuild5
  PfMeans PfMeans2.

(** the definitions a context carries *)
Definition carries (c : ctx) (defs : dict cschema) : Prop := cx_defs c = defs.

Section Class.
  Variable cl : classes.
  Variable ev : env.
  Hypothesis Hcl : classes_ok cl.
  Variable defs : dict cschema.
  Hypothesis HD : forall r t, dget r defs = Some t -> flat t.
  Variable k : cls_info.
  Variable c : ctx.
  Hypothesis L : like (class_ctx k) c.
  Hypothesis Hd : dict_ok (c_nsmap (ci_params k)).
  Hypothesis Dc : carries c defs.
  Variable hide : bool.

  Notation child name alias comp info := (child_field c name alias comp info hide).

  Lemma child_cok : forall name alias comp info, name <> Some "" -> maybe_info_ok info -> cok defs (child name alias comp info).
  Proof. intros. split; [eapply child_ok; eauto|exact Dc]. Qed.

  Lemma child_mns : forall name alias comp info s r,
    mns cl ev defs (child name alias comp info) s r <->
    means cl ev defs (field_ambient k hide name alias comp) [class_scope k] info s r.
  Proof. intros. unfold mns. erewrite child_scopes, child_amb by eauto. reflexivity. Qed.

  Lemma not_computed : cx_computed c = false.
  Proof. pose proof L as L'. unfold like in L'. decompose [and] L'. simpl in *. congruence. Qed.

  Lemma fields_mean : forall n fs sers va ex sers' va' ex',
    NoDup (dkeys sers ++ map fst fs) ->
    Forall (fun nf => fst nf <> "" /\ maybe_info_ok (extract_info (ci_meta k (fst nf)))) fs ->
    Forall (fun nf => flat (field_schema (snd nf))) (xml_fields k fs) ->
    build_fields cl ev n k hide fs c sers va ex = Ok (sers', va', ex') ->
    exists new, sers' = sers ++ new /\ Forall2 (field_means cl ev defs k hide) (xml_fields k fs) new.
  Proof.
    intros n. induction fs as [|[name [e sa v s]] fs IH]; intros sers va ex sers' va' ex' ND F Fl H; cbn [build_fields] in H.
    - injection H as <- <- <-. exists []. rewrite app_nil_r. simpl. auto.
    - inversion F as [|x xs [Fn Fi] F']; subst. simpl in Fn, Fi.
      unfold xml_fields in *; cbn [filter fst] in *.
      destruct (existsb is_noxml (ci_meta k name)) eqn:X; cbn [negb] in *.
      + apply IH in H; auto. simpl in ND. apply NoDup_remove_1 in ND. auto.
      + destruct (parse cl ev n s _) as [r| |] eqn:P in H; try discriminate. cbn [obind] in H.
        assert (Nm : ~ In name (dkeys sers)).
        { simpl in ND. apply NoDup_remove_2 in ND. rewrite in_app_iff in ND. tauto. }
        rewrite (dset_fresh _ _ _ Nm) in H. inversion Fl as [|? ? Fs Fl']; subst. simpl in Fs.
        apply (@parse_means cl ev Hcl defs HD) in P; auto; [|apply child_cok; auto; congruence].
        apply child_mns in P. rewrite not_computed in P.
        apply IH in H; auto.
        * destruct H as (new & -> & G). exists ((name, r) :: new). rewrite <- app_assoc. split; [auto|].
          constructor; auto. split; auto.
        * unfold dkeys. rewrite map_app, <- app_assoc. exact ND.
  Qed.

  Lemma computed_mean : forall n cs sers sers',
    NoDup (dkeys sers ++ map fst cs) ->
    Forall (fun cf => fst cf <> "" /\ maybe_info_ok (ci_computed k (fst cf))) cs ->
    Forall (fun cf => flat (snd (snd cf))) cs ->
    build_computed cl ev n k hide cs c sers = Ok sers' ->
    exists new, sers' = sers ++ new /\ Forall2 (computed_means cl ev defs k hide) cs new.
  Proof.
    intros n. induction cs as [|[name [sa s]] cs IH]; intros sers sers' ND F Fl H; cbn [build_computed] in H.
    - injection H as <-. exists []. rewrite app_nil_r. auto.
    - inversion F as [|x xs [Fn Fi] F']; subst. simpl in Fn, Fi.
      destruct (parse cl ev n s _) as [r| |] eqn:P in H; try discriminate. cbn [obind] in H.
      assert (Nm : ~ In name (dkeys sers)).
      { simpl in ND. apply NoDup_remove_2 in ND. rewrite in_app_iff in ND. tauto. }
      rewrite (dset_fresh _ _ _ Nm) in H. inversion Fl as [|? ? Fs Fl']; subst. simpl in Fs.
      apply (@parse_means cl ev Hcl defs HD) in P; auto; [|apply child_cok; auto; congruence].
      apply child_mns in P. apply IH in H; auto.
      * destruct H as (new & -> & G). exists ((name, r) :: new). rewrite <- app_assoc. split; [auto|].
        constructor; auto. split; auto.
      * unfold dkeys. rewrite map_app, <- app_assoc. exact ND.
  Qed.

  Lemma fields_total : forall fs own, Forall2 (field_means cl ev defs k hide) (xml_fields k fs) own ->
    Forall (fun nf => fst nf <> "" /\ maybe_info_ok (extract_info (ci_meta k (fst nf)))) fs ->
    Forall (fun nf => flat (field_schema (snd nf))) (xml_fields k fs) ->
    forall sers va ex, exists r, finally (fun n => build_fields cl ev n k hide fs c sers va ex) r.
  Proof.
    induction fs as [|[name [e sa v s]] fs IH]; intros own M F Fl sers va ex; cbn [build_fields].
    - eexists. apply fin_ok.
    - inversion F as [|x xs [Fn Fi] F']; subst. simpl in Fn, Fi.
      unfold xml_fields in *; cbn [filter fst] in *.
      destruct (existsb is_noxml (ci_meta k name)) eqn:X; cbn [negb] in *; [eapply IH; eauto|].
      inversion M as [|? [? r] ? own' [_ M1] M2]; subst. simpl in M1. inversion Fl as [|? ? Fs Fl']; subst. simpl in Fs.
      assert (P : parses cl ev (child (Some name) sa (cx_computed c) (extract_info (ci_meta k name))) s).
      { apply (@parse_total cl ev Hcl defs HD) with (r := r); [apply child_cok; auto; congruence|auto|]. apply child_mns. rewrite not_computed. exact M1. }
      destruct P as (r' & P).
      destruct (IH own' M2 F' Fl' (dset name r' sers) (match v with Some a => dset name a va | None => va end) (if e then name :: ex else ex)) as (q & Q).
      exists q. eapply fin_bind; [exact P|]. exact Q.
  Qed.

  Lemma computed_total : forall cs comp, Forall2 (computed_means cl ev defs k hide) cs comp ->
    Forall (fun cf => fst cf <> "" /\ maybe_info_ok (ci_computed k (fst cf))) cs ->
    Forall (fun cf => flat (snd (snd cf))) cs ->
    forall sers, exists r, finally (fun n => build_computed cl ev n k hide cs c sers) r.
  Proof.
    induction cs as [|[name [sa s]] cs IH]; intros comp M F Fl sers; cbn [build_computed].
    - eexists. apply fin_ok.
    - inversion F as [|x xs [Fn Fi] F']; subst. simpl in Fn, Fi.
      inversion M as [|? [? r] ? comp' [_ M1] M2]; subst. simpl in M1. inversion Fl as [|? ? Fs Fl']; subst. simpl in Fs.
      assert (P : parses cl ev (child (Some name) sa true (ci_computed k name)) s).
      { apply (@parse_total cl ev Hcl defs HD) with (r := r); [apply child_cok; auto; congruence|auto|]. apply child_mns. exact M1. }
      destruct P as (r' & P). destruct (IH comp' M2 F' Fl' (dset name r' sers)) as (q & Q).
      exists q. eapply fin_bind; [exact P|]. exact Q.
  Qed.
End Class.

Lemma class_named : forall k name, class_element k name -> exists name', class_elem_name k = Ok name'.
Proof.
  intros k name (t & u & _ & R & _). unfold class_elem_name. cbv zeta.
  match goal with |- exists n, obind (from_alias ?T _ _ _) _ = _ => set (x := T) end.
  destruct (from_alias_total x (c_ns (ci_params k)) (c_nsmap (ci_params k)) false) as [[v E]|(_ & N & a & Ea & Na)].
  - rewrite E. simpl. eauto.
  - exfalso. rewrite Ea in R. inversion R as [a' al v F|a' al F| |]; subst.
    + inversion F; subst; [|match goal with Q : first_of _ [] _ |- _ => inversion Q end]. apply (Na v). apply declares_says. auto.
    + apply N. inversion F; auto.
Qed.

Section Whole.
  Variable cl : classes.
  Variable ev : env.
  Hypothesis Hcl : classes_ok cl.
  Variables (k : cls_info) (s : cschema) (ds : list (string * cschema)) (s0 : cschema) (cls : string) (root : bool) (body : cschema).
  Hypothesis K : cl cls = Some k.
  Hypothesis FC : flat_class k s ds s0 root body.
  Hypothesis ST : stands_for (dict_of ds) s0 (CModel cls root body).
  Notation D := (dict_of ds).

  Lemma prep_class : exists c, finally (fun n => preprocess n s (class_ctx k)) (CModel cls root body, c) /\
    like (class_ctx k) c /\ cx_defs c = D.
  Proof.
    destruct FC as (CS & F0 & FD & _).
    assert (G : forall c, cx_defs c = D -> exists d, finally (fun n => preprocess n s0 c) (CModel cls root body, d) /\ like c d /\ cx_defs d = D).
    { intros c E. destruct (@prep_total _ _ _ ST F0 FD c E) as (d & N & P). exists d. split; [exists N; exact P|].
      specialize (P N (le_n _)). pose proof (preprocess_like _ _ _ P) as Lk. split; auto.
      eapply preprocess_flat in P; auto; [destruct P; congruence|]. rewrite E. exact FD. }
    destruct CS as [[-> E]| ->].
    - destruct (G (class_ctx k)) as (d & P & Lk & Ed); [simpl; rewrite E; reflexivity|]. exists d. auto.
    - destruct (G (replace_defs (class_ctx k) D)) as (d & P & Lk & Ed); [simpl; apply dict_of_twice|]. exists d.
      split; [apply fin_S; exact P|]. split; auto.
  Qed.

  Lemma prep_class_is : forall n s' c, preprocess n s (class_ctx k) = Ok (s', c) ->
    s' = CModel cls root body /\ like (class_ctx k) c /\ cx_defs c = D.
  Proof.
    intros n s' c P. destruct prep_class as (d & [N E] & Lk & Ed).
    specialize (E (max N n) (Nat.le_max_l _ _)). destruct (@preprocess_le n (max N n) (Nat.le_max_r _ _) s (class_ctx k)) as [Q|Q].
    - rewrite Q in P. discriminate.
    - rewrite Q, E in P. injection P as <- <-. auto.
  Qed.

  Lemma parts_flat : forall fs cs, root = false -> fields_behind body fs cs ->
    Forall (fun nf => flat (field_schema (snd nf))) (xml_fields k fs) /\ Forall (fun cf => flat (snd (snd cf))) cs.
  Proof.
    intros fs cs R B. destruct FC as (_ & _ & _ & FP). rewrite R in FP. specialize (FP _ (ex_intro _ fs (ex_intro _ cs (conj B eq_refl)))).
    apply Forall_app in FP as [F1 F2]. rewrite Forall_map in F1, F2. split; auto.
  Qed.

  Lemma hidden : forall c, like (class_ctx k) c -> default (cx_hide c) (ci_hide k) = default false (ci_hide k).
  Proof. intros c Lk. unfold like in Lk; simpl in Lk. decompose [and] Lk. congruence. Qed.

  Lemma own_keys : forall (hide : bool) fs own (cs : list (string * (option string * cschema))), Forall2 (field_means cl ev D k hide) (xml_fields k fs) own ->
    NoDup (map fst fs ++ map fst cs) -> NoDup (dkeys own ++ map fst cs).
  Proof.
    intros hide fs own cs F ND.
    assert (M : dkeys own = map fst (xml_fields k fs)).
    { clear ND. induction F as [|a b l l' [Ha _] F IH]; simpl; congruence. }
    rewrite M. clear - ND. induction fs as [|f fs IH]; simpl in *; auto. inversion ND; subst.
    destruct (negb _); simpl; auto. constructor; auto. rewrite in_app_iff in *. intros [I|I]; apply H1; auto. left.
    apply in_map_iff in I as (y & <- & Hy). apply in_map. apply filter_In in Hy. tauto.
  Qed.

  Lemma class_meant : forall n b fs cs, root = false -> fields_behind body fs cs -> fields_ok k fs cs ->
    build_class cl ev n k s = Ok b -> class_means cl ev D k fs cs (bm_fields b) /\ class_element k (bm_elem_name b).
  Proof.
    intros n b fs cs R B (ND & Ff & Fc) H. destruct (parts_flat R B) as [P1 P2]. destruct (@Hcl _ _ K) as [Hn Hd].
    unfold build_class in H. destruct (preprocess n s (class_ctx k)) as [[s' c]| |] eqn:P; try discriminate. cbn [obind] in H.
    apply prep_class_is in P. destruct P as (-> & Lk & Ed). rewrite R in H. unfold build_model in H. rewrite K in H.
    apply fields_behind_skip in B. rewrite B in H. cbv zeta in H. rewrite (hidden Lk) in H.
    destruct (build_fields cl ev n k _ fs c [] [] []) as [[[sers va] ex]| |] eqn:E1; try discriminate. cbn [obind] in H.
    apply (@fields_mean cl ev Hcl D (proj1 (proj2 (proj2 FC))) k c Lk Hd Ed) in E1; auto; [|simpl; eapply NoDup_app_remove_r; eauto].
    destruct E1 as (own & -> & F1). cbn [app] in H.
    destruct (build_computed cl ev n k _ cs c own) as [sers2| |] eqn:E2; try discriminate. cbn [obind] in H.
    apply (@computed_mean cl ev Hcl D (proj1 (proj2 (proj2 FC))) k c Lk Hd Ed) in E2; auto; [|eapply own_keys; eauto].
    destruct E2 as (comp & -> & F2).
    destruct (class_elem_name k) as [name| |] eqn:E3; try discriminate. cbn [obind] in H. injection H as <-. simpl.
    split; [exists own, comp; auto|]. apply class_element_built; auto.
  Qed.

  Lemma class_accepted : forall fs cs bound name, root = false -> fields_behind body fs cs -> fields_ok k fs cs ->
    class_means cl ev D k fs cs bound -> class_element k name -> exists n b, build_class cl ev n k s = Ok b.
  Proof.
    intros fs cs bound name R B (ND & Ff & Fc) (own & comp & -> & F1 & F2) E. destruct (parts_flat R B) as [P1 P2]. destruct (@Hcl _ _ K) as [Hn Hd].
    destruct prep_class as (c & Pc & Lk & Ed).
    destruct (class_named E) as (nm & En).
    destruct (@fields_total cl ev Hcl D (proj1 (proj2 (proj2 FC))) k c Lk Hd Ed _ _ _ F1 Ff P1 [] [] []) as ([[sers va] ex] & Q1).
    destruct (@computed_total cl ev Hcl D (proj1 (proj2 (proj2 FC))) k c Lk Hd Ed _ _ _ F2 Fc P2 sers) as (sers2 & Q2).
    assert (G : exists b, finally (fun n => build_class cl ev n k s) b).
    { eexists. unfold build_class. eapply fin_bind; [exact Pc|]. cbv beta iota. rewrite R. unfold build_model. rewrite K.
      apply fields_behind_skip in B. rewrite B. cbv zeta. rewrite (hidden Lk).
      eapply fin_bind; [exact Q1|]. cbv beta iota. eapply fin_bind; [exact Q2|]. rewrite En. apply fin_ok. }
    destruct G as (b & N & G). exists N, b. auto.
  Qed.

  Lemma root_meant : forall n b, root = true -> maybe_info_ok (extract_info (ci_meta k "root")) ->
    build_class cl ev n k s = Ok b ->
    (exists r, bm_fields b = [("root", r)] /\ root_means cl ev D k body r) /\ class_element k (bm_elem_name b).
  Proof.
    intros n b R I H. destruct (@Hcl _ _ K) as [Hn Hd].
    unfold build_class in H. destruct (preprocess n s (class_ctx k)) as [[s' c]| |] eqn:P; try discriminate. cbn [obind] in H.
    apply prep_class_is in P. destruct P as (-> & Lk & Ed). rewrite R in H. unfold build_root_model in H. rewrite K in H. cbv zeta in H.
    rewrite (hidden Lk) in H. destruct (parse cl ev n body _) as [r| |] eqn:E in H; try discriminate. cbn [obind] in H.
    destruct (class_elem_name k) as [name| |] eqn:E3; try discriminate. cbn [obind] in H. injection H as <-. simpl.
    destruct FC as (_ & _ & FD & FP). rewrite R in FP. specialize (FP _ eq_refl). inversion FP as [|? ? Fb _]; subst. simpl in Fb.
    apply (@parse_means cl ev Hcl D FD) in E; auto; [|apply child_cok with (k := k); auto; discriminate].
    apply (child_mns cl ev D Lk) in E.
    assert (Q : cx_alias c = None /\ cx_computed c = false) by (unfold like in Lk; simpl in Lk; decompose [and] Lk; auto).
    destruct Q as (Q1 & Q2). rewrite Q1, Q2 in E. split; [exists r; split; auto|]. apply class_element_built; auto.
  Qed.

  Lemma root_accepted : forall r name, root = true -> maybe_info_ok (extract_info (ci_meta k "root")) ->
    root_means cl ev D k body r -> class_element k name -> exists n b, build_class cl ev n k s = Ok b.
  Proof.
    intros r name R I M E. destruct (@Hcl _ _ K) as [Hn Hd]. destruct prep_class as (c & Pc & Lk & Ed).
    destruct (class_named E) as (nm & En).
    destruct FC as (_ & _ & FD & FP). rewrite R in FP. specialize (FP _ eq_refl). inversion FP as [|? ? Fb _]; subst. simpl in Fb.
    assert (Q : cx_alias c = None /\ cx_computed c = false) by (unfold like in Lk; simpl in Lk; decompose [and] Lk; auto).
    destruct Q as (Q1 & Q2).
    assert (P : parses cl ev (child_field c None (cx_alias c) (cx_computed c) (extract_info (ci_meta k "root")) (default false (ci_hide k))) body).
    { apply (@parse_total cl ev Hcl D FD) with (r := r); [apply child_cok with (k := k); auto; discriminate|auto|].
      apply (child_mns cl ev D Lk). rewrite Q1, Q2. exact M. }
    destruct P as (r' & P).
    assert (G : exists b, finally (fun n => build_class cl ev n k s) b).
    { eexists. unfold build_class. eapply fin_bind; [exact Pc|]. cbv beta iota. unfold build_root_model. rewrite K.
      cbv zeta. rewrite (hidden Lk). eapply fin_bind; [exact P|]. rewrite En. apply fin_ok. }
    destruct G as (b & N & G). exists N, b. auto.
  Qed.
End Whole.
