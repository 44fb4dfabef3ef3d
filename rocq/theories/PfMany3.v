(** PfMany3.v -- writing instances of classes with fields made lists. *)

From Verif Require Import Base Elem Native Errs Names Ser Write Api SpecWrite SpecSim SpecOut SpecSub SpecPage SpecMoved SpecSwap SpecMany
  PfOut5 PfMany2.
From Verif Require PfNames.

Local Ltac inv H := inversion H; subst; clear H.

Section Rules.
  Variable ev : env.

  Lemma one_item : forall fl s t h x xe ps, x <> VNone -> writes ev fl s x xe ps <-> writes ev fl (SHomo t false s h) (VList [x]) (VList [xe]) ps.
  Proof.
    intros fl s t h x xe ps Nx. split; intros W.
    - apply w_list; [discriminate|]. rewrite <- (app_nil_r ps). apply wi_item; auto; [tauto|apply wi_end].
    - inv W; try (match goal with X : scalar_field _ |- _ => inversion X end).
      match goal with X : writes_items _ _ _ _ _ _ |- _ => inv X end; [congruence|].
      match goal with X : writes_items _ _ _ [] _ _ |- _ => inv X end; rewrite app_nil_r; auto.
  Qed.

  Lemma lists_get : forall names k d, dget k (in_lists names d) = match dget k d with Some x => Some (if str_in k names then VList [x] else x) | None => None end.
  Proof.
    intros names k d. induction d as [|[a b] d IH]; simpl; auto. destruct (String.eqb_spec k a); [subst; auto|auto].
  Qed.

  Variables (m m' : mdef) (names : list string) (cls cls' : string) (attrs d : list (string * val)) (set : list string).
  Hypothesis Ex : md_sexclude m' = md_sexclude m.
  Hypothesis Some_value : forall name, In name names -> dget name attrs <> Some VNone.
  Let v := VModel cls attrs set.
  Let v' := VModel cls' (in_lists names attrs) set.

  Lemma fields_alike : forall fs fs' lists, made_lists fs fs' lists -> NoDup (map fst fs) ->
    (forall name, In name (map fst fs) -> str_in name names = str_in name (map fst lists)) ->
    forall fl ps, writes_fields ev fl m fs v (VDict d) ps <-> writes_fields ev fl m' fs' v' (VDict (in_lists names d)) ps.
  Proof.
    assert (Out : forall x l, ~ In x l -> str_in x l = false) by (intros x l N; destruct (str_in x l) eqn:E; auto; apply PfNames.str_in_In in E; contradiction).
    induction 1 as [|[n s] fs fs' lists M IH|name s mode tag title hide fs fs' lists So M IH]; intros Nd K fl ps.
    - split; intros W; inv W; constructor.
    - simpl in Nd. inversion Nd as [|? ? Nn Nd']; subst. specialize (IH Nd' (fun x I => K x (or_intror I)) fl).
      assert (Kn : str_in n names = false). { rewrite (K n (or_introl eq_refl)). apply Out. intros I. apply Nn. apply (proj2 (turned_names M)). auto. }
      split; intros W; inv W.
      + apply wf_excluded; [rewrite Ex; auto|apply IH; auto].
      + apply wf_unset; auto; [rewrite Ex; auto|apply IH; auto].
      + eapply wf_field; eauto; try (rewrite Ex; auto); try (rewrite lists_get, Kn); try (match goal with X : dget _ _ = _ |- _ => rewrite X; reflexivity end). apply IH; auto.
      + apply wf_excluded; [rewrite <- Ex; auto|apply IH; auto].
      + apply wf_unset; auto; [rewrite <- Ex; auto|apply IH; auto].
      + match goal with X : dget n (in_lists names attrs) = _, Y : dget n (in_lists names d) = _ |- _ => rewrite lists_get, Kn in X, Y end.
        destruct (dget n attrs) eqn:Ea; [|discriminate]. destruct (dget n d) eqn:Ed; [|discriminate].
        repeat match goal with X : Some _ = Some _ |- _ => injection X as -> end.
        eapply wf_field; eauto; [rewrite <- Ex; auto|apply IH; auto].
    - simpl in Nd. inversion Nd as [|? ? Nn Nd']; subst.
      assert (K' : forall x, In x (map fst fs) -> str_in x names = str_in x (map fst lists)).
      { intros x I. rewrite (K x (or_intror I)). simpl. destruct (String.eqb_spec x name); auto. subst. contradiction. }
      specialize (IH Nd' K' fl).
      assert (Kn : str_in name names = true) by (rewrite (K name (or_introl eq_refl)); simpl; rewrite String.eqb_refl; auto).
      assert (Nv := Some_value name ltac:(apply PfNames.str_in_In; exact Kn)).
      split; intros W; inv W.
      + apply wf_excluded; [rewrite Ex; auto|apply IH; auto].
      + apply wf_unset; auto; [rewrite Ex; auto|apply IH; auto].
      + eapply wf_field; [rewrite Ex; auto|auto| | | |apply IH; eauto].
        * rewrite lists_get, Kn. match goal with X : dget _ attrs = _ |- _ => rewrite X; reflexivity end.
        * rewrite lists_get, Kn. match goal with X : dget _ d = _ |- _ => rewrite X; reflexivity end.
        * apply one_item; [congruence|auto].
      + apply wf_excluded; [rewrite <- Ex; auto|apply IH; auto].
      + apply wf_unset; auto; [rewrite <- Ex; auto|apply IH; auto].
      + match goal with X : dget name (in_lists names attrs) = _, Y : dget name (in_lists names d) = _ |- _ => rewrite lists_get, Kn in X, Y end.
        destruct (dget name attrs) eqn:Ea; [|discriminate]. destruct (dget name d) eqn:Ed; [|discriminate].
        repeat match goal with X : Some _ = Some _ |- _ => injection X as <- end.
        eapply wf_field; eauto; [rewrite <- Ex; auto| |apply IH; auto]. eapply one_item; [congruence|eauto].
  Qed.
End Rules.

Lemma raws_in_lists : forall n cls cls' names attrs set, raw_in n (VModel cls' (in_lists names attrs) set) -> raw_in n (VModel cls attrs set).
Proof.
  intros n cls cls' names attrs set X. inversion X as [|? ? I|? ? ? name w I Rw]; subst. unfold in_lists in I. apply in_map_iff in I. destruct I as ([k x] & E & I).
  simpl in E. injection E as -> E. eapply ri_model; [exact I|]. destruct (str_in name names); subst; auto. inversion Rw as [|l u Iu Ru|]; subst. destruct Iu as [<-|[]]. auto.
Qed.

Lemma relisted_written : forall ev, no_customs ev -> forall cls cls' m m' lists, en_model ev cls = Some m -> en_model ev cls' = Some m' ->
  relisted_out lists m m' -> forall attrs set d fl doc encode,
  (forall name, In name (map fst lists) -> dget name attrs <> Some VNone) -> raws_apart ev (VModel cls attrs set) ->
  encode (VModel cls attrs set) = VDict d -> encode (VModel cls' (in_lists (map fst lists) attrs) set) = VDict (in_lists (map fst lists) d) ->
  (exists n, to_xml_tree n ev encode (VModel cls attrs set) fl = Ok doc) <->
  (exists n, to_xml_tree n ev encode (VModel cls' (in_lists (map fst lists) attrs) set) fl = Ok doc).
Proof.
  intros ev NC cls cls' m m' lists Em Em' [[R0 R0'] Et Ens Eex Esk M Nd] attrs set d fl doc encode Nv RA E E'.
  assert (RA' : raws_apart ev (VModel cls' (in_lists (map fst lists) attrs) set)) by (intros n X; apply RA; eapply raws_in_lists; eauto).
  assert (Fl : class_flags m' fl = class_flags m fl) by (unfold class_flags; rewrite Esk; auto).
  pose proof (fun ps => @fields_alike ev m m' (map fst lists) cls cls' attrs d set Eex Nv _ _ _ M Nd (fun _ _ => eq_refl) (class_flags m fl) ps) as FA.
  split; intros [n W].
  - apply written_document in W; auto. inv W. rewrite E in *. assert (m0 = m) by congruence. subst m0.
    match goal with X : writes_model _ _ _ _ _ _ |- _ => inv X; try congruence end.
    edestruct (@document_written ev encode fl (VModel cls' (in_lists (map fst lists) attrs) set) doc NC) as [N K]; [|exists N; apply K; auto].
    rewrite E'. eapply doc_intro; [exact Em'| |rewrite Et, Ens; eauto|auto]. apply wm_fields; auto; [discriminate|]. rewrite Fl. apply FA; auto.
  - apply written_document in W; auto. inv W. rewrite E' in *. assert (m0 = m') by congruence. subst m0.
    match goal with X : writes_model _ _ _ _ _ _ |- _ => inv X; try congruence end.
    edestruct (@document_written ev encode fl (VModel cls attrs set) doc NC) as [N K]; [|exists N; apply K; auto].
    rewrite E. eapply doc_intro; [exact Em| |rewrite <- Et, <- Ens; eauto|auto]. apply wm_fields; auto; [discriminate|]. rewrite <- Fl. rewrite <- Fl in FA. apply FA; auto.
Qed.
