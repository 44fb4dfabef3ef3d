(** PfMany2.v -- classes with fields made lists, and whole documents. *)

From Verif Require Import Base Elem Native Errs Names Ser Read Api SpecSim SpecOut SpecSub SpecPage SpecMoved SpecSwap SpecMany
  PfPage PfPage2 PfPage3 PfPage4 SpecStable PfStable PfMany.
From Verif Require PfNames.

Local Ltac inv H := inversion H; subst; clear H.

Inductive turned : list (string * ser) -> list (string * ser) -> list (string * string) -> list answer -> list answer -> Prop :=
| tn_end : forall fs fs' lists, made_lists fs fs' lists -> turned fs fs' lists [] []
| tn_same : forall f fs fs' lists a l l', turned fs fs' lists l l' -> turned (f :: fs) (f :: fs') lists (a :: l) (a :: l')
| tn_list : forall name s mode tag title hide fs fs' lists a l l', sole s = Some (mode, tag) -> turned fs fs' lists l l' ->
    turned ((name, s) :: fs) ((name, SHomo title false s hide) :: fs') ((name, tag) :: lists) (a :: l) (listed title a :: l').

Definition few (lists : list (string * string)) (p : page) : Prop :=
  forall name tag, In (name, tag) lists -> length (filter (named_b tag) (pg_ahead p)) <= 1.

Lemma few_less : forall lists p p', few lists p -> fewer p p' -> few lists p'.
Proof. intros lists p p' F L name tag I. specialize (F name tag I). specialize (L (named_b tag)). lia. Qed.
Lemma few_tail : forall x lists p, few (x :: lists) p -> few lists p.
Proof. intros x lists p F name tag I. eapply F. right; eauto. Qed.

Lemma listed_go : forall title a, goes_on (listed title a) <-> goes_on a.
Proof. intros title [[]| |]; simpl; tauto. Qed.

Section Rules.
  Variables (ev : env) (eas : bool).

  Lemma to_lists : forall fs fs' lists, made_lists fs fs' lists -> forall p l p', few lists p -> reads_fields ev eas fs p l p' ->
    exists l', turned fs fs' lists l l' /\ reads_fields ev eas fs' p l' p'.
  Proof.
    induction 1 as [|[n s] fs fs' lists M IH|name s mode tag title hide fs fs' lists So M IH]; intros p l p' F R; inv R.
    - exists []. split; constructor; constructor.
    - edestruct IH as (l' & T & R'); [|eassumption|]. { eapply few_less; [exact F|]. eapply (proj1 (all_fewer ev eas)); eauto. }
      exists (a :: l'). split; [apply tn_same; auto|]. eapply rf_field; eauto.
    - exists [Stopped w]. split; [apply tn_same, tn_end; auto|]. apply rf_stop; auto.
    - assert (L : length (filter (named_b tag) (pg_ahead p)) <= 1) by (eapply F; left; reflexivity).
      edestruct IH as (l' & T & R'); [|eassumption|]. { eapply few_less; [eapply few_tail; exact F|]. eapply (proj1 (all_fewer ev eas)); eauto. }
      exists (listed title a :: l'). split; [eapply tn_list; eauto|]. eapply rf_field; [eapply list_of; eauto|apply listed_go; auto|auto].
    - assert (L : length (filter (named_b tag) (pg_ahead p)) <= 1) by (eapply F; left; reflexivity).
      exists [listed title (Stopped w)]. split; [eapply tn_list; [eauto|apply tn_end; auto]|]. simpl. apply rf_stop. exact (@list_of ev eas s mode tag title hide p (Stopped w) p' So L ltac:(assumption)).
  Qed.

  Lemma from_lists : forall fs fs' lists, made_lists fs fs' lists -> forall p l' p', few lists p -> reads_fields ev eas fs' p l' p' ->
    exists l, turned fs fs' lists l l' /\ reads_fields ev eas fs p l p'.
  Proof.
    induction 1 as [|[n s] fs fs' lists M IH|name s mode tag title hide fs fs' lists So M IH]; intros p l p' F R; inv R.
    - exists []. split; constructor; constructor.
    - edestruct IH as (l' & T & R'); [|eassumption|]. { eapply few_less; [exact F|]. eapply (proj1 (all_fewer ev eas)); eauto. }
      exists (a :: l'). split; [apply tn_same; auto|]. eapply rf_field; eauto.
    - exists [Stopped w]. split; [apply tn_same, tn_end; auto|]. apply rf_stop; auto.
    - assert (L : length (filter (named_b tag) (pg_ahead p)) <= 1) by (eapply F; left; reflexivity).
      match goal with X : reads _ _ (SHomo _ _ _ _) _ _ _ |- _ => destruct (of_list So L X) as (a0 & R0 & ->) end.
      edestruct IH as (l' & T & R'); [|eassumption|]. { eapply few_less; [eapply few_tail; exact F|]. eapply (proj1 (all_fewer ev eas)); eauto. }
      exists (a0 :: l'). split; [eapply tn_list; eauto|]. eapply rf_field; [eauto|eapply listed_go; eauto|auto].
    - assert (L : length (filter (named_b tag) (pg_ahead p)) <= 1) by (eapply F; left; reflexivity).
      match goal with X : reads _ _ (SHomo _ _ _ _) _ _ _ |- _ => destruct (of_list So L X) as (a0 & R0 & E0) end.
      assert (a0 = Stopped w) by (destruct a0 as [[]| |]; simpl in E0; congruence). subst a0.
      exists [Stopped w]. split; [|apply rf_stop; auto]. change [Stopped w] with [listed title (Stopped w)] at 2. eapply tn_list; [eauto|apply tn_end; auto].
  Qed.
End Rules.

(** ---- answers of the fields ---- *)
Lemma turned_got : forall fs fs' lists l l', turned fs fs' lists l l' -> (exists vs, l = map Got vs) <-> (exists vs, l' = map Got vs).
Proof.
  induction 1 as [|f fs fs' lists a l l' T IH|name s mode tag title hide fs fs' lists a l l' So T IH].
  - split; intros _; exists []; reflexivity.
  - split; intros [[|v vs] E]; try discriminate; injection E as -> ->; destruct IH as [A B];
      [destruct (A (ex_intro _ vs eq_refl)) as [vs' ->]|destruct (B (ex_intro _ vs eq_refl)) as [vs' ->]]; exists (v :: vs'); reflexivity.
  - split; intros [[|v vs] E]; try discriminate.
    + injection E as -> ->. destruct IH as [A _]. destruct (A (ex_intro _ vs eq_refl)) as [vs' ->].
      destruct v; eexists (_ :: vs'); reflexivity.
    + injection E as E ->. destruct IH as [_ B]. destruct (B (ex_intro _ vs eq_refl)) as [vs' ->]. destruct a as [x| |]; try discriminate. exists (x :: vs'). reflexivity.
Qed.

Lemma turned_kinds : forall fs fs' lists l l', turned fs fs' lists l l' ->
  (Exists refused l <-> Exists refused l') /\ (Forall goes_on l <-> Forall goes_on l') /\ (forall w, In (Stopped w) l <-> In (Stopped w) l').
Proof.
  induction 1 as [|f fs fs' lists a l l' T IH|name s mode tag title hide fs fs' lists a l l' So T IH]; [repeat split; auto| |];
    destruct IH as (A & B & C); (split; [|split]).
  - split; intros X; inv X; [left; auto|right; apply A; auto|left; auto|right; apply A; auto].
  - split; intros X; inv X; constructor; auto; apply B; auto.
  - intros w. simpl. rewrite (C w). tauto.
  - split; intros X; inv X; try (right; apply A; assumption); left; destruct a as [[]| |]; simpl in *; auto.
  - split; intros X; inv X; constructor; try (apply B; assumption); [apply listed_go; auto|eapply listed_go; eauto].
  - intros w. simpl. rewrite (C w). destruct a as [[]| |]; simpl; split; intros [X|X]; auto; try discriminate.
Qed.

Lemma placed_refl : forall names rs, Forall2 (placed names) rs rs.
Proof. intros names. induction rs; constructor; auto. apply pl_same. Qed.

Lemma turned_refusals : forall names fs fs' lists l l', turned fs fs' lists l l' -> incl (map fst lists) names ->
  Forall2 (placed names) (under_names (refusals (combine (map fst fs) l))) (under_names (refusals (combine (map fst fs') l'))).
Proof.
  intros names. induction 1 as [fs fs' lists M|[n s] fs fs' lists a l l' T IH|name s mode tag title hide fs fs' lists a l l' So T IH]; intros Hn.
  - destruct fs, fs'; constructor.
  - cbn [map fst combine]. unfold refusals in *. cbn [flat_map fst snd]. destruct a as [v|t rs|w]; simpl; auto. apply Forall2_app; auto. apply placed_refl.
  - cbn [map fst combine]. assert (In1 : In name names) by (apply Hn; left; reflexivity).
    assert (Hn' : incl (map fst lists) names) by (intros x I; apply Hn; right; auto). specialize (IH Hn').
    unfold refusals in *. cbn [flat_map fst snd]. destruct a as [v|t rs|w].
    + destruct v; exact IH.
    + simpl. apply Forall2_app; auto. clear - In1. induction rs; constructor; auto. unfold under; simpl. apply pl_index; auto.
    + exact IH.
Qed.

Lemma refusal_keys : forall names l, NoDup names -> NoDup (dkeys (refusals (combine names l))).
Proof.
  assert (K : forall names l x, In x (dkeys (refusals (combine names l))) -> In x names).
  { induction names as [|n names IH]; intros [|a l] x I; simpl in *; auto; try contradiction. unfold refusals in *. cbn [flat_map fst snd] in I.
    destruct a; simpl in I; try (right; eapply IH; exact I). destruct I as [<-|I]; auto. right. eapply IH. exact I. }
  induction names as [|n names IH]; intros [|a l] Nd; simpl; try constructor. inv Nd. unfold refusals in *. cbn [flat_map fst snd].
  destruct a; simpl; auto. constructor; [|apply IH; auto]. intros I. apply H1. eapply K. exact I.
Qed.

Lemma turned_names : forall fs fs' lists, made_lists fs fs' lists -> map fst fs' = map fst fs /\ incl (map fst lists) (map fst fs).
Proof.
  induction 1 as [|f fs fs' lists M [E I]|name s mode tag title hide fs fs' lists So M [E I]]; simpl; split; auto; try congruence.
  - intros x H. right. auto.
  - intros x [<-|H]; [left; auto|right; auto].
Qed.

Lemma made_of : forall fs fs' lists l l', turned fs fs' lists l l' -> made_lists fs fs' lists.
Proof. induction 1; auto; econstructor; eauto. Qed.

(** ---- data ---- *)
Lemma entries_cons : forall m n v found, entries m ((n, v) :: found) = (if is_none v then [] else [(data_key m n, v)]) ++ entries m found.
Proof. intros. unfold entries. simpl. destruct (is_none v); reflexivity. Qed.

Lemma turned_entries : forall m keys fs fs' lists l l', turned fs fs' lists l l' -> NoDup (map fst fs) -> forall vs vs', l = map Got vs -> l' = map Got vs' ->
  incl (map fst lists) (map fst fs) -> (forall name, In name (map fst fs) -> str_in (data_key m name) keys = str_in name (map fst lists)) ->
  entries m (combine (map fst fs') vs') = in_lists keys (entries m (combine (map fst fs) vs)).
Proof.
  assert (Out : forall x l, ~ In x l -> str_in x l = false) by (intros x l N; destruct (str_in x l) eqn:E; auto; apply PfNames.str_in_In in E; contradiction).
  intros m keys. induction 1 as [fs fs' lists M|[n s] fs fs' lists a l l' T IH|name s mode tag title hide fs fs' lists a l l' So T IH]; intros Nd vs vs' E E' In1 K.
  - destruct vs; [|discriminate]. destruct vs'; [|discriminate]. destruct fs, fs'; reflexivity.
  - destruct vs as [|v vs]; [discriminate|]. destruct vs' as [|v' vs']; [discriminate|]. simpl in E, E'. injection E as -> E. injection E' as <- E'.
    simpl in Nd. inversion Nd as [|? ? Nn Nd']; subst. pose proof (made_of T) as M. destruct (turned_names M) as [_ I'].
    specialize (IH Nd' vs vs' eq_refl eq_refl I' (fun x I => K x (or_intror I))).
    cbn [map fst combine]. rewrite !entries_cons. unfold in_lists in *. rewrite map_app, <- IH. f_equal. destruct (is_none v); auto. cbn [map fst snd].
    rewrite (K n (or_introl eq_refl)), Out; auto.
  - destruct vs as [|v vs]; [discriminate|]. destruct vs' as [|v' vs']; [discriminate|]. simpl in E, E'. injection E as -> E. injection E' as Ev E'.
    simpl in Nd. inversion Nd as [|? ? Nn Nd']; subst. pose proof (made_of T) as M. destruct (turned_names M) as [_ I'].
    assert (K' : forall x, In x (map fst fs) -> str_in (data_key m x) keys = str_in x (map fst lists)).
    { intros x I. rewrite (K x (or_intror I)). simpl. destruct (String.eqb_spec x name); auto. subst. contradiction. }
    specialize (IH Nd' vs vs' eq_refl eq_refl I' K').
    cbn [map fst combine]. rewrite !entries_cons. unfold in_lists in *. rewrite map_app, <- IH. f_equal.
    assert (Kn : str_in (data_key m name) keys = true) by (rewrite (K name (or_introl eq_refl)); simpl; rewrite String.eqb_refl; auto).
    destruct v; injection Ev as <-; cbn [is_none map fst snd]; rewrite ?Kn; reflexivity.
Qed.

Lemma data_keys : forall m (fs : list (string * ser)) (lists : list (string * string)), NoDup (map (fun f => key_of m (fst f)) fs) -> incl (map fst lists) (map fst fs) ->
  forall name, In name (map fst fs) -> str_in (data_key m name) (map (fun l => key_of m (fst l)) lists) = str_in name (map fst lists).
Proof.
  intros m fs lists Nd I name In1. change (data_key m name) with (key_of m name).
  assert (Inj : forall a b, In a (map fst fs) -> In b (map fst fs) -> key_of m a = key_of m b -> a = b).
  { clear - Nd. induction fs as [|[n s] fs IH]; simpl in *; [intros a b []|]. inv Nd. intros a b [<-|Ia] [<-|Ib] E; auto.
    - exfalso. apply H1. rewrite E. rewrite in_map_iff in *. destruct Ib as ([x y] & <- & Ix). exists (x, y). auto.
    - exfalso. apply H1. rewrite <- E. rewrite in_map_iff in *. destruct Ia as ([x y] & <- & Ix). exists (x, y). auto. }
  destruct (str_in name (map fst lists)) eqn:E.
  - apply PfNames.str_in_In in E. apply PfNames.str_in_In. rewrite in_map_iff in *. destruct E as (l & <- & Il). exists l. auto.
  - destruct (str_in (key_of m name) (map (fun l => key_of m (fst l)) lists)) eqn:E'; auto. apply PfNames.str_in_In in E'. rewrite in_map_iff in E'. destruct E' as (l & El & Il).
    assert (name = fst l). { apply Inj; auto. apply I. apply in_map; auto. } subst. apply (in_map fst) in Il. apply PfNames.str_in_In in Il. congruence.
Qed.

Lemma combine_keys : forall m (fs : list (string * ser)) (vs : list val), NoDup (map (fun f => key_of m (fst f)) fs) -> NoDup (map (fun nv => data_key m (fst nv)) (combine (map fst fs) vs)).
Proof.
  intros m. assert (K : forall (fs : list (string * ser)) (vs : list val) x, In x (map (fun nv => data_key m (fst nv)) (combine (map fst fs) vs)) -> In x (map (fun f => key_of m (fst f)) fs)).
  { induction fs as [|[n s] fs IH]; intros [|v vs] x I; simpl in *; auto; try contradiction. destruct I as [<-|I]; auto. right. eapply IH; eauto. }
  induction fs as [|[n s] fs IH]; intros [|v vs] Nd; simpl; try constructor; inv Nd; auto. intros I. apply H1. eapply K. exact I.
Qed.

Lemma turned_given : forall m m' lists l l' vs vs', md_valias m' = md_valias m -> turned (md_fields m) (md_fields m') lists l l' ->
  made_lists (md_fields m) (md_fields m') lists ->
  NoDup (map fst (md_fields m)) -> NoDup (map (fun f => key_of m (fst f)) (md_fields m)) -> l = map Got vs -> l' = map Got vs' ->
  given m' (combine (map fst (md_fields m')) vs') = in_lists (map (fun l => key_of m (fst l)) lists) (given m (combine (map fst (md_fields m)) vs)).
Proof.
  intros m m' lists l l' vs vs' Ea T M Nd Nk E E'. destruct (turned_names M) as [En I].
  assert (Eg : forall found, given m' found = given m found).
  { intros found. unfold given. f_equal. apply map_ext. intros nv. unfold input_key. rewrite Ea. auto. }
  rewrite Eg, !given_entries; try (apply combine_keys; auto).
  - eapply turned_entries; eauto. eapply data_keys; eauto.
  - replace (map (fun f : string * ser => key_of m (fst f)) (md_fields m')) with (map (key_of m) (map fst (md_fields m'))) by (rewrite map_map; auto). rewrite En, map_map. auto.
Qed.

(** ---- classes ---- *)
Lemma judged_iff : forall m p input a, judged m p input a <->
  (md_forbid m = true /\ ~ used_up p /\ a = Refused (md_name m) (left_over [] p)) \/
  ((md_forbid m = true -> used_up p) /\ a = judgement (md_validate m input)).
Proof.
  intros m p input a. split.
  - intros J. inv J; [left; auto|right|right|right]; split; auto; rewrite H0; reflexivity.
  - intros [(F & N & ->)|(F & ->)]; [apply jg_extra; auto|]. destruct (md_validate m input) eqn:E; simpl; [eapply jg_valid|eapply jg_invalid|eapply jg_crashed]; eauto.
Qed.

Section Class.
  Variables (ev : env) (eas : bool) (R : val -> val -> Prop) (lists : list (string * string)) (m m' : mdef) (p : page).
  Hypothesis H : relisted R lists m m'.
  Hypothesis F : few lists p.
  Let names := map fst lists ++ map (fun l => key_of m (fst l)) lists.

  Lemma class_there : forall a left, reads_model ev eas m p a left -> exists a', reads_model ev eas m' p a' left /\ same_but R names a a'.
  Proof.
    destruct H as [[R0 R0'] _ En Ef Ea M Nd Nk Va]. intros a left X. inv X; try congruence.
    - destruct (to_lists M F H1) as (l' & T & Rf). destruct (turned_got T) as [G _]. destruct (G (ex_intro _ vs eq_refl)) as (vs' & ->).
      pose proof (@turned_given m m' lists _ _ vs vs' Ea T M Nd Nk eq_refl eq_refl) as Eg.
      apply judged_iff in H2. destruct H2 as [(Fb & Nu & ->)|(Fb & ->)].
      + exists (Refused (md_name m') (left_over [] left)). split.
        * eapply rm_fields; eauto. apply judged_iff. left. rewrite Ef. auto.
        * rewrite En. apply sb_refused, placed_refl.
      + eexists. split; [eapply rm_fields; eauto; apply judged_iff; right; split; [rewrite Ef; exact Fb|reflexivity]|]. rewrite Eg. apply Va.
    - destruct (to_lists M F H1) as (l' & T & Rf). destruct (turned_kinds T) as (K1 & K2 & K3).
      pose proof (@turned_refusals names _ _ _ _ _ T (fun x I => in_or_app _ _ _ (or_introl I))) as Tr. destruct (turned_names M) as [Em _].
      rewrite !dict_of_nodup in H2 by (apply refusal_keys; auto). inv H2.
      + eexists. split; [eapply rm_bad_field; eauto; apply fl_refused; [apply K1; auto|apply K2; auto]|]. rewrite En, dict_of_nodup by (apply refusal_keys; rewrite Em; auto).
        apply sb_refused. auto.
      + exists (Stopped w). split; [eapply rm_bad_field; eauto; apply fl_stopped; apply K3; auto|apply sb_stopped].
  Qed.

  Lemma class_back : forall a' left, reads_model ev eas m' p a' left -> exists a, reads_model ev eas m p a left /\ same_but R names a a'.
  Proof.
    destruct H as [[R0 R0'] _ En Ef Ea M Nd Nk Va]. intros a left X. inv X; try congruence.
    - destruct (from_lists M F H1) as (l' & T & Rf). destruct (turned_got T) as [_ G]. destruct (G (ex_intro _ vs eq_refl)) as (vs' & ->).
      pose proof (@turned_given m m' lists _ _ vs' vs Ea T M Nd Nk eq_refl eq_refl) as Eg.
      apply judged_iff in H2. destruct H2 as [(Fb & Nu & ->)|(Fb & ->)].
      + exists (Refused (md_name m) (left_over [] left)). split.
        * eapply rm_fields; eauto. apply judged_iff. left. rewrite <- Ef. auto.
        * rewrite En. apply sb_refused, placed_refl.
      + eexists. split; [eapply rm_fields; eauto; apply judged_iff; right; split; [rewrite <- Ef; exact Fb|reflexivity]|]. rewrite Eg. apply Va.
    - destruct (from_lists M F H1) as (l' & T & Rf). destruct (turned_kinds T) as (K1 & K2 & K3).
      pose proof (@turned_refusals names _ _ _ _ _ T (fun x I => in_or_app _ _ _ (or_introl I))) as Tr. destruct (turned_names M) as [Em _].
      rewrite dict_of_nodup in H2 by (apply refusal_keys; rewrite Em; auto). inv H2.
      + eexists. split; [eapply rm_bad_field; eauto; apply fl_refused; [apply K1; auto|apply K2; auto]|]. rewrite En, dict_of_nodup by (apply refusal_keys; auto).
        apply sb_refused. auto.
      + exists (Stopped w). split; [eapply rm_bad_field; eauto; apply fl_stopped; apply K3; auto|apply sb_stopped].
  Qed.
End Class.

Lemma gives_iff : forall ev, plain_classes ev -> forall cls m root eas a, en_model ev cls = Some m ->
  from_xml_gives ev cls root eas a <-> SpecPage.named (md_elem_name m) root /\ exists left, reads_model ev eas m (unopened root) a left.
Proof.
  intros ev HP cls m root eas [v|t rs|w] Em; simpl; [apply read_document|apply refused_document|apply stopped_document]; auto.
Qed.

Lemma relisted_documents : forall ev, plain_classes ev -> forall cls cls' m m' R lists, en_model ev cls = Some m -> en_model ev cls' = Some m' ->
  relisted R lists m m' -> forall root eas, (forall name tag, In (name, tag) lists -> at_most_once tag root) ->
  (forall a, from_xml_gives ev cls root eas a -> exists a', from_xml_gives ev cls' root eas a' /\ same_but R (map fst lists ++ map (fun l => key_of m (fst l)) lists) a a') /\
  (forall a', from_xml_gives ev cls' root eas a' -> exists a, from_xml_gives ev cls root eas a /\ same_but R (map fst lists ++ map (fun l => key_of m (fst l)) lists) a a').
Proof.
  intros ev HP cls cls' m m' R lists Em Em' Rl root eas Am.
  assert (F : few lists (unopened root)) by (intros name tag I; apply (Am name tag I)).
  pose proof (rl_tag Rl) as Et. split.
  - intros a G. apply (@gives_iff _ HP _ _ root eas a Em) in G. destruct G as (N & left & X). destruct (class_there Rl F X) as (a' & X' & S).
    exists a'. split; auto. apply (@gives_iff _ HP _ _ root eas a' Em'). rewrite Et. eauto.
  - intros a G. apply (@gives_iff _ HP _ _ root eas a Em') in G. destruct G as (N & left & X). destruct (class_back Rl F X) as (a' & X' & S).
    exists a'. split; auto. apply (@gives_iff _ HP _ _ root eas a' Em). rewrite <- Et. eauto.
Qed.
