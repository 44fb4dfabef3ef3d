(** PfEvolve3.v -- the documents of the old and the new classes (C85). *)

From Verif Require Import Base Elem Native Errs Names Ser SpecRead SpecSim SpecStray SpecOut SpecAttrs SpecTail SpecEvolve PfOut PfOut2 PfEvolve PfEvolve2.

Local Ltac inv H := inversion H; subst; clear H.

Lemma comments_refl : forall n, is_xml_comment n = false -> same_but_comments n n.
Proof.
  intros n; induction n as [tag ns text tail a cs line IH| |text tail a line] using native_ind'; intros C; try discriminate; [|constructor].
  constructor. unfold no_comments. clear C. induction cs as [|c cs IHc]; simpl; [constructor|]. inv IH.
  destruct (is_xml_comment c) eqn:E; simpl; auto.
Qed.

Lemma same_length : forall X Y (R : X -> Y -> Prop) l l', Forall2 R l l' -> length l = length l'.
Proof. intros X Y R l l' H; induction H; simpl; auto. Qed.

Lemma filter_same_length : forall X (f : X -> bool) l, length (filter f l) = length l -> filter f l = l.
Proof.
  intros X f l; induction l as [|x l IH]; simpl; auto. destruct (f x); simpl; intros E; [f_equal; auto|].
  assert (L : length (filter f l) <= length l) by (clear; induction l as [|y l IH]; simpl; auto; destruct (f y); simpl; lia). lia.
Qed.

Section Shown.
  Variables (U : string -> bool) (A : string -> string -> bool) (T W : string -> bool) (late : bool) (b : backend).

  Lemma strays_refl : forall n, is_element n -> like_but_strays false false U W n n.
  Proof.
    intros n; induction n as [tag ns text tail a cs line IH| |text tail a line] using native_ind'; intros C; try contradiction.
    eapply lbs_elem; simpl; [reflexivity| |intros _; apply comments_refl; reflexivity|discriminate].
    clear C. unfold wanted. induction cs as [|c cs IHc]; simpl; [constructor|]. inv IH.
    destruct c; simpl in *; auto. destruct (negb (U tag0)); auto.
  Qed.

  (** the old document, the old one with the new attributes, the new one *)
  Definition stages (t t' : native) : Prop :=
    exists mid, same_but_attrs A W t mid /\ same_but_strays false U W mid t' /\
      (no_pi t' -> no_pi mid /\ no_pi t) /\ is_element mid /\ (late = true -> same_but_tail U W mid t').

  Lemma stages_refl : forall t, is_element t -> stages t t.
  Proof. intros t E. exists t. split; [apply sba_same|split; [apply strays_refl; auto|]]. split; auto. split; auto. intros _. apply sbt_same. Qed.

  Lemma stages_kept : forall t t', stages t t' -> stray U t' = false -> exists mid,
    same_but_attrs A W t mid /\ same_but_strays false U W mid t' /\ (no_pi t' -> no_pi mid /\ no_pi t) /\ stray U mid = false /\ (late = true -> same_but_tail U W mid t').
  Proof.
    intros t t' (mid & H1 & H2 & H3 & H4 & H5) K. exists mid. do 3 (split; auto). split; auto. unfold same_but_strays in H2. inv H2. exact K.
  Qed.

  (** the children with old names *)
  Lemma shown_wanted : forall ch cs, Forall2 (shown b) ch cs -> Forall2 (shown b) (filter (kept_name U) ch) (wanted U cs).
  Proof.
    intros ch cs H; induction H as [|d t ch cs S1 F IH]; simpl; [constructor|].
    assert (K : kept_name U d = negb (stray U t)).
    { inv S1; simpl; auto. inv H; simpl; auto. }
    rewrite K. destruct (negb (stray U t)); auto.
  Qed.

  Lemma not_comment : forall d t, shown b d t -> is_xml_comment t = false.
  Proof. intros d t H; inv H; auto. inv H0; auto. Qed.

  Lemma stages_children : forall ch dk, Forall2 (drel U A T W late) ch dk ->
    Forall (fun d' => forall d t', drel U A T W late d d' -> shown b d' t' -> exists t, shown b d t /\ stages t t') dk ->
    forall ck, Forall2 (shown b) dk ck -> Forall (fun c => stray U c = false) ck ->
    exists cs mids, Forall2 (shown b) ch cs /\ Forall2 (same_but_attrs A W) cs mids /\
      Forall2 (same_but_strays false U W) mids ck /\ Forall (fun c => stray U c = false) mids /\
      (Forall no_pi ck -> Forall no_pi mids /\ Forall no_pi cs) /\ (late = true -> Forall2 (same_but_tail U W) mids ck).
  Proof.
    intros ch dk H; induction H as [|d d' ch dk R F IH]; intros P ck S1 K.
    - inv S1. exists [], []. repeat split; constructor.
    - inv S1. inv P. inv K. match goal with X : forall d t', _ |- _ => destruct (X _ _ R ltac:(eassumption)) as (t & T1 & T2) end.
      destruct (stages_kept T2 ltac:(assumption)) as (mid & M1 & M2 & M3 & M4 & M5).
      destruct (IH ltac:(assumption) _ ltac:(eassumption) ltac:(assumption)) as (cs & mids & C1 & C2 & C3 & C4 & C5 & C6).
      exists (t :: cs), (mid :: mids). do 4 (split; [constructor; auto|]). split; [|intros L; constructor; auto]. intros Np; inv Np.
      destruct (M3 ltac:(assumption)), (C5 ltac:(assumption)). split; constructor; auto.
  Qed.

  Lemma wanted_all : forall l, Forall (fun c => stray U c = false) l -> wanted U l = l.
  Proof. intros l H; induction H as [|c l K F IH]; simpl; auto. rewrite K, IH; auto. Qed.

  Lemma wanted_clean : forall l, Forall (fun c => stray U c = false) (wanted U l).
  Proof. intros l; induction l as [|c l IH]; simpl; auto. destruct (stray U c) eqn:E; simpl; auto. Qed.

  Lemma no_pi_children : forall l, Forall (fun c => is_xml_comment c = true \/ no_pi c) l -> Forall no_pi (wanted U l).
  Proof.
    intros l H; induction H as [|c l K F IH]; simpl; auto. destruct (stray U c) eqn:E; simpl; auto. constructor; auto.
    destruct K as [K|K]; auto. destruct c; discriminate.
  Qed.

  Lemma strays_kept : forall ch cs, Forall2 (shown b) ch cs -> filter (kept_name U) ch = [] -> Forall (fun c => stray U c = true) cs.
  Proof.
    intros ch cs H; induction H as [|d t ch cs S1 F IH]; simpl; auto.
    assert (K : kept_name U d = negb (stray U t)).
    { inv S1; simpl; auto. inv H; simpl; auto. }
    rewrite K. destruct (stray U t) eqn:E; simpl; [|discriminate]. auto.
  Qed.

  Lemma new_behind : forall ch cs, new_last U late ch -> late = true -> Forall2 (shown b) ch cs ->
    exists more, cs = wanted U cs ++ more /\ Forall (fun c => stray U c = true) more.
  Proof.
    intros ch cs N L H. destruct (N L) as (k & x & -> & Hk & Hx). destruct (Forall2_app_inv_l _ _ H) as (ck & cx & F1 & F2 & ->).
    exists cx. pose proof (strays_kept F2 Hx) as Sx. split; auto. f_equal.
    unfold wanted. rewrite filter_app. assert (E : filter (fun c => negb (stray U c)) cx = []).
    { clear - Sx. induction Sx as [|c cx Hc Sx IH]; simpl; auto. rewrite Hc; auto. }
    rewrite E, app_nil_r. pose proof (shown_wanted F1) as Y. rewrite Hk in Y.
    symmetry. apply filter_same_length. change (length (wanted U ck) = length ck). rewrite <- (same_length Y); exact (same_length F1).
  Qed.

  Lemma stages_draft : forall tag ns text a a' ch ch', W tag = false -> asked A tag a = asked A tag a' ->
    Forall2 (drel U A T W late) ch (filter (kept_name U) ch') -> new_last U late ch' ->
    Forall (fun d' => forall d t', drel U A T W late d d' -> shown b d' t' -> exists t, shown b d t /\ stages t t') ch' ->
    forall t', shown b (Draft tag ns text a' ch') t' -> exists t, shown b (Draft tag ns text a ch) t /\ stages t t'.
  Proof.
    intros tag ns text a a' ch ch' Hw Ha R Nl P t' H. inv H.
    match goal with X : Forall2 (shown b) ch' cs |- _ => pose proof (shown_wanted X) as Y end.
    assert (P' : Forall (fun d' => forall d t', drel U A T W late d d' -> shown b d' t' -> exists t, shown b d t /\ stages t t') (filter (kept_name U) ch')).
    { rewrite Forall_forall in P |- *. intros x I. apply filter_In in I. apply P; tauto. }
    destruct (stages_children R P' Y (wanted_clean cs)) as (co & mids & C1 & C2 & C3 & C4 & C5 & C6).
    eexists; split; [apply sh_draft; exact C1|].
    exists (NElem tag (declarations b ns) text None a' mids None). split; [apply sba_elem; auto|]. split; [|split; [|split; [exact I|]]].
    - eapply lbs_elem; simpl; [reflexivity| |rewrite Hw; discriminate|discriminate]. rewrite (wanted_all C4). exact C3.
    - intros Np; inv Np. destruct (C5 (no_pi_children ltac:(eassumption))) as [N1 N2].
      split; constructor; eapply Forall_impl; try eassumption; auto.
    - intros L. match goal with X : Forall2 (shown b) ch' cs |- _ => destruct (new_behind Nl L X) as (more & -> & Hm) end.
      apply sbt_elem; auto.
  Qed.

  Lemma stages_shown : forall d' d t', drel U A T W late d d' -> shown b d' t' -> exists t, shown b d t /\ stages t t'.
  Proof.
    intros d'; induction d' as [tag ns text attrs ch IH|n] using draft_ind'; intros d t' R H; inv R.
    - inv H. match goal with X : Forall2 _ [] _ |- _ => inv X end. eexists; split; [apply sh_draft; constructor|]. apply stages_refl; exact I.
    - eapply stages_draft; eauto. match goal with X : Forall2 _ ch0 ch |- _ => rewrite (all_kept X); auto end. match goal with X : Forall2 _ ch0 ch |- _ => exact (kept_last X) end.
    - eapply stages_draft; eauto.
    - exists t'. split; auto. apply stages_refl. inv H. destruct n; try discriminate. match goal with X : copied _ _ _ |- _ => inv X; exact I end.
  Qed.

  Lemma stages_root : forall d d' tag t', loose U A T W late d d' -> draft_tag d = Some tag -> W tag = false -> shown b d' t' ->
    exists t, shown b d t /\ stages t t'.
  Proof.
    intros d d' tag t' L E Hw H. inv L. simpl in E; injection E as ->. eapply stages_draft; eauto.
    apply Forall_forall. intros; eapply stages_shown; eauto.
  Qed.
End Shown.

(** the old classes write the same document but for the new fields *)
Lemma evolved_document : forall U A T W late new ev ev', evolved U A new ev ev' -> names_apart T W ev -> env_looks U W ev ->
  (late = true -> env_appended new ev') ->
  forall cls fl v enc v' enc' doc', fl_skip_empty fl = false ->
  trimmed_instance ev U cls v enc v' enc' -> (exists attrs set, v' = VModel cls attrs set) ->
  document ev' fl v' enc' doc' ->
  exists doc, document ev fl v enc doc /\ stages U A W late doc doc'.
Proof.
  intros U A T W late new ev ev' HE HN HU HL cls fl v enc v' enc' doc' Fl Tr (attrs' & set' & ->) D. inv D.
  match goal with X : en_model ev' cls = Some ?m0 |- _ => rename m0 into m'; rename X into Em' end.
  assert (X : exists m attrs set, v = VModel cls attrs set /\ en_model ev cls = Some m) by (inv Tr; eauto).
  destruct X as (m & attrs & set & -> & Em).
  destruct (proj2 HE _ _ Em) as (m1 & Em1 & EC). assert (m1 = m') by congruence. subst m1.
  match goal with X : writes_model ev' _ _ _ _ _ |- _ =>
    destruct (proj1 (proj2 (proj2 (proj2 (proj2 (evolved_writes HE HN HU HL))))) _ _ _ _ _ X Fl cls m (md_elem_name m) _ _ Em EC (fun l => HL l _ _ Em') (eo_root _ _ Em) Tr) as (qs & Q1 & Q2) end.
  match goal with X : puts ps _ = Some d |- _ => rename X into P end.
  rewrite (ec_elem_name EC), (ec_nsmap EC) in P.
  destruct (puts_mixed Q2 (@tight_fresh _ _ _ _ _ _ _) P) as (e & E1 & E2).
  match goal with X : shown _ d doc' |- _ => rename X into Sh end. rewrite (proj1 HE) in Sh.
  destruct (@stages_root U A T W late (en_backend ev) e d (md_elem_name m) doc' E2) as (doc & S1 & S2); auto.
  { eapply puts_tag; exact E1. }
  { apply (proj1 HN cls). apply eo_root; auto. }
  exists doc. split; auto. eapply doc_intro; eauto.
Qed.
