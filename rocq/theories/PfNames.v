(** PfNames.v -- proofs about Names.v and Fields.v. *)

From Verif Require Import Base Elem Native Errs Names Fields SpecNames PfUnbound.

(** ---- qualified names ---- *)

Lemma take_line_plain : forall s, ~ occurs newline s -> take_line s = s.
Proof.
  intros s; induction s as [|c s IH]; simpl; intros H; auto.
  destruct (Ascii.eqb_spec c "010"%char) as [->|Hc].
  - exfalso; apply H. exists "", s; auto.
  - rewrite IH; auto. intros (a & b & ->). apply H. exists (String c a), b; auto.
Qed.

Lemma occurs_app : forall c a b, occurs c (a ++ b) <-> occurs c a \/ occurs c b.
Proof.
  intros c a b; split.
  - revert b; induction a as [|x a IH]; intros b H; simpl in H; [auto|].
    destruct H as ([|y u] & v & E); simpl in E; injection E as <- E.
    + left; exists "", a; auto.
    + destruct (IH b) as [(u' & v' & ->)|H].
      * exists u, v; auto.
      * left. exists (String x u'), v'; auto.
      * auto.
  - intros [(u & v & ->)|(u & v & ->)].
    + exists u, (v ++ b)%string. rewrite append_assoc_s; auto.
    + exists (a ++ u)%string, v. rewrite append_assoc_s; auto.
Qed.

Lemma occurs_cons : forall c x s, occurs c (String x s) <-> c = x \/ occurs c s.
Proof.
  intros c x s; split.
  - intros ([|y u] & v & E); simpl in E; injection E as <- E; auto. right; exists u, v; auto.
  - intros [->|(u & v & ->)]; [exists "", s; auto|exists (String x u), v; auto].
Qed.

Lemma split_last_none : forall ch s, ~ occurs ch s -> split_last ch s = None.
Proof.
  intros ch s; induction s as [|c s IH]; simpl; intros H; auto.
  rewrite IH by (intros G; apply H, occurs_cons; auto).
  destruct (Ascii.eqb_spec c ch) as [->|]; auto. exfalso; apply H, occurs_cons; auto.
Qed.

Lemma split_last_at : forall ch a b, ~ occurs ch b -> split_last ch (a ++ String ch b) = Some (a, b).
Proof.
  intros ch a b Hb; induction a as [|c a IH]; simpl.
  - rewrite split_last_none, Ascii.eqb_refl; auto.
  - rewrite IH; auto.
Qed.

Lemma uri_from_uri : forall ns tag, plain_ns ns -> plain_tag tag ->
  from_uri (uri (QName tag (Some ns))) = QName tag (Some ns).
Proof.
  intros ns tag [Hne Hnl] [Hbr Htl]. unfold uri; simpl.
  destruct (String.eqb_spec ns "") as [|_]; [congruence|].
  unfold from_uri. rewrite take_line_plain.
  - change ("{" ++ ns ++ "}" ++ tag)%string with (String "{" (ns ++ String "}" tag)).
    cbn iota beta. rewrite Ascii.eqb_refl, split_last_at; auto.
  - change ("{" ++ ns ++ "}" ++ tag)%string with (String "{" (ns ++ String "}" tag)).
    intros H. apply occurs_cons in H as [H|H]; [discriminate|].
    apply occurs_app in H as [H|H]; auto. apply occurs_cons in H as [H|H]; [discriminate|auto].
Qed.

Lemma uri_from_uri_plain : forall tag, plain_tag tag ->
  from_uri (uri (QName tag None)) = QName tag None.
Proof.
  intros tag [Hbr Htl]. unfold uri; simpl. unfold from_uri. rewrite take_line_plain by auto.
  destruct tag as [|c rest]; auto.
  destruct (Ascii.eqb c "{"); auto. rewrite split_last_none; auto.
  intros H; apply Hbr, occurs_cons; auto.
Qed.

Lemma uri_injective : forall q1 q2,
  plain_tag (q_tag q1) -> plain_tag (q_tag q2) ->
  (forall ns, q_ns q1 = Some ns -> plain_ns ns) -> (forall ns, q_ns q2 = Some ns -> plain_ns ns) ->
  uri q1 = uri q2 -> q1 = q2.
Proof.
  intros [t1 n1] [t2 n2] T1 T2 N1 N2 E; simpl in *.
  assert (F1 : from_uri (uri (QName t1 n1)) = QName t1 n1).
  { destruct n1; [apply uri_from_uri; auto|apply uri_from_uri_plain; auto]. }
  assert (F2 : from_uri (uri (QName t2 n2)) = QName t2 n2).
  { destruct n2; [apply uri_from_uri; auto|apply uri_from_uri_plain; auto]. }
  congruence.
Qed.

(** ---- aliases ---- *)

Lemma nsmap_falsy : forall m, nsmap_truthy m = false <-> declares_nothing m.
Proof.
  intros [[|kv d]|]; unfold declares_nothing; simpl; split; auto; try discriminate.
  intros [H|H]; discriminate.
Qed.

Lemma nsmap_get_declares : forall m p u, nsmap_get m p = Some u <-> declares m p u.
Proof.
  intros [d|] p u; unfold declares; simpl; split; intros H; eauto.
  - destruct H as (d' & E & H); injection E as <-; auto.
  - discriminate.
  - destruct H as (d' & E & _); discriminate.
Qed.

Lemma declares_truthy : forall m p u, declares m p u -> nsmap_truthy m = true.
Proof. intros m p u (d & -> & H); destruct d; [discriminate|auto]. Qed.

Lemma from_alias_resolves : forall tag ns m is_attr u,
  from_alias tag ns m is_attr = Ok (QName tag u) <-> resolves m is_attr ns u.
Proof.
  intros tag ns m is_attr u; unfold from_alias; split.
  - destruct ns as [a|].
    + rewrite orb_true_r. destruct (nsmap_truthy m) eqn:T.
      * destruct (nsmap_get m a) as [u'|] eqn:G; [|discriminate].
        injection 1 as <-. constructor. apply nsmap_get_declares; auto.
      * injection 1 as <-. constructor. apply nsmap_falsy; auto.
    + rewrite orb_false_r. destruct is_attr; simpl.
      * injection 1 as <-; constructor.
      * destruct (nsmap_truthy m) eqn:T; injection 1 as <-.
        -- destruct (nsmap_get m "") as [u'|] eqn:G; constructor.
           ++ apply nsmap_get_declares; auto.
           ++ intros v Hv; apply nsmap_get_declares in Hv; congruence.
        -- constructor. intros v Hv; apply declares_truthy in Hv; congruence.
  - intros H; destruct H as [b a u H|b a H|u H|H|].
    + rewrite orb_true_r, (declares_truthy H). apply nsmap_get_declares in H; rewrite H; auto.
    + rewrite orb_true_r. apply nsmap_falsy in H; rewrite H; auto.
    + simpl. rewrite (declares_truthy H). apply nsmap_get_declares in H; rewrite H; auto.
    + simpl. destruct (nsmap_truthy m); auto.
      destruct (nsmap_get m "") as [v|] eqn:G; auto. apply nsmap_get_declares in G; exfalso; eapply H; eauto.
    + auto.
Qed.

Lemma from_alias_total : forall tag ns m is_attr,
  (exists u, from_alias tag ns m is_attr = Ok (QName tag u)) \/
  (from_alias tag ns m is_attr = Raise XModelError /\
   ~ declares_nothing m /\ exists a, ns = Some a /\ forall u, ~ declares m a u).
Proof.
  intros tag ns m is_attr; unfold from_alias. destruct ns as [a|].
  - rewrite orb_true_r. destruct (nsmap_truthy m) eqn:T; [|left; eauto].
    destruct (nsmap_get m a) as [u|] eqn:G; [left; eauto|right].
    split; auto. split; [intros H; apply nsmap_falsy in H; congruence|].
    exists a; split; auto. intros u H; apply nsmap_get_declares in H; congruence.
  - left. destruct (negb is_attr || false); [|eauto]. eauto.
Qed.

(** ---- namespace maps ---- *)

Lemma is_first_of_app : forall A B (f : A -> option B) l, 
  is_first f l ((fix go l := match l with [] => None | a :: l' => match f a with Some b => Some b | None => go l' end end) l).
Proof.
  intros A B f l; induction l as [|a l IH]; simpl; auto.
  destruct (f a) eqn:E; simpl.
  - constructor; auto.
  - destruct ((fix go l := match l with [] => None | a :: l' => match f a with Some b => Some b | None => go l' end end) l) eqn:G; simpl in *.
    + apply first_later; auto.
    + constructor; auto.
Qed.

Lemma merge_nsmaps_first : forall maps p, 
  (forall m, In (Some m) maps -> NoDup (dkeys m)) ->
  is_first (says p) maps (dget p (merge_nsmaps maps)).
Proof.
  intros maps p H.
  assert (G : forall l d, (forall m, In (Some m) l -> NoDup (dkeys m)) ->
    dget p (fold_left (fun d m => match m with Some m' => dupdate d m' | None => d end) l d) =
    match (fix go l := match l with [] => None | a :: l' => match says p a with Some b => Some b | None => go l' end end) (rev l) with
    | Some u => Some u | None => dget p d end).
  { intros l; induction l as [|m l IH] using rev_ind; intros d Hn; simpl; auto.
    rewrite fold_left_app, rev_app_distr; simpl.
    assert (Hl : forall m0, In (Some m0) l -> NoDup (dkeys m0)) by (intros; apply Hn, in_or_app; auto).
    destruct m as [m|]; simpl.
    - rewrite dget_dupdate by (apply Hn, in_or_app; simpl; auto).
      destruct (dget p m); auto.
    - apply IH; auto. }
  unfold merge_nsmaps. rewrite G by (intros m Hm; apply H; rewrite in_rev; auto).
  rewrite rev_involutive. simpl. pose proof (is_first_of_app (says p) maps) as F.
  destruct ((fix go l := match l with [] => None | a :: l' => match says p a with Some b => Some b | None => go l' end end) maps); auto.
Qed.

Lemma select_ns_first : forall nss, is_first (fun o => o) nss (select_ns nss).
Proof.
  intros nss; induction nss as [|[n|] nss IH]; simpl; auto.
  - constructor; auto.
  - destruct (select_ns nss); simpl in *; [apply first_later; auto|constructor; auto].
Qed.

(** ---- class parameters ---- *)

Lemma is_last_snoc : forall A B (f : A -> option B) l a o, is_last f l o ->
  is_last f (l ++ [a]) (or_else (f a) o).
Proof.
  intros A B f l a o H. destruct (f a) as [b|] eqn:E; simpl.
  - clear H; induction l as [|x l IH]; simpl; [constructor; auto|apply last_later; auto].
  - destruct o as [b|]; simpl in *.
    + induction H as [x l b Hx HF|x l b H IH]; simpl; [|apply last_later; auto].
      constructor; auto. apply Forall_app; auto.
    + apply Forall_app; auto.
Qed.

Lemma or_else_default : forall A (o : option A) (d : A) r,
  Some (default d o) = or_else o (Some r) -> True.
Proof. auto. Qed.

Lemma chain_snoc : forall ds d, class_chain (ds ++ [d]) = Some (init_subclass (class_chain ds) d).
Proof. intros ds d; unfold class_chain. rewrite fold_left_app; auto. Qed.

Lemma chain_tag : forall ds, is_last d_tag ds (chain_get c_tag (class_chain ds)).
Proof.
  intros ds; induction ds as [|d ds IH] using rev_ind; [simpl; auto|].
  rewrite chain_snoc; simpl. apply (is_last_snoc d_tag ds d _ IH).
Qed.

Lemma chain_ns : forall ds, is_last d_ns ds (chain_get c_ns (class_chain ds)).
Proof.
  intros ds; induction ds as [|d ds IH] using rev_ind; [simpl; auto|].
  rewrite chain_snoc; simpl. apply (is_last_snoc d_ns ds d _ IH).
Qed.

Lemma chain_skip : forall ds, is_last d_skip_empty ds (chain_get c_skip_empty (class_chain ds)).
Proof.
  intros ds; induction ds as [|d ds IH] using rev_ind; [simpl; auto|].
  rewrite chain_snoc; simpl. apply (is_last_snoc d_skip_empty ds d _ IH).
Qed.

Lemma chain_ns_attrs : forall ds p, class_chain ds = Some p ->
  exists o, is_last d_ns_attrs ds o /\ c_ns_attrs p = default false o.
Proof.
  intros ds; induction ds as [|d ds IH] using rev_ind; intros p H; [discriminate|].
  rewrite chain_snoc in H; injection H as <-.
  destruct (class_chain ds) as [b|] eqn:E; simpl.
  - destruct (IH b eq_refl) as (o & Ho & Hc). exists (or_else (d_ns_attrs d) o).
    split; [apply is_last_snoc; auto|]. rewrite Hc. destruct (d_ns_attrs d); auto.
  - exists (or_else (d_ns_attrs d) None). split.
    + apply is_last_snoc. destruct ds as [|x ds] using rev_ind; [simpl; auto|rewrite chain_snoc in E; discriminate].
    + destruct (d_ns_attrs d); auto.
Qed.

Lemma chain_mode : forall ds p, class_chain ds = Some p ->
  exists o, is_last d_mode ds o /\ c_mode p = default Strict o.
Proof.
  intros ds; induction ds as [|d ds IH] using rev_ind; intros p H; [discriminate|].
  rewrite chain_snoc in H; injection H as <-.
  destruct (class_chain ds) as [b|] eqn:E; simpl.
  - destruct (IH b eq_refl) as (o & Ho & Hc). exists (or_else (d_mode d) o).
    split; [apply is_last_snoc; auto|]. rewrite Hc. destruct (d_mode d); auto.
  - exists (or_else (d_mode d) None). split.
    + apply is_last_snoc. destruct ds as [|x ds] using rev_ind; [simpl; auto|rewrite chain_snoc in E; discriminate].
    + destruct (d_mode d); auto.
Qed.

Lemma chain_nsmap : forall k ds, (forall d m, In d ds -> d_nsmap d = Some m -> NoDup (dkeys m)) ->
  is_last (fun d => says k (d_nsmap d)) ds (says k (chain_get c_nsmap (class_chain ds))).
Proof.
  intros k ds; induction ds as [|d ds IH] using rev_ind; intros Hn; [simpl; auto|].
  assert (Hl : forall d m, In d ds -> d_nsmap d = Some m -> NoDup (dkeys m)).
  { intros d0 m Hd; apply Hn, in_or_app; auto. }
  specialize (IH Hl). rewrite chain_snoc; simpl.
  pose proof (is_last_snoc (fun d => says k (d_nsmap d)) ds d _ IH) as S. simpl in S.
  match goal with |- is_last _ _ ?o => match type of S with is_last _ _ ?o' => replace o with o'; [exact S|] end end.
  destruct (class_chain ds) as [b|]; simpl; [|destruct (says k (d_nsmap d)); auto].
  destruct (c_nsmap b) as [pm|] eqn:Eb; simpl; [|destruct (says k (d_nsmap d)); auto].
  unfold nsmap_truthy, dict_truthy. destruct pm as [|kv pm]; simpl; [destruct (says k (d_nsmap d)); auto|].
  destruct (d_nsmap d) as [m|] eqn:Em; simpl.
  - change (if String.eqb k (fst kv) then _ else _) with (dget k (kv :: pm)).
    rewrite dget_dupdate by (eapply Hn; [apply in_or_app; simpl; auto|eauto]).
    destruct (dget k m); auto.
  - auto.
Qed.

(** ---- annotations ---- *)

Section Merge.
  Context {B : Type} (f : einfo -> option B).
  Hypothesis f_step : forall acc i, f (merge_step acc i) = or_else (f i) (f acc).
  Hypothesis f_empty : f empty_info = None.

  Lemma merge_last : forall l, is_last f l (f (merge_infos l)).
  Proof.
    intros l; induction l as [|i l IH] using rev_ind.
    - unfold merge_infos; simpl. rewrite f_empty; simpl; auto.
    - unfold merge_infos. rewrite fold_left_app; simpl. rewrite f_step.
      apply is_last_snoc; auto.
  Qed.
End Merge.

Lemma merge_nsmaps2 : forall p a b, NoDup (dkeys a) -> (forall m, b = Some m -> NoDup (dkeys m)) ->
  dget p (merge_nsmaps [Some a; b]) = or_else (dget p a) (says p b).
Proof.
  intros p a b Ha Hb. pose proof (@merge_nsmaps_first [Some a; b] p) as F.
  assert (H : forall m, In (Some m) [Some a; b] -> NoDup (dkeys m)).
  { intros m [E|[E|[]]]; [injection E as <-; auto|auto]. }
  specialize (F H). destruct (dget p (merge_nsmaps [Some a; b])) as [u|] eqn:E; simpl in F.
  - inversion F as [? ? ? E1|? ? ? E1 F1]; subst; simpl in E1; rewrite E1; simpl; auto.
    inversion F1 as [? ? ? E2|? ? ? E2 F2]; subst; [auto|inversion F2].
  - inversion F as [|? ? E1 F1]; subst; simpl in E1; rewrite E1; simpl.
    inversion F1 as [|? ? E2 F2]; subst; auto.
Qed.

Lemma nodup_merge_nsmaps : forall maps, NoDup (dkeys (merge_nsmaps maps)).
Proof.
  intros maps; unfold merge_nsmaps. generalize (rev maps) as l.
  assert (G : forall l d, NoDup (@dkeys string d) -> NoDup (dkeys (fold_left
     (fun d m => match m with Some m' => dupdate d m' | None => d end) l d))).
  { intros l; induction l as [|[m|] l IH]; intros d Hd; simpl; auto.
    apply IH. apply nodup_dupdate; auto. }
  intros l; apply G; constructor.
Qed.

Lemma merge_step_good : forall acc i, good_map acc -> good_map i -> good_map (merge_step acc i).
Proof.
  intros acc i Ha Hi; unfold good_map; simpl.
  destruct (ei_nsmap i) as [m|]; [apply nodup_merge_nsmaps|exact Ha].
Qed.

Lemma merge_infos_good : forall l, Forall good_map l -> good_map (merge_infos l).
Proof.
  intros l; induction l as [|i l IH] using rev_ind; intros H; [exact I|].
  apply Forall_app in H as [H1 H2]. inversion H2; subst.
  unfold merge_infos; rewrite fold_left_app; simpl. apply merge_step_good; auto.
Qed.

Lemma merge_step_says : forall p acc i, good_map acc -> good_map i ->
  says p (ei_nsmap (merge_step acc i)) = or_else (says p (ei_nsmap i)) (says p (ei_nsmap acc)).
Proof.
  intros p acc i Ha Hi; simpl. unfold good_map in *.
  destruct (ei_nsmap i) as [m|]; simpl; auto.
  apply merge_nsmaps2; auto. intros m' E; rewrite E in Ha; auto.
Qed.

Lemma merge_says : forall p l, Forall good_map l ->
  is_last (fun i => says p (ei_nsmap i)) l (says p (ei_nsmap (merge_infos l))).
Proof.
  intros p l; induction l as [|i l IH] using rev_ind; intros H; [simpl; auto|].
  apply Forall_app in H as [H1 H2]. inversion H2; subst.
  unfold merge_infos; rewrite fold_left_app. cbn [fold_left].
  rewrite merge_step_says; [|apply merge_infos_good; auto|auto].
  apply (is_last_snoc (fun i => says p (ei_nsmap i))); auto.
Qed.

Lemma same_info_refl : forall a, same_info a a.
Proof. intros a; unfold same_info; repeat split; auto. Qed.

Lemma or_else_assoc : forall A (a b c : option A), or_else a (or_else b c) = or_else (or_else a b) c.
Proof. intros A [x|] b c; auto. Qed.

Lemma merge_step_assoc : forall a b c, good_map a -> good_map b -> good_map c ->
  same_info (merge_step (merge_step a b) c) (merge_step a (merge_step b c)).
Proof.
  intros a b c Ha Hb Hc. unfold same_info. simpl ei_location; simpl ei_path; simpl ei_ns;
    simpl ei_nillable; simpl ei_wrapped. rewrite !or_else_assoc.
  split; [auto|split; [auto|split; [auto|split; [|split; [|split; auto]]]]].
  - intros p. repeat rewrite merge_step_says by auto using merge_step_good.
    apply or_else_assoc.
  - simpl. destruct (ei_nsmap c), (ei_nsmap b); split; intros; try discriminate; auto.
Qed.

Lemma merge_step_same : forall a a' b, good_map a -> good_map a' -> good_map b -> same_info a a' ->
  same_info (merge_step a b) (merge_step a' b).
Proof.
  intros a a' b Ha Ha' Hb (H1 & H2 & H3 & H4 & H5 & H6 & H7). unfold same_info.
  simpl ei_location; simpl ei_path; simpl ei_ns; simpl ei_nillable; simpl ei_wrapped.
  rewrite H1, H2, H3, H6, H7. split; [auto|split; [auto|split; [auto|split; [|split; [|split; auto]]]]].
  - intros p. rewrite !merge_step_says by auto. rewrite H4; auto.
  - simpl. destruct (ei_nsmap b); [split; discriminate|auto].
Qed.

Lemma same_info_trans : forall a b c, same_info a b -> same_info b c -> same_info a c.
Proof.
  intros a b c (H1 & H2 & H3 & H4 & H5 & H6 & H7) (G1 & G2 & G3 & G4 & G5 & G6 & G7).
  unfold same_info. rewrite H1, H2, H3, H6, H7. repeat (split; auto); try tauto.
  intros p; rewrite H4; auto.
Qed.

Lemma same_info_sym : forall a b, same_info a b -> same_info b a.
Proof.
  intros a b (H1 & H2 & H3 & H4 & H5 & H6 & H7). unfold same_info. repeat (split; auto); tauto.
Qed.

Lemma merge_empty_r : forall a, same_info (merge_step a empty_info) a.
Proof. intros a; unfold same_info; simpl; repeat split; auto. Qed.

Lemma merge_empty_l : forall a, good_map a -> same_info (merge_step empty_info a) a.
Proof.
  intros a Ha; unfold same_info.
  assert (G : good_map empty_info) by exact I.
  simpl ei_location; simpl ei_path; simpl ei_ns; simpl ei_nillable; simpl ei_wrapped.
  assert (O : forall A (o : option A), or_else o None = o) by (intros A [x|]; auto).
  rewrite !O. split; [auto|split; [auto|split; [auto|split; [|split; [|split; auto]]]]].
  - intros p; rewrite merge_step_says by auto. simpl. apply O.
  - simpl. destruct (ei_nsmap a); split; intros; try discriminate; auto.
Qed.

Lemma merge_infos_app : forall l1 l2, Forall good_map l1 -> Forall good_map l2 ->
  same_info (merge_infos (l1 ++ l2)) (merge_infos [merge_infos l1; merge_infos l2]).
Proof.
  intros l1 l2 H1 H2.
  assert (G1 : good_map (merge_infos l1)) by (apply merge_infos_good; auto).
  assert (GE : good_map empty_info) by exact I.
  unfold merge_infos at 2. cbn [fold_left].
  revert H2; induction l2 as [|i l2 IH] using rev_ind; intros H2.
  - rewrite app_nil_r. change (merge_infos []) with empty_info.
    eapply same_info_trans; [|apply same_info_sym, merge_empty_r].
    apply same_info_sym, merge_empty_l; auto.
  - apply Forall_app in H2 as [H2 H3]. inversion H3; subst. specialize (IH H2).
    assert (G2 : good_map (merge_infos l2)) by (apply merge_infos_good; auto).
    unfold merge_infos at 1; rewrite app_assoc, fold_left_app; cbn [fold_left].
    change (fold_left merge_step (l1 ++ l2) empty_info) with (merge_infos (l1 ++ l2)).
    unfold merge_infos at 3; rewrite fold_left_app; cbn [fold_left].
    change (fold_left merge_step l2 empty_info) with (merge_infos l2).
    eapply same_info_trans.
    + apply merge_step_same; [apply merge_infos_good, Forall_app; auto| |auto|exact IH].
      apply merge_step_good; [apply merge_step_good|]; auto.
    + apply merge_step_assoc; auto. apply merge_step_good; auto.
Qed.

(** ---- reserved prefixes ---- *)

Lemma is_digit_spec : forall c, is_digit c = true <-> digit_char c.
Proof.
  intros c; split.
  - destruct c as [[] [] [] [] [] [] [] []]; vm_compute; intros H; try discriminate; tauto.
  - intros H; unfold digit_char in H; simpl in H.
    decompose [or] H; subst; try reflexivity; contradiction.
Qed.

Lemma digits_end_spec : forall s, digits_end s = true <->
  exists ds, digits ds /\ (s = ds \/ s = (ds ++ String newline "")%string).
Proof.
  intros s; induction s as [|c s IH]; simpl.
  - split; auto. intros _; exists ""; split; [constructor|auto].
  - destruct (is_digit c) eqn:D.
    + rewrite IH; split.
      * intros (ds & Hd & [->| ->]); exists (String c ds); (split; [constructor; [apply is_digit_spec|]; auto|auto]).
      * intros (ds & Hd & [E|E]).
        -- subst ds; inversion Hd; subst. exists s; auto.
        -- destruct Hd as [|d ds Hc Hd]; simpl in E; injection E as -> ->.
           ++ exists ""; split; [constructor|auto].
           ++ exists ds; auto.
    + split.
      * intros H; apply andb_true_iff in H as [H1 H2].
        apply Ascii.eqb_eq in H1; apply String.eqb_eq in H2; subst.
        exists ""; split; [constructor|right; auto].
      * intros (ds & Hd & [E|E]).
        -- subst ds; inversion Hd as [|? ? Hc]; subst. apply is_digit_spec in Hc; congruence.
        -- destruct Hd as [|d ds Hc Hd]; simpl in E; injection E as -> ->; auto.
           apply is_digit_spec in Hc; congruence.
Qed.

Lemma reserved_prefix_spec : forall p, reserved_prefix p = true <-> ns_number p.
Proof.
  intros p; split.
  - destruct p as [|c1 [|c2 [|c3 rest]]]; try discriminate. simpl; intros H.
    apply andb_true_iff in H as [H H4]; apply andb_true_iff in H as [H H3];
      apply andb_true_iff in H as [H1 H2].
    apply Ascii.eqb_eq in H1, H2; subst. apply is_digit_spec in H3.
    apply digits_end_spec in H4 as (ds & Hd & [->| ->]); exists c3, ds; auto.
  - intros (c & ds & Hc & Hd & [->| ->]); simpl; apply is_digit_spec in Hc; rewrite Hc; simpl;
      apply digits_end_spec; eauto.
Qed.

Lemma register_exact : forall m p u, In (p, u) (register_nsmap m) <->
  In (p, u) m /\ p <> "" /\ ~ ns_number p.
Proof.
  intros m p u; unfold register_nsmap. rewrite filter_In; simpl.
  rewrite andb_true_iff, !negb_true_iff, String.eqb_neq.
  rewrite <- reserved_prefix_spec. destruct (reserved_prefix p); intuition congruence.
Qed.

(** ---- environment switches ---- *)

Lemma lower_ascii_spec : forall a b, (forall x, ~ upper_of b x) ->
  (lower_ascii a = b <-> a = b \/ upper_of a b \/ upper_of b a).
Proof.
  intros a b Hb; split.
  - intros <-; unfold lower_ascii, upper_of.
    destruct ((65 <=? N_of_ascii a) && (N_of_ascii a <=? 90))%N eqn:E; auto.
    right; left. apply andb_true_iff in E as [E1 E2]. apply N.leb_le in E1, E2.
    split; auto. apply N_ascii_embedding. lia.
  - intros [->|[H|H]]; [| |exfalso; eapply Hb; eauto].
    + unfold lower_ascii. destruct ((65 <=? N_of_ascii b) && (N_of_ascii b <=? 90))%N eqn:E; auto.
      exfalso. apply andb_true_iff in E as [E1 E2]. apply N.leb_le in E1, E2.
      apply (Hb (ascii_of_N (N_of_ascii b + 32))). split; auto. apply N_ascii_embedding. lia.
    + destruct H as [[H1 H2] H3]. unfold lower_ascii.
      apply N.leb_le in H1, H2. rewrite H1, H2; simpl.
      rewrite <- H3. apply ascii_N_embedding.
Qed.

Fixpoint no_upper (s : string) : bool :=
  match s with
  | EmptyString => true
  | String c s' => negb ((65 <=? N_of_ascii c) && (N_of_ascii c <=? 90))%N && no_upper s'
  end.

Lemma py_lower_spec : forall w s, no_upper w = true -> (py_lower s = w <-> same_letters s w).
Proof.
  intros w; induction w as [|b w IH]; intros s Hw; simpl in *.
  - destruct s; simpl; split; intros H; try discriminate; [constructor|auto|inversion H].
  - apply andb_true_iff in Hw as [Hb Hw]. apply negb_true_iff in Hb.
    assert (U : forall x, ~ upper_of b x).
    { intros x [[H1 H2] _]. apply N.leb_le in H1, H2. rewrite H1, H2 in Hb; discriminate. }
    destruct s as [|a s]; simpl; [split; intros H; [discriminate|inversion H]|].
    split; intros H.
    + injection H as H1 H2. constructor; [apply lower_ascii_spec; auto|apply IH; auto].
    + inversion H; subst. f_equal; [apply lower_ascii_spec; auto|apply IH; auto].
Qed.

Definition true_words := ["y"; "yes"; "t"; "true"; "on"; "1"].
Definition false_words := ["n"; "no"; "f"; "false"; "off"; "0"].

Lemma str_in_In : forall s l, str_in s l = true <-> In s l.
Proof.
  intros s l; unfold str_in; rewrite existsb_exists; split.
  - intros (x & Hx & E); apply String.eqb_eq in E; subst; auto.
  - intros H; exists s; split; auto. apply String.eqb_refl.
Qed.

Lemma in_words : forall v l, forallb no_upper l = true ->
  (In (py_lower v) l <-> exists w, In w l /\ same_letters v w).
Proof.
  intros v l Hl; rewrite forallb_forall in Hl; split.
  - intros H; exists (py_lower v); split; auto. apply py_lower_spec; auto.
  - intros (w & Hw & S). apply py_lower_spec in S; auto. rewrite S; auto.
Qed.

Lemma strtobool_exact : forall v,
  (strtobool v = Ok true <-> exists w, In w true_words /\ same_letters v w) /\
  (strtobool v = Ok false <-> exists w, In w false_words /\ same_letters v w) /\
  (strtobool v = Raise XValueError \/ strtobool v = Ok true \/ strtobool v = Ok false).
Proof.
  intros v.
  rewrite <- (in_words v true_words) by reflexivity. rewrite <- (in_words v false_words) by reflexivity.
  unfold strtobool. fold true_words false_words.
  destruct (str_in (py_lower v) true_words) eqn:T.
  - apply str_in_In in T. split; [tauto|split; [|auto]].
    split; [discriminate|]. intros F. exfalso. unfold true_words, false_words in *; simpl in T, F.
    revert T F. generalize (py_lower v); intros s T F. decompose [or] T; subst; decompose [or] F; try discriminate; auto.
  - assert (NT : ~ In (py_lower v) true_words) by (rewrite <- str_in_In; congruence).
    destruct (str_in (py_lower v) false_words) eqn:F.
    + apply str_in_In in F. split; [split; [discriminate|tauto]|split; [tauto|auto]].
    + assert (NF : ~ In (py_lower v) false_words) by (rewrite <- str_in_In; congruence).
      split; [split; [discriminate|tauto]|split; [split; [discriminate|tauto]|auto]].
Qed.
