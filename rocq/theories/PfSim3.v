(** PfSim3.v -- the order of attributes does not matter. *)

From Verif Require Import Base Elem Native Errs Names Ser Read Api SpecElem SpecRead SpecSim PfElem PfField PfSim PfSim2.

Lemma Permutation_filter_s : forall A (f : A -> bool) l l', Permutation l l' -> Permutation (filter f l) (filter f l').
Proof.
  intros A f l l' H; induction H; simpl; auto.
  - destruct (f x); auto.
  - destruct (f x), (f y); auto. constructor.
  - eapply Permutation_trans; eauto.
Qed.

Lemma filter_comm : forall A (f g : A -> bool) l, filter f (filter g l) = filter g (filter f l).
Proof.
  intros A f g l; induction l as [|x l IH]; simpl; auto.
  destruct (f x) eqn:F, (g x) eqn:G; simpl; rewrite ?F, ?G, IH; auto.
Qed.

Lemma ddel_filter : forall A k (d : dict A), NoDup (dkeys d) -> ddel k d = filter (fun kv => negb (String.eqb k (fst kv))) d.
Proof.
  intros A k d; induction d as [|[k' v] d IH]; intros N; simpl; auto. inv N.
  destruct (String.eqb k k') eqn:K; simpl.
  - apply String.eqb_eq in K. subst. symmetry. clear -H1. induction d as [|[k v'] d IH]; simpl in *; auto.
    destruct (String.eqb k' k) eqn:K; simpl; [apply String.eqb_eq in K; subst; tauto|]. rewrite IH; auto.
  - rewrite IH; auto.
Qed.

Lemma shuffled_nodup : forall a a', shuffled a a' -> NoDup (dkeys a').
Proof. intros a a' (P & N & _). eapply Permutation_NoDup; [|exact N]. apply Permutation_map; auto. Qed.

Lemma shuffled_sym : forall a a', shuffled a a' -> shuffled a' a.
Proof. intros a a' H. pose proof (shuffled_nodup H). destruct H as (P & N & Q). repeat split; auto. apply Permutation_sym; auto. Qed.

Lemma shuffled_get : forall a a' k, shuffled a a' -> dget k a = dget k a'.
Proof.
  intros a a' k H. pose proof (shuffled_nodup H) as N'. destruct H as (P & N & _).
  destruct (dget k a) as [v|] eqn:G.
  - symmetry. apply dget_nodup_in; auto. eapply Permutation_in; eauto. apply dget_Some_in; auto.
  - symmetry. apply dget_None_notin. apply dget_None_notin in G. intros X. apply G.
    eapply Permutation_in; [|exact X]. apply Permutation_sym. apply Permutation_map; auto.
Qed.

Lemma shuffled_del : forall a a' k, shuffled a a' -> shuffled (ddel k a) (ddel k a').
Proof.
  intros a a' k H. pose proof (shuffled_nodup H) as N'. destruct H as (P & N & Q). repeat split.
  - rewrite !ddel_filter; auto. apply Permutation_filter_s; auto.
  - apply nodup_ddel; auto.
  - intros l. rewrite !ddel_filter; auto. unfold locals. rewrite filter_comm, (filter_comm _ _ a'). f_equal. apply Q.
Qed.

Lemma dget_fold_filter : forall A k (l : list (string * A)) d d', dget k d = dget k d' ->
  dget k (fold_left (fun d kv => dset (fst kv) (snd kv) d) l d) =
  dget k (fold_left (fun d kv => dset (fst kv) (snd kv) d) (filter (fun kv => String.eqb (fst kv) k) l) d').
Proof.
  intros A k l; induction l as [|[k' v] l IH]; intros d d' H; simpl; auto.
  destruct (String.eqb k' k) eqn:K; simpl; apply IH.
  - apply String.eqb_eq in K; subst. rewrite !dget_dset_same; auto.
  - apply String.eqb_neq in K. rewrite dget_dset_other; auto.
Qed.

Lemma dict_of_perm : forall A (l l' : list (string * A)),
  (forall k, filter (fun kv => String.eqb (fst kv) k) l = filter (fun kv => String.eqb (fst kv) k) l') ->
  Permutation (dict_of l) (dict_of l').
Proof.
  intros A l l' H. assert (G : forall k, dget k (dict_of l) = dget k (dict_of l')).
  { intros k. unfold dict_of. rewrite (@dget_fold_filter _ k l [] []), (@dget_fold_filter _ k l' [] []), H; auto. }
  assert (ND : forall d : dict A, NoDup (dkeys d) -> NoDup d).
  { intros d N. apply NoDup_map_inv in N; auto. }
  apply NoDup_Permutation; auto using nodup_dict_of.
  intros [k v]. split; intros X.
  - apply dget_Some_in. rewrite <- G. apply dget_nodup_in; auto using nodup_dict_of.
  - apply dget_Some_in. rewrite G. apply dget_nodup_in; auto using nodup_dict_of.
Qed.

Lemma filter_map_s : forall A B (f : B -> bool) (g : A -> B) l, filter f (map g l) = map g (filter (fun x => f (g x)) l).
Proof. intros A B f g l; induction l; simpl; auto. destruct (f (g a)); simpl; rewrite IHl; auto. Qed.

Lemma filter_key_unique : forall (a : dict string) k, NoDup (dkeys a) ->
  filter (fun kv => String.eqb (fst kv) k) a = match dget k a with Some v => [(k, v)] | None => [] end.
Proof.
  intros a k; induction a as [|[k' v] a IH]; intros N; simpl; auto. inv N. rewrite String.eqb_sym.
  destruct (String.eqb k k') eqn:K; auto. apply String.eqb_eq in K; subst. f_equal.
  rewrite IH; auto. destruct (dget k' a) eqn:G; auto. apply dget_in_keys in G. contradiction.
Qed.

Lemma same_vals_refl : forall d : list (string * val),
  Forall2 (fun a b : string * val => fst a = fst b /\ same_val (snd a) (snd b)) d d.
Proof. induction d; constructor; auto. split; auto. constructor. Qed.

Lemma shuffled_mapping : forall a d d', shuffled d d' ->
  same_val (VDict (dict_of (map (fun kv => (attrs_key a (fst kv), VStr (snd kv))) d)))
           (VDict (dict_of (map (fun kv => (attrs_key a (fst kv), VStr (snd kv))) d'))).
Proof.
  intros a d d' H. eapply sv_dict; [|apply same_vals_refl]. apply dict_of_perm. intros k. rewrite !filter_map_s. simpl. f_equal.
  pose proof (shuffled_nodup H) as N'. unfold attrs_key. destruct (as_namespaced a).
  - destruct H as (_ & _ & Q). apply Q.
  - rewrite !filter_key_unique; auto; [|apply H]. rewrite (shuffled_get _ H); auto.
Qed.

Lemma same_line_refl : forall l, same_line l l.
Proof. intros; repeat split. constructor. Qed.

Lemma Forall2_same : forall A (R : A -> A -> Prop) l, (forall x, R x x) -> Forall2 R l l.
Proof. intros A R l H; induction l; constructor; auto. Qed.

Lemma same_error_refl : forall e, same_error e e.
Proof. intros e; repeat split. exists (ve_lines e). split; auto. apply Forall2_same. apply same_line_refl. Qed.

Lemma same_error_into : forall title hide (l1 l2 : list (option locitem * verr)),
  Forall2 (fun a b : option locitem * verr => fst a = fst b /\ same_error (snd a) (snd b)) l1 l2 ->
  same_error (into_validation_error title l1 hide) (into_validation_error title l2 hide).
Proof.
  intros title hide l1 l2 H; repeat split; simpl. induction H as [|[k1 e1] [k2 e2] l1 l2 [Hk (_ & _ & l & P & F)] H (l' & P' & F')]; simpl in *.
  - exists []; auto.
  - subst. eexists. split; [apply Permutation_app; [apply Permutation_map; exact P|exact P']|]. apply Forall2_app; auto.
    clear -F. induction F as [|x y l l' (A & B & C & D) F IH]; simpl; constructor; auto. repeat split; simpl; auto. rewrite C; auto.
Qed.

Lemma same_error_lines : forall x y sm h, same_error x y ->
  same_error (set_validation_error_sourceline x sm h) (set_validation_error_sourceline y sm h).
Proof.
  intros x y sm h (T & _ & l & P & F); repeat split; simpl; auto. eexists; split; [apply Permutation_map; exact P|].
  clear -F. induction F as [|a b l l' (A & B & C & D) F IH]; simpl; constructor; auto. repeat split; simpl; auto. rewrite B, C; auto.
Qed.

Lemma differ_order_native : forall b e1 e2, differ eq oshuffled eq eq e1 e2 ->
  match to_native b e1, to_native b e2 with Some n1, Some n2 => reordered n1 n2 | None, None => True | _, _ => False end.
Proof.
  intros b e1; induction e1 as [tag ns text tail a l next line IH] using elem_ind'; intros e2 H; inv H. simpl.
  assert (A : shuffled match a with Some d => d | None => [] end match a' with Some d => d | None => [] end).
  { destruct a, a'; simpl in *; try contradiction; auto. repeat split; auto. constructor. }
  assert (X : match map_opt (to_native b) l, map_opt (to_native b) l' with Some n1, Some n2 => Forall2 reordered n1 n2 | None, None => True | _, _ => False end).
  { match goal with H : Forall2 _ l l' |- _ => clear -IH H; induction H end; simpl; auto. inv IH. specialize (H2 _ H). specialize (IHForall2 H3).
    destruct (to_native b x), (to_native b y); try contradiction; auto.
    destruct (map_opt (to_native b) l), (map_opt (to_native b) l'); try contradiction; auto. }
  destruct tag as [t|].
  - destruct (map_opt (to_native b) l), (map_opt (to_native b) l'); try contradiction; auto. constructor; auto.
  - destruct b; auto. constructor; auto.
Qed.

Lemma differ_order_unbound : forall e1 e2, differ eq oshuffled eq eq e1 e2 -> forall path,
  Permutation (get_unbound path e1) (get_unbound path e2).
Proof.
  intros e1; induction e1 as [tag ns text tail a l next line IH] using elem_ind'; intros e2 H path; inv H. simpl.
  apply Permutation_app; auto. apply Permutation_app; auto. apply Permutation_app.
  - apply Permutation_map. destruct a, a'; simpl in *; try contradiction; auto. match goal with H : shuffled _ _ |- _ => apply H end.
  - match goal with H : Forall2 _ l l' |- _ => clear -IH H; induction H end; simpl; auto. inv IH.
    pose proof (differ_inv H) as [Ht _]. rewrite Ht. apply Permutation_app; auto.
Qed.

Lemma differ_order_extra : forall e1 e2, differ eq oshuffled eq eq e1 e2 -> forall title hide,
  match check_extra title e1 hide, check_extra title e2 hide with
  | Some r1, Some r2 => same_error r1 r2 | None, None => True | _, _ => False end.
Proof.
  intros e1 e2 H title hide; unfold check_extra. pose proof (differ_order_unbound H []) as U.
  destruct (get_unbound [] e1) as [|u us] eqn:U1, (get_unbound [] e2) as [|v vs] eqn:U2; auto.
  - apply Permutation_nil in U; discriminate.
  - apply Permutation_sym in U; apply Permutation_nil in U; discriminate.
  - repeat split. exists (map extra_error (v :: vs)). split; [apply (Permutation_map extra_error U)|]. apply Forall2_same; apply same_line_refl.
Qed.

Lemma same_outcome_orel : forall o1 o2, o1 <> Fuel -> orel same_val same_error o1 o2 <-> same_outcome o1 o2.
Proof. intros [v|x|] [w|y|] N; simpl; try tauto; try (destruct x; tauto). Qed.

Lemma same_val_none : forall v1 v2, same_val v1 v2 -> is_none v1 = is_none v2.
Proof. intros v1 v2 H; inv H; auto. Qed.

Lemma order_run : forall ev, order_unseen ev -> forall n cls root1 root2 eas,
  native_tag root1 = native_tag root2 -> differ eq oshuffled eq eq (from_native (en_backend ev) root1) (from_native (en_backend ev) root2) ->
  from_xml_tree n ev cls root1 eas = Fuel \/ orel same_val same_error (from_xml_tree n ev cls root1 eas) (from_xml_tree n ev cls root2 eas).
Proof.
  intros ev HO n cls root1 root2 eas HT HE.
  apply (@from_xml_sim (differ eq oshuffled eq eq) same_val same_error (@eq smap) ev ev); auto.
  - intros e1 e2 H. apply (differ_search H).
  - intros e1 e2 H. apply (differ_child H).
  - intros e1 e2 c1 c2 i. apply differ_put.
  - intros e1 e2 H. destruct (differ_text eq_refl H) as [A B]. rewrite A; auto.
  - intros e1 e2 H k. pose proof (differ_inv H) as (T1&T2&T3&T4&T5&T6&T7&T8). unfold attr_of, pop_attrib.
    destruct (e_attrib e1) as [d1|] eqn:A1, (e_attrib e2) as [d2|] eqn:A2; simpl in T5; try contradiction; auto.
    rewrite (shuffled_get k T5). split; auto. destruct (dget k d2); simpl; auto.
    apply differ_make; simpl; auto. apply shuffled_del; auto.
  - intros e1 e2 H a. pose proof (differ_inv H) as (T1&T2&T3&T4&T5&T6&T7&T8). split.
    + destruct (e_attrib e1) as [d1|] eqn:A1, (e_attrib e2) as [d2|] eqn:A2; simpl in T5; try contradiction; auto. apply shuffled_mapping; auto.
    + apply differ_make; simpl; auto. 
  - intros e1 e2. apply differ_step.
  - intros e1 e2. apply differ_snapshot.
  - intros e1 e2 s1 s2. apply differ_apply.
  - intros e1 e2 H. pose proof (differ_inv H) as (T1&T2&T3&T4&T5&T6&T7&T8). split.
    + assert (D : differ eq oshuffled eq eq (fst (extract e1)) (fst (extract e2))) by (apply differ_make; simpl; auto).
      pose proof (differ_order_native (en_backend ev) D) as X.
      destruct (to_native (en_backend ev) (fst (extract e1))), (to_native (en_backend ev) (fst (extract e2))); auto. constructor; auto.
    + apply differ_make; simpl; auto.
  - intros e1 e2 H. apply differ_order_extra; auto.
  - intros e1 e2 loc m1 m2 H <-. pose proof (differ_inv H) as (T1&T2&T3&T4&T5&T6&T7&T8). rewrite T8; auto.
  - intros; constructor.
  - constructor.
  - apply same_val_none.
  - intros; constructor; auto.
  - intros d1 d2 F. eapply sv_dict; [apply Permutation_refl|auto].
  - intros a c F; apply F.
  - apply same_error_into.
  - intros c. destruct (en_model ev c) as [m|] eqn:Hm; auto. destruct (HO c m Hm) as [HC HV]. split; auto.
    + apply drops_refl.
    + intros name. destruct (md_cval m name) as [f|] eqn:Hf; auto. intros e1 e2 H. destruct (HC name f Hf e1 e2 H) as [O D].
      destruct (fst (f e1)) eqn:Ho; auto; right; (split; [rewrite <- Ho in *; apply same_outcome_orel; [rewrite Ho; discriminate|auto]|auto]).
    + intros i1 i2 I. assert (X : match md_validate m i1, md_validate m i2 with Valid w, Valid w' => same_val w w' | Invalid x, Invalid x' => same_error x x' | Crashed a, Crashed a' => a = a' | _, _ => False end).
      { destruct i1, i2; simpl in I; try contradiction; [apply HV; auto|]. destruct (md_validate m None); [constructor|apply same_error_refl|auto]. }
      destruct (md_validate m i1), (md_validate m i2); auto. intros sm1 sm2 <-. apply same_error_lines; auto.
  - intros m1 m2 H1 H2. congruence.
Qed.

Lemma reordered_from : forall b n1 n2, reordered n1 n2 -> differ eq oshuffled eq eq (from_native b n1) (from_native b n2).
Proof.
  intros b n1; induction n1 as [tag ns text tail a cs line IH| |] using native_ind'; intros n2 H; inv H; simpl.
  - constructor; simpl; auto. match goal with H : Forall2 _ _ _ |- _ => clear -H IH; induction H end; simpl; auto. inv IH.
    assert (is_xml_comment x = is_xml_comment y) as -> by (inv H; auto). destruct (is_xml_comment y); auto. simpl. constructor; auto.
  - constructor; simpl; auto. repeat split; auto. constructor.
  - constructor; simpl; auto.
Qed.

Lemma reordered_sym : forall n1 n2, reordered n1 n2 -> reordered n2 n1.
Proof.
  intros n1; induction n1 as [tag ns text tail a cs line IH| |] using native_ind'; intros n2 H; inv H; constructor; auto using shuffled_sym.
  match goal with H : Forall2 _ _ _ |- _ => clear -H IH; induction H end; simpl; constructor; inv IH; auto.
Qed.

Lemma attribute_order_ignored : forall ev, order_unseen ev -> forall n cls root1 root2 eas, reordered root1 root2 ->
  same_outcome (from_xml_tree n ev cls root1 eas) (from_xml_tree n ev cls root2 eas).
Proof.
  assert (X : forall ev, order_unseen ev -> forall n cls root1 root2 eas, reordered root1 root2 ->
    from_xml_tree n ev cls root1 eas = Fuel \/ orel same_val same_error (from_xml_tree n ev cls root1 eas) (from_xml_tree n ev cls root2 eas)).
  { intros ev HL n cls root1 root2 eas H. apply order_run; auto; [inv H; auto|apply reordered_from; auto]. }
  intros ev HO n cls root1 root2 eas H. pose proof (X ev HO n cls root1 root2 eas H) as A.
  pose proof (X ev HO n cls root2 root1 eas (reordered_sym H)) as B.
  destruct (from_xml_tree n ev cls root1 eas) as [v|x|], (from_xml_tree n ev cls root2 eas) as [w|y|]; destruct A as [A|A]; destruct B as [B|B];
    simpl in *; try discriminate; try contradiction; auto; try (destruct x; contradiction); try (destruct y; contradiction).
Qed.
