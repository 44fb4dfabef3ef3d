(** PfHeap3.v -- on trees without sharing, the heap operations are the tree operations of Elem.v. *)

From Verif Require Import Base Elem Heap SpecHeap PfHeap PfHeap2 PfElem.

(** ---- small facts ---- *)
Lemma only_changes_refl : forall F h, only_changes F h h.
Proof. intros F h; split; auto. Qed.

Lemma only_changes_trans : forall F F' h h' h'', only_changes F h h' -> only_changes F' h' h'' ->
  from_or_new F h F' -> only_changes F h h''.
Proof.
  intros F F' h h' h'' [L1 K1] [L2 K2] N. split; [lia|].
  intros x Hx NF. rewrite K2; [apply K1; auto|lia|].
  intros Hx'. destruct (N _ Hx'); [contradiction|lia].
Qed.

Lemma only_changes_incl : forall F F' h h', only_changes F h h' -> incl F F' -> only_changes F' h h'.
Proof. intros F F' h h' [L K] I. split; auto. Qed.

Lemma from_or_new_refl : forall F h, from_or_new F h F.
Proof. intros F h x Hx; auto. Qed.

Lemma from_or_new_trans : forall F F' F'' h h', length h <= length h' ->
  from_or_new F h F' -> from_or_new F' h' F'' -> from_or_new F h F''.
Proof.
  intros F F' F'' h h' L A B x Hx. destruct (B _ Hx) as [H|H]; [auto|right; lia].
Qed.

Lemma from_or_new_incl : forall F h F', incl F' F -> from_or_new F h F'.
Proof. intros F h F' I x Hx; auto. Qed.

Lemma upd_changes : forall h r o F, In r F -> only_changes F h (list_upd r o h).
Proof.
  intros h r o F I. split; [rewrite upd_length; auto|].
  intros x _ NF. apply nth_upd_other. intros ->. contradiction.
Qed.

Lemma alloc_changes : forall h o F, only_changes F h (h ++ [o]).
Proof.
  intros h o F. split; [rewrite app_length; simpl; lia|].
  intros x L _. apply nth_error_app1; auto.
Qed.

Lemma owns_all_nth : forall h rs es Fs Ns i e, owns_all h rs es Fs Ns -> nth_error es i = Some e ->
  exists c F N, nth_error rs i = Some c /\ nth_error Fs i = Some F /\ nth_error Ns i = Some N /\
    owns h c e F N.
Proof.
  intros h rs es Fs Ns i e A; revert i e; induction A as [|a e F N rs es Fs Ns O A IH]; intros i x E.
  - destruct i; discriminate.
  - destruct i as [|i]; simpl in E.
    + inversion E; subst. exists a, F, N. auto.
    + apply IH in E. exact E.
Qed.

Lemma in_concat_nth : forall A (ls : list (list A)) i l x, nth_error ls i = Some l -> In x l -> In x (concat ls).
Proof.
  intros A ls; induction ls as [|l0 ls IH]; intros [|i] l x E H; simpl in *; try discriminate.
  - inversion E; subst. apply in_or_app; auto.
  - apply in_or_app; right; eauto.
Qed.

Lemma in_concat_upd : forall A (ls : list (list A)) i l x, In x (concat (list_upd i l ls)) ->
  In x l \/ In x (concat ls).
Proof.
  intros A ls; induction ls as [|l0 ls IH]; intros [|i] l x H; simpl in *; auto.
  - apply in_app_or in H. destruct H; auto. right; apply in_or_app; auto.
  - apply in_app_or in H. destruct H as [H|H]; [right; apply in_or_app; auto|].
    destruct (IH _ _ _ H); auto. right; apply in_or_app; auto.
Qed.

Lemma NoDup_app_intro : forall A (l m : list A), NoDup l -> NoDup m ->
  (forall x, In x l -> ~ In x m) -> NoDup (l ++ m).
Proof.
  intros A l m Hl Hm D; induction Hl as [|x l Hx Hl IH]; simpl; auto.
  constructor.
  - intros H. apply in_app_or in H. destruct H; [contradiction|]. eapply D; simpl; eauto.
  - apply IH. intros y Hy. apply D; simpl; auto.
Qed.

Lemma NoDup_app_elim : forall A (l m : list A), NoDup (l ++ m) ->
  NoDup l /\ NoDup m /\ (forall x, In x l -> ~ In x m).
Proof.
  intros A l m; induction l as [|x l IH]; simpl; intros H.
  - split; [constructor|]. split; auto.
  - inversion H as [|? ? Hx H']; subst. destruct (IH H') as [A1 [A2 A3]].
    split; [constructor; auto; intros Hl; apply Hx; apply in_or_app; auto|].
    split; auto. intros y [<-|Hy]; auto. intros Hm; apply Hx; apply in_or_app; auto.
Qed.

Lemma NoDup_concat_upd : forall A (ls : list (list A)) i l l', NoDup (concat ls) ->
  nth_error ls i = Some l -> NoDup l' ->
  (forall x, In x l' -> In x l \/ ~ In x (concat ls)) -> NoDup (concat (list_upd i l' ls)).
Proof.
  intros A ls; induction ls as [|l0 ls IH]; intros [|i] l l' ND E ND' H; simpl in *; try discriminate.
  - inversion E; subst. apply NoDup_app_elim in ND. destruct ND as [A1 [A2 A3]].
    apply NoDup_app_intro; auto. intros x Hx Hm. destruct (H _ Hx) as [Hl|Hl].
    + eapply A3; eauto.
    + apply Hl, in_or_app; auto.
  - apply NoDup_app_elim in ND. destruct ND as [A1 [A2 A3]].
    apply NoDup_app_intro; auto.
    + eapply IH; eauto. intros x Hx. destruct (H _ Hx) as [Hl|Hl]; auto.
      right. intros Hm. apply Hl, in_or_app; auto.
    + intros x Hx Hm. apply in_concat_upd in Hm. destruct Hm as [Hm|Hm].
      * destruct (H _ Hm) as [Hl|Hl].
        -- eapply A3; eauto. eapply in_concat_nth; eauto.
        -- apply Hl, in_or_app; auto.
      * eapply A3; eauto.
Qed.

(** replacing one child *)
Lemma owns_all_upd : forall h h' rs es Fs Ns, owns_all h rs es Fs Ns ->
  forall i c F N e' F' N', NoDup (concat Fs) -> (forall x, In x (concat Fs) -> ~ In x (concat Ns)) ->
  nth_error rs i = Some c -> nth_error Fs i = Some F -> nth_error Ns i = Some N ->
  only_changes F h h' -> owns h' c e' F' N' ->
  owns_all h' rs (list_upd i e' es) (list_upd i F' Fs) (list_upd i N' Ns).
Proof.
  intros h h' rs es Fs Ns A; induction A as [|a e F0 N0 rs es Fs Ns O A IH];
    intros i c F N e' F' N' ND DJ E1 E2 E3 C O'.
  - destruct i; discriminate.
  - simpl in ND. apply NoDup_app_elim in ND. destruct ND as [ND1 [ND2 ND3]].
    destruct i as [|i]; simpl in *.
    + inversion E1; inversion E2; inversion E3; subst. constructor; auto.
      eapply owns_all_frame; [exact A|]. intros x Hx. apply C.
      * eapply owns_all_lt; eauto.
      * intros HF. destruct Hx as [Hx|Hx].
        -- eapply ND3; eauto.
        -- eapply DJ; [apply in_or_app; left; exact HF|]. apply in_or_app; auto.
    + constructor.
      * eapply owns_frame; [exact O|]. intros x Hx. apply C.
        -- eapply owns_lt; eauto.
        -- intros HF. assert (HF' : In x (concat Fs)) by (eapply in_concat_nth; eauto).
           destruct Hx as [Hx|Hx]; [eapply ND3; eauto|].
           eapply DJ; [apply in_or_app; right; exact HF'|]. apply in_or_app; auto.
      * eapply IH; eauto. intros x Hx Hn. eapply DJ; [apply in_or_app; right; exact Hx|].
        apply in_or_app; auto.
Qed.

(** the parts of a tree *)
Lemma tree_inv : forall h a e F N, tree h a e F N ->
  exists nsr ar lr rs Fs Ns,
    nth_error h a = Some (ONode (Node (e_tag e) nsr (e_text e) (e_tail e) ar lr (e_next e) (e_line e))) /\
    odict_at h nsr (e_nsmap e) /\ odict_at h ar (e_attrib e) /\ nth_error h lr = Some (OList rs) /\
    owns_all h rs (e_elems e) Fs Ns /\
    F = a :: opt_list ar ++ lr :: concat Fs /\ N = opt_list nsr ++ concat Ns /\
    NoDup (concat Fs) /\ a <> lr /\ ~ In a (opt_list ar) /\ ~ In a (concat Fs) /\
    ~ In lr (opt_list ar) /\ ~ In lr (concat Fs) /\ (forall x, In x (opt_list ar) -> ~ In x (concat Fs)).
Proof.
  intros h a e F N [O [ND DJ]].
  inversion O as [a' tag nsr ns text tail ar attrs lr rs es next line Fs Ns Ha Hns Hat Hl Hall]; subst.
  simpl. exists nsr, ar, lr, rs, Fs, Ns.
  inversion ND as [|? ? NA ND1]; subst. apply NoDup_app_elim in ND1. destruct ND1 as [NA1 [NL NX]].
  inversion NL as [|? ? NLF NF]; subst.
  repeat (split; [auto; fail|]).
  split. { intros ->. apply NA. apply in_or_app; simpl; auto. }
  split. { intros H. apply NA. apply in_or_app; auto. }
  split. { intros H. apply NA. apply in_or_app; simpl; auto. }
  split. { intros H. eapply NX; eauto. simpl; auto. }
  split; auto. intros x Hx H. eapply NX; eauto. simpl; auto.
Qed.

Ltac parts T :=
  let nsr := fresh "nsr" in let ar := fresh "ar" in let lr := fresh "lr" in let rs := fresh "rs" in
  let Fs := fresh "Fs" in let Ns := fresh "Ns" in
  destruct (tree_inv T) as
    [nsr [ar [lr [rs [Fs [Ns [Ha [Hns [Hat [Hl [Hall [EF [EN [NDF [Nal [Naar [NaF [Nlar [NlF NarF]]]]]]]]]]]]]]]]]]].

(** only slots of the element itself change *)
Lemma tree_slots : forall h a e F N n e', tree h a e F N ->
  e_nsmap e' = e_nsmap e -> e_attrib e' = e_attrib e -> e_elems e' = e_elems e ->
  nth_error h a = Some (ONode n) ->
  forall n', n' = Node (e_tag e') (n_nsmap n) (e_text e') (e_tail e') (n_attrib n) (n_elems n) (e_next e') (e_line e') ->
  tree (list_upd a (ONode n') h) a e' F N /\ only_changes F h (list_upd a (ONode n') h).
Proof.
  intros h a e F N n e' T E1 E2 E3 Hn n' ->. pose proof T as [O [ND DJ]]. parts T.
  rewrite Ha in Hn. inversion Hn; subst n. simpl.
  pose proof (nth_lt _ _ Ha) as La.
  assert (IaF : In a F) by (subst F; simpl; auto).
  split.
  - split; [|split; auto].
    set (h' := list_upd _ _ _).
    assert (K : forall x, x <> a -> nth_error h' x = nth_error h x) by (intros x Hx; apply nth_upd_other; auto).
    assert (KN : forall x, In x N -> nth_error h' x = nth_error h x).
    { intros x Hx. apply K. intros ->. eapply DJ; eauto. }
    destruct e' as [t' ns' te' ta' at' es' nx' li']; simpl in *. subst ns' at' es' F N.
    econstructor.
    + apply nth_upd_same; auto.
    + eapply odict_at_frame; [exact Hns|]. intros x Hx. apply KN. apply in_or_app; auto.
    + eapply odict_at_frame; [exact Hat|]. intros x Hx. apply K. intros ->. contradiction.
    + rewrite K; [exact Hl|auto].
    + eapply owns_all_frame; [exact Hall|]. intros x [Hx|Hx].
      * apply K. intros ->. contradiction.
      * apply KN. apply in_or_app; auto.
  - apply upd_changes; auto.
Qed.

Lemma step_forward_impl : implements h_step_forward (fun e => (tt, step_forward e)).
Proof.
  intros h a e F N T. pose proof T as T0. parts T. pose proof (nth_lt _ _ Ha) as La.
  destruct (@tree_slots h a e F N _ (step_forward e) T0 eq_refl eq_refl eq_refl Ha _ eq_refl) as [T1 C1].
  eexists _, F, N. split.
  { unfold h_step_forward, bind. rewrite (load_node_at _ _ Ha). simpl. rewrite store_at by auto. reflexivity. }
  split; [exact T1|]. split; [exact C1|]. split; apply from_or_new_incl; auto with datatypes.
Qed.

Lemma set_text_impl : forall t, implements (fun a => h_set_text a t) (fun e => (tt, set_text t e)).
Proof.
  intros t h a e F N T. pose proof T as T0. parts T. pose proof (nth_lt _ _ Ha) as La.
  destruct (@tree_slots h a e F N _ (set_text t e) T0 eq_refl eq_refl eq_refl Ha _ eq_refl) as [T1 C1].
  eexists _, F, N. split.
  { unfold h_set_text, bind. rewrite (load_node_at _ _ Ha). simpl. rewrite store_at by auto. reflexivity. }
  split; [exact T1|]. split; [exact C1|]. split; apply from_or_new_incl; auto with datatypes.
Qed.

Lemma pop_text_impl : implements h_pop_text pop_text.
Proof.
  intros h a e F N T. pose proof T as T0. parts T. pose proof (nth_lt _ _ Ha) as La.
  destruct (@tree_slots h a e F N _ (set_text_o None e) T0 eq_refl eq_refl eq_refl Ha _ eq_refl) as [T1 C1].
  eexists _, F, N. split.
  { unfold h_pop_text, bind. rewrite (load_node_at _ _ Ha). simpl. rewrite store_at by auto. reflexivity. }
  split; [exact T1|]. split; [exact C1|]. split; apply from_or_new_incl; auto with datatypes.
Qed.

Lemma pop_tail_impl : implements h_pop_tail pop_tail.
Proof.
  intros h a e F N T. pose proof T as T0. parts T. pose proof (nth_lt _ _ Ha) as La.
  destruct (@tree_slots h a e F N _ (set_tail_o None e) T0 eq_refl eq_refl eq_refl Ha _ eq_refl) as [T1 C1].
  eexists _, F, N. split.
  { unfold h_pop_tail, bind. rewrite (load_node_at _ _ Ha). simpl. rewrite store_at by auto. reflexivity. }
  split; [exact T1|]. split; [exact C1|]. split; apply from_or_new_incl; auto with datatypes.
Qed.

Lemma is_empty_impl : implements h_is_empty (fun e => (is_empty e, e)).
Proof.
  intros h a e F N T. pose proof T as T0. parts T.
  exists h, F, N. split.
  { unfold h_is_empty, bind. rewrite (load_node_at _ _ Ha). simpl.
    rewrite (@load_odict_at _ _ _ Hat), (load_list_at _ _ Hl). unfold ret, is_empty.
    rewrite (owns_all_lengths Hall). reflexivity. }
  split; [exact T0|]. split; [apply only_changes_refl|]. split; apply from_or_new_incl; auto with datatypes.
Qed.

Lemma get_attrib_impl : forall k, implements (fun a => h_get_attrib a k) (fun e => (get_attrib k e, e)).
Proof.
  intros k h a e F N T. pose proof T as T0. parts T.
  exists h, F, N. split.
  { unfold h_get_attrib, bind. rewrite (load_node_at _ _ Ha). simpl.
    rewrite (@load_odict_at _ _ _ Hat). reflexivity. }
  split; [exact T0|]. split; [apply only_changes_refl|]. split; apply from_or_new_incl; auto with datatypes.
Qed.

(** the attribute dict is updated in place *)
Lemma tree_dict : forall h a e F N n r d, tree h a e F N ->
  nth_error h a = Some (ONode n) -> n_attrib n = Some r ->
  tree (list_upd r (ODict d) h) a (set_attrib_o (Some d) e) F N /\
  only_changes F h (list_upd r (ODict d) h).
Proof.
  intros h a e F N n r d T Hn Hr. pose proof T as [O [ND DJ]]. parts T.
  rewrite Ha in Hn. inversion Hn; subst n. simpl in Hr. subst ar.
  assert (Lr : r < length h) by (eapply odict_at_lt; [exact Hat|simpl; auto]).
  assert (IrF : In r F) by (subst F; simpl; auto).
  set (h' := list_upd r (ODict d) h).
  assert (K : forall x, x <> r -> nth_error h' x = nth_error h x) by (intros x Hx; apply nth_upd_other; auto).
  assert (KN : forall x, In x N -> nth_error h' x = nth_error h x).
  { intros x Hx. apply K. intros ->. eapply DJ; eauto. }
  split; [|apply upd_changes; auto].
  split; [|split; auto]. simpl in *. subst F N. unfold set_attrib_o.
  change (a :: r :: lr :: concat Fs) with (a :: opt_list (Some r) ++ lr :: concat Fs).
  econstructor.
  - rewrite K by (intros ->; tauto). exact Ha.
  - eapply odict_at_frame; [exact Hns|]. intros x Hx. apply KN. apply in_or_app; auto.
  - simpl. apply nth_upd_same; auto.
  - rewrite K by (intros ->; tauto). exact Hl.
  - eapply owns_all_frame; [exact Hall|]. intros x [Hx|Hx].
    + apply K. intros ->. eapply NarF; eauto.
    + apply KN. apply in_or_app; auto.
Qed.

(** the element gets a new attribute dict *)
Lemma tree_new_dict : forall h a e F N n d, tree h a e F N ->
  nth_error h a = Some (ONode n) ->
  let h' := list_upd a (ONode (nset_attrib (Some (length h)) n)) (h ++ [ODict d]) in
  exists F', tree h' a (set_attrib_o (Some d) e) F' N /\ only_changes F h h' /\ from_or_new F h F'.
Proof.
  intros h a e F N n d T Hn h'. pose proof T as [O [ND DJ]]. parts T.
  rewrite Ha in Hn. inversion Hn; subst n.
  pose proof (nth_lt _ _ Ha) as La. set (r := length h) in *.
  assert (LF : forall x, In x F \/ In x N -> x < r) by (intros x Hx; eapply owns_lt; eauto).
  assert (K : forall x, x < r -> x <> a -> nth_error h' x = nth_error h x).
  { intros x Hx Ne. unfold h'. rewrite nth_upd_other by auto. apply nth_error_app1; auto. }
  assert (KN : forall x, In x N -> nth_error h' x = nth_error h x).
  { intros x Hx. apply K; [apply LF; auto|]. intros ->. eapply DJ; eauto. subst F; simpl; auto. }
  assert (Llr : lr < r) by (eapply nth_lt; eauto).
  exists (a :: opt_list (Some r) ++ lr :: concat Fs). split; [|split].
  - split; [|split].
    + unfold set_attrib_o. subst N. econstructor.
      * unfold h'. apply nth_upd_same. rewrite app_length; simpl; fold r; lia.
      * simpl. eapply odict_at_frame; [exact Hns|]. intros x Hx. apply KN. apply in_or_app; auto.
      * simpl. unfold h'. rewrite nth_upd_other by lia. fold r. rewrite nth_error_app2 by (fold r; lia).
        unfold r. rewrite Nat.sub_diag. reflexivity.
      * simpl. rewrite K; [exact Hl|auto|auto].
      * eapply owns_all_frame; [exact Hall|]. intros x [Hx|Hx].
        -- apply K; [apply LF; subst F; left; simpl; right; apply in_or_app; simpl; auto|].
           intros ->; contradiction.
        -- apply KN. apply in_or_app; auto.
    + simpl. constructor; [|constructor; [|constructor; auto]].
      * intros [Hx|[Hx|Hx]]; [lia|auto|auto].
      * intros [Hx|Hx]; [lia|]. assert (r < r); [|lia].
        apply LF. subst F. left. simpl. right. apply in_or_app; simpl; auto.
    + simpl. intros x Hx HN. assert (Lx : x < r) by (apply LF; auto).
      destruct Hx as [<-|[<-|[<-|Hx]]].
      * eapply DJ; eauto. subst F; simpl; auto.
      * lia.
      * eapply DJ; eauto. subst F; simpl. right; apply in_or_app; simpl; auto.
      * eapply DJ; eauto. subst F; simpl. right; apply in_or_app; simpl; auto.
  - split.
    + unfold h'. rewrite upd_length, app_length. simpl. lia.
    + intros x Hx HF. apply K; auto. intros ->. apply HF. subst F; simpl; auto.
  - intros x Hx. simpl in Hx. destruct Hx as [<-|[<-|[<-|Hx]]].
    + left. subst F; simpl; auto.
    + right. unfold r; lia.
    + left. subst F; simpl. right; apply in_or_app; simpl; auto.
    + left. subst F; simpl. right; apply in_or_app; simpl; auto.
Qed.

Lemma set_attributes_impl : forall d,
  implements (fun a => h_set_attributes a d) (fun e => (tt, set_attributes d e)).
Proof.
  intros d h a e F N T. pose proof T as T0. parts T. pose proof (nth_lt _ _ Ha) as La.
  destruct (@tree_new_dict h a e F N _ d T0 Ha) as [F' [T1 [C1 N1]]].
  eexists _, F', N. split.
  { unfold h_set_attributes, bind. rewrite (load_node_at _ _ Ha). simpl.
    rewrite store_at by (rewrite app_length; simpl; lia). reflexivity. }
  split; [exact T1|]. split; [exact C1|]. split; [exact N1|]. apply from_or_new_incl; auto with datatypes.
Qed.

Lemma list_upd_app_last : forall A (l : list A) x y i, i = length l -> list_upd i y (l ++ [x]) = l ++ [y].
Proof. intros A l x y i ->; induction l; simpl; congruence. Qed.

Lemma list_upd_swap : forall A (l : list A) i j x y, i <> j ->
  list_upd i x (list_upd j y l) = list_upd j y (list_upd i x l).
Proof.
  intros A l; induction l as [|z l IH]; intros [|i] [|j] x y NE; simpl; auto; try congruence.
  rewrite IH; auto.
Qed.

Lemma set_attribute_impl : forall k v,
  implements (fun a => h_set_attribute a k v) (fun e => (tt, set_attribute k v e)).
Proof.
  intros k v h a e F N T. pose proof T as T0. parts T. pose proof (nth_lt _ _ Ha) as La.
  unfold h_set_attribute, set_attribute, bind. simpl. rewrite (load_node_at _ _ Ha). simpl.
  destruct ar as [r|].
  - assert (Lr : r < length h) by (eapply odict_at_lt; [exact Hat|simpl; auto]).
    destruct (e_attrib e) as [d|] eqn:Ea; [|destruct Hat]. simpl in Hat.
    destruct (@tree_dict h a e F N _ r (dset k v d) T0 Ha eq_refl) as [T1 C1].
    eexists _, F, N. split.
    { unfold ret. rewrite (load_dict_at _ _ Hat). rewrite store_at by auto. reflexivity. }
    split; [exact T1|]. split; [exact C1|]. split; apply from_or_new_incl; auto with datatypes.
  - destruct (e_attrib e) as [d|] eqn:Ea; [destruct Hat|].
    destruct (@tree_new_dict h a e F N _ (dset k v []) T0 Ha) as [F' [T1 [C1 N1]]].
    eexists _, F', N. split.
    { simpl. rewrite store_at by (rewrite app_length; simpl; lia). unfold ret.
      rewrite load_dict_at with (n := []).
      2:{ rewrite nth_upd_other by lia. rewrite nth_error_app2, Nat.sub_diag by lia. reflexivity. }
      rewrite store_at by (rewrite upd_length, app_length; simpl; lia).
      rewrite list_upd_swap by lia. rewrite list_upd_app_last by reflexivity. reflexivity. }
    split; [exact T1|]. split; [exact C1|]. split; [exact N1|]. apply from_or_new_incl; auto with datatypes.
Qed.

Lemma pop_attrib_impl : forall k, implements (fun a => h_pop_attrib a k) (pop_attrib k).
Proof.
  intros k h a e F N T. pose proof T as T0. parts T. pose proof (nth_lt _ _ Ha) as La.
  unfold h_pop_attrib, pop_attrib, bind. rewrite (load_node_at _ _ Ha). simpl.
  assert (Same : exists h' F' N', (Some (@None string), h) = (Some None, h') /\ tree h' a e F' N' /\
     only_changes F h h' /\ from_or_new F h F' /\ from_or_new (F ++ N) h N').
  { exists h, F, N. split; [reflexivity|]. split; [exact T0|]. split; [apply only_changes_refl|].
    split; apply from_or_new_incl; auto with datatypes. }
  destruct ar as [r|].
  - assert (Lr : r < length h) by (eapply odict_at_lt; [exact Hat|simpl; auto]).
    destruct (e_attrib e) as [d|] eqn:Ea; [|destruct Hat]. simpl in Hat.
    rewrite (load_dict_at _ _ Hat). destruct (dget k d) as [v|] eqn:Ed; [|exact Same].
    destruct (@tree_dict h a e F N _ r (ddel k d) T0 Ha eq_refl) as [T1 C1].
    eexists _, F, N. split.
    { rewrite store_at by auto. reflexivity. }
    split; [exact T1|]. split; [exact C1|]. split; apply from_or_new_incl; auto with datatypes.
  - destruct (e_attrib e) as [d|] eqn:Ea; [destruct Hat|]. exact Same.
Qed.

Lemma implements_map : forall A B (m : ref -> hp A) f (g : A -> B), implements m f ->
  implements (fun a => x <- m a ;; ret (g x)) (fun e => (g (fst (f e)), snd (f e))).
Proof.
  intros A B m f g H h a e F N T. destruct (H h a e F N T) as [h' [F' [N' [E R]]]].
  exists h', F', N'. split; [|exact R]. unfold bind. rewrite E. reflexivity.
Qed.

Lemma is_element_nill_impl : implements h_is_element_nill is_element_nill.
Proof.
  pose proof (implements_map (fun v => match v with Some s => String.eqb s "true" | None => false end)
                (pop_attrib_impl xsi_nil)) as H.
  intros h a e F N T. destruct (H h a e F N T) as [h' [F' [N' [E R]]]].
  exists h', F', N'. unfold is_element_nill.
  destruct (pop_attrib xsi_nil e) as [v e'] eqn:Ep. simpl in *. split; [exact E|exact R].
Qed.

Lemma make_element_nill_impl : implements h_make_element_nill (fun e => (tt, make_element_nill e)).
Proof. exact (set_attribute_impl xsi_nil "true"). Qed.
