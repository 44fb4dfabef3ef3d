(** PfHeap5.v -- appending, popping, paths, and the union loop over the heap. *)

From Verif Require Import Base Elem Native Errs Names Ser Read Heap SpecHeap HeapRead.
From Verif Require Import PfElem PfHeap PfHeap2 PfHeap3 PfHeap4.

(** ---- append ---- *)
Lemma owns_all_app : forall h rs es Fs Ns rs' es' Fs' Ns', owns_all h rs es Fs Ns ->
  owns_all h rs' es' Fs' Ns' -> owns_all h (rs ++ rs') (es ++ es') (Fs ++ Fs') (Ns ++ Ns').
Proof.
  intros h rs es Fs Ns rs' es' Fs' Ns' A B; induction A; simpl; auto. constructor; auto.
Qed.

Lemma append_ok : forall h a e F N c ec Fc Nc, tree h a e F N -> tree h c ec Fc Nc ->
  (forall x, In x Fc -> ~ In x F /\ ~ In x N) -> (forall x, In x Nc -> ~ In x F) ->
  exists h' F' N',
    h_append_element a c h = (Some tt, h') /\ tree h' a (append_element ec e) F' N' /\
    only_changes F h h' /\ length h' = length h /\ incl F' (F ++ Fc) /\ incl N' (N ++ Nc) /\
    incl Fc F' /\ incl Nc N' /\ In a F' /\ incl F F' /\
    child_ref h' a (length (e_elems e)) c.
Proof.
  intros h a e F N c ec Fc Nc T [Oc [NDc DJc]] X1 X2. pose proof T as T0. pose proof T as [O [ND DJ]]. parts T.
  pose proof (nth_lt _ _ Ha) as La. pose proof (nth_lt _ _ Hl) as Ll.
  assert (One : owns_all h [c] [ec] [Fc] [Nc]) by (constructor; [auto|constructor]).
  pose proof (owns_all_app Hall One) as Hall'.
  destruct (@tree_kids h a e F N nsr ar lr rs Fs Ns (rs ++ [c]) (e_elems e ++ [ec]) (Fs ++ [Fc]) (Ns ++ [Nc])
              (S (e_next e)) T0 Ha Hl Hall Hall') as [T1 [C1 [L1 [El1 Ea1]]]].
  - rewrite concat_app. simpl. rewrite app_nil_r. apply NoDup_app_intro; auto.
    intros x Hx Hc. destruct (X1 _ Hc) as [H _]. apply H. subst F; simpl; right; apply in_or_app; simpl; auto.
  - intros x Hx. rewrite concat_app in Hx. simpl in Hx. rewrite app_nil_r in Hx.
    apply in_app_or in Hx. destruct Hx as [Hx|Hx]; auto.
  - intros x Hx. rewrite concat_app in Hx. simpl in Hx. rewrite app_nil_r in Hx.
    rewrite concat_app. simpl. rewrite app_nil_r.
    apply in_app_or in Hx. destruct Hx as [Hx|Hx].
    + split; auto. intros H. assert (HN : In x N) by (subst N; apply in_or_app; auto).
      apply in_app_or in H. destruct H as [H|H].
      * apply (DJ x); auto. subst F; simpl; right; apply in_or_app; simpl; auto.
      * destruct (X1 _ H); auto.
    + split; auto. intros H. apply in_app_or in H. destruct H as [H|H].
      * apply (X2 x); auto. subst F; simpl; right; apply in_or_app; simpl; auto.
      * apply (DJc x); auto.
  - match type of T1 with tree ?x _ _ ?f ?n => set (h' := x) in *; set (F' := f) in *; set (N' := n) in * end.
    exists h', F', N'. split.
    { unfold h_append_element, bind. rewrite (load_node_at _ _ Ha). simpl.
      rewrite (load_list_at _ _ Hl). rewrite store_at by auto.
      rewrite store_at by (rewrite upd_length; auto). reflexivity. }
    split; [exact T1|]. split; [auto|]. split; [auto|].
    assert (EFx : forall x, In x F' <-> In x F \/ In x Fc).
    { intros x. unfold F'. rewrite concat_app. simpl. rewrite app_nil_r. subst F. simpl.
      rewrite !in_app_iff. simpl. rewrite in_app_iff. tauto. }
    assert (ENx : forall x, In x N' <-> In x N \/ In x Nc).
    { intros x. unfold N'. rewrite concat_app. simpl. rewrite app_nil_r. subst N.
      rewrite !in_app_iff. tauto. }
    split. { intros x Hx. apply in_or_app. apply EFx; auto. }
    split. { intros x Hx. apply in_or_app. apply ENx; auto. }
    split. { intros x Hx. apply EFx; auto. }
    split. { intros x Hx. apply ENx; auto. }
    split. { unfold F'; simpl; auto. }
    split. { intros x Hx. apply EFx; auto. }
    eapply child_ref_at; [exact Ea1|exact El1|].
    rewrite nth_error_app2, <- (owns_all_lengths Hall), Nat.sub_diag by (rewrite (owns_all_lengths Hall); auto).
    reflexivity.
Qed.

(** a new element *)
Lemma make_element_ok : forall h b tag nsr ns, odict_at h nsr ns ->
  exists c h', h_make_element b tag nsr h = (Some c, h') /\
    tree h' c (make_element b tag ns) [c; length h] (opt_list (match b with Lxml => nsr | Std => None end)) /\
    only_changes [] h h' /\ c = S (length h) /\ length h' = S (S (length h)).
Proof.
  intros h b tag nsr ns Hn.
  set (nr := match b with Lxml => nsr | Std => None end).
  set (nd := Node (TName tag) nr None None None (length h) 0 (-1)).
  set (h1 := h ++ [OList []]). set (h2 := h1 ++ [ONode nd]).
  assert (L1 : length h1 = S (length h)) by (unfold h1; rewrite app_length; simpl; lia).
  assert (L2 : length h2 = S (S (length h))) by (unfold h2; rewrite app_length; simpl; lia).
  exists (S (length h)), h2. split.
  { unfold h_make_element, h_new, bind, alloc_odict, alloc, ret. simpl. fold h1. rewrite L1.
    fold nr nd. reflexivity. }
  assert (K : forall x, x < length h -> nth_error h2 x = nth_error h x).
  { intros x Hx. unfold h2, h1. rewrite nth_error_app1 by (rewrite app_length; simpl; lia).
    apply nth_error_app1; auto. }
  split; [|split; [|split; auto]].
  - split; [|split].
    + unfold make_element, new_elem.
      assert (O : owns h2 (S (length h)) (Elem (TName tag) (match b with Lxml => ns | Std => None end) None None None [] 0 (-1))
                (S (length h) :: opt_list None ++ length h :: concat []) (opt_list nr ++ concat [])).
      { econstructor.
        - unfold h2. rewrite nth_error_app2, L1, Nat.sub_diag by lia. reflexivity.
        - unfold nr. destruct b; [|exact I]. eapply odict_at_frame; [exact Hn|].
          intros x Hx. apply K. eapply odict_at_lt; eauto.
        - exact I.
        - unfold h2, h1. rewrite nth_error_app1 by (rewrite app_length; simpl; lia).
          rewrite nth_error_app2, Nat.sub_diag by lia. reflexivity.
        - constructor. }
      simpl in O. rewrite app_nil_r in O. exact O.
    + constructor; [intros [H|[]]; lia|]. constructor; [intros []|constructor].
    + intros x Hx HN. assert (Lx : x < length h).
      { unfold nr in HN. destruct b; [|destruct HN]. eapply odict_at_lt; eauto. }
      simpl in Hx. lia.
  - split; [lia|]. intros x Hx _. apply K; auto.
Qed.

Lemma tree_frame : forall h h' a e F N, tree h a e F N ->
  (forall x, In x F \/ In x N -> nth_error h' x = nth_error h x) -> tree h' a e F N.
Proof. intros h h' a e F N [O R] H. split; [eapply owns_frame; eauto|exact R]. Qed.

Lemma tree_lt : forall h a e F N x, tree h a e F N -> In x F \/ In x N -> x < length h.
Proof. intros h a e F N x [O _]. eapply owns_lt; eauto. Qed.

Lemma child_ref_frame : forall h h' a i c n rs, nth_error h a = Some (ONode n) ->
  nth_error h (n_elems n) = Some (OList rs) -> nth_error rs i = Some c ->
  nth_error h' a = nth_error h a -> nth_error h' (n_elems n) = nth_error h (n_elems n) -> child_ref h' a i c.
Proof. intros h h' a i c n rs E1 E2 E3 K1 K2. exists n, rs. rewrite K1, K2. auto. Qed.

(** [find_element_or_create]: the index the tree model gives is that of the reference returned *)
Lemma find_or_create_ok : forall h a e F N b tag m nsr ns, tree h a e F N -> odict_at h nsr ns ->
  (forall x, In x (opt_list nsr) -> ~ In x F) ->
  exists h' r, h_find_element_or_create b a tag m nsr h = (r, h') /\
    match find_element_or_create b e tag m ns with
    | (Found i, e') => exists c, r = Some c /\ child_ref h' a i c
    | (_, e') => r = None
    end /\
    exists F' N', tree h' a (snd (find_element_or_create b e tag m ns)) F' N' /\
      only_changes F h h' /\ from_or_new F h F' /\ from_or_new (opt_list nsr ++ F ++ N) h N'.
Proof.
  intros h a e F N b tag m nsr ns T Hn XN.
  unfold h_find_element_or_create, find_element_or_create, find_element.
  destruct (find_element_ok m tag true true T) as [h1 [F1 [N1 [r [E [T1 [R [C1 [PF [PN L1]]]]]]]]]].
  unfold bind. rewrite E.
  destruct (search m e tag true true) as [f e1]. cbn [fst snd] in *.
  assert (FN : from_or_new F h F1) by (apply from_or_new_incl; intros x Hx; eapply Permutation_in; eauto).
  assert (NN : from_or_new (opt_list nsr ++ F ++ N) h N1).
  { apply from_or_new_incl. intros x Hx. rewrite !in_app_iff. right; right. eapply Permutation_in; eauto. }
  destruct f as [|i|]; simpl in R.
  - subst r.
    assert (Hn1 : odict_at h1 nsr ns).
    { eapply odict_at_frame; [exact Hn|]. intros x Hx. apply C1; auto. eapply odict_at_lt; eauto. }
    destruct (@make_element_ok h1 b tag nsr ns Hn1) as [c [h2 [E2 [T2 [C2 [Ec L2]]]]]].
    rewrite E2.
    set (nr := match b with Lxml => nsr | Std => None end) in *.
    assert (Inr : forall x, In x (opt_list nr) -> In x (opt_list nsr)).
    { unfold nr. destruct b; auto. intros x []. }
    assert (T1' : tree h2 a e1 F1 N1).
    { eapply tree_frame; [exact T1|]. intros x Hx. apply C2; auto. eapply tree_lt; eauto. }
    destruct (@append_ok h2 a e1 F1 N1 c _ _ _ T1' T2) as [h3 [F3 [N3 [E3 [T3 [C3 [L3 [I1 [I2 [_ [_ [_ [_ CR]]]]]]]]]]]]].
    + intros x Hx. assert (Lx : length h1 <= x) by (simpl in Hx; lia).
      split; intros H; assert (x < length h1) by (eapply tree_lt; eauto); lia.
    + intros x Hx. apply Inr in Hx. intros H. apply (XN x); auto. eapply Permutation_in; eauto.
    + rewrite E3. exists h3, (Some c). split; [reflexivity|]. split; [exists c; auto|].
      exists F3, N3. split; [exact T3|]. split; [|split].
      * eapply only_changes_trans; [exact C1| |exact FN].
        eapply only_changes_trans with (F' := F1); [|exact C3|].
        -- eapply only_changes_incl; [exact C2|]. intros x [].
        -- apply from_or_new_refl.
      * intros x Hx. apply I1 in Hx. apply in_app_or in Hx. destruct Hx as [Hx|Hx]; auto.
        right. simpl in Hx. lia.
      * intros x Hx. apply I2 in Hx. apply in_app_or in Hx. destruct Hx as [Hx|Hx]; auto.
        left. apply in_or_app; auto.
  - destruct R as [c [-> R]]. exists h1, (Some c). split; [reflexivity|]. split; [eauto|].
    exists F1, N1. auto.
  - subst r. exists h1, None. split; [reflexivity|]. split; [reflexivity|]. exists F1, N1. auto.
Qed.

(** ---- [pop_attributes], [pop_elements] ---- *)
Lemma pop_attributes_ok : forall h a e F N, tree h a e F N ->
  exists r h' F', h_pop_attributes a h = (Some r, h') /\ odict_at h' r (fst (pop_attributes e)) /\
    tree h' a (snd (pop_attributes e)) F' N /\ only_changes F h h' /\ incl F' F /\
    length h' = length h /\ (forall x, In x (opt_list r) -> In x F /\ ~ In x F').
Proof.
  intros h a e F N T. pose proof T as T0. pose proof T as [O [ND DJ]]. parts T.
  pose proof (nth_lt _ _ Ha) as La.
  set (n' := nset_attrib None (Node (e_tag e) nsr (e_text e) (e_tail e) ar lr (e_next e) (e_line e))).
  set (h' := list_upd a (ONode n') h).
  assert (K : forall x, x <> a -> nth_error h' x = nth_error h x) by (intros x Hx; apply nth_upd_other; auto).
  assert (KN : forall x, In x N -> nth_error h' x = nth_error h x).
  { intros x Hx. apply K. intros ->. apply (DJ a); auto. subst F; simpl; auto. }
  exists ar, h', (a :: lr :: concat Fs). split.
  { unfold h_pop_attributes, bind. rewrite (load_node_at _ _ Ha). simpl. rewrite store_at by auto. reflexivity. }
  split. { simpl. eapply odict_at_frame; [exact Hat|]. intros x Hx. apply K. intros ->; contradiction. }
  split.
  { split; [|split].
    - unfold pop_attributes, set_attrib_o. simpl.
      change (a :: lr :: concat Fs) with (a :: opt_list None ++ lr :: concat Fs). subst N. econstructor.
      + unfold h'. apply nth_upd_same; auto.
      + eapply odict_at_frame; [exact Hns|]. intros x Hx. apply KN. apply in_or_app; auto.
      + exact I.
      + simpl. rewrite K; [exact Hl|auto].
      + eapply owns_all_frame; [exact Hall|]. intros x [Hx|Hx].
        * apply K. intros ->; contradiction.
        * apply KN. apply in_or_app; auto.
    - constructor; [intros [H|H]; auto|]. constructor; auto.
    - intros x Hx. apply DJ. subst F. simpl in *. rewrite in_app_iff. simpl. tauto. }
  split. { apply upd_changes. subst F; simpl; auto. }
  split. { intros x Hx. subst F. simpl in *. rewrite in_app_iff. simpl. tauto. }
  split. { apply upd_length. }
  intros x Hx. split.
  - subst F; simpl; right; apply in_or_app; auto.
  - intros [<-|[<-|H]]; [auto|auto|]. eapply NarF; eauto.
Qed.

Lemma pop_elements_ok : forall h a e F N, tree h a e F N ->
  exists rs h' F' Fs N' Ns, h_pop_elements a h = (Some rs, h') /\
    owns_all h' rs (fst (pop_elements e)) Fs Ns /\ NoDup (concat Fs) /\
    (forall x, In x (concat Fs) -> ~ In x (concat Ns)) /\
    tree h' a (snd (pop_elements e)) F' N' /\ only_changes F h h' /\ from_or_new F h F' /\
    incl N' N /\ incl (concat Fs) F /\ incl (concat Ns) N /\
    (forall x, In x (concat Fs) -> ~ In x F').
Proof.
  intros h a e F N T. pose proof T as T0. pose proof T as [O [ND DJ]]. parts T.
  pose proof (nth_lt _ _ Ha) as La.
  set (r := length h). set (h1 := h ++ [OList []]).
  set (n' := Node (e_tag e) nsr (e_text e) (e_tail e) ar r 0 (e_line e)).
  set (h' := list_upd a (ONode n') h1).
  assert (L1 : length h1 = S r) by (unfold h1; rewrite app_length; simpl; unfold r; lia).
  assert (K : forall x, x < r -> x <> a -> nth_error h' x = nth_error h x).
  { intros x Hx Ne. unfold h', h1. rewrite nth_upd_other by auto. apply nth_error_app1; auto. }
  assert (LF : forall x, In x F \/ In x N -> x < r) by (intros x Hx; eapply owns_lt; eauto).
  assert (IF : forall x, In x (concat Fs) -> In x F).
  { intros x Hx. subst F. simpl. right. apply in_or_app; simpl; auto. }
  assert (IN : forall x, In x (concat Ns) -> In x N) by (intros x Hx; subst N; apply in_or_app; auto).
  assert (KN : forall x, In x N -> nth_error h' x = nth_error h x).
  { intros x Hx. apply K; [auto|]. intros ->. apply (DJ a); auto. subst F; simpl; auto. }
  exists rs, h', (a :: opt_list ar ++ [r]), Fs, (opt_list nsr), Ns.
  split.
  { unfold h_pop_elements, bind. rewrite (load_node_at _ _ Ha). simpl.
    rewrite (load_list_at _ _ Hl). simpl. rewrite store_at by (rewrite app_length; simpl; lia). reflexivity. }
  split.
  { eapply owns_all_frame; [exact Hall|]. intros x [Hx|Hx]; [|auto].
    apply K; auto. intros ->; contradiction. }
  split; [auto|]. split. { intros x Hx HN. apply (DJ x); auto. }
  split.
  { split; [|split].
    - assert (O' : owns h' a (Elem (e_tag e) (e_nsmap e) (e_text e) (e_tail e) (e_attrib e) [] 0 (e_line e))
                     (a :: opt_list ar ++ r :: concat []) (opt_list nsr ++ concat [])).
      { econstructor.
        - unfold h'. apply nth_upd_same. lia.
        - eapply odict_at_frame; [exact Hns|]. intros x Hx. apply KN. subst N; apply in_or_app; auto.
        - eapply odict_at_frame; [exact Hat|]. intros x Hx. apply K.
          + apply LF. left. subst F; simpl; right; apply in_or_app; auto.
          + intros ->; contradiction.
        - unfold h'. rewrite nth_upd_other by (unfold r; lia). unfold h1, r.
          rewrite nth_error_app2, Nat.sub_diag by lia. reflexivity.
        - constructor. }
      simpl in O'. rewrite app_nil_r in O'. exact O'.
    - constructor.
      + intros H. apply in_app_or in H. destruct H as [H|[H|[]]]; [auto|unfold r in H; lia].
      + apply NoDup_app_intro.
        * destruct ar as [x|]; simpl; [constructor; [intros []|constructor]|constructor].
        * constructor; [intros []|constructor].
        * intros x Hx [<-|[]]. pose proof (@odict_at_lt _ _ _ _ Hat Hx). unfold r in *; lia.
    - intros x Hx HN. assert (HNx : In x N) by (subst N; apply in_or_app; auto).
      destruct Hx as [<-|Hx]; [apply (DJ a); auto; subst F; simpl; auto|].
      apply in_app_or in Hx. destruct Hx as [Hx|[<-|[]]].
      + apply (DJ x); auto. subst F; simpl; right; apply in_or_app; auto.
      + assert (r < r) by (apply LF; auto). lia. }
  split.
  { split; [unfold h'; rewrite upd_length; unfold r in *; lia|].
    intros x Hx HF. apply K; auto. intros ->. apply HF. subst F; simpl; auto. }
  split.
  { intros x [<-|Hx]; [left; subst F; simpl; auto|]. apply in_app_or in Hx.
    destruct Hx as [Hx|[<-|[]]]; [left; subst F; simpl; right; apply in_or_app; auto|right; unfold r; lia]. }
  split. { intros x Hx. subst N; apply in_or_app; auto. }
  split; [exact IF|]. split; [exact IN|].
  intros x Hx [<-|H]; [auto|]. apply in_app_or in H. destruct H as [H|[<-|[]]].
  - eapply NarF; eauto.
  - assert (r < r) by (apply LF; auto). lia.
Qed.

(** ---- depth and size ---- *)
Lemma depth_le : forall h,
  (forall a e F N, owns h a e F N -> tree_depth e <= length F) /\
  (forall rs es Fs Ns, owns_all h rs es Fs Ns -> list_max (map tree_depth es) <= length (concat Fs)).
Proof.
  intros h. apply owns_both.
  - intros a tag nsr ns text tail ar attrs lr rs es next line Fs Ns _ _ _ _ _ IH. simpl.
    rewrite app_length. simpl. lia.
  - simpl. auto.
  - intros a e F N rs es Fs Ns _ IH1 _ IH2. unfold list_max in *. simpl. rewrite app_length. lia.
Qed.

Lemma footprint_le : forall h (F : list ref), NoDup F -> (forall x, In x F -> x < length h) ->
  length F <= length (h : heap).
Proof.
  intros h F ND H. rewrite <- (seq_length (length h) 0). apply NoDup_incl_length; auto.
  intros x Hx. apply in_seq. specialize (H _ Hx). lia.
Qed.

Lemma tree_depth_le : forall h a e F N, tree h a e F N -> tree_depth e <= length h.
Proof.
  intros h a e F N [O [ND _]]. eapply Nat.le_trans; [eapply (proj1 (depth_le h)); eauto|].
  apply footprint_le; auto. intros x Hx. eapply owns_lt; eauto.
Qed.

(** ---- the union loop ---- *)
Lemma create_snapshot_id : forall e, create_snapshot e = e.
Proof.
  intros e; induction e as [tag ns text tail attrs es next line HF] using elem_ind'.
  simpl. unfold set_next, new_elem; simpl. f_equal.
  induction HF; simpl; congruence.
Qed.

Lemma variants_ok : forall hrs rs, Forall2 reads_as hrs rs ->
  forall title hide eas loc errors h a e F N sm, tree h a e F N ->
  exists h' F' N',
    h_read_variants hrs title hide eas loc errors a sm h =
      ((fst (read_variants rs title hide eas loc errors (St e sm)),
        st_sm (snd (read_variants rs title hide eas loc errors (St e sm)))), h') /\
    tree h' a (st_el (snd (read_variants rs title hide eas loc errors (St e sm)))) F' N' /\
    only_changes F h h' /\ from_or_new F h F' /\ from_or_new (F ++ N) h N'.
Proof.
  intros hrs rs HR; induction HR as [|hr r hrs rs H1 HR IH];
    intros title hide eas loc errors h a e F N sm T.
  - simpl. destruct errors as [|er errors].
    + exists h, F, N. simpl. split; [reflexivity|]. split; [auto|]. split; [apply only_changes_refl|].
      split; apply from_or_new_incl; auto with datatypes.
    + destruct (step_forward_impl T) as [h' [F' [N' [E [T' [C [FN NN]]]]]]]. simpl in *.
      rewrite E. exists h', F', N'. split; [reflexivity|]. auto.
  - pose proof T as [O [ND DJ]].
    destruct (snapshot_ok O (tree_depth_le T)) as [s [h1 [Fs [Ns [E [G [Ls [O1 [ND1 [DJ1 [AF AN]]]]]]]]]]].
    pose proof G as [L1 [K1 _]].
    assert (Ts : tree h1 s e Fs Ns) by (split; auto).
    destruct (H1 eas loc h1 s e Fs Ns sm Ts) as [h2 [F2 [N2 [E2 [T2 [[L2 C2] [FN2 NN2]]]]]]].
    assert (LF : forall x, In x F \/ In x N -> x < length h) by (intros x Hx; eapply owns_lt; eauto).
    (* the element itself is untouched by the attempt *)
    assert (Kold : forall x, x < length h -> nth_error h2 x = nth_error h x).
    { intros x Hx. rewrite C2; [apply K1; auto|lia|]. intros H. specialize (AF _ H). lia. }
    assert (Ta : tree h2 a e F N) by (eapply tree_frame; [exact T|]; intros x Hx; apply Kold; auto).
    assert (A2 : forall x, In x F2 -> length h <= x).
    { intros x Hx. destruct (FN2 _ Hx) as [H|H]; [auto|lia]. }
    assert (B2 : forall x, In x N2 -> length h <= x).
    { intros x Hx. destruct (NN2 _ Hx) as [H|H]; [|lia]. apply in_app_or in H. destruct H; auto. }
    simpl. rewrite E, E2. simpl. rewrite create_snapshot_id.
    assert (Go : forall errors' sm',
      exists h' F' N',
        h_read_variants hrs title hide eas loc errors' a sm' h2 =
          ((fst (read_variants rs title hide eas loc errors' (St e sm')),
            st_sm (snd (read_variants rs title hide eas loc errors' (St e sm')))), h') /\
        tree h' a (st_el (snd (read_variants rs title hide eas loc errors' (St e sm')))) F' N' /\
        only_changes F h h' /\ from_or_new F h F' /\ from_or_new (F ++ N) h N').
    { intros errors' sm'.
      destruct (IH title hide eas loc errors' h2 a e F N sm' Ta) as [h' [F' [N' [Er [Tr [[Lr Cr] [FNr NNr]]]]]]].
      exists h', F', N'. split; [exact Er|]. split; [exact Tr|]. split; [|split].
      - split; [lia|]. intros x Hx HF. rewrite Cr; [apply Kold; auto|lia|auto].
      - intros x Hx. destruct (FNr _ Hx); auto. right; lia.
      - intros x Hx. destruct (NNr _ Hx); auto. right; lia. }
    assert (Stop : forall (o : out val) sm',
      exists h' F' N', ((o, sm', h2) : (out val * smap) * heap) = ((o, sm'), h') /\ tree h' a e F' N' /\
        only_changes F h h' /\ from_or_new F h F' /\ from_or_new (F ++ N) h N').
    { intros o sm'. exists h2, F, N. split; [reflexivity|]. split; [exact Ta|]. split.
      - split; [lia|]. intros x Hx _. apply Kold; auto.
      - split; apply from_or_new_incl; auto with datatypes. }
    assert (IaF : In a F) by (inversion O; simpl; auto).
    assert (La : a < length h) by (apply LF; auto).
    pose proof Ta as [Oa _]. pose proof T2 as [O2 [ND2 DJ2]].
    assert (NaF2 : ~ In a F2) by (intros H; specialize (A2 _ H); lia).
    assert (NaN2 : ~ In a N2) by (intros H; specialize (B2 _ H); lia).
    unfold set_el. simpl.
    destruct (r eas loc (St e sm)) as [o s'] eqn:Er. simpl in *.
    assert (Apply : exists h' F' N', h_apply_snapshot a s h2 = (Some tt, h') /\
        tree h' a (apply_snapshot e (st_el s')) F' N' /\
        only_changes F h h' /\ from_or_new F h F' /\ from_or_new (F ++ N) h N').
    { destruct (apply_ok Oa O2 NaF2 NaN2) as [h3 [E3 [O3 [_ [[_ C3] L3]]]]].
      assert (ITl : forall x, In x (tl F2) -> In x F2) by (destruct F2; simpl; auto).
      exists h3, (a :: tl F2), N2. split; [exact E3|]. split; [|split; [|split]].
      - split; [exact O3|]. split.
        + constructor; [auto|]. destruct F2; simpl; [constructor|]. inversion ND2; auto.
        + intros x [<-|Hx]; auto.
      - split; [lia|]. intros x Hx HF. rewrite C3; [apply Kold; auto|lia|].
        intros [<-|[]]. contradiction.
      - intros x [<-|Hx]; [left; auto|right; auto].
      - intros x Hx. right; auto. }
    destruct o as [v|x|].
    + destruct v;
        try (destruct Apply as [h3 [F3 [N3 [E3 [T3 R3]]]]]; rewrite E3; exists h3, F3, N3;
             split; [reflexivity|]; split; [exact T3|exact R3]).
      apply Go.
    + destruct x; try apply Stop. apply Go.
    + apply Stop.
Qed.
