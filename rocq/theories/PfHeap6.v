(** PfHeap6.v -- paths and [pop_element(remove=True)] over the heap. *)

From Verif Require Import Base Elem Heap SpecHeap.
From Verif Require Import PfElem PfHeap PfHeap2 PfHeap3 PfHeap4 PfHeap5.

Lemma child_ref_det : forall h a i c c', child_ref h a i c -> child_ref h a i c' -> c = c'.
Proof.
  intros h a i c c' [n [rs [A1 [A2 A3]]]] [n' [rs' [B1 [B2 B3]]]].
  rewrite A1 in B1. inversion B1; subst n'. rewrite A2 in B2. inversion B2; subst rs'. congruence.
Qed.

Lemma child_ref_elem : forall h a e F N i c, tree h a e F N -> child_ref h a i c ->
  exists ec, nth_error (e_elems e) i = Some ec.
Proof.
  intros h a e F N i c T [n [rs [A1 [A2 A3]]]]. parts T.
  rewrite Ha in A1. inversion A1; subst n. simpl in A2. rewrite Hl in A2. inversion A2; subst.
  pose proof (owns_all_lengths Hall) as L. pose proof (nth_lt _ _ A3) as L'.
  destruct (nth_error (e_elems e) i) eqn:E; eauto. apply nth_error_None in E. lia.
Qed.

(** the changes and new footprints of a search, in the terms of [implements] *)
Lemma perm_from : forall F h F', Permutation F' F -> from_or_new F h F'.
Proof. intros F h F' P. apply from_or_new_incl. intros x Hx. eapply Permutation_in; eauto. Qed.

Lemma find_sub_ok : forall path m h a e F N, path <> [] -> tree h a e F N ->
  exists h' r, h_find_sub_element a path m h = (r, h') /\
    match fst (find_sub_element path m e) with
    | None => r = None
    | Some idxs => exists cs, r = Some cs /\ chain_ref h' a idxs cs
    end /\
    exists F' N', tree h' a (snd (find_sub_element path m e)) F' N' /\
      only_changes F h h' /\ from_or_new F h F' /\ from_or_new (F ++ N) h N' .
Proof.
  intros path; induction path as [|tag rest IH]; intros m h a e F N NE T; [congruence|].
  cbn [h_find_sub_element find_sub_element]. unfold find_element, bind.
  destruct (find_element_ok m tag true true T) as [h1 [F1 [N1 [r [E [T1 [R [C1 [PF [PN L1]]]]]]]]]].
  rewrite E. destruct (search m e tag true true) as [f e1]. cbn [fst snd] in *.
  pose proof (@perm_from F h F1 PF) as FN.
  assert (NN : from_or_new (F ++ N) h N1).
  { apply from_or_new_incl. intros x Hx. apply in_or_app; right. eapply Permutation_in; eauto. }
  destruct f as [|i|]; cbn [found_ref] in R.
  - subst r. exists h1, (Some []). split; [reflexivity|]. split; [exists []; simpl; auto|].
    exists F1, N1. auto.
  - destruct R as [c [-> CR]]. destruct rest as [|tag' rest].
    + exists h1, (Some [c]). split; [reflexivity|]. split; [exists [c]; simpl; auto|].
      exists F1, N1. auto.
    + destruct (child_ref_elem T1 CR) as [ec Eec].
      destruct (focus _ T1 Eec) as [c' [Fc [Nc [CR' [Tc [IFc [INc [_ Back]]]]]]]].
      assert (c' = c) by (eapply child_ref_det; eauto). subst c'.
      assert (NE' : tag' :: rest <> []) by congruence.
      destruct (IH m h1 c ec Fc Nc NE' Tc) as [h2 [r2 [E2 [R2 [Fc2 [Nc2 [T2 [C2 [FN2 NN2]]]]]]]]].
      rewrite Eec. rewrite E2.
      destruct (Back [] h2 _ Fc2 Nc2 T2 C2) as [CR2 [F3 [N3 [T3 [C3 [FN3 [NN3 _]]]]]]]; auto.
      { intros x []. }
      destruct (find_sub_element (tag' :: rest) m ec) as [ro ec']. cbn [fst snd] in *.
      assert (Ch : only_changes F h h2).
      { eapply only_changes_trans; [exact C1|exact C3|auto]. }
      assert (FN4 : from_or_new F h F3).
      { eapply from_or_new_trans; [|exact FN|exact FN3]. lia. }
      assert (NN4 : from_or_new (F ++ N) h N3).
      { intros x Hx. destruct (NN3 _ Hx) as [H|H]; [|right; lia]. simpl in H.
        apply in_app_or in H. destruct H as [H|H]; [|auto].
        destruct (FN _ H); [left; apply in_or_app; auto|right; auto]. }
      destruct ro as [idxs|].
      * destruct R2 as [cs [-> CH]]. exists h2, (Some (c :: cs)). split; [reflexivity|].
        split; [exists (c :: cs); split; [reflexivity|split; auto]|].
        exists F3, N3. auto.
      * subst r2. exists h2, None. split; [reflexivity|]. split; [reflexivity|]. exists F3, N3. auto.
  - subst r. exists h1, None. split; [reflexivity|]. split; [reflexivity|]. exists F1, N1. auto.
Qed.

(** ---- [pop_element(remove=True)]: the child is emptied, a separate tree holds its content ---- *)
Lemma extract_ok : forall h c ec Fc Nc, tree h c ec Fc Nc ->
  exists r h' F' N' Fr Nr,
    h_extract c h = (Some r, h') /\
    tree h' c (snd (extract ec)) F' N' /\ tree h' r (fst (extract ec)) Fr Nr /\
    only_changes Fc h h' /\ from_or_new Fc h F' /\ incl N' Nc /\
    from_or_new Fc h Fr /\ incl Nr Nc /\ (forall x, In x Fr -> ~ In x F').
Proof.
  intros h c ec Fc Nc T.
  destruct (pop_text_impl T) as [h1 [F1 [N1 [E1 [T1 [C1 [FN1 NN1]]]]]]].
  (* the text and tail leave the footprint alone *)
  pose proof T as T0. parts T. pose proof (nth_lt _ _ Ha) as La.
  destruct (@tree_slots h c ec Fc Nc _ (set_text_o None ec) T0 eq_refl eq_refl eq_refl Ha _ eq_refl) as [Ta Ca].
  set (ha := list_upd c _ h) in *.
  assert (Haa : nth_error ha c = Some (ONode (Node (e_tag ec) nsr None (e_tail ec) ar lr (e_next ec) (e_line ec)))).
  { unfold ha. apply nth_upd_same; auto. }
  destruct (@tree_slots ha c (set_text_o None ec) Fc Nc _ (set_tail_o None (set_text_o None ec)) Ta eq_refl eq_refl eq_refl Haa _ eq_refl) as [Tb Cb].
  set (hb := list_upd c _ ha) in *.
  destruct (pop_attributes_ok Tb) as [ar' [hc [Fcc [Ec [Od [Tc [Cc [Ic [Lc Nar]]]]]]]]].
  destruct (pop_elements_ok Tc) as [rs' [hd [Fd [Fsd [Nd [Nsd [Ed [Oall [NDd [DJd [Td [Cd [FNd [INd [IFs [INs NFs]]]]]]]]]]]]]]]].
  set (e4 := snd (pop_elements (snd (pop_attributes (set_tail_o None (set_text_o None ec)))))) in *.
  assert (La' : length ha = length h) by apply upd_length.
  assert (Lb' : length hb = length h) by (unfold hb; rewrite upd_length; auto).
  (* the fresh element *)
  destruct (alloc_odict_at hd (e_attrib ec)) as [arf [he [Ee [Ge [Oe [Aa [NDa La1]]]]]]].
  pose proof Ge as [Le [Ke _]].
  set (lrf := length he). set (hf := he ++ [OList rs']).
  set (nd := Node (e_tag ec) nsr (e_text ec) (e_tail ec) arf lrf 0 (e_line ec)).
  set (r := length hf). set (hg := hf ++ [ONode nd]).
  assert (Lf : length hf = S lrf) by (unfold hf; rewrite app_length; simpl; unfold lrf; lia).
  assert (Lg : length hg = S r) by (unfold hg; rewrite app_length; simpl; unfold r; lia).
  assert (Kg : forall x, x < length he -> nth_error hg x = nth_error he x).
  { intros x Hx. unfold hg. rewrite nth_error_app1 by lia. unfold hf. apply nth_error_app1; auto. }
  assert (Kd : forall x, x < length hd -> nth_error hg x = nth_error hd x).
  { intros x Hx. rewrite Kg by lia. auto. }
  (* nothing outside the child has changed up to [hd] *)
  assert (Cb2 : only_changes Fc h hb) by (eapply only_changes_trans; [exact Ca|exact Cb|apply from_or_new_refl]).
  assert (Cc2 : only_changes Fc h hc) by (eapply only_changes_trans; [exact Cb2|exact Cc|apply from_or_new_refl]).
  assert (Cd2 : only_changes Fc h hd).
  { eapply only_changes_trans; [exact Cc2|exact Cd|]. apply from_or_new_incl; auto. }
  pose proof Cd2 as [Ld _]. pose proof T0 as [O0 [ND0 DJ0]].
  exists r, hg, Fd, Nd, (r :: opt_list arf ++ lrf :: concat Fsd), (opt_list nsr ++ concat Nsd).
  split.
  { unfold h_extract, bind. rewrite (load_node_at _ _ Ha).
    unfold h_pop_text at 1, bind. rewrite (load_node_at _ _ Ha). simpl n_text.
    rewrite store_at by auto. fold ha. cbn [n_tag n_nsmap n_text n_tail n_attrib n_elems n_next n_line nset_text].
    change (list_upd c (ONode (nset_text None (Node (e_tag ec) nsr (e_text ec) (e_tail ec) ar lr (e_next ec) (e_line ec)))) h) with ha.
    unfold ret at 1. cbv beta iota.
    unfold h_pop_tail at 1, bind. rewrite (load_node_at _ _ Haa).
    rewrite store_at by lia.
    change (list_upd c (ONode (nset_tail None (Node (e_tag ec) nsr None (e_tail ec) ar lr (e_next ec) (e_line ec)))) ha) with hb.
    unfold ret at 1. cbv beta iota.
    rewrite Ec. rewrite (@load_odict_at _ _ _ Od). rewrite Ed.
    unfold h_new, bind. cbn [fst snd pop_attributes set_tail_o set_text_o e_attrib].
    rewrite Ee. cbv beta iota. unfold alloc at 1. cbv beta iota. unfold alloc. reflexivity. }
  assert (Nodes : forall x, In x (concat Fsd) -> In x Fc) by (intros x Hx; apply Ic, IFs; auto).
  assert (LFc : forall x, In x Fc \/ In x Nc -> x < length h) by (intros x Hx; eapply owns_lt; [exact O0|exact Hx]).
  assert (Lhd : forall x, In x (concat Fsd) \/ In x (concat Nsd) -> x < length hd).
  { intros x Hx. eapply owns_all_lt; eauto. }
  split.
  { eapply tree_frame; [exact Td|]. intros x Hx. apply Kd. eapply tree_lt; eauto. }
  split.
  { assert (KNc : forall x, In x Nc -> nth_error hg x = nth_error h x).
    { intros x Hx. rewrite Kd.
      - apply Cd2; [apply LFc; auto|]. intros H. apply (DJ0 x); auto.
      - specialize (LFc x (or_intror Hx)). lia. }
    split; [|split].
    - simpl. unfold new_elem. econstructor.
      + unfold hg, r. rewrite nth_error_app2, Nat.sub_diag by lia. reflexivity.
      + eapply odict_at_frame; [exact Hns|]. intros x Hx. apply KNc. subst Nc. apply in_or_app; auto.
      + eapply odict_at_frame; [exact Oe|]. intros x Hx. apply Kg; auto.
      + unfold hg. rewrite nth_error_app1 by lia. unfold hf, lrf.
        rewrite nth_error_app2, Nat.sub_diag by lia. reflexivity.
      + eapply owns_all_frame; [exact Oall|]. intros x Hx. apply Kd; auto.
    - constructor.
      + intros H. apply in_app_or in H. destruct H as [H|[H|H]].
        * specialize (La1 _ H). unfold r in La1. lia.
        * unfold r in H. lia.
        * specialize (Lhd _ (or_introl H)). unfold r in Lhd. lia.
      + apply NoDup_app_intro; auto.
        * constructor; auto. intros H. specialize (Lhd _ (or_introl H)). unfold lrf in Lhd. lia.
        * intros x Hx [H|H].
          -- subst x. specialize (La1 _ Hx). unfold lrf in La1. lia.
          -- specialize (Lhd _ (or_introl H)). specialize (Aa _ Hx). lia.
    - intros x Hx HN.
      assert (HNc : In x Nc).
      { apply in_app_or in HN. destruct HN as [HN|HN]; [subst Nc; apply in_or_app; auto|apply INs; auto]. }
      pose proof (LFc x (or_intror HNc)) as Lx.
      destruct Hx as [<-|Hx]; [unfold r in Lx; lia|].
      apply in_app_or in Hx. destruct Hx as [Hx|[<-|Hx]].
      + specialize (Aa _ Hx). lia.
      + unfold lrf in Lx. lia.
      + apply (DJ0 x); auto. }
  split.
  { eapply only_changes_trans with (F' := []); [exact Cd2| |intros x []].
    split; [lia|]. intros x Hx _. apply Kd; auto. }
  split.
  { intros x Hx. destruct (FNd _ Hx) as [H|H]; [left; auto|right; lia]. }
  split; [exact INd|].
  split.
  { intros x [<-|Hx]; [right; unfold r; lia|]. apply in_app_or in Hx.
    destruct Hx as [Hx|[<-|Hx]]; [right; specialize (Aa _ Hx); lia|right; unfold lrf; lia|left; auto]. }
  split.
  { intros x Hx. apply in_app_or in Hx. destruct Hx as [Hx|Hx]; [subst Nc; apply in_or_app; auto|apply INs; auto]. }
  assert (LFd : forall x, In x Fd -> x < length hd) by (intros x Hx; eapply tree_lt; eauto).
  intros x [<-|Hx] HF.
  - specialize (LFd _ HF). unfold r in LFd. lia.
  - apply in_app_or in Hx. destruct Hx as [Hx|[<-|Hx]].
    + specialize (Aa _ Hx). specialize (LFd _ HF). lia.
    + specialize (LFd _ HF). unfold lrf in LFd. lia.
    + eapply NFs; eauto.
Qed.

Lemma pop_element_ok : forall tag m h a e F N, tree h a e F N ->
  exists h' r, h_pop_element a tag m true h = (r, h') /\
    match search m e tag false true with
    | (NotFound, e1) => r = Some None /\ exists F' N', tree h' a e1 F' N' /\ only_changes F h h'
    | (IndexErr, _) => r = None
    | (Found i, e1) =>
        exists c ec, nth_error (e_elems e1) i = Some ec /\ r = Some (Some c) /\
          exists F' N' Fc Nc, tree h' a (put_child i (snd (extract ec)) e1) F' N' /\
            tree h' c (fst (extract ec)) Fc Nc /\ (forall x, In x Fc -> ~ In x F') /\
            only_changes F h h'
    end.
Proof.
  intros tag m h a e F N T. unfold h_pop_element, bind.
  destruct (find_element_ok m tag false true T) as [h1 [F1 [N1 [r [E [T1 [R [C1 [PF [PN L1]]]]]]]]]].
  rewrite E. destruct (search m e tag false true) as [f e1]. cbn [fst snd] in *.
  pose proof (@perm_from F h F1 PF) as FN.
  destruct f as [|i|]; cbn [found_ref] in R.
  - subst r. exists h1, (Some None). split; [reflexivity|]. split; [reflexivity|]. exists F1, N1. auto.
  - destruct R as [c0 [-> CR]]. destruct (child_ref_elem T1 CR) as [ec Eec].
    destruct (focus _ T1 Eec) as [c' [Fc [Nc [CR' [Tc [IFc [INc [_ Back]]]]]]]].
    assert (c' = c0) by (eapply child_ref_det; eauto). subst c'.
    destruct (extract_ok Tc) as [c [h2 [Fc2 [Nc2 [Fr [Nr [E2 [T2 [Tr [C2 [FN2 [IN2 [FNr [INr DJr]]]]]]]]]]]]]].
    rewrite E2.
    destruct (Back [] h2 _ Fc2 Nc2 T2 C2) as [CR2 [F3 [N3 [T3 [C3 [FN3 [NN3 [I3 [_ [_ X3]]]]]]]]]]; auto.
    { intros x []. }
    { apply from_or_new_incl. intros x Hx. simpl. apply in_or_app; right. apply IN2; auto. }
    exists h2, (Some (Some c)). split; [reflexivity|]. exists c, ec. split; [auto|]. split; [reflexivity|].
    (* the fresh element shares nothing with the tree it was taken from *)
    exists F3, N3, Fr, Nr. split; [exact T3|]. split; [exact Tr|]. split.
    + intros x Hx HF. destruct (X3 _ HF) as [[H1 H2]|H1]; [|eapply DJr; eauto].
      destruct (FNr _ Hx) as [H|H]; [auto|]. pose proof (tree_lt _ T1 (or_introl H1)). lia.
    + eapply only_changes_trans; [exact C1|exact C3|auto].
  - subst r. exists h1, None. split; reflexivity.
Qed.
