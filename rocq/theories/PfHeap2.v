(** PfHeap2.v -- snapshots on the heap. *)

From Verif Require Import Base Elem Heap SpecHeap PfHeap.

Scheme owns_mind := Minimality for owns Sort Prop
  with owns_all_mind := Minimality for owns_all Sort Prop.
Combined Scheme owns_both from owns_mind, owns_all_mind.

Lemma odict_at_det : forall h r d d', odict_at h r d -> odict_at h r d' -> d = d'.
Proof.
  intros h [r|] [d|] [d'|]; simpl; try tauto; intros A B; congruence.
Qed.

(** a reference shows one tree *)
Lemma owns_det_both : forall h,
  (forall a e F N, owns h a e F N -> forall e' F' N', owns h a e' F' N' -> e = e' /\ F = F' /\ N = N') /\
  (forall rs es Fs Ns, owns_all h rs es Fs Ns -> forall es' Fs' Ns', owns_all h rs es' Fs' Ns' ->
     es = es' /\ Fs = Fs' /\ Ns = Ns').
Proof.
  intros h. apply owns_both.
  - intros a tag nsr ns text tail ar attrs lr rs es next line Fs Ns Ha Hns Hat Hl _ IH e' F' N' H'.
    inversion H' as [a' tag' nsr' ns' text' tail' ar' attrs' lr' rs' es' next' line' Fs' Ns' Ha' Hns' Hat' Hl' Hall]; subst.
    rewrite Ha in Ha'. inversion Ha'; subst.
    assert (ns = ns') by (eapply odict_at_det; eauto).
    assert (attrs = attrs') by (eapply odict_at_det; eauto). subst.
    rewrite Hl in Hl'. inversion Hl'; subst.
    destruct (IH _ _ _ Hall) as [-> [-> ->]]. auto.
  - intros es' Fs' Ns' H'. inversion H'; auto.
  - intros a e F N rs es Fs Ns _ IH1 _ IH2 es' Fs' Ns' H'. inversion H'; subst.
    match goal with A : owns h a _ _ _ |- _ => destruct (IH1 _ _ _ A) as [-> [-> ->]] end.
    match goal with A : owns_all h rs _ _ _ |- _ => destruct (IH2 _ _ _ A) as [-> [-> ->]] end.
    auto.
Qed.

Lemma owns_det : forall h a e F N e' F' N', owns h a e F N -> owns h a e' F' N' ->
  e = e' /\ F = F' /\ N = N'.
Proof. intros h a e F N e' F' N' A B. exact (proj1 (owns_det_both h) _ _ _ _ A _ _ _ B). Qed.

Lemma shows_det : forall h a e e', shows h a e -> shows h a e' -> e = e'.
Proof. intros h a e e' [F [N A]] [F' [N' B]]. exact (proj1 (owns_det A B)). Qed.

Lemma odict_at_frame : forall h h' r d, odict_at h r d ->
  (forall x, In x (opt_list r) -> nth_error h' x = nth_error h x) -> odict_at h' r d.
Proof.
  intros h h' [r|] [d|]; simpl; auto. intros E H. rewrite H; auto.
Qed.

Lemma owns_frame_both : forall h h',
  (forall a e F N, owns h a e F N ->
     (forall x, In x (F ++ N) -> nth_error h' x = nth_error h x) -> owns h' a e F N) /\
  (forall rs es Fs Ns, owns_all h rs es Fs Ns ->
     (forall x, In x (concat Fs ++ concat Ns) -> nth_error h' x = nth_error h x) ->
     owns_all h' rs es Fs Ns).
Proof.
  intros h h'. apply owns_both.
  - intros a tag nsr ns text tail ar attrs lr rs es next line Fs Ns Ha Hns Hat Hl _ IH H.
    econstructor.
    + rewrite H; [exact Ha|simpl; auto].
    + eapply odict_at_frame; [exact Hns|]. intros x Hx. apply H.
      apply in_or_app; right. apply in_or_app; auto.
    + eapply odict_at_frame; [exact Hat|]. intros x Hx. apply H.
      simpl. right. apply in_or_app; left. apply in_or_app; auto.
    + rewrite H; [exact Hl|]. simpl. right. apply in_or_app; left. apply in_or_app; right; simpl; auto.
    + apply IH. intros x Hx. apply H. apply in_app_or in Hx. apply in_or_app.
      destruct Hx as [Hx|Hx]; [left|right].
      * right. apply in_or_app; right. simpl; auto.
      * apply in_or_app; auto.
  - intros _. constructor.
  - intros a e F N rs es Fs Ns _ IH1 _ IH2 H. constructor.
    + apply IH1. intros x Hx. apply H. simpl. apply in_app_or in Hx. apply in_or_app.
      destruct Hx; [left|right]; apply in_or_app; auto.
    + apply IH2. intros x Hx. apply H. simpl. apply in_app_or in Hx. apply in_or_app.
      destruct Hx; [left|right]; apply in_or_app; auto.
Qed.

Lemma owns_frame : forall h h' a e F N, owns h a e F N ->
  (forall x, In x F \/ In x N -> nth_error h' x = nth_error h x) -> owns h' a e F N.
Proof.
  intros h h' a e F N A H. apply (proj1 (owns_frame_both h h') _ _ _ _ A).
  intros x Hx. apply H. apply in_app_or; auto.
Qed.

Lemma owns_all_frame : forall h h' rs es Fs Ns, owns_all h rs es Fs Ns ->
  (forall x, In x (concat Fs) \/ In x (concat Ns) -> nth_error h' x = nth_error h x) ->
  owns_all h' rs es Fs Ns.
Proof.
  intros h h' rs es Fs Ns A H. apply (proj2 (owns_frame_both h h') _ _ _ _ A).
  intros x Hx. apply H. apply in_app_or; auto.
Qed.

Lemma nth_lt : forall A (l : list A) i x, nth_error l i = Some x -> i < length l.
Proof. intros A l i x E. apply nth_error_Some. congruence. Qed.

Lemma odict_at_lt : forall h r d x, odict_at h r d -> In x (opt_list r) -> x < length h.
Proof. intros h [r|] [d|] x; simpl; try tauto. intros E [<-|[]]. eapply nth_lt; eauto. Qed.

Lemma owns_lt_both : forall h,
  (forall a e F N, owns h a e F N -> forall x, In x (F ++ N) -> x < length h) /\
  (forall rs es Fs Ns, owns_all h rs es Fs Ns -> forall x, In x (concat Fs ++ concat Ns) -> x < length h).
Proof.
  intros h. apply owns_both.
  - intros a tag nsr ns text tail ar attrs lr rs es next line Fs Ns Ha Hns Hat Hl _ IH x Hx.
    apply in_app_or in Hx. destruct Hx as [[<-|Hx]|Hx].
    + eapply nth_lt; eauto.
    + apply in_app_or in Hx. destruct Hx as [Hx|[<-|Hx]].
      * eapply odict_at_lt; eauto.
      * eapply nth_lt; eauto.
      * apply IH. apply in_or_app; auto.
    + apply in_app_or in Hx. destruct Hx as [Hx|Hx].
      * eapply odict_at_lt; [exact Hns|]; auto.
      * apply IH. apply in_or_app; auto.
  - intros x [].
  - intros a e F N rs es Fs Ns _ IH1 _ IH2 x Hx. simpl in Hx. apply in_app_or in Hx.
    destruct Hx as [Hx|Hx]; apply in_app_or in Hx; destruct Hx as [Hx|Hx];
      try (apply IH1; apply in_or_app; auto; fail); apply IH2; apply in_or_app; auto.
Qed.

Lemma owns_lt : forall h a e F N x, owns h a e F N -> In x F \/ In x N -> x < length h.
Proof. intros h a e F N x A Hx. apply (proj1 (owns_lt_both h) _ _ _ _ A). apply in_or_app; auto. Qed.

Lemma owns_all_lt : forall h rs es Fs Ns x, owns_all h rs es Fs Ns ->
  In x (concat Fs) \/ In x (concat Ns) -> x < length h.
Proof. intros h rs es Fs Ns x A Hx. apply (proj2 (owns_lt_both h) _ _ _ _ A). apply in_or_app; auto. Qed.

(** ---- a heap grown by new objects ---- *)
Definition grown (h h' : heap) : Prop :=
  length h <= length h' /\
  (forall x, x < length h -> nth_error h' x = nth_error h x) /\
  (forall r o x, length h <= r -> nth_error h' r = Some o -> In x (refs_of o) ->
                 length h <= x).

Lemma grown_refl : forall h, grown h h.
Proof.
  intros h. split; [auto|]. split; [auto|]. intros r o x L E _.
  pose proof (nth_lt _ _ E). lia.
Qed.

Lemma grown_trans : forall a b c, grown a b -> grown b c -> grown a c.
Proof.
  intros a b c [L1 [K1 C1]] [L2 [K2 C2]]. split; [lia|]. split.
  - intros x Hx. rewrite K2, K1; auto. lia.
  - intros r o x L E Hx. destruct (Nat.lt_ge_cases r (length b)) as [Lr|Lr].
    + rewrite K2 in E by auto. eapply C1; eauto.
    + specialize (C2 _ _ _ Lr E Hx). lia.
Qed.

Lemma owns_grown : forall h h' a e F N, grown h h' -> owns h a e F N -> owns h' a e F N.
Proof.
  intros h h' a e F N [_ [K _]] A. eapply owns_frame; [exact A|].
  intros x Hx. apply K. eapply owns_lt; eauto.
Qed.

(** ---- depth of a tree: the recursion limit a snapshot needs ---- *)
Definition above (k : nat) (l : list ref) : Prop := forall x, In x l -> k <= x.

(** what a snapshot of [e] at [a] gives *)
Definition snap_ok (fuel : nat) (a : ref) (e : elem) : Prop :=
  forall h F N, owns h a e F N -> tree_depth e <= fuel ->
  exists s h1 Fs Ns,
    h_create_snapshot fuel a h = (Some s, h1) /\ grown h h1 /\ s < length h1 /\
    owns h1 s e Fs Ns /\ NoDup Fs /\ (forall x, In x Fs -> ~ In x Ns) /\
    above (length h) Fs /\ above (length h) Ns.

Lemma owns_all_lengths : forall h rs es Fs Ns, owns_all h rs es Fs Ns ->
  length rs = length es.
Proof. intros h rs; induction rs; intros es Fs Ns A; inversion A; subst; simpl; eauto. Qed.

Lemma snap_all : forall fuel es rs h Fs Ns,
  Forall (fun e => forall a, snap_ok fuel a e) es -> owns_all h rs es Fs Ns ->
  list_max (map tree_depth es) <= fuel ->
  exists ss h1 Fs1 Ns1,
    h_map (h_create_snapshot fuel) rs h = (Some ss, h1) /\ grown h h1 /\
    owns_all h1 ss es Fs1 Ns1 /\ NoDup (concat Fs1) /\
    (forall x, In x (concat Fs1) -> ~ In x (concat Ns1)) /\
    above (length h) ss /\ above (length h) (concat Fs1) /\ above (length h) (concat Ns1).
Proof.
  intros fuel es; induction es as [|e es IH]; intros rs h Fs Ns HF A D;
    inversion A as [|a e' F N rs' es' Fs' Ns' A1 A2]; subst.
  - exists [], h, [], []. simpl. split; [reflexivity|]. split; [apply grown_refl|].
    split; [constructor|]. split; [constructor|]. repeat split; intros x [].
  - simpl in D. inversion HF as [|? ? H1 H2]; subst.
    assert (D1 : tree_depth e <= fuel) by (simpl in D; lia).
    assert (D2 : list_max (map tree_depth es) <= fuel) by (unfold list_max in *; simpl in D; lia).
    destruct (H1 a h F N A1 D1) as [s [h1 [F1 [N1 [E1 [G1 [L1 [O1 [ND1 [DJ1 [AF1 AN1]]]]]]]]]]].
    assert (A2' : owns_all h1 rs' es Fs' Ns').
    { eapply owns_all_frame; [exact A2|]. intros x Hx. apply G1. eapply owns_all_lt; eauto. }
    destruct (IH rs' h1 Fs' Ns' H2 A2' D2)
      as [ss [h2 [Fs2 [Ns2 [E2 [G2 [O2 [ND2 [DJ2 [AS2 [AF2 AN2]]]]]]]]]]].
    assert (Ls : length h <= s).
    { apply AF1. inversion O1; simpl; auto. }
    pose proof G1 as [G1a _].
    exists (s :: ss), h2, (F1 :: Fs2), (N1 :: Ns2).
    split. { simpl. unfold bind. rewrite E1, E2. reflexivity. }
    split; [eapply grown_trans; eauto|].
    split. { constructor; [eapply owns_grown; eauto|auto]. }
    assert (B1 : forall x, In x F1 -> x < length h1) by (intros x Hx; eapply owns_lt; eauto).
    assert (B2 : forall x, In x N1 -> x < length h1) by (intros x Hx; eapply owns_lt; eauto).
    split.
    { simpl. clear - ND1 ND2 B1 AF2. induction F1 as [|y F1 IH]; simpl; auto.
      inversion ND1; subst. constructor.
      - intros Hy. apply in_app_or in Hy. destruct Hy as [Hy|Hy]; [contradiction|].
        specialize (AF2 _ Hy). specialize (B1 y (or_introl eq_refl)). lia.
      - apply IH; auto. intros x Hx. apply B1; simpl; auto. }
    split.
    { simpl. intros x Hx Hn. apply in_app_or in Hx. apply in_app_or in Hn.
      destruct Hx as [Hx|Hx], Hn as [Hn|Hn].
      - eapply DJ1; eauto.
      - specialize (AN2 _ Hn). specialize (B1 _ Hx). lia.
      - specialize (AF2 _ Hx). specialize (B2 _ Hn). lia.
      - eapply DJ2; eauto. }
    split. { intros x [<-|Hx]; auto. specialize (AS2 _ Hx). lia. }
    split; simpl; intros x Hx; apply in_app_or in Hx; destruct Hx as [Hx|Hx]; auto.
    + specialize (AF2 _ Hx); lia.
    + specialize (AN2 _ Hx); lia.
Qed.

Lemma load_at : forall h r o, nth_error h r = Some o -> load r h = (Some o, h).
Proof. intros h r o E. unfold load. rewrite E. reflexivity. Qed.

Lemma load_node_at : forall h r n, nth_error h r = Some (ONode n) -> load_node r h = (Some n, h).
Proof. intros h r n E. unfold load_node, bind. rewrite (load_at _ _ E). reflexivity. Qed.

Lemma load_dict_at : forall h r n, nth_error h r = Some (ODict n) -> load_dict r h = (Some n, h).
Proof. intros h r n E. unfold load_dict, bind. rewrite (load_at _ _ E). reflexivity. Qed.

Lemma load_list_at : forall h r n, nth_error h r = Some (OList n) -> load_list r h = (Some n, h).
Proof. intros h r n E. unfold load_list, bind. rewrite (load_at _ _ E). reflexivity. Qed.

Lemma load_odict_at : forall h r d, odict_at h r d -> load_odict r h = (Some d, h).
Proof.
  intros h [r|] [d|]; simpl; try tauto. intros E. unfold bind.
  rewrite (load_dict_at _ _ E). reflexivity.
Qed.

Lemma store_at : forall h r o, r < length h -> store r o h = (Some tt, list_upd r o h).
Proof. intros h r o L. unfold store. apply Nat.ltb_lt in L. rewrite L. reflexivity. Qed.

(** allocating an optional dict *)
Lemma alloc_odict_at : forall h d, exists r h1,
  alloc_odict d h = (Some r, h1) /\ grown h h1 /\ odict_at h1 r d /\
  above (length h) (opt_list r) /\ NoDup (opt_list r) /\
  (forall x, In x (opt_list r) -> x < length h1).
Proof.
  intros h [d|]; simpl.
  - exists (Some (length h)), (h ++ [ODict d]). unfold bind, alloc, ret. simpl.
    split; [reflexivity|]. split.
    { split; [rewrite app_length; simpl; lia|]. split.
      - intros x Hx. apply nth_error_app1; auto.
      - intros r o x L E Hx. rewrite nth_error_app2 in E by auto.
        destruct (r - length h) as [|k]; simpl in E; [inversion E; subst; destruct Hx|].
        destruct k; discriminate. }
    split. { rewrite nth_error_app2, Nat.sub_diag by lia. reflexivity. }
    split. { intros x [<-|[]]; auto. }
    split. { constructor; [intros []|constructor]. }
    intros x [<-|[]]. rewrite app_length; simpl; lia.
  - exists None, h. unfold ret. simpl. split; [reflexivity|]. split; [apply grown_refl|].
    split; [auto|]. split; [intros x []|]. split; [constructor|]. intros x [].
Qed.

Lemma alloc_grown : forall h0 h o, grown h0 h -> above (length h0) (refs_of o) ->
  grown h0 (h ++ [o]).
Proof.
  intros h0 h o [L [K C]] A. split; [rewrite app_length; simpl; lia|]. split.
  - intros x Hx. rewrite nth_error_app1 by lia. auto.
  - intros r o' x Lr E Hx. destruct (Nat.lt_ge_cases r (length h)) as [Lh|Lh].
    + rewrite nth_error_app1 in E by auto. eapply C; eauto.
    + rewrite nth_error_app2 in E by auto.
      destruct (r - length h) as [|k]; simpl in E; [inversion E; subst; apply A; auto|].
      destruct k; discriminate.
Qed.

Lemma upd_grown : forall h0 h r o, grown h0 h -> length h0 <= r ->
  above (length h0) (refs_of o) -> grown h0 (list_upd r o h).
Proof.
  intros h0 h r o [L [K C]] Lr A. split; [rewrite upd_length; auto|]. split.
  - intros x Hx. rewrite nth_upd_other by lia. auto.
  - intros r' o' x Lr' E Hx. destruct (Nat.eq_dec r r') as [->|NE].
    + destruct (Nat.lt_ge_cases r' (length h)) as [Lh|Lh].
      * rewrite nth_upd_same in E by auto. inversion E; subst. apply A; auto.
      * pose proof (nth_lt _ _ E) as B. rewrite upd_length in B. lia.
    + rewrite nth_upd_other in E by auto. eapply C; eauto.
Qed.

Lemma snapshot_ok : forall e fuel a, snap_ok fuel a e.
Proof.
  intros e; induction e as [tag ns text tail attrs es next line HF] using elem_ind'.
  intros fuel a h F N O D.
  destruct fuel as [|fuel]; [simpl in D; lia|]. simpl in D.
  inversion O as [a' tag' nsr ns' text' tail' ar attrs' lr rs es' next' line' Fs Ns Ha Hns Hat Hl Hall]; subst.
  assert (HF' : Forall (fun e => forall a, snap_ok fuel a e) es).
  { eapply Forall_impl; [|exact HF]. simpl. auto. }
  assert (D' : list_max (map tree_depth es) <= fuel) by lia.
  destruct (snap_all HF' Hall D') as [ss [h1 [Fs1 [Ns1 [E1 [G1 [O1 [ND1 [DJ1 [AS1 [AF1 AN1]]]]]]]]]]].
  pose proof G1 as [L1 [K1 C1]].
  assert (Hns1 : odict_at h1 nsr ns).
  { eapply odict_at_frame; [exact Hns|]. intros x Hx. apply K1. eapply odict_at_lt; [exact Hns|exact Hx]. }
  destruct (alloc_odict_at h1 ns) as [nsr2 [h2 [E2 [G2 [O2 [AN2 [NN2 LN2]]]]]]].
  pose proof G2 as [L2 [K2 C2]].
  destruct (alloc_odict_at h2 attrs) as [ar3 [h3 [E3 [G3 [O3 [AA3 [NA3 LA3]]]]]]].
  pose proof G3 as [L3 [K3 C3]].
  set (lr4 := length h3). set (h4 := h3 ++ [OList ss]).
  set (s := length h4).
  set (nd := Node tag nsr2 text tail ar3 lr4 0 line).
  set (nd' := Node tag nsr2 text tail ar3 lr4 next line).
  set (h5 := h4 ++ [ONode nd]).
  set (h6 := list_upd s (ONode nd') h5).
  assert (L4 : length h4 = S (length h3)) by (unfold h4; rewrite app_length; simpl; lia).
  assert (L5 : length h5 = S (length h4)) by (unfold h5; rewrite app_length; simpl; lia).
  assert (L6 : length h6 = length h5) by (unfold h6; apply upd_length).
  assert (G03 : grown h h3) by (eapply grown_trans; [|exact G3]; eapply grown_trans; eauto).
  assert (G04 : grown h h4).
  { apply alloc_grown; auto. }
  assert (Hnd : above (length h) (refs_of (ONode nd))).
  { intros x Hx. simpl in Hx. apply in_app_or in Hx. destruct Hx as [Hx|Hx].
    - specialize (AN2 _ Hx). lia.
    - apply in_app_or in Hx. destruct Hx as [Hx|[<-|[]]].
      + specialize (AA3 _ Hx). lia.
      + unfold lr4. lia. }
  assert (G05 : grown h h5) by (apply alloc_grown; auto).
  assert (G06 : grown h h6).
  { apply upd_grown; auto. unfold s. lia. }
  assert (S5 : nth_error h5 s = Some (ONode nd)).
  { unfold h5, s. rewrite nth_error_app2, Nat.sub_diag by lia. reflexivity. }
  assert (S6 : nth_error h6 s = Some (ONode nd')).
  { unfold h6. apply nth_upd_same. lia. }
  assert (K6 : forall x, x < length h4 -> nth_error h6 x = nth_error h4 x).
  { intros x Hx. unfold h6. rewrite nth_upd_other by (unfold s; lia).
    unfold h5. apply nth_error_app1; auto. }
  assert (K63 : forall x, x < length h3 -> nth_error h6 x = nth_error h3 x).
  { intros x Hx. rewrite K6 by lia. unfold h4. apply nth_error_app1; auto. }
  exists s, h6, (s :: opt_list ar3 ++ lr4 :: concat Fs1), (opt_list nsr2 ++ concat Ns1).
  split.
  { simpl. unfold bind. rewrite (load_node_at _ _ Ha). simpl.
    rewrite (@load_odict_at _ _ _ Hat), (load_list_at _ _ Hl), E1, (@load_odict_at _ _ _ Hns1), E2.
    unfold h_new, bind. rewrite E3. simpl.
    fold lr4 h4. fold nd. fold s h5.
    rewrite (load_node_at _ _ S5). simpl. rewrite store_at by lia. reflexivity. }
  split; [exact G06|]. split; [lia|].
  assert (B1 : forall x, In x (concat Fs1) \/ In x (concat Ns1) -> x < length h1).
  { intros x Hx. eapply owns_all_lt; eauto. }
  split.
  { econstructor.
    - exact S6.
    - eapply odict_at_frame; [exact O2|]. intros x Hx. specialize (LN2 _ Hx).
      rewrite K63 by lia. apply K3. auto.
    - eapply odict_at_frame; [exact O3|]. intros x Hx. specialize (LA3 _ Hx). apply K63; auto.
    - rewrite K6 by (unfold lr4; lia). unfold h4, lr4.
      rewrite nth_error_app2, Nat.sub_diag by lia. reflexivity.
    - eapply owns_all_frame; [exact O1|]. intros x Hx. specialize (B1 _ Hx).
      rewrite K63 by lia. rewrite K3, K2 by lia. reflexivity. }
  split.
  { constructor.
    - intros Hx. apply in_app_or in Hx. destruct Hx as [Hx|[Hx|Hx]].
      + specialize (LA3 _ Hx). unfold s in LA3. lia.
      + unfold lr4, s in Hx. lia.
      + specialize (B1 _ (or_introl Hx)). unfold s in B1. lia.
    - assert (ND' : NoDup (lr4 :: concat Fs1)).
      { constructor; auto. intros Hx. specialize (B1 _ (or_introl Hx)). unfold lr4 in B1. lia. }
      destruct ar3 as [ar3|]; simpl; auto. constructor; auto.
      intros [Hx|Hx].
      + specialize (LA3 ar3 (or_introl eq_refl)). unfold lr4 in Hx. lia.
      + specialize (B1 _ (or_introl Hx)). specialize (AA3 ar3 (or_introl eq_refl)). lia. }
  split.
  { intros x Hx Hn. apply in_app_or in Hn. destruct Hx as [<-|Hx].
    - destruct Hn as [Hn|Hn]; [specialize (LN2 _ Hn)|specialize (B1 _ (or_intror Hn))]; unfold s in *; lia.
    - apply in_app_or in Hx. destruct Hx as [Hx|[<-|Hx]], Hn as [Hn|Hn].
      + specialize (AA3 _ Hx). specialize (LN2 _ Hn). lia.
      + specialize (AA3 _ Hx). specialize (B1 _ (or_intror Hn)). lia.
      + specialize (LN2 _ Hn). unfold lr4 in LN2. lia.
      + specialize (B1 _ (or_intror Hn)). unfold lr4 in B1. lia.
      + specialize (AN2 _ Hn). specialize (B1 _ (or_introl Hx)). lia.
      + eapply DJ1; eauto. }
  split.
  { intros x [<-|Hx]; [unfold s; lia|]. apply in_app_or in Hx. destruct Hx as [Hx|[<-|Hx]].
    - specialize (AA3 _ Hx). lia.
    - unfold lr4; lia.
    - apply AF1; auto. }
  intros x Hx. apply in_app_or in Hx. destruct Hx as [Hx|Hx]; [specialize (AN2 _ Hx); lia|auto].
Qed.

(** ---- isolation ---- *)
Lemma reach_above : forall h h1 s v, grown h h1 -> length h <= s -> reach h1 s v -> length h <= v.
Proof.
  intros h h1 s v G L R. induction R as [|a o b x E I R IH]; auto.
  apply IH. destruct G as [_ [_ C]]. eapply C; eauto.
Qed.

Lemma run_on_new : forall h h1 p vs vs' h2, grown h h1 ->
  (forall v, In v vs -> length h <= v) -> run p vs h1 = (vs', h2) ->
  forall x, x < length h -> nth_error h2 x = nth_error h1 x.
Proof.
  intros h h1 p vs vs' h2 [L [K C]] V E x Hx.
  assert (I : inv (fun x => x < length h) h1).
  { split; [intros r Hr; lia|]. intros r o Eo NP y Hy NPy.
    assert (L1 : length h <= r) by lia.
    specialize (C _ _ _ L1 Eo Hy). lia. }
  assert (V' : all_out (fun x => x < length h) vs).
  { intros v Hv B. specialize (V _ Hv). lia. }
  destruct (@run_frame _ p _ _ _ _ I V' E) as [_ [[_ K2] _]]. apply K2. auto.
Qed.

Lemma run_on_old : forall h h1 p vs vs' h2, grown h h1 -> heap_ok h ->
  (forall v, In v vs -> v < length h) -> run p vs h1 = (vs', h2) ->
  forall x, length h <= x -> x < length h1 -> nth_error h2 x = nth_error h1 x.
Proof.
  intros h h1 p vs vs' h2 [L [K C]] W V E x Hx Hx'.
  assert (I : inv (fun x => length h <= x /\ x < length h1) h1).
  { split; [intros r Hr; lia|]. intros r o Eo NP y Hy NPy.
    pose proof (nth_lt _ _ Eo) as L1.
    assert (L2 : r < length h) by lia. rewrite K in Eo by auto.
    specialize (W _ _ _ Eo Hy). lia. }
  assert (V' : all_out (fun x => length h <= x /\ x < length h1) vs).
  { intros v Hv B. specialize (V _ Hv). lia. }
  destruct (@run_frame _ p _ _ _ _ I V' E) as [_ [[_ K2] _]]. apply K2. auto.
Qed.

Lemma snapshot_isolated : forall h a e F N fuel, owns h a e F N -> tree_depth e <= fuel ->
  exists s h1 Fs Ns,
    h_create_snapshot fuel a h = (Some s, h1) /\ grown h h1 /\
    owns h1 s e Fs Ns /\ NoDup Fs /\ (forall x, In x Fs -> ~ In x Ns) /\
    above (length h) Fs /\ above (length h) Ns /\ owns h1 a e F N /\
    (forall p vs vs' h2, (forall v, In v vs -> reach h1 s v) -> run p vs h1 = (vs', h2) ->
       owns h2 a e F N) /\
    (heap_ok h -> forall p vs vs' h2, (forall v, In v vs -> v < length h) ->
       run p vs h1 = (vs', h2) -> owns h2 s e Fs Ns).
Proof.
  intros h a e F N fuel O D.
  destruct (snapshot_ok O D) as [s [h1 [Fs [Ns [E [G [Ls [O1 [ND [DJ [AF AN]]]]]]]]]]].
  exists s, h1, Fs, Ns. split; [auto|]. split; [auto|]. split; [auto|]. split; [auto|].
  split; [auto|]. split; [auto|]. split; [auto|].
  assert (Oa : owns h1 a e F N) by (eapply owns_grown; eauto).
  assert (Lsn : length h <= s) by (apply AF; inversion O1; simpl; auto).
  split; [auto|]. split.
  - intros p vs vs' h2 V R. eapply owns_frame; [exact Oa|]. intros x Hx.
    apply (@run_on_new h h1 p vs vs' h2 G); auto.
    + intros v Hv. eapply reach_above; eauto.
    + eapply owns_lt; [exact O|]; auto.
  - intros W p vs vs' h2 V R. eapply owns_frame; [exact O1|]. intros x Hx.
    apply (@run_on_old h h1 p vs vs' h2 G); auto.
    + destruct Hx; auto.
    + eapply owns_lt; [exact O1|]; auto.
Qed.

(** ---- applying a snapshot ---- *)
Lemma apply_ok : forall h a e F N s es Fs Ns,
  owns h a e F N -> owns h s es Fs Ns -> ~ In a Fs -> ~ In a Ns ->
  exists h', h_apply_snapshot a s h = (Some tt, h') /\
    owns h' a (apply_snapshot e es) (a :: tl Fs) Ns /\ owns h' s es Fs Ns /\
    only_changes [a] h h' /\ length h' = length h.
Proof.
  intros h a e F N s es Fs Ns Oa Os NF NN.
  inversion Oa as [a' tag nsr ns text tail ar attrs lr rs cs next line Fc Nc Ha Hns Hat Hl Hall]; subst.
  inversion Os as [s' tag' nsr' ns' text' tail' ar' attrs' lr' rs' cs' next' line' Fc' Nc' Hs Hns' Hat' Hl' Hall']; subst.
  pose proof (nth_lt _ _ Ha) as La.
  set (n' := Node tag' nsr' text' tail' ar' lr' next' line).
  exists (list_upd a (ONode n') h). split.
  { unfold h_apply_snapshot, bind. rewrite (load_node_at _ _ Ha), (load_node_at _ _ Hs). simpl.
    apply store_at; auto. }
  assert (K : forall x, x <> a -> nth_error (list_upd a (ONode n') h) x = nth_error h x).
  { intros x Hx. apply nth_upd_other; auto. }
  assert (X1 : a <> s) by (intros ->; apply NF; simpl; auto).
  simpl in NF.
  assert (X : forall x, In x (opt_list ar' ++ lr' :: concat Fc') -> x <> a) by (intros x Hx ->; tauto).
  assert (Y : forall x, In x (opt_list nsr' ++ concat Nc') -> x <> a) by (intros x Hx ->; tauto).
  split; [|split; [|split]].
  - econstructor.
    + apply nth_upd_same; auto.
    + eapply odict_at_frame; [exact Hns'|]. intros x Hx. apply K, Y. apply in_or_app; auto.
    + eapply odict_at_frame; [exact Hat'|]. intros x Hx. apply K, X. apply in_or_app; auto.
    + rewrite K; [exact Hl'|]. apply X. apply in_or_app; simpl; auto.
    + eapply owns_all_frame; [exact Hall'|]. intros x [Hx|Hx]; apply K.
      * apply X. apply in_or_app; simpl; auto.
      * apply Y. apply in_or_app; auto.
  - eapply owns_frame; [exact Os|]. intros x [Hx|Hx]; apply K.
    + destruct Hx as [<-|Hx]; auto.
    + apply Y; auto.
  - split; [rewrite upd_length; auto|]. intros x _ Hx. apply K. intros ->. apply Hx; simpl; auto.
  - apply upd_length.
Qed.

(** ---- what can be reached from new addresses after a program over new addresses ---- *)
Lemma run_keeps_above : forall h h1 p vs vs' h2, grown h h1 ->
  (forall v, In v vs -> length h <= v) -> run p vs h1 = (vs', h2) ->
  inv (fun x => x < length h) h2.
Proof.
  intros h h1 p vs vs' h2 [L [K C]] V E.
  assert (I : inv (fun x => x < length h) h1).
  { split; [intros r Hr; lia|]. intros r o Eo NP y Hy NPy.
    assert (length h <= r) by lia. specialize (C _ _ _ H Eo Hy). lia. }
  assert (AO : all_out (fun x => x < length h) vs) by (intros v Hv; specialize (V _ Hv); lia).
  exact (proj1 (run_frame p I AO E)).
Qed.

Lemma owns_above : forall k h, inv (fun x => x < k) h ->
  (forall a e F N, owns h a e F N -> k <= a -> forall x, In x F \/ In x N -> k <= x) /\
  (forall rs es Fs Ns, owns_all h rs es Fs Ns -> (forall r, In r rs -> k <= r) ->
     forall x, In x (concat Fs) \/ In x (concat Ns) -> k <= x).
Proof.
  intros k h [_ I].
  assert (J : forall r o y, nth_error h r = Some o -> k <= r -> In y (refs_of o) -> k <= y).
  { intros r o y E Hr Hy. destruct (le_lt_dec k y) as [H|H]; auto. exfalso.
    apply (I r o E) with (x := y); auto. lia. }
  apply owns_both.
  - intros a tag nsr ns text tail ar attrs lr rs es next line Fs Ns Ha Hns Hat Hl Hall IH La x Hx.
    assert (Lr : forall y, In y (opt_list nsr ++ opt_list ar ++ [lr]) -> k <= y).
    { intros y Hy. eapply J; [exact Ha|auto|exact Hy]. }
    assert (Llr : k <= lr) by (apply Lr; apply in_or_app; right; apply in_or_app; right; simpl; auto).
    assert (Lc : forall r, In r rs -> k <= r) by (intros r Hr; eapply J; [exact Hl|auto|exact Hr]).
    specialize (IH Lc).
    destruct Hx as [[<-|Hx]|Hx]; auto.
    + apply in_app_or in Hx. destruct Hx as [Hx|[<-|Hx]]; auto.
      apply Lr. apply in_or_app; right; apply in_or_app; auto.
    + apply in_app_or in Hx. destruct Hx as [Hx|Hx]; auto. apply Lr. apply in_or_app; auto.
  - intros _ x [[]|[]].
  - intros a e F N rs es Fs Ns _ IH1 _ IH2 H x Hx. simpl in Hx.
    destruct Hx as [Hx|Hx]; apply in_app_or in Hx; destruct Hx as [Hx|Hx].
    + apply IH1; auto. apply H; simpl; auto.
    + apply IH2; auto. intros r Hr; apply H; simpl; auto.
    + apply IH1; auto. apply H; simpl; auto.
    + apply IH2; auto. intros r Hr; apply H; simpl; auto.
Qed.
