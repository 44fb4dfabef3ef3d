(** PfHeap7.v -- reading over the heap agrees with reading on trees: combinators. *)

From Verif Require Import Base Elem Native Errs Names Ser Read Api Heap SpecHeap HeapRead HeapRead2 SpecHeap2.
From Verif Require Import PfElem PfHeap PfHeap2 PfHeap3 PfHeap4 PfHeap5 PfHeap6.

Definition agrees {A} (m : ref -> hm A) (f : st -> rres A) : Prop :=
  forall h a e F N sm, tree h a e F N ->
  exists h' F' N',
    m a sm h = ((fst (f (St e sm)), st_sm (snd (f (St e sm)))), h') /\
    tree h' a (st_el (snd (f (St e sm)))) F' N' /\
    only_changes F h h' /\ from_or_new F h F' /\ from_or_new (F ++ N) h N'.

Lemma reads_as_agrees : forall hr r, (forall eas loc, agrees (hr eas loc) (r eas loc)) -> reads_as hr r.
Proof. intros hr r H eas loc h a e F N sm T. exact (H eas loc h a e F N sm T). Qed.

Lemma agrees_reads : forall hr r eas loc, reads_as hr r -> agrees (hr eas loc) (r eas loc).
Proof. intros hr r eas loc H h a e F N sm T. exact (H eas loc h a e F N sm T). Qed.

Lemma agrees_ext : forall A (m m' : ref -> hm A) (f f' : st -> rres A),
  agrees m f -> (forall a sm h, m' a sm h = m a sm h) -> (forall s, f' s = f s) -> agrees m' f'.
Proof.
  intros A m m' f f' H Em Ef h a e F N sm T. destruct (H h a e F N sm T) as [h' [F' [N' R]]].
  exists h', F', N'. rewrite Em, Ef. exact R.
Qed.

Lemma agrees_pure : forall A (o : smap -> out A),
  agrees (fun _ sm h => (o sm, sm, h)) (fun s => (o (st_sm s), s)).
Proof.
  intros A o h a e F N sm T. exists h, F, N. simpl. split; [reflexivity|]. split; [exact T|].
  split; [apply only_changes_refl|]. split; apply from_or_new_incl; auto with datatypes.
Qed.

Lemma agrees_ret : forall A (x : A), agrees (fun _ => mret x) (fun s => (Ok x, s)).
Proof. intros A x. exact (@agrees_pure A (fun _ => Ok x)). Qed.

Lemma agrees_raise : forall A x, agrees (fun _ => @mraise A x) (fun s => (Raise x, s)).
Proof. intros A x. exact (@agrees_pure A (fun _ => Raise x)). Qed.

Lemma agrees_fuel : forall A, agrees (fun _ => @mfuel A) (fun s => (Fuel, s)).
Proof. intros A. exact (@agrees_pure A (fun _ => Fuel)). Qed.

(** two steps in a row: what they change together *)
Lemma two_steps : forall h h1 h2 (F N F1 N1 F2 N2 : list ref),
  only_changes F h h1 -> from_or_new F h F1 -> from_or_new (F ++ N) h N1 ->
  only_changes F1 h1 h2 -> from_or_new F1 h1 F2 -> from_or_new (F1 ++ N1) h1 N2 ->
  only_changes F h h2 /\ from_or_new F h F2 /\ from_or_new (F ++ N) h N2.
Proof.
  intros h h1 h2 F N F1 N1 F2 N2 C1 FN1 NN1 C2 FN2 NN2. pose proof C1 as [L1 _].
  split; [eapply only_changes_trans; eauto|]. split; [eapply from_or_new_trans; eauto|].
  intros x Hx. destruct (NN2 _ Hx) as [H|H]; [|right; lia]. apply in_app_or in H. destruct H as [H|H]; [|auto].
  destruct (FN1 _ H); [left; apply in_or_app; auto|right; auto].
Qed.

(** sequencing on trees *)
Definition fbind {A B} (f : st -> rres A) (g : A -> st -> rres B) : st -> rres B := fun s =>
  match f s with
  | (Ok x, s') => g x s'
  | (Raise x, s') => (Raise x, s')
  | (Fuel, s') => (Fuel, s')
  end.

Definition ftry {A} (f : st -> rres A) : st -> rres (A + verr) := fun s =>
  match f s with
  | (Ok x, s') => (Ok (inl x), s')
  | (Raise (XValidation err), s') => (Ok (inr err), s')
  | (Raise x, s') => (Raise x, s')
  | (Fuel, s') => (Fuel, s')
  end.

Lemma agrees_bind : forall A B (m : ref -> hm A) f (k : A -> ref -> hm B) g,
  agrees m f -> (forall x, agrees (k x) (g x)) ->
  agrees (fun a => x <~ m a ;; k x a) (fbind f g).
Proof.
  intros A B m f k g H K h a e F N sm T. destruct (H h a e F N sm T) as [h1 [F1 [N1 [E [T1 [C1 [FN1 NN1]]]]]]].
  unfold mbind, fbind. rewrite E. destruct (f (St e sm)) as [[x|x|] [e1 sm1]]; simpl in *.
  - destruct (K x h1 a e1 F1 N1 sm1 T1) as [h2 [F2 [N2 [E2 [T2 [C2 [FN2 NN2]]]]]]].
    exists h2, F2, N2. split; [exact E2|]. split; [exact T2|].
    eapply two_steps; [exact C1|exact FN1|exact NN1|exact C2|exact FN2|exact NN2].
  - exists h1, F1, N1. split; [reflexivity|]. auto.
  - exists h1, F1, N1. split; [reflexivity|]. auto.
Qed.

Lemma agrees_try : forall A (m : ref -> hm A) f, agrees m f -> agrees (fun a => mtry (m a)) (ftry f).
Proof.
  intros A m f H h a e F N sm T. destruct (H h a e F N sm T) as [h1 [F1 [N1 [E R]]]].
  exists h1, F1, N1. unfold mtry, ftry. rewrite E. destruct (f (St e sm)) as [[x|x|] s1]; simpl in *.
  - split; [reflexivity|exact R].
  - destruct x; (split; [reflexivity|exact R]).
  - split; [reflexivity|exact R].
Qed.

(** a method call *)
Definition flift {A} (f : elem -> A * elem) : st -> rres A := fun s =>
  (Ok (fst (f (st_el s))), set_el (snd (f (st_el s))) s).

Lemma agrees_lift : forall A (m : ref -> hp A) f, implements m f -> agrees (fun a => lift (m a)) (flift f).
Proof.
  intros A m f H h a e F N sm T. destruct (H h a e F N T) as [h' [F' [N' [E R]]]].
  exists h', F', N'. unfold lift, flift. rewrite E. simpl. split; [reflexivity|exact R].
Qed.

Lemma sourceline_at : forall h a e F N, tree h a e F N -> h_get_sourceline a h = (Some (e_line e), h).
Proof. intros h a e F N T. parts T. unfold h_get_sourceline, bind. rewrite (load_node_at _ _ Ha). reflexivity. Qed.

Lemma agrees_note : forall loc, agrees (fun a => h_note_line loc a) (fun s => (Ok tt, note_line loc s)).
Proof.
  intros loc h a e F N sm T. exists h, F, N. unfold h_note_line, mbind, lift. rewrite (sourceline_at T). simpl.
  split; [reflexivity|]. split; [exact T|]. split; [apply only_changes_refl|].
  split; apply from_or_new_incl; auto with datatypes.
Qed.

(** working on a child *)
Lemma on_child_ok : forall A (m : ref -> hm A) f, agrees m f ->
  forall h a e F N sm i c, tree h a e F N -> child_ref h a i c ->
  exists h' F' N',
    m c sm h = ((fst (on_child i f (St e sm)), st_sm (snd (on_child i f (St e sm)))), h') /\
    tree h' a (st_el (snd (on_child i f (St e sm)))) F' N' /\
    only_changes F h h' /\ from_or_new F h F' /\ from_or_new (F ++ N) h N'.
Proof.
  intros A m f H h a e F N sm i c T CR. destruct (child_ref_elem T CR) as [ec Eec].
  destruct (focus _ T Eec) as [c' [Fc [Nc [CR' [Tc [IFc [INc [_ Back]]]]]]]].
  assert (c' = c) by (eapply child_ref_det; eauto). subst c'.
  destruct (H h c ec Fc Nc sm Tc) as [h1 [F1 [N1 [E1 [T1 [C1 [FN1 NN1]]]]]]].
  destruct (Back [] h1 _ F1 N1 T1 C1) as [_ [F2 [N2 [T2 [C2 [FN2 [NN2 _]]]]]]]; auto.
  { intros x []. }
  unfold on_child. cbn [st_el st_sm]. rewrite Eec. exists h1, F2, N2.
  destruct (f (St ec sm)) as [o s']. cbn [fst snd st_el st_sm] in *.
  split; [exact E1|]. split; [exact T2|]. auto.
Qed.

Lemma agrees_found : forall search_h search_f (m : ref -> hm val) f,
  search_ok search_h search_f -> agrees m f ->
  agrees (fun a => c <~ lift (search_h a) ;; match c with None => mret VNone | Some c' => m c' end)
         (fun s => with_found (search_f (st_el s)) f s).
Proof.
  intros sh sf m f HS H h a e F N sm T.
  destruct (HS h a e F N T) as [h1 [F1 [N1 [r [E [T1 [R [C1 [PF [PN L1]]]]]]]]]].
  pose proof (@perm_from F h F1 PF) as FN.
  assert (NN : from_or_new (F ++ N) h N1).
  { apply from_or_new_incl. intros x Hx. apply in_or_app; right. eapply Permutation_in; eauto. }
  unfold mbind, lift. rewrite E. cbn [st_el]. destruct (sf e) as [fd e1]. cbn [fst snd] in *.
  destruct fd as [|i|]; cbn [found_ref with_found] in *.
  - subst r. exists h1, F1, N1. split; [reflexivity|]. auto.
  - destruct R as [c [-> CR]]. cbn [st_sm set_el].
    destruct (on_child_ok H sm T1 CR) as [h2 [F2 [N2 [E2 [T2 [C2 [FN2 NN2]]]]]]].
    exists h2, F2, N2. split; [exact E2|]. split; [exact T2|].
    eapply two_steps; [exact C1|exact FN|exact NN|exact C2|exact FN2|exact NN2].
  - subst r. exists h1, F1, N1. split; [reflexivity|]. auto.
Qed.

Lemma pop_element_search : forall tag m, search_ok (fun a => h_pop_element a tag m false) (fun e => pop_element e tag m).
Proof.
  intros tag m h a e F N T. destruct (find_element_ok m tag false true T) as [h1 [F1 [N1 [r [E R]]]]].
  exists h1, F1, N1, r. split; [|exact R]. unfold h_pop_element, bind. rewrite E. destruct r as [[c|]|]; reflexivity.
Qed.

(** working on the end of a path *)
Lemma on_path_ok : forall A (m : ref -> hm A) f, agrees m f ->
  forall idxs cs h a e F N sm d, tree h a e F N -> chain_ref h a idxs cs -> idxs <> [] ->
  exists h' F' N',
    m (last cs d) sm h = ((fst (on_path idxs f (St e sm)), st_sm (snd (on_path idxs f (St e sm)))), h') /\
    tree h' a (st_el (snd (on_path idxs f (St e sm)))) F' N' /\
    only_changes F h h' /\ from_or_new F h F' /\ from_or_new (F ++ N) h N'.
Proof.
  intros A m f H idxs; induction idxs as [|i idxs IH]; intros [|c cs] h a e F N sm d T CH NE; simpl in CH;
    try contradiction; try congruence.
  destruct CH as [CR CH]. destruct idxs as [|j idxs].
  - destruct cs; [|contradiction]. cbn [last on_path].
    destruct (on_child_ok H sm T CR) as [h1 [F1 [N1 R]]]. exists h1, F1, N1. exact R.
  - destruct cs as [|c2 cs]; [contradiction|].
    destruct (child_ref_elem T CR) as [ec Eec].
    destruct (focus _ T Eec) as [c' [Fc [Nc [CR' [Tc [IFc [INc [_ Back]]]]]]]].
    assert (c' = c) by (eapply child_ref_det; eauto). subst c'.
    destruct (IH (c2 :: cs) h c ec Fc Nc sm d Tc CH) as [h1 [F1 [N1 [E1 [T1 [C1 [FN1 NN1]]]]]]]; [congruence|].
    destruct (Back [] h1 _ F1 N1 T1 C1) as [_ [F2 [N2 [T2 [C2 [FN2 [NN2 _]]]]]]]; auto.
    { intros x []. }
    change (last (c :: c2 :: cs) d) with (last (c2 :: cs) d).
    change (on_path (i :: j :: idxs) f) with (on_child i (on_path (j :: idxs) f)).
    unfold on_child at 1 2 3. cbn [st_el st_sm]. rewrite Eec. exists h1, F2, N2.
    destruct (on_path (j :: idxs) f (St ec sm)) as [o s']. cbn [fst snd st_el st_sm] in *.
    split; [exact E1|]. split; [exact T2|]. auto.
Qed.

Lemma chain_length : forall h idxs a cs, chain_ref h a idxs cs -> length cs = length idxs.
Proof.
  intros h idxs; induction idxs as [|i idxs IH]; intros a [|c cs] H; simpl in *; try contradiction; auto.
  destruct H as [_ H]. f_equal. eauto.
Qed.
