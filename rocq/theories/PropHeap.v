(** PropHeap.v -- C33: snapshots, with references; and the agreement of the tree model with the
    reference semantics of Python. *)

From Verif Require Import Base Elem Native Errs Names Ser Read Heap SpecHeap HeapRead.
From Verif Require Import PfElem PfHeap PfHeap2 PfHeap3 PfHeap4 PfHeap5 PfHeap6.

(** C33.  [create_snapshot] succeeds and gives an element that shows the same tree.  Whatever is
    done afterwards through the snapshot, or through anything reachable from it (its descendants,
    attribute dicts, child lists, nsmaps), by any program over the element interface, the original
    element shows the tree it showed before. *)
Theorem C33_snapshot_isolated : forall h a e fuel, shows h a e -> tree_depth e <= fuel ->
  exists s h1, h_create_snapshot fuel a h = (Some s, h1) /\ shows h1 s e /\ shows h1 a e /\
    forall p vs vs' h2, (forall v, In v vs -> reach h1 s v) -> run p vs h1 = (vs', h2) -> shows h2 a e.
Proof.
  intros h a e fuel [F [N O]] D.
  destruct (snapshot_isolated O D) as [s [h1 [Fs [Ns [E [_ [Os [_ [_ [_ [_ [Oa [P1 P2]]]]]]]]]]]]].
  exists s, h1. split; [auto|]. split; [exists Fs, Ns; auto|]. split; [exists F, N; auto|].
  intros p vs vs' h2 V R. exists F, N. eapply P1; eauto.
Qed.

(** ... and the other way round: nothing done through any reference that existed before the
    snapshot was taken shows up in the snapshot *)
Theorem C33_element_isolated : forall h a e fuel, heap_ok h -> shows h a e -> tree_depth e <= fuel ->
  exists s h1, h_create_snapshot fuel a h = (Some s, h1) /\
    forall p vs vs' h2, (forall v, In v vs -> v < length h) -> run p vs h1 = (vs', h2) -> shows h2 s e.
Proof.
  intros h a e fuel W [F [N O]] D.
  destruct (snapshot_isolated O D) as [s [h1 [Fs [Ns [E [_ [Os [_ [_ [_ [_ [Oa [P1 P2]]]]]]]]]]]]].
  exists s, h1. split; [auto|].
  intros p vs vs' h2 V R. exists Fs, Ns. eapply P2; eauto.
Qed.

(** C33.  Take a snapshot, do anything to it, apply it: the element then shows what the snapshot
    shows (its own source line excepted); nothing else on the heap changes. *)
Theorem C33_apply_shows_snapshot : forall h a e fuel, shows h a e -> tree_depth e <= fuel ->
  exists s h1, h_create_snapshot fuel a h = (Some s, h1) /\
    forall p vs vs' h2 es, (forall v, In v vs -> reach h1 s v) -> run p vs h1 = (vs', h2) -> shows h2 s es ->
    exists h3, h_apply_snapshot a s h2 = (Some tt, h3) /\
      shows h3 a (Elem (e_tag es) (e_nsmap es) (e_text es) (e_tail es) (e_attrib es)
                       (e_elems es) (e_next es) (e_line e)) /\
      shows h3 s es /\ only_changes [a] h2 h3.
Proof.
  intros h a e fuel [F [N O]] D.
  destruct (snapshot_ok O D) as [s [h1 [Fs [Ns [E [G [Ls [O1 [ND [DJ [AF AN]]]]]]]]]]].
  exists s, h1. split; [auto|]. intros p vs vs' h2 es V R [Fe [Ne Oe]].
  assert (Oa : owns h1 a e F N) by (eapply owns_grown; eauto).
  assert (Ha : a < length h) by (eapply owns_lt; [exact O|]; left; inversion O; simpl; auto).
  assert (Lsn : length h <= s) by (apply AF; inversion O1; simpl; auto).
  assert (Vv : forall v, In v vs -> length h <= v) by (intros v Hv; eapply reach_above; eauto).
  assert (Oa2 : owns h2 a e F N).
  { eapply owns_frame; [exact Oa|]. intros x Hx.
    apply (@run_on_new h h1 p vs vs' h2 G); auto. eapply owns_lt; [exact O|]; auto. }
  pose proof (@run_keeps_above _ _ _ _ _ _ G Vv R) as K2.
  assert (Ab : forall x, In x Fe \/ In x Ne -> length h <= x).
  { intros x Hx. destruct (owns_above K2) as [OA _]. exact (OA _ _ _ _ Oe Lsn x Hx). }
  destruct (@apply_ok h2 a e F N s es Fe Ne Oa2 Oe) as [h3 [E3 [O3 [O3' [C3 _]]]]].
  - intros H. specialize (Ab _ (or_introl H)). lia.
  - intros H. specialize (Ab _ (or_intror H)). lia.
  - exists h3. split; [auto|]. split; [exists (a :: tl Fe), Ne; exact O3|].
    split; [exists Fe, Ne; auto|auto].
Qed.

(** the elements of C33_snapshot_isolated exist: <r><b k="1">x</b></r>, a program that rewrites the
    snapshot's child, and the unchanged original *)
Definition small_heap : heap :=
  [ODict [("k", "1")]; OList []; ONode (Node (TName "b") None (Some "x") None (Some 0) 1 0 2);
   OList [2]; ONode (Node (TName "r") None None None None 3 0 1)].
Definition small_tree : elem :=
  Elem (TName "r") None None None None
       [Elem (TName "b") None (Some "x") None (Some [("k", "1")]) [] 0 2] 0 1.

Lemma small_tree_at : tree small_heap 4 small_tree [4; 3; 2; 0; 1] [].
Proof.
  split; [|split].
  - change [4; 3; 2; 0; 1] with (4 :: opt_list (@None ref) ++ 3 :: concat [[2; 0; 1]]).
    change (@nil ref) with (opt_list (@None ref) ++ concat [@nil ref]).
    econstructor; try reflexivity; try exact I. constructor; [|constructor].
    change [2; 0; 1] with (2 :: opt_list (Some 0) ++ 1 :: concat []).
    change (@nil ref) with (opt_list (@None ref) ++ concat (@nil (list ref))).
    econstructor; try reflexivity; try exact I. constructor.
  - repeat constructor; simpl; intuition congruence.
  - intros x _ [].
Qed.

Example C33_ex :
  heap_ok small_heap /\ shows small_heap 4 small_tree /\ tree_depth small_tree = 2 /\
  (* variable 0: the element; 1: the snapshot; 2: its child *)
  let p := [CFindElement 0 "b" Strict false true; CSetText 1 "changed"; CSetAttribute 1 "k" "2"; CPopElements 0] in
  let (s, h1) := h_create_snapshot 2 4 small_heap in
  s = Some 9 /\
  let (vs', h2) := run p [9] h1 in
  vs' = [9; 7; 7] /\
  nth_error h2 7 = Some (ONode (Node (TName "b") None (Some "changed") None (Some 5) 6 0 2)) /\
  nth_error h2 5 = Some (ODict [("k", "2")]) /\
  firstn 5 h2 = small_heap.
Proof.
  split.
  { intros r o x E Hx. do 5 (destruct r as [|r]; [inversion E; subst; simpl in Hx; simpl; intuition lia|]).
    destruct r; discriminate. }
  split; [exists [4; 3; 2; 0; 1], []; apply small_tree_at|]. vm_compute. repeat split.
Qed.

(** the limit of the claim: after [apply_snapshot] the two share their content *)
Example C33_shared_after_apply :
  let (_, h1) := run [CSnapshot 2 0; CApply 0 1] [4] small_heap in
  let (_, h2) := run [CPopElement 0 "b" Strict false; CSetText 1 "later"] [9] h1 in
  (exists F N, owns h1 4 small_tree F N) /\
  child_ref h2 4 0 7 /\
  nth_error h2 7 = Some (ONode (Node (TName "b") None (Some "later") None (Some 5) 6 0 2)).
Proof.
  vm_compute. split; [|split; [|reflexivity]].
  - eexists _, _. econstructor; try reflexivity; try exact I. constructor; [|constructor].
    econstructor; try reflexivity; try exact I. constructor.
  - eexists _, _. split; [reflexivity|]. split; reflexivity.
Qed.

(** The tree model of Elem.v, which the other theorems are about, does what the heap does as long as
    no two elements share a dict, a list or a child: each element method, on a tree without sharing,
    returns the same result, leaves a tree without sharing that shows the result of the tree
    model, and changes nothing outside the tree. *)
Theorem C33_methods_agree :
  implements h_step_forward (fun e => (tt, step_forward e)) /\
  implements h_is_empty (fun e => (is_empty e, e)) /\
  (forall t, implements (fun a => h_set_text a t) (fun e => (tt, set_text t e))) /\
  (forall k v, implements (fun a => h_set_attribute a k v) (fun e => (tt, set_attribute k v e))) /\
  (forall d, implements (fun a => h_set_attributes a d) (fun e => (tt, set_attributes d e))) /\
  (forall k, implements (fun a => h_get_attrib a k) (fun e => (get_attrib k e, e))) /\
  implements h_pop_text pop_text /\
  implements h_pop_tail pop_tail /\
  (forall k, implements (fun a => h_pop_attrib a k) (pop_attrib k)) /\
  implements h_is_element_nill is_element_nill /\
  implements h_make_element_nill (fun e => (tt, make_element_nill e)).
Proof.
  exact (conj step_forward_impl (conj is_empty_impl (conj set_text_impl (conj set_attribute_impl
        (conj set_attributes_impl (conj get_attrib_impl (conj pop_text_impl (conj pop_tail_impl
        (conj pop_attrib_impl (conj is_element_nill_impl make_element_nill_impl)))))))))).
Qed.

(** the searches: the reference returned is that of the child whose index the tree model gives *)
Theorem C33_search_agrees : forall m tag behind step h a e F N, tree h a e F N ->
  exists h' F' N' r, h_find_element a tag m behind step h = (r, h') /\
    tree h' a (snd (search m e tag behind step)) F' N' /\
    found_ref h' a (fst (search m e tag behind step)) r /\
    only_changes F h h' /\ Permutation F' F /\ Permutation N' N.
Proof.
  intros m tag behind step h a e F N T.
  destruct (find_element_ok m tag behind step T) as [h1 [F1 [N1 [r [E [T1 [R [C1 [PF [PN L1]]]]]]]]]].
  exists h1, F1, N1, r. repeat (split; [assumption|]). assumption.
Qed.

(** paths: the reference is that of the last element of the chain of children *)
Theorem C33_paths_agree : forall path m h a e F N, path <> [] -> tree h a e F N ->
  exists h' r, h_find_sub_element a path m h = (r, h') /\
    match fst (find_sub_element path m e) with
    | None => r = None
    | Some idxs => exists cs, r = Some cs /\ chain_ref h' a idxs cs
    end /\
    exists F' N', tree h' a (snd (find_sub_element path m e)) F' N' /\ only_changes F h h'.
Proof.
  intros path m h a e F N NE T.
  destruct (find_sub_ok m NE T) as [h' [r [E [R [F' [N' [T' [C _]]]]]]]].
  exists h', r. split; [auto|]. split; [auto|]. exists F', N'. auto.
Qed.

(** creating a missing child *)
Theorem C33_create_agrees : forall h a e F N b tag m nsr ns, tree h a e F N -> odict_at h nsr ns ->
  (forall x, In x (opt_list nsr) -> ~ In x F) ->
  exists h' r, h_find_element_or_create b a tag m nsr h = (r, h') /\
    match fst (find_element_or_create b e tag m ns) with
    | Found i => exists c, r = Some c /\ child_ref h' a i c
    | _ => r = None
    end /\
    exists F' N', tree h' a (snd (find_element_or_create b e tag m ns)) F' N' /\ only_changes F h h'.
Proof.
  intros h a e F N b tag m nsr ns T O X.
  destruct (@find_or_create_ok h a e F N b tag m nsr ns T O X) as [h' [r [E [R [F' [N' [T' [C _]]]]]]]].
  exists h', r. split; [auto|]. split.
  - destruct (find_element_or_create b e tag m ns) as [[|i|] e']; exact R.
  - exists F', N'. auto.
Qed.

(** taking a child out: a separate element holds its content, the child itself stays, emptied *)
Theorem C33_pop_agrees : forall tag m h a e F N, tree h a e F N ->
  exists h' r, h_pop_element a tag m true h = (r, h') /\
    match search m e tag false true with
    | (NotFound, e1) => r = Some None /\ exists F' N', tree h' a e1 F' N' /\ only_changes F h h'
    | (IndexErr, _) => r = None
    | (Found i, e1) =>
        exists c ec, nth_error (e_elems e1) i = Some ec /\ r = Some (Some c) /\
          exists F' N' Fc Nc, tree h' a (put_child i (snd (extract ec)) e1) F' N' /\
            tree h' c (fst (extract ec)) Fc Nc /\ (forall x, In x Fc -> ~ In x F') /\
            only_changes F h h'
    end.
Proof. exact pop_element_ok. Qed.

(** The loop of union fields, over references: given readers of the variants that agree with their
    tree models, reading the union through snapshots agrees with the tree model of Read.v, which
    tries each variant on a copy. *)
Theorem C33_union_loop_agrees : forall hrs rs, Forall2 reads_as hrs rs ->
  forall title hide eas loc errors h a e F N sm, tree h a e F N ->
  exists h' F' N',
    h_read_variants hrs title hide eas loc errors a sm h =
      ((fst (read_variants rs title hide eas loc errors (St e sm)),
        st_sm (snd (read_variants rs title hide eas loc errors (St e sm)))), h') /\
    tree h' a (st_el (snd (read_variants rs title hide eas loc errors (St e sm)))) F' N' /\
    only_changes F h h'.
Proof.
  intros hrs rs H title hide eas loc errors h a e F N sm T.
  destruct (variants_ok H title hide eas loc errors sm T) as [h' [F' [N' [E [T' [C _]]]]]].
  exists h', F', N'. auto.
Qed.

(** readers that agree exist: one that takes the text, one that takes the text and fails *)
Definition text_reader : reader := fun _ _ st =>
  let (t, e) := pop_text (st_el st) in
  (Ok (match t with Some s => VStr s | None => VNone end), St e (st_sm st)).
Definition h_text_reader : hreader := fun _ _ a sm h =>
  match h_pop_text a h with
  | (Some t, h') => (Ok (match t with Some s => VStr s | None => VNone end), sm, h')
  | (None, h') => (Fuel, sm, h')
  end.
Definition bad_reader (x : verr) : reader := fun _ _ st =>
  (Raise (XValidation x), St (snd (pop_text (st_el st))) (st_sm st)).
Definition h_bad_reader (x : verr) : hreader := fun _ _ a sm h =>
  match h_pop_text a h with
  | (Some t, h') => (Raise (XValidation x), sm, h')
  | (None, h') => (Fuel, sm, h')
  end.
Lemma text_reads_as : reads_as h_text_reader text_reader.
Proof.
  intros eas loc h a e F N sm T.
  destruct (pop_text_impl T) as [h' [F' [N' [E [T' [C [X Y]]]]]]].
  exists h', F', N'. unfold h_text_reader, text_reader. rewrite E. simpl. auto.
Qed.
Lemma bad_reads_as : forall x, reads_as (h_bad_reader x) (bad_reader x).
Proof.
  intros x eas loc h a e F N sm T.
  destruct (pop_text_impl T) as [h' [F' [N' [E [T' [C [X Y]]]]]]].
  exists h', F', N'. unfold h_bad_reader, bad_reader. rewrite E. simpl. auto.
Qed.
(** a failed first variant consumed the text of its snapshot; the second one still finds it *)
Example C33_union_ex : forall x,
  Forall2 reads_as [h_bad_reader x; h_text_reader] [bad_reader x; text_reader] /\
  fst (fst (h_read_variants [h_bad_reader x; h_text_reader] "T" false false [] [] 2 [] small_heap)) = Ok (VStr "x").
Proof.
  intros x. split; [|reflexivity].
  constructor; [apply bad_reads_as|]. constructor; [apply text_reads_as|constructor].
Qed.

Print Assumptions C33_snapshot_isolated.
Print Assumptions C33_element_isolated.
Print Assumptions C33_apply_shows_snapshot.
Print Assumptions C33_methods_agree.
Print Assumptions C33_search_agrees.
Print Assumptions C33_paths_agree.
Print Assumptions C33_create_agrees.
Print Assumptions C33_pop_agrees.
Print Assumptions C33_union_loop_agrees.
