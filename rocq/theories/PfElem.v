(** PfElem.v -- lemmas about element.py's operations. *)

From Verif Require Import Base Elem SpecElem.

Lemma tag_is_called : forall c tag, tag_is (e_tag c) tag = true <-> called tag c.
Proof.
  intros c tag; unfold called, tag_is; destruct (e_tag c) as [s|].
  - rewrite String.eqb_eq; split; congruence.
  - split; discriminate.
Qed.

Lemma tag_is_not_called : forall c tag, tag_is (e_tag c) tag = false <-> ~ called tag c.
Proof.
  intros c tag; rewrite <- tag_is_called; destruct (tag_is (e_tag c) tag); split; congruence.
Qed.

Lemma find_from_spec : forall tag l i,
  match find_from i l tag with
  | Some j => exists skip c rest, l = skip ++ c :: rest /\ j = i + length skip /\ called tag c /\
                Forall (fun x => ~ called tag x) skip
  | None => Forall (fun x => ~ called tag x) l
  end.
Proof.
  intros tag l; induction l as [|c l IH]; intros i; simpl; auto.
  destruct (tag_is (e_tag c) tag) eqn:Ht.
  - exists [], c, l; repeat split; simpl; auto. apply tag_is_called; auto.
  - specialize (IH (S i)). apply tag_is_not_called in Ht.
    destruct (find_from (S i) l tag) as [j|].
    + destruct IH as (skip & d & rest & -> & -> & Hd & Hs).
      exists (c :: skip), d, rest; simpl; repeat split; auto; lia.
    + auto.
Qed.

Lemma find_from_range : forall tag l i j, find_from i l tag = Some j -> i <= j < i + length l.
Proof.
  intros tag l i j H. pose proof (find_from_spec tag l i) as S. rewrite H in S.
  destruct S as (skip & c & rest & -> & -> & _). rewrite app_length; simpl; lia.
Qed.

Lemma skipn_nth : forall A (l : list A) n, n < length l ->
  exists x, nth_error l n = Some x /\ skipn n l = x :: skipn (S n) l.
Proof.
  intros A l; induction l as [|y l IH]; intros [|n] H; simpl in *; try lia.
  - exists y; auto.
  - destruct (IH n) as (x & Hx & Hs); [lia|]. exists x; split; auto.
Qed.

Lemma firstn_succ_nth : forall A (l : list A) n x, nth_error l n = Some x ->
  firstn (S n) l = firstn n l ++ [x].
Proof.
  intros A l; induction l as [|y l IH]; intros [|n] x H; simpl in *; try discriminate.
  - injection H as ->; auto.
  - rewrite (IH n x H); auto.
Qed.

Lemma skipn_app_len : forall A (l1 l2 : list A) n, n = length l1 -> skipn n (l1 ++ l2) = l2.
Proof. intros A l1 l2 n ->; rewrite skipn_app, skipn_all, Nat.sub_diag; auto. Qed.

Lemma firstn_app_len : forall A (l1 l2 : list A) n, n = length l1 -> firstn n (l1 ++ l2) = l1.
Proof. intros A l1 l2 n ->; rewrite firstn_app, firstn_all, Nat.sub_diag; simpl; apply app_nil_r. Qed.

Lemma split_at_cursor : forall e, e_elems e = passed e ++ unread e.
Proof. intros e; unfold passed, unread; symmetry; apply firstn_skipn. Qed.

Lemma unread_cons_next : forall e c rest, unread e = c :: rest ->
  e_next e < length (e_elems e) /\ length (passed e) = e_next e.
Proof.
  intros e c rest H. unfold unread in H.
  assert (L : length (skipn (e_next e) (e_elems e)) = S (length rest)) by (rewrite H; auto).
  rewrite skipn_length in L. unfold passed; rewrite firstn_length; lia.
Qed.

Lemma list_swap_cursor : forall A (p skip rest : list A) c,
  list_swap (length p) (length p + length skip) (p ++ skip ++ c :: rest) =
  match skip with
  | [] => p ++ c :: rest
  | x :: skip' => p ++ c :: skip' ++ x :: rest
  end.
Proof.
  intros A p skip rest c. unfold list_swap.
  destruct skip as [|x skip']; simpl.
  - rewrite Nat.add_0_r, nth_error_app2, Nat.sub_diag by lia; simpl.
    rewrite (list_upd_split p rest c c), (list_upd_split p rest c c). reflexivity.
  - rewrite nth_error_app2, Nat.sub_diag by lia; simpl.
    rewrite nth_error_app2 by lia.
    replace (length p + S (length skip') - length p) with (S (length skip')) by lia; simpl.
    rewrite nth_error_app2, Nat.sub_diag by lia; simpl.
    rewrite list_upd_app_r. simpl. rewrite !list_upd_split. reflexivity.
Qed.

Lemma list_swap_same : forall A i (l : list A), list_swap i i l = l.
Proof.
  intros A i l; unfold list_swap; destruct (nth_error l i) as [x|] eqn:E; auto.
  rewrite (list_upd_same i l E). apply list_upd_same; auto.
Qed.

Lemma list_swap_length : forall A i j (l : list A), length (list_swap i j l) = length l.
Proof.
  intros A i j l; unfold list_swap; destruct (nth_error l i), (nth_error l j); auto.
  rewrite !list_upd_length; auto.
Qed.

Lemma same_shell_refl : forall e, same_shell e e.
Proof. unfold same_shell; auto 10. Qed.

(** one lemma for the three modes *)
Lemma pop_element_takes : forall m e tag,
  let (r, e') := pop_element e tag m in
  r <> IndexErr /\ same_shell e e' /\
  takes tag m (passed e, unread e) (handed r e') (passed e', unread e') /\
  (r = NotFound -> e' = e).
Proof.
  intros m e tag; unfold pop_element, search; destruct m; simpl.
  - (* strict *)
    unfold strict_forward.
    destruct (nth_error (e_elems e) (e_next e)) as [c|] eqn:Hn.
    + assert (Hlt : e_next e < length (e_elems e)) by (apply nth_error_Some; congruence).
      destruct (skipn_nth (e_elems e) Hlt) as (x & Hx & Hs). rewrite Hn in Hx; injection Hx as <-.
      destruct (tag_is (e_tag c) tag) eqn:Ht.
      * split; [discriminate|]. split; [unfold same_shell; simpl; auto 10|].
        split; [|discriminate]. unfold handed, passed, unread; cbn [e_next e_elems set_next].
        rewrite Hn, Hs, (firstn_succ_nth (e_elems e) _ Hn).
        constructor. apply tag_is_called; auto.
      * split; [discriminate|]. split; [apply same_shell_refl|]. split; [|auto]. simpl.
        unfold unread; rewrite Hs. constructor. apply tag_is_not_called; auto.
    + split; [discriminate|]. split; [apply same_shell_refl|]. split; [|auto]. simpl.
      apply nth_error_None in Hn. unfold unread. rewrite skipn_all2 by lia. constructor.
  - (* ordered *)
    unfold ordered_forward. fold (unread e).
    pose proof (find_from_spec tag (unread e) (e_next e)) as F.
    destruct (find_from (e_next e) (unread e) tag) as [j|].
    + destruct F as (skip & c & rest & Hu & -> & Hc & Hskip).
      assert (Hlen : length (passed e) = e_next e).
      { destruct skip as [|x sk]; eapply unread_cons_next; rewrite Hu; simpl; reflexivity. }
      split; [discriminate|]. split; [unfold same_shell; simpl; auto 10|].
      split; [|discriminate].
      assert (He : e_elems e = (passed e ++ skip) ++ c :: rest)
        by (rewrite <- app_assoc, <- Hu; apply split_at_cursor).
      unfold handed; simpl.
      assert (Hn : nth_error (e_elems e) (e_next e + length skip) = Some c).
      { rewrite He, nth_error_app2; rewrite app_length, Hlen; [|lia].
        rewrite Nat.sub_diag; auto. }
      rewrite Hn, Hu.
      replace (passed (set_next (S (e_next e + length skip)) e)) with (passed e ++ skip ++ [c]).
      2:{ unfold passed at 2; cbn [e_next set_next e_elems].
          rewrite (firstn_succ_nth _ _ Hn). rewrite He at 1.
          rewrite firstn_app_len; [rewrite <- app_assoc; auto|rewrite app_length; lia]. }
      replace (unread (set_next (S (e_next e + length skip)) e)) with rest.
      2:{ unfold unread; cbn [e_next set_next e_elems]. rewrite He.
          replace ((passed e ++ skip) ++ c :: rest) with (((passed e ++ skip) ++ [c]) ++ rest)
            by (rewrite <- app_assoc; auto).
          rewrite skipn_app_len; auto. rewrite !app_length; simpl; lia. }
      constructor; auto.
    + split; [discriminate|]. split; [apply same_shell_refl|]. split; [|auto]. constructor; auto.
  - (* unordered *)
    unfold unordered_forward. fold (unread e).
    pose proof (find_from_spec tag (unread e) (e_next e)) as F.
    destruct (find_from (e_next e) (unread e) tag) as [j|].
    + destruct F as (skip & c & rest & Hu & -> & Hc & Hskip).
      assert (Hlen : length (passed e) = e_next e).
      { destruct skip as [|x sk]; eapply unread_cons_next; rewrite Hu; simpl; reflexivity. }
      split; [discriminate|]. split; [unfold same_shell; simpl; auto 10|].
      split; [|discriminate].
      assert (He : e_elems e = passed e ++ skip ++ c :: rest)
        by (rewrite <- Hu; apply split_at_cursor).
      set (left_ := match skip with [] => rest | x :: skip' => skip' ++ x :: rest end).
      assert (Hsw : list_swap (e_next e) (e_next e + length skip) (e_elems e) = (passed e ++ [c]) ++ left_).
      { rewrite He, <- Hlen, list_swap_cursor. rewrite <- app_assoc. destruct skip; reflexivity. }
      unfold handed, passed, unread; cbn [e_next set_next e_elems set_elems].
      fold (passed e). fold (unread e). rewrite Hsw.
      rewrite (firstn_app_len (passed e ++ [c])) by (rewrite app_length; simpl; lia).
      rewrite (skipn_app_len (passed e ++ [c])) by (rewrite app_length; simpl; lia).
      rewrite <- app_assoc, nth_error_app2 by lia. rewrite Hlen, Nat.sub_diag; simpl.
      rewrite Hu. econstructor; eauto.
      unfold left_; destruct skip as [|x skip']; simpl; auto.
      symmetry. apply Permutation_middle.
    + split; [discriminate|]. split; [apply same_shell_refl|]. split; [|auto]. constructor; auto.
Qed.

(** the searches are deterministic and total, so the relation pins them down *)
Lemma takes_some_called : forall tag m pu c pu', takes tag m pu (Some c) pu' -> called tag c.
Proof. intros tag m pu c pu' H; inversion H; subst; auto. Qed.

Lemma takes_conserves : forall tag m p u h p' u',
  takes tag m (p, u) h (p', u') -> Permutation (p ++ u) (p' ++ u').
Proof.
  intros tag m p u h p' u' H; inversion H; subst; auto;
    repeat rewrite <- app_assoc; simpl; auto.
  apply Permutation_app_head.
  rewrite <- Permutation_middle. constructor. symmetry; auto.
Qed.

Lemma takes_unread : forall tag m p u h p' u', takes tag m (p, u) h (p', u') ->
  exists gone, Permutation u (match h with Some c => [c] | None => [] end ++ gone ++ u').
Proof.
  intros tag m p u h p' u' H; inversion H; subst; simpl.
  - exists []; auto.
  - exists []; auto.
  - exists []; auto.
  - exists skip; simpl. symmetry; apply Permutation_middle.
  - exists []; auto.
  - exists []; simpl. rewrite <- Permutation_middle. constructor. symmetry; auto.
  - exists []; auto.
Qed.

Lemma skipn_list_upd : forall A i (x : A) l n, i < n -> skipn n (list_upd i x l) = skipn n l.
Proof.
  intros A i x l; revert i; induction l as [|y l IH]; intros [|i] [|n] H; simpl; auto; try lia.
  apply IH; lia.
Qed.

Lemma history_distinct : forall evs e hs e', history evs e = (hs, e') ->
  exists others, Permutation (hs ++ others) (unread e).
Proof.
  intros evs; induction evs as [|ev evs IH]; intros e hs e' H; simpl in H.
  - injection H as <- <-. exists (unread e); auto.
  - destruct ev as [tag m|i c].
    + pose proof (pop_element_takes m e tag) as T.
      destruct (pop_element e tag m) as [r e1].
      destruct (history evs e1) as [hs1 e2] eqn:Hh. injection H as <- <-.
      destruct T as (_ & _ & T & _). apply takes_unread in T. destruct T as [gone Hg].
      destruct (IH _ _ _ Hh) as [others Ho].
      destruct (handed r e1) as [c|]; simpl in *.
      * exists (others ++ gone). rewrite Hg. constructor.
        rewrite app_assoc, Ho. apply Permutation_app_comm.
      * exists (others ++ gone). rewrite Hg, app_assoc, Ho. apply Permutation_app_comm.
    + destruct (Nat.ltb_spec i (e_next e)) as [Hlt|Hge].
      * destruct (IH _ _ _ H) as [others Ho]. exists others. rewrite Ho.
        unfold unread, put_child; simpl. rewrite skipn_list_upd; auto.
      * eapply IH; eauto.
Qed.

(** ---- pops ---- *)
Lemma pop_text_once : forall e,
  fst (pop_text e) = e_text e /\ fst (pop_text (snd (pop_text e))) = None /\
  e_tail (snd (pop_text e)) = e_tail e /\ e_attrib (snd (pop_text e)) = e_attrib e /\
  e_elems (snd (pop_text e)) = e_elems e /\ e_next (snd (pop_text e)) = e_next e /\
  e_tag (snd (pop_text e)) = e_tag e.
Proof. intros e; simpl; auto 10. Qed.

Lemma pop_attrib_once : forall e k, attrs_unique e ->
  let (v, e') := pop_attrib k e in
  v = attr_of e k /\ attr_of e' k = None /\ fst (pop_attrib k e') = None /\
  (forall k', k' <> k -> attr_of e' k' = attr_of e k') /\
  e_text e' = e_text e /\ e_tail e' = e_tail e /\ e_elems e' = e_elems e /\
  e_next e' = e_next e /\ e_tag e' = e_tag e /\ attrs_unique e'.
Proof.
  intros e k Hu; unfold pop_attrib, attr_of, get_attrib, attrs_unique in *.
  destruct (e_attrib e) as [d|] eqn:Ha; simpl.
  - destruct (dget k d) as [v|] eqn:Hd; simpl.
    + rewrite (dget_ddel_same k d Hu). repeat split; auto.
      * intros k' Hk; apply dget_ddel_other; auto.
      * apply nodup_ddel; auto.
    + rewrite Ha, Hd; repeat split; auto.
  - rewrite Ha; repeat split; auto.
Qed.

(** ---- snapshots ---- *)
Lemma create_snapshot_id : forall e, create_snapshot e = e.
Proof.
  intros e; induction e as [tag ns text tail attrib elements next line IH] using elem_ind'.
  simpl. unfold set_next, new_elem; simpl. f_equal.
  induction IH as [|c l Hc _ IHl]; simpl; auto. rewrite Hc, IHl; auto.
Qed.

Lemma apply_snapshot_id : forall e s, e_line s = e_line e -> apply_snapshot e s = s.
Proof. intros e [tag ns text tail attrib elements next line]; unfold apply_snapshot; simpl; intros ->; auto. Qed.

(** ---- bounds ---- *)
Lemma in_bounds_inv : forall e, in_bounds e ->
  e_next e <= length (e_elems e) /\ Forall in_bounds (e_elems e).
Proof. intros e H; inversion H; auto. Qed.

Lemma Forall_list_upd : forall A (P : A -> Prop) i x l, Forall P l -> P x -> Forall P (list_upd i x l).
Proof.
  intros A P i x l Hl Hx; revert i; induction Hl as [|y l Hy Hl IH]; intros [|i]; simpl; auto.
Qed.

Lemma Forall_list_swap : forall A (P : A -> Prop) i j l, Forall P l -> Forall P (list_swap i j l).
Proof.
  intros A P i j l H; unfold list_swap.
  destruct (nth_error l i) as [x|] eqn:Ei; auto. destruct (nth_error l j) as [y|] eqn:Ej; auto.
  apply nth_error_In in Ei, Ej. rewrite Forall_forall in H.
  apply Forall_list_upd; [apply Forall_list_upd|]; auto. rewrite Forall_forall; auto.
Qed.

Lemma put_child_in_bounds : forall i c e, in_bounds e -> in_bounds c -> in_bounds (put_child i c e).
Proof.
  intros i c e He Hc; apply in_bounds_inv in He; destruct He as [Hn Hf].
  constructor; simpl; [rewrite list_upd_length; auto | apply Forall_list_upd; auto].
Qed.

Lemma search_in_bounds : forall m e tag behind step, in_bounds e ->
  let (r, e') := search m e tag behind step in
  in_bounds e' /\
  match r with
  | Found i => i < length (e_elems e')
  | NotFound => True
  | IndexErr => False
  end /\
  (step = true \/ behind = true \/ r = NotFound \/ e_next e' < length (e_elems e')) /\
  length (e_elems e') = length (e_elems e) /\ e_next e <= e_next e' /\
  (r = NotFound -> e' = e) /\
  match r with Found i => (i < e_next e') \/ step = false | _ => True end.
Proof.
  intros m e tag behind step He. pose proof (in_bounds_inv He) as [Hn Hf].
  assert (Hnone : forall e0, e0 = e -> in_bounds e0 /\ True /\ (step = true \/ behind = true \/ NotFound = NotFound \/ e_next e0 < length (e_elems e0)) /\ length (e_elems e0) = length (e_elems e) /\ e_next e <= e_next e0 /\ (NotFound = NotFound -> e0 = e) /\ True)
    by (intros e0 ->; auto 10).
  assert (Hfwd : let (r, e') := forward m e tag step in
     in_bounds e' /\ match r with Found i => i < length (e_elems e') | NotFound => True | IndexErr => False end /\
     (step = true \/ r = NotFound \/ e_next e' < length (e_elems e')) /\
     length (e_elems e') = length (e_elems e) /\ e_next e <= e_next e' /\ (r = NotFound -> e' = e) /\
     match r with Found i => (i < e_next e') \/ step = false | _ => True end).
  { destruct m; simpl.
    - unfold strict_forward. destruct (nth_error (e_elems e) (e_next e)) as [c|] eqn:Hc; [|auto 10].
      assert (e_next e < length (e_elems e)) by (apply nth_error_Some; congruence).
      destruct (tag_is (e_tag c) tag); [|auto 10].
      destruct step; simpl; (split; [constructor; simpl; auto; lia|]); repeat split; auto; try lia; try discriminate.
    - unfold ordered_forward.
      destruct (find_from (e_next e) (skipn (e_next e) (e_elems e)) tag) as [j|] eqn:F; [|auto 10].
      apply find_from_range in F. rewrite skipn_length in F.
      destruct step; simpl; (split; [constructor; simpl; auto; lia|]); repeat split; auto; try lia; try discriminate.
    - unfold unordered_forward.
      destruct (find_from (e_next e) (skipn (e_next e) (e_elems e)) tag) as [j|] eqn:F; [|auto 10].
      apply find_from_range in F. rewrite skipn_length in F.
      destruct step; simpl; rewrite list_swap_length;
        (split; [constructor; simpl; rewrite ?list_swap_length; [lia|apply Forall_list_swap; auto]|]);
        repeat split; auto; try lia; try discriminate. }
  unfold search. destruct behind.
  - unfold look_behind. destruct (e_next e) as [|i] eqn:En.
    + rewrite <- En in *. destruct (forward m e tag step) as [r e']. intuition.
    + destruct (nth_error (e_elems e) i) as [c|] eqn:Hc.
      2:{ apply nth_error_None in Hc; lia. }
      destruct (tag_is (e_tag c) tag).
      * split; [auto|]. split; [lia|]. rewrite En. repeat split; auto; try discriminate. 
      * rewrite <- En in *. destruct (forward m e tag step) as [r e']. intuition.
  - destruct (forward m e tag step) as [r e']. intuition.
Qed.
