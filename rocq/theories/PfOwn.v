(** PfOwn.v -- C04 for whole fields: the children behind different values are different. *)

From Verif Require Import Base Elem Native Errs Names Ser Read SpecElem SpecRead SpecOwn PfElem PfTerm PfWrite3.

Definition spent (e e' : elem) (k : nat) : Prop :=
  exists used, Permutation (used ++ unread e') (unread e) /\ k <= length used.

Lemma spent_refl : forall e, spent e e 0.
Proof. intros e; exists []; simpl; auto. Qed.

Lemma spent_weaken : forall e e' k k', spent e e' k -> k' <= k -> spent e e' k'.
Proof. intros e e' k k' (u & P & L) H; exists u; split; auto; lia. Qed.

Lemma spent_trans : forall e1 e2 e3 k k', spent e1 e2 k -> spent e2 e3 k' -> spent e1 e3 (k + k').
Proof.
  intros e1 e2 e3 k k' (u & P & L) (u' & P' & L'). exists (u ++ u'). split; [|rewrite app_length; lia].
  rewrite <- app_assoc, P'. exact P.
Qed.

Lemma spent_same : forall e e', unread e' = unread e -> spent e e' 0.
Proof. intros e e' H; exists []; simpl; rewrite H; auto. Qed.

Lemma skipn_skipn : forall A n m (l : list A), skipn n (skipn m l) = skipn (n + m) l.
Proof.
  intros A n m; revert n; induction m as [|m IH]; intros n l; [rewrite Nat.add_0_r; auto|].
  destruct l as [|x l]; [rewrite !skipn_nil; auto|]. rewrite Nat.add_succ_r. simpl. apply IH.
Qed.

Definition weight (s : ser) (o : out val) : nat := match o with Ok v => children_of s v | _ => 0 end.
Definition pays (s : ser) (r : reader) : Prop := forall eas loc st0,
  spent (st_el st0) (st_el (snd (r eas loc st0))) (weight s (fst (r eas loc st0))).

Lemma put_child_unread : forall i c e, i < e_next e -> unread (put_child i c e) = unread e.
Proof. intros i c e H. unfold unread, put_child; simpl. apply skipn_list_upd; auto. Qed.

Lemma on_child_unread : forall A i (f : st -> rres A) s, i < e_next (st_el s) ->
  unread (st_el (snd (on_child i f s))) = unread (st_el s).
Proof.
  intros A i f s H. unfold on_child. destruct (nth_error _ i) as [c|]; auto.
  destruct (f _) as [o s']; simpl. apply put_child_unread; auto.
Qed.

Lemma pop_spent : forall m e tag r e', pop_element e tag m = (r, e') ->
  match r with Found i => i < e_next e' /\ spent e e' 1 | NotFound => e' = e | IndexErr => False end.
Proof.
  intros m e tag r e' H. pose proof (pop_element_takes m e tag) as T. rewrite H in T. destruct T as (T1 & _ & T2 & T3).
  destruct r as [|i|]; auto.
  assert (L : i < e_next e').
  { clear T1 T2 T3. unfold pop_element, search in H. destruct m; simpl in H.
    - unfold strict_forward in H. destruct (nth_error _ _) as [c|]; [|discriminate]. destruct (tag_is _ _); [|discriminate].
      injection H as <- <-; simpl; lia.
    - unfold ordered_forward in H. destruct (find_from _ _ _) as [j|]; [|discriminate]. injection H as <- <-; simpl; lia.
    - unfold unordered_forward in H. destruct (find_from _ _ _) as [j|]; [|discriminate]. injection H as <- <-; simpl; lia. }
  split; auto. unfold handed in T2.
  destruct (nth_error (e_elems e') i) as [c|] eqn:En.
  - apply takes_unread in T2 as [gone P]. exists (c :: gone). split; [symmetry; exact P|simpl; lia].
  - exfalso. clear T1 T3. unfold pop_element, search in H. destruct m; simpl in H.
    + unfold strict_forward in H. destruct (nth_error _ _) as [c|] eqn:E1; [|discriminate]. destruct (tag_is _ _); [|discriminate].
      injection H as <- <-; simpl in En; congruence.
    + unfold ordered_forward in H. destruct (find_from _ _ _) as [j|] eqn:Ef; [|discriminate]. injection H as <- <-; simpl in En.
      pose proof (find_from_range _ _ _ Ef) as R. rewrite skipn_length in R. apply nth_error_None in En. lia.
    + unfold unordered_forward in H. destruct (find_from _ _ _) as [j|] eqn:Ef; [|discriminate]. injection H as <- <-; simpl in En.
      pose proof (find_from_range _ _ _ Ef) as R. rewrite skipn_length in R. apply nth_error_None in En.
      rewrite list_swap_length in En. lia.
Qed.

Lemma peek_spent : forall m e tag r e', forward m e tag false = (r, e') -> spent e e' 0.
Proof.
  intros m e tag r e' H. destruct m; simpl in H.
  - unfold strict_forward in H. destruct (nth_error _ _) as [c|]; [destruct (tag_is _ _)|]; injection H as <- <-; apply spent_refl.
  - unfold ordered_forward in H. destruct (find_from _ _ _) as [j|]; injection H as <- <-; apply spent_refl.
  - unfold unordered_forward in H. fold (unread e) in H.
    pose proof (find_from_spec tag (unread e) (e_next e)) as F.
    destruct (find_from _ _ _) as [j|]; injection H as <- <-; [|apply spent_refl].
    destruct F as (skip & c & rest & Hu & -> & _ & _).
    assert (Hlen : length (passed e) = e_next e).
    { destruct skip as [|x sk]; eapply unread_cons_next; rewrite Hu; simpl; reflexivity. }
    assert (He : e_elems e = passed e ++ skip ++ c :: rest) by (rewrite <- Hu; apply split_at_cursor).
    exists []. split; [|simpl; lia]. cbn [app]. rewrite Hu. unfold unread; cbn [e_elems e_next set_elems].
    rewrite He, <- Hlen, list_swap_cursor.
    destruct skip as [|x skip]; rewrite skipn_app_len by auto; simpl; auto.
    rewrite <- (Permutation_middle skip rest x), <- (Permutation_middle skip rest c). apply perm_swap.
Qed.

Lemma with_found_pays : forall s tag m (f : st -> rres val) s0,
  (forall v, children_of s v <= 1) ->
  spent (st_el s0) (st_el (snd (with_found (pop_element (st_el s0) tag m) f s0)))
    (weight s (fst (with_found (pop_element (st_el s0) tag m) f s0))).
Proof.
  intros s tag m f s0 Hw. destruct (pop_element (st_el s0) tag m) as [r e'] eqn:E. apply pop_spent in E.
  unfold with_found. destruct r as [|i|].
  - subst. simpl. replace (children_of s VNone) with 0 by (destruct s; auto). apply spent_refl.
  - destruct E as [L E]. destruct (on_child i f (set_el e' s0)) as [o s1] eqn:Eo.
    pose proof (@on_child_unread _ i f (set_el e' s0) L) as U. rewrite Eo in U. simpl in U |- *.
    destruct E as (used & P & K). exists used. rewrite U. split; auto.
    destruct o; simpl; try lia. specialize (Hw a); lia.
  - contradiction.
Qed.

Lemma children_none : forall s, children_of s VNone = 0.
Proof. destruct s; auto. Qed.

Lemma pays_none : forall s st0, spent (st_el st0) (st_el (snd (@Ok val VNone, st0))) (weight s (fst (@Ok val VNone, st0))).
Proof. intros; simpl. rewrite children_none. apply spent_refl. Qed.

Lemma children_one : forall s v,
  match s with SElem _ _ _ _ _ | SMapElem _ _ _ | SRaw _ _ _ | SProxy _ | SUnionModel _ _ _ _ | STagged _ _ _ _ _ => True | _ => False end ->
  children_of s v <= 1.
Proof. intros s v H; destruct s; try contradiction; destruct v; simpl; auto. Qed.

Lemma items_pay : forall inner r, pays inner r -> forall k title hide eas loc idx result errors s0,
  let o := read_items k r title hide eas loc idx result errors s0 in
  spent (st_el s0) (st_el (snd o)) 0 /\
  (forall l, fst o = Ok (VList l) -> exists more, l = result ++ more /\
     spent (st_el s0) (st_el (snd o)) (total (map (children_of inner) more))).
Proof.
  intros inner r Hr k; induction k as [|k IH]; intros title hide eas loc idx result errors s0; cbn [read_items].
  - split; [apply spent_refl|discriminate].
  - specialize (Hr eas (loc ++ [LIdx idx]) s0). destruct (r eas (loc ++ [LIdx idx]) s0) as [o s1]; cbn [fst snd] in Hr.
    assert (D : forall x : rres val, x = read_items k r title hide eas loc (S idx) result errors s1 -> True) by auto. clear D.
    assert (G0 : spent (st_el s0) (st_el s1) 0) by (eapply spent_weaken; [exact Hr|lia]).
    assert (Go : forall result' errors', spent (st_el s0) (st_el (snd (read_items k r title hide eas loc (S idx) result' errors' s1))) 0).
    { intros. replace 0 with (0 + 0) by auto. eapply spent_trans; [exact G0|]. apply IH. }
    assert (Gs : forall v, o = Ok v -> forall errors', let q := read_items k r title hide eas loc (S idx) (result ++ [v]) errors' s1 in
       spent (st_el s0) (st_el (snd q)) 0 /\
       (forall l, fst q = Ok (VList l) -> exists more, l = result ++ more /\
          spent (st_el s0) (st_el (snd q)) (total (map (children_of inner) more)))).
    { intros v Ev errors' q. split; [apply Go|]. intros l El.
      destruct (IH title hide eas loc (S idx) (result ++ [v]) errors' s1) as [_ N]. destruct (N _ El) as (more & -> & Sp).
      exists (v :: more). split; [rewrite <- app_assoc; auto|]. simpl. eapply spent_trans; [|exact Sp].
      subst o; exact Hr. }
    destruct o as [v|x|].
    + destruct v; try (apply Gs; reflexivity).
      destruct errors as [|er ers]; simpl; (split; [exact G0|]); [|discriminate].
      intros l El. destruct result as [|y ys]; [discriminate|]. injection El as <-. exists []. rewrite app_nil_r. split; auto.
    + destruct x; try (split; [exact G0|discriminate]).
      split; [apply Go|]. intros l El.
      match goal with |- context[read_items k r title hide eas loc (S idx) result ?er s1] =>
        destruct (IH title hide eas loc (S idx) result er s1) as [_ N]; destruct (N _ El) as (more & -> & Sp) end.
      exists more; split; auto. replace (total (map (children_of inner) more)) with (0 + total (map (children_of inner) more)) by auto.
      eapply spent_trans; eauto.
    + split; [exact G0|discriminate].
Qed.

Fixpoint zip_children (ss : list ser) (vs : list val) : nat :=
  match ss, vs with s :: ss', v :: vs' => children_of s v + zip_children ss' vs' | _, _ => 0 end.

Lemma tuple_pays : forall r ss, Forall (fun s => pays s (r s)) ss -> forall title hide eas loc idx result errors s0,
  let o := read_tuple (map r ss) title hide eas loc idx result errors s0 in
  spent (st_el s0) (st_el (snd o)) 0 /\
  (forall l, fst o = Ok (VList l) -> errors = [] /\ exists more, l = result ++ more /\
     spent (st_el s0) (st_el (snd o)) (zip_children ss more)).
Proof.
  intros r ss H; induction H as [|s ss Hr H IH]; intros title hide eas loc idx result errors s0; cbn [map read_tuple].
  - destruct errors as [|e0 errors]; simpl; (split; [apply spent_refl|]); [|discriminate]. intros l El.
    destruct (forallb is_none result); [discriminate|]. injection El as <-. split; auto. exists []. rewrite app_nil_r. split; auto.
    apply spent_refl.
  - specialize (Hr eas (loc ++ [LIdx idx]) s0). destruct (r s eas (loc ++ [LIdx idx]) s0) as [o s1]; cbn [fst snd] in Hr.
    assert (G0 : spent (st_el s0) (st_el s1) 0) by (eapply spent_weaken; [exact Hr|lia]).
    destruct o as [v|x|].
    + destruct (IH title hide eas loc (S idx) (result ++ [v]) errors s1) as [I1 I2]. split.
      * replace 0 with (0 + 0) by auto. eapply spent_trans; eauto.
      * intros l El. destruct (I2 _ El) as (E0 & more & -> & Sp). split; auto. exists (v :: more). split; [rewrite <- app_assoc; auto|].
        simpl. eapply spent_trans; [exact Hr|exact Sp].
    + destruct x; try (split; [exact G0|discriminate]).
      match goal with |- context[read_tuple _ _ _ _ _ _ _ ?er s1] =>
        destruct (IH title hide eas loc (S idx) result er s1) as [I1 I2] end. split.
      * replace 0 with (0 + 0) by auto. eapply spent_trans; eauto.
      * intros l El. destruct (I2 _ El) as (E0 & _). destruct errors; discriminate.
    + split; [exact G0|discriminate].
Qed.

Lemma variants_pay : forall us rs, (forall v, children_of us v <= 1) ->
  Forall (fun r : reader => forall eas loc s0, spent (st_el s0) (st_el (snd (r eas loc s0)))
            (match fst (r eas loc s0) with Ok VNone => 0 | Ok _ => 1 | _ => 0 end)) rs ->
  forall title hide eas loc errors s0,
  let o := read_variants rs title hide eas loc errors s0 in
  spent (st_el s0) (st_el (snd o)) (weight us (fst o)).
Proof.
  intros us rs Hu H; induction H as [|r rs Hr H IH]; intros title hide eas loc errors s0; cbn [read_variants].
  - destruct errors as [|e0 errors]; [apply pays_none|]. simpl. exists (firstn 1 (unread (st_el s0))). split; [|lia].
    change (unread (step_forward (st_el s0))) with (skipn (1 + e_next (st_el s0)) (e_elems (st_el s0))).
    rewrite <- skipn_skipn. fold (unread (st_el s0)). rewrite firstn_skipn. auto.
  - rewrite create_snapshot_id. specialize (Hr eas loc (set_el (st_el s0) s0)).
    destruct (r eas loc (set_el (st_el s0) s0)) as [o s1]; cbn [fst snd] in Hr. simpl in Hr.
    destruct o as [v|x|].
    + assert (A : forall k, spent (st_el s0) (st_el s1) k -> spent (st_el s0) (apply_snapshot (st_el s0) (st_el s1)) k)
        by (intros k (u & P & L); exists u; split; auto).
      pose proof (Hu v) as Hv. destruct v; try (apply A; eapply spent_weaken; [exact Hr|exact Hv]).
      apply (IH title hide eas loc errors (St (st_el s0) (st_sm s1))).
    + destruct x; try (simpl; apply spent_refl).
      match goal with |- context[read_variants rs title hide eas loc ?er ?q] => apply (IH title hide eas loc er q) end.
    + simpl; apply spent_refl.
Qed.

Lemma tagged_pays : forall us rp, (forall v, children_of us v <= 1) -> (forall p eas loc s0,
    spent (st_el s0) (st_el (snd (rp p eas loc s0))) (match fst (rp p eas loc s0) with Ok VNone => 0 | Ok _ => 1 | _ => 0 end)) ->
  forall a mode vs eas loc s0,
  let o := read_tagged rp a mode vs eas loc s0 in spent (st_el s0) (st_el (snd o)) (weight us (fst o)).
Proof.
  intros us rp Hu Hr a mode vs; induction vs as [|[tag p] vs IH]; intros eas loc s0; cbn [read_tagged]; [apply pays_none|].
  unfold find_element, search. destruct (forward mode (st_el s0) (px_name p) false) as [r e'] eqn:E. apply peek_spent in E.
  assert (N : spent (st_el s0) (st_el (snd (read_tagged rp a mode vs eas loc (set_el e' s0))))
                (weight us (fst (read_tagged rp a mode vs eas loc (set_el e' s0))))).
  { change (weight us ?x) with (0 + weight us x). eapply spent_trans; [exact E|]. apply (IH eas loc (set_el e' s0)). }
  destruct r as [|i|].
  - exact N.
  - destruct (nth_error (e_elems e') i) as [c|]; [|exact E].
    destruct (match get_attrib a c with Some t => _ | None => false end); [|exact N].
    change (weight us ?x) with (0 + weight us x). eapply spent_trans; [exact E|].
    specialize (Hr p eas loc (St e' (sset loc (e_line c) (st_sm s0)))).
    destruct (rp p eas loc _) as [o s1]; cbn [fst snd] in *. eapply spent_weaken; [exact Hr|].
    destruct o as [v| |]; simpl; auto. specialize (Hu v); destruct v; auto. rewrite children_none; auto.
  - exact E.
Qed.

Lemma find_sub_spent : forall path m e r e', find_sub_element path m e = (r, e') ->
  spent e e' 0 /\ match r with Some (i :: _) => i < e_next e' | _ => True end.
Proof.
  intros path m e r e' H. destruct path as [|tag rest]; cbn [find_sub_element] in H.
  - injection H as <- <-; split; auto. apply spent_refl.
  - unfold find_element in H. destruct (search m e tag true true) as [r0 e1] eqn:E.
    assert (B : spent e e1 0 /\ match r0 with Found i => i < e_next e1 | _ => True end).
    { unfold search in E. destruct (look_behind e tag) as [|i|] eqn:El.
      - pose proof (pop_spent m e tag) as P. unfold pop_element, search in P. specialize (P _ _ E).
        destruct r0 as [|i|]; try (subst; split; auto; apply spent_refl).
        + destruct P as [P1 P2]; split; auto. eapply spent_weaken; eauto.
        + contradiction.
      - injection E as <- <-. split; [apply spent_refl|]. unfold look_behind in El. destruct (e_next e) as [|j]; [discriminate|].
        destruct (nth_error _ j); [|discriminate]. destruct (tag_is _ _); [|discriminate]. injection El as <-; lia.
      - injection E as <- <-. split; auto. apply spent_refl. }
    destruct B as [B1 B2]. destruct r0 as [|i|].
    + injection H as <- <-; auto.
    + destruct rest as [|t2 rest].
      * injection H as <- <-; auto.
      * destruct (nth_error (e_elems e1) i) as [c|]; [|injection H as <- <-; auto].
        destruct (find_sub_element (t2 :: rest) m c) as [r1 c']. injection H as <- <-. split.
        -- destruct B1 as (u & P & L). exists u. rewrite put_child_unread; auto.
        -- destruct r1; simpl; auto.
    + injection H as <- <-; auto.
Qed.

Lemma proxy_pays : forall ev r p eas loc s0,
  spent (st_el s0) (st_el (snd (read_proxy ev r p eas loc s0)))
    (match fst (read_proxy ev r p eas loc s0) with Ok VNone => 0 | Ok _ => 1 | _ => 0 end).
Proof.
  intros ev r p eas loc s0. unfold read_proxy. destruct (en_model ev (px_model p)) as [m|]; [|apply spent_refl].
  destruct (px_computed p); [apply spent_refl|].
  match goal with |- context[with_found _ ?f _] => set (F := f) end.
  pose proof (@with_found_pays (SProxy p) (px_name p) (px_mode p) F s0 (fun v => children_one (SProxy p) v I)) as W.
  eapply spent_weaken; [exact W|]. destruct (fst _) as [v| |]; simpl; auto.
Qed.

Lemma read_pays : forall n ev s, pays s (read n ev s).
Proof.
  intros n ev; induction n as [|n IH]; intros s; cbn [read]; [intros eas loc s0; apply spent_refl|].
  intros eas loc s0. destruct s; cbn [read_step].
  - unfold read_text. destruct computed; [apply pays_none|].
    assert (X : forall e o, unread e = unread (st_el s0) -> spent (st_el s0) e (weight (SText false nillable) o)).
    { intros e o U. replace (weight _ o) with 0; [apply spent_same; auto|]. destruct o as [v| |]; auto. destruct v; auto. }
    assert (U : unread (snd (if nillable then is_element_nill (st_el s0) else (false, st_el s0))) = unread (st_el s0)).
    { destruct nillable; auto. unfold is_element_nill, pop_attrib. destruct (e_attrib _) as [d|]; auto. destruct (dget _ d); auto. }
    destruct (if nillable then _ else _) as [nil e1]. destruct nil; cbn [pop_text fst snd st_el set_el]; apply X; auto.
  - unfold read_attr. destruct computed; [apply pays_none|].
    replace (weight _ _) with 0.
    + unfold pop_attrib. destruct (e_attrib _) as [d|]; [destruct (dget _ d)|]; apply spent_same; reflexivity.
    + unfold pop_attrib. destruct (e_attrib _) as [d|]; [destruct (dget _ d)|]; auto.
  - unfold read_elem. destruct computed; [apply pays_none|]. apply with_found_pays. intros v; apply children_one; simpl; auto.
  - unfold read_attrs. destruct (as_computed a); [apply pays_none|]. unfold pop_attributes.
    destruct (e_attrib (st_el s0)); simpl; apply spent_same; auto.
  - unfold read_map_elem. destruct (as_computed a); [apply pays_none|]. apply with_found_pays. intros v; apply children_one; simpl; auto.
  - unfold read_homo. destruct computed; [apply pays_none|].
    destruct (@items_pay s (read n ev s) (IH s) n title hide eas loc 0 [] [] s0) as [I1 I2].
    destruct (read_items _ _ _ _ _ _ _ _ _ _) as [o s1]; cbn [fst snd] in *.
    destruct o as [v| |]; auto. destruct v; auto. destruct (I2 _ eq_refl) as (more & -> & Sp). exact Sp.
  - unfold read_hetero. destruct computed; [apply pays_none|].
    destruct (@tuple_pays (read n ev) inners (proj2 (Forall_forall _ _) (fun s _ => IH s)) title hide eas loc 0 [] [] s0) as [I1 I2].
    destruct (read_tuple _ _ _ _ _ _ _ _ _) as [o s1]; cbn [fst snd] in *.
    destruct o as [v| |]; auto. destruct v; auto. destruct (I2 _ eq_refl) as (_ & more & -> & Sp). exact Sp.
  - unfold read_union_prim. destruct computed; [apply pays_none|].
    specialize (IH s eas loc s0). destruct (read n ev s eas loc s0) as [o s1]; cbn [fst snd] in *.
    eapply spent_weaken; [exact IH|]. destruct o as [v| |]; simpl; auto. destruct v; auto. lia.
  - unfold read_union_model. destruct computed; [apply pays_none|].
    apply variants_pay with (us := SUnionModel title false variants hide).
    + intros v; apply children_one; simpl; auto.
    + apply Forall_map, Forall_forall. intros p _. apply proxy_pays.
  - destruct computed; [apply pays_none|].
    apply tagged_pays with (us := STagged false disc attr_name variants mode).
    + intros v; apply children_one; simpl; auto.
    + apply proxy_pays.
  - unfold read_wrap. destruct computed; [apply pays_none|].
    assert (W : forall o, weight (SWrap path nsm mode false s) o = 0) by (intros [v| |]; auto; destruct v; auto).
    destruct (find_sub_element path mode (st_el s0)) as [[idxs|] e'] eqn:E; apply find_sub_spent in E as [E1 E2].
    + destruct (_ && _) eqn:Ec; [|rewrite W; exact E1]. destruct idxs as [|i idxs]; [discriminate|].
      rewrite W. cbn [on_path].
      match goal with |- context[on_child i ?f ?q] => pose proof (@on_child_unread _ i f q E2) as U end.
      destruct (on_child _ _ _) as [o s1]; cbn [fst snd] in *. destruct E1 as (u & P & L). exists u. rewrite U. split; auto.
    + rewrite W; exact E1.
  - unfold read_raw. destruct computed; [apply pays_none|]. apply with_found_pays. intros v; apply children_one; simpl; auto.
  - eapply spent_weaken; [apply proxy_pays|]. destruct (fst _) as [v| |]; simpl; auto.
Qed.

(** ---- xsi:nil ---- *)
Lemma not_nil_attr : forall c, attr_of c xsi_nil <> Some "true" -> exists c',
  is_element_nill c = (false, c') /\ e_text c' = e_text c /\
  same_shell (set_attrib_o (e_attrib c') c) c' /\ e_elems c' = e_elems c /\ e_next c' = e_next c /\
  (forall k, k <> xsi_nil -> attr_of c' k = attr_of c k).
Proof.
  intros c H. unfold is_element_nill, pop_attrib. unfold attr_of in H.
  destruct (e_attrib c) as [d|] eqn:A.
  - destruct (dget xsi_nil d) as [v|] eqn:G.
    + assert (String.eqb v "true" = false) by (apply String.eqb_neq; congruence). rewrite H0. eexists. split; [reflexivity|].
      unfold same_shell; simpl. repeat split; auto. intros k Hk. unfold attr_of; simpl. rewrite A.
      clear - Hk. induction d as [|[x w] d IH]; auto. cbn [ddel filter fst].
      destruct (String.eqb xsi_nil x) eqn:E; simpl.
      * apply String.eqb_eq in E; subst x. apply String.eqb_neq in Hk. rewrite Hk. first [exact IH|reflexivity].
      * destruct (String.eqb k x); auto.
    + eexists; split; [reflexivity|]. unfold same_shell; simpl; rewrite ?A; repeat split; auto.
  - eexists; split; [reflexivity|]. unfold same_shell; simpl; rewrite ?A; repeat split; auto.
Qed.

Lemma not_nil_prim : forall ev tag ns m n eas loc st0 c after,
  takes tag m (passed (st_el st0), unread (st_el st0)) (Some c) after -> attr_of c xsi_nil <> Some "true" ->
  exists v, fst (read (S n) ev (SElem tag ns m false true) eas loc st0) = Ok v /\ text_value eas c v.
Proof.
  intros ev tag ns m n eas loc [e sm] c after H A. cbn [read read_step]. unfold read_elem. simpl in *.
  rewrite (@taken_child _ _ _ _ _ H). unfold read_text. simpl.
  destruct (not_nil_attr c A) as (c' & Ec & Et & _). rewrite Ec. simpl. rewrite Et.
  unfold text_or_default, text_value. destruct (e_text c) as [t|]; simpl.
  - destruct (String.eqb t "") eqn:E; simpl.
    + apply String.eqb_eq in E; subst. eexists; split; [reflexivity|]. right; split; auto; destruct eas; auto.
    + apply String.eqb_neq in E. eexists; split; [reflexivity|]. left; eauto.
  - eexists; split; [reflexivity|]. right; split; auto; destruct eas; auto.
Qed.

Lemma not_nil_model : forall ev p md n eas loc st0 c after,
  en_model ev (px_model p) = Some md -> px_computed p = false ->
  takes (px_name p) (px_mode p) (passed (st_el st0), unread (st_el st0)) (Some c) after ->
  attr_of c xsi_nil <> Some "true" ->
  exists c', same_shell (set_attrib_o (e_attrib c') c) c' /\ e_elems c' = e_elems c /\ e_next c' = e_next c /\
    (forall k, k <> xsi_nil -> attr_of c' k = attr_of c k) /\
    fst (read (S n) ev (SProxy p) eas loc st0) =
    fst (read_model (read n ev) md eas loc (St c' (sset loc (e_line c) (st_sm st0)))).
Proof.
  intros ev p md n eas loc [e sm] c after Hm C H A. cbn [read read_step]. unfold read_proxy. rewrite Hm, C. simpl in *.
  destruct (not_nil_attr c A) as (c' & Ec & _ & S1 & S2 & S3 & S4). exists c'. do 4 (split; auto).
  rewrite (@taken_child _ _ _ _ _ H). simpl. rewrite Ec. reflexivity.
Qed.
