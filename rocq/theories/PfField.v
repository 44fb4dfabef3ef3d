(** PfField.v -- every field bound to one child element takes it as its search mode says. *)

From Verif Require Import Base Elem Native Errs Names Ser Read SpecElem SpecRead PfElem.

Lemma takes_some_last : forall tag m pu c p' u',
  takes tag m pu (Some c) (p', u') -> exists before, p' = before ++ [c].
Proof. intros tag m pu c p' u' H; inversion H; subst; eauto. eexists; rewrite app_assoc; eauto. Qed.

Lemma takes_none_same : forall tag m pu pu', takes tag m pu None pu' -> pu' = pu.
Proof. intros tag m pu pu' H; inversion H; subst; auto. Qed.

(** the index returned by a taking search is the last passed one *)
Lemma pop_element_found : forall m e tag i e', pop_element e tag m = (Found i, e') ->
  e_next e' = S i /\ i < length (e_elems e').
Proof.
  intros m e tag i e'; unfold pop_element, search; destruct m; simpl.
  - unfold strict_forward. destruct (nth_error (e_elems e) (e_next e)) as [c|] eqn:E; [|discriminate].
    destruct (tag_is (e_tag c) tag); [|discriminate]. injection 1 as <- <-; simpl.
    split; auto. apply nth_error_Some; congruence.
  - unfold ordered_forward. destruct (find_from _ _ _) as [j|] eqn:E; [|discriminate].
    injection 1 as <- <-; simpl; split; auto. apply find_from_range in E. rewrite skipn_length in E; lia.
  - unfold unordered_forward. destruct (find_from _ _ _) as [j|] eqn:E; [|discriminate].
    injection 1 as <- <-; simpl; split; auto. rewrite list_swap_length.
    apply find_from_range in E. rewrite skipn_length in E; lia.
Qed.

Lemma put_last_passed : forall e i c c' before, e_next e = S i -> i < length (e_elems e) ->
  passed e = before ++ [c] ->
  passed (put_child i c' e) = before ++ [c'] /\ unread (put_child i c' e) = unread e.
Proof.
  intros e i c c' before Hn Hi Hp. split.
  - unfold passed, put_child in *; cbn [e_next e_elems set_elems]. rewrite Hn in *.
    destruct (nth_error (e_elems e) i) as [x|] eqn:Hx; [|apply nth_error_None in Hx; lia].
    pose proof (firstn_succ_nth (e_elems e) i Hx) as F. rewrite F in Hp.
    apply app_inj_tail in Hp as [Hp _].
    rewrite (@firstn_succ_nth _ _ i c'); [|apply nth_error_list_upd_same; auto].
    rewrite <- Hp. f_equal. clear. generalize (e_elems e) as l; induction i as [|i IH]; intros [|y l]; simpl; auto.
    f_equal; auto.
  - unfold unread, put_child; cbn [e_next e_elems set_elems]. apply skipn_list_upd. lia.
Qed.

(** the shared shape of every reader of one child *)
Lemma with_found_takes : forall tag m f s fs eas,
  (forall c r s', f (St c (st_sm s)) = (r, s') -> value_of_child fs eas c r (st_el s')) ->
  let (r, s') := with_found (pop_element (st_el s) tag m) f s in
  field_takes tag m fs eas (st_el s) r (st_el s').
Proof.
  intros tag m f s fs eas Hv. pose proof (pop_element_takes m (st_el s) tag) as T.
  destruct (pop_element (st_el s) tag m) as [r e1] eqn:E. simpl in T. destruct T as (Hi & Hsh & Ht & Hn).
  destruct r as [|i|]; simpl; [left| |congruence].
  - rewrite (Hn eq_refl) in *. simpl in Ht. auto.
  - apply pop_element_found in E as [Hnext Hlen].
    unfold on_child; simpl. simpl in Ht.
    destruct (nth_error (e_elems e1) i) as [c|] eqn:Hc; [|apply nth_error_None in Hc; lia].
    destruct (f _) as [r' s'] eqn:F; simpl. right.
    destruct (takes_some_last Ht) as [before Hb]. rewrite Hb in Ht.
    destruct (@put_last_passed e1 i c (st_el s') before Hnext Hlen Hb) as [P U].
    exists c, (st_el s'), before, (unread e1); do 3 (split; [auto|]). split; [exact Hsh|].
    eapply Hv; eauto.
Qed.

Lemma text_or_default_value : forall eas c, text_value eas c (text_or_default eas (e_text c)).
Proof.
  intros eas c; unfold text_value, text_or_default, str_truthy.
  destruct (e_text c) as [t|]; [|right; auto].
  destruct (String.eqb_spec t "") as [->|Ht]; simpl; [right; auto|left; eauto].
Qed.

Lemma read_text_value : forall ns tag m ni eas loc c r s',
  read_text false ni eas loc (note_line loc c) = (r, s') ->
  value_of_child (SElem ns tag m false ni) eas (st_el c) r (st_el s').
Proof.
  intros ns tag m ni eas loc c r s' E H. destruct ni; [contradiction|].
  unfold read_text in E; simpl in E. injection E as <- <-.
  eexists; split; [reflexivity|]. split; [apply text_or_default_value|]. simpl; auto.
Qed.

Lemma read_bound_takes : forall ev tag m s, bound_to ev tag m s ->
  forall n eas loc st0 r st1, read n ev s eas loc st0 = (r, st1) -> r <> Fuel ->
  field_takes tag m s eas (st_el st0) r (st_el st1).
Proof.
  intros ev tag m s H n eas loc st0 r st1 E Hf.
  destruct n as [|n]; [simpl in E; injection E as <- <-; congruence|].
  destruct H as [nsm ni|nsm ni|a Ha| |cls nsm ni md Hm]; simpl in E.
  - unfold read_elem in E.
    match type of E with with_found _ ?f _ = _ =>
      pose proof (@with_found_takes tag m f st0 (SElem tag nsm m false ni) eas) as W end.
    rewrite E in W; apply W. intros c r' s' Ec. exact (@read_text_value tag nsm m ni eas loc (St c (st_sm st0)) r' s' Ec).
  - unfold read_union_prim in E. destruct n as [|n]; [simpl in E; injection E as <- <-; congruence|].
    simpl in E. unfold read_elem in E.
    match type of E with with_found _ ?f _ = _ =>
      pose proof (@with_found_takes tag m f st0 (SUnionPrim false (SElem tag nsm m false ni)) eas) as W end.
    rewrite E in W; apply W. intros ? ? ? _ [].
  - unfold read_map_elem in E; rewrite Ha in E.
    match type of E with with_found _ ?f _ = _ =>
      pose proof (@with_found_takes tag m f st0 (SMapElem tag m a) eas) as W end.
    rewrite E in W; apply W. intros ? ? ? _ [].
  - unfold read_raw in E.
    match type of E with with_found _ ?f _ = _ =>
      pose proof (@with_found_takes tag m f st0 (SRaw tag m false) eas) as W end.
    rewrite E in W; apply W. intros ? ? ? _ [].
  - unfold read_proxy in E; simpl in E. rewrite Hm in E.
    match type of E with with_found _ ?f _ = _ =>
      pose proof (@with_found_takes tag m f st0 (SProxy (Proxy cls tag nsm m false ni)) eas) as W end.
    rewrite E in W; apply W. intros ? ? ? _ [].
Qed.

Lemma strict_field : forall ev tag s n eas loc st0 r st1,
  bound_to ev tag Strict s -> read n ev s eas loc st0 = (r, st1) -> r <> Fuel ->
  let e := st_el st0 in let e' := st_el st1 in
  match unread e with
  | c :: rest =>
      (called tag c -> exists c', passed e' = passed e ++ [c'] /\ unread e' = rest /\
                                  same_shell e e' /\ value_of_child s eas c r c') /\
      (~ called tag c -> r = Ok VNone /\ e' = e)
  | [] => r = Ok VNone /\ e' = e
  end.
Proof.
  intros ev tag s n eas loc st0 r st1 H E Hf; cbv zeta.
  destruct (read_bound_takes H n eas loc st0 E Hf) as [(T & Hr & He)|(c & c' & b & rest & T & P & U & S & V)].
  - inversion T as [|p c rest Hc E1 E2 E3| p E1 E2 E3| | | |].
    + split; [tauto|auto].
    + auto.
  - inversion T; subst.
    match goal with X : _ ++ [_] = _ ++ [_] |- _ => apply app_inj_tail in X; destruct X as [E3 _] end. split; [|tauto].
    intros _. exists c'. rewrite P, E3; auto.
Qed.

Lemma ordered_field : forall ev tag s n eas loc st0 r st1,
  bound_to ev tag Ordered s -> read n ev s eas loc st0 = (r, st1) -> r <> Fuel ->
  let e := st_el st0 in let e' := st_el st1 in
  (Forall (fun x => ~ called tag x) (unread e) /\ r = Ok VNone /\ e' = e) \/
  (exists skip c rest c', unread e = skip ++ c :: rest /\ called tag c /\
     Forall (fun x => ~ called tag x) skip /\
     passed e' = passed e ++ skip ++ [c'] /\ unread e' = rest /\ same_shell e e' /\
     value_of_child s eas c r c').
Proof.
  intros ev tag s n eas loc st0 r st1 H E Hf; cbv zeta.
  destruct (read_bound_takes H n eas loc st0 E Hf) as [(T & Hr & He)|(c & c' & b & rest & T & P & U & S & V)].
  - left; inversion T; auto.
  - right. inversion T; subst.
    exists skip, c, (unread (st_el st1)), c'.
    match goal with X : _ ++ _ ++ [_] = _ ++ [_] |- _ => rewrite app_assoc in X; apply app_inj_tail in X; destruct X as [E3 _] end. rewrite P, <- E3, <- app_assoc. split; auto. split; auto. 
Qed.

Lemma unordered_field : forall ev tag s n eas loc st0 r st1,
  bound_to ev tag Unordered s -> read n ev s eas loc st0 = (r, st1) -> r <> Fuel ->
  let e := st_el st0 in let e' := st_el st1 in
  (Forall (fun x => ~ called tag x) (unread e) /\ r = Ok VNone /\ e' = e) \/
  (exists skip c rest c', unread e = skip ++ c :: rest /\ called tag c /\
     Forall (fun x => ~ called tag x) skip /\
     passed e' = passed e ++ [c'] /\ Permutation (unread e') (skip ++ rest) /\ same_shell e e' /\
     value_of_child s eas c r c').
Proof.
  intros ev tag s n eas loc st0 r st1 H E Hf; cbv zeta.
  destruct (read_bound_takes H n eas loc st0 E Hf) as [(T & Hr & He)|(c & c' & b & rest & T & P & U & S & V)].
  - left; inversion T; auto.
  - right. inversion T as [| | | | |p skip c0 rest0 lft| ]; subst.
    exists skip, c, rest0, c'.
    match goal with X : _ ++ [_] = _ ++ [_] |- _ => apply app_inj_tail in X; destruct X as [E3 _] end. rewrite P, <- E3. repeat (split; auto). 
Qed.
