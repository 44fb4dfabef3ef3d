(** PfWrite2.v -- more proofs about writing: what a field appends does not depend on where it is
    appended, shared wrappers, skip_empty, exclude_unset. *)

From Verif Require Import Base Elem Native Errs Names Ser Write Api SpecElem SpecRead SpecWrite
  PfElem PfFuel PfTerm PfWrite.

(** ---- context independence ---- *)

Definition wdirect (w : writer) : Prop := forall fl v enc e e', w fl e v enc = Ok e' ->
  exists new, e_elems e' = e_elems e ++ new /\
    forall e2, exists e2', w fl e2 v enc = Ok e2' /\ e_elems e2' = e_elems e2 ++ new.

Lemma direct_nothing : forall (e : elem), exists new, e_elems e = e_elems e ++ new /\
  forall e2 : elem, exists e2', Ok e2 = Ok e2' /\ e_elems e2' = e_elems e2 ++ new.
Proof. intros e; exists []. rewrite app_nil_r. split; auto. intros e2; exists e2. rewrite app_nil_r; auto. Qed.

Lemma direct_append : forall fl (c e : elem), exists new, e_elems (append_unless_empty fl c e) = e_elems e ++ new /\
  forall e2, exists e2', Ok (append_unless_empty fl c e2) = Ok e2' /\ e_elems e2' = e_elems e2 ++ new.
Proof.
  intros fl c e; unfold append_unless_empty. destruct (_ && _); [apply direct_nothing|].
  exists [c]. split; auto. intros e2; eexists; split; [reflexivity|reflexivity].
Qed.

Lemma write_items_direct : forall w, wdirect w -> forall fl vs encs e e', write_items w fl e vs encs = Ok e' ->
  exists new, e_elems e' = e_elems e ++ new /\
    forall e2, exists e2', write_items w fl e2 vs encs = Ok e2' /\ e_elems e2' = e_elems e2 ++ new.
Proof.
  intros w Hw fl vs; induction vs as [|v vs IH]; intros encs e e' H; simpl in *; [injection H as <-; apply direct_nothing|].
  destruct encs as [|enc encs]; [injection H as <-; apply direct_nothing|].
  destruct (_ && _); [eauto|]. ok H. apply Hw in E. destruct E as (n1 & E1 & D1). apply IH in H. destruct H as (n2 & E2 & D2).
  exists (n1 ++ n2). split; [rewrite E2, E1, app_assoc; auto|]. intros e2. destruct (D1 e2) as (x & -> & X).
  destruct (D2 x) as (y & Y1 & Y2). simpl. exists y; split; auto. rewrite Y2, X, app_assoc; auto.
Qed.

Lemma write_tuple_direct : forall ws, Forall wdirect ws -> forall fl vs encs e e', write_tuple ws fl e vs encs = Ok e' ->
  exists new, e_elems e' = e_elems e ++ new /\
    forall e2, exists e2', write_tuple ws fl e2 vs encs = Ok e2' /\ e_elems e2' = e_elems e2 ++ new.
Proof.
  intros ws F; induction F as [|w ws Hw F IH]; intros fl vs encs e e' H; simpl in *; [injection H as <-; apply direct_nothing|].
  destruct vs as [|v vs]; [injection H as <-; apply direct_nothing|].
  destruct encs as [|enc encs]; [injection H as <-; apply direct_nothing|].
  ok H. apply Hw in E. destruct E as (n1 & E1 & D1). apply IH in H. destruct H as (n2 & E2 & D2).
  exists (n1 ++ n2). split; [rewrite E2, E1, app_assoc; auto|]. intros e2. destruct (D1 e2) as (x & -> & X).
  destruct (D2 x) as (y & Y1 & Y2). simpl. exists y; split; auto. rewrite Y2, X, app_assoc; auto.
Qed.

Lemma write_proxy_direct : forall ev w p, wdirect (write_proxy ev w p).
Proof.
  intros ev w p fl v enc e e' H; unfold write_proxy in *. destruct (en_model ev (px_model p)) as [m|]; [|discriminate].
  destruct (_ && _); [injection H as <-; apply direct_nothing|]. destruct (px_nillable p && is_none v).
  { injection H as <-. eexists [_]. split; [reflexivity|]. intros e2; eexists; split; reflexivity. }
  destruct (is_none v); [injection H as <-; apply direct_nothing|].
  ok H. injection H as <-. rewrite E. simpl. apply direct_append.
Qed.

Lemma write_direct : forall ev n s, no_wrap s -> wdirect (write n ev s).
Proof.
  intros ev n; induction n as [|n IH]; intros s R fl v enc e e' H; [discriminate|]. cbn [write] in *.
  destruct s; cbn [write_step] in *.
  - exists []. rewrite app_nil_r. pose proof (text_result _ _ _ _ _ H) as (X & _). split; auto. intros e2.
    unfold write_text in *. destruct (_ && (_ || _)); [exists e2; rewrite app_nil_r; auto|]. ok H. rewrite E. simpl.
    eexists; split; [reflexivity|]. rewrite app_nil_r. destruct (nillable && is_none v); auto.
  - unfold write_attr in *. destruct (_ && (_ || _)); [injection H as <-; apply direct_nothing|]. ok H. injection H as <-. rewrite E; simpl.
    exists []. rewrite app_nil_r; split; auto. intros e2. eexists; split; [reflexivity|]. rewrite app_nil_r; auto.
  - unfold write_elem in *. destruct (_ && (_ || _)); [injection H as <-; apply direct_nothing|]. ok H. injection H as <-. rewrite E; simpl.
    apply direct_append.
  - pose proof (write_attrs_result _ _ _ _ _ H) as (X & _). exists []. rewrite app_nil_r. split; auto. intros e2.
    unfold write_attrs in *. destruct (is_none v); [exists e2; rewrite app_nil_r; auto|]. destruct enc; try discriminate.
    ok H. rewrite E. simpl. eexists; split; [reflexivity|]. rewrite app_nil_r; auto.
  - unfold write_map_elem in *.
    assert (X : forall e', obind (write_attrs a fl (make_element (en_backend ev) name (as_nsmap a)) v enc)
                     (fun sub => Ok (append_unless_empty fl sub e)) = Ok e' ->
             exists new, e_elems e' = e_elems e ++ new /\
               forall e2, exists e2', obind (write_attrs a fl (make_element (en_backend ev) name (as_nsmap a)) v enc)
                     (fun sub => Ok (append_unless_empty fl sub e2)) = Ok e2' /\ e_elems e2' = e_elems e2 ++ new).
    { clear e' H. intros e' H. ok H. injection H as <-. rewrite E; simpl. apply direct_append. }
    destruct (fl_skip_empty fl); auto. destruct (py_len v) as [[|k]|]; [injection H as <-; apply direct_nothing| |discriminate]; auto.
  - inv R. unfold write_homo in *. destruct (is_none v); [injection H as <-; apply direct_nothing|]. ok H. rewrite E; simpl.
    destruct (_ && _); [injection H as <-; apply direct_nothing|]. ok H. rewrite E0; simpl. apply write_items_direct; auto.
  - inv R. unfold write_hetero in *. destruct (is_none v); [injection H as <-; apply direct_nothing|]. ok H. rewrite E; simpl.
    destruct (_ && _); [injection H as <-; apply direct_nothing|]. destruct (negb _); [discriminate|]. ok H. rewrite E0; simpl.
    apply write_tuple_direct; auto. rewrite Forall_map. eapply Forall_impl; [|exact H1]. intros; apply IH; auto.
  - inv R. apply IH; auto.
  - clear R. induction variants as [|p vs IHv]; simpl in *; [injection H as <-; apply direct_nothing|].
    destruct (match model_type v with Some _ => _ | None => _ end); [apply write_proxy_direct; auto|]. auto.
  - unfold write_tagged in *. destruct enc; try discriminate. destruct (dget disc d) as [tag|]; [|injection H as <-; apply direct_nothing].
    destruct (py_truthy tag); [|injection H as <-; apply direct_nothing]. destruct tag; try discriminate.
    destruct (dget s variants) as [p|]; [|discriminate]. apply write_proxy_direct; auto.
  - inv R.
  - unfold write_raw in *. destruct v; try discriminate; [injection H as <-; apply direct_nothing|]. injection H as <-. apply direct_append.
  - apply write_proxy_direct; auto.
Qed.

(** the fields of a model one after the other *)
Lemma write_fields_app : forall w m fs1 fs2 fl e v enc,
  write_fields w m (fs1 ++ fs2) fl e v enc =
  obind (write_fields w m fs1 fl e v enc) (fun e1 => write_fields w m fs2 fl e1 v enc).
Proof.
  intros w m fs1; induction fs1 as [|[name s] fs1 IH]; intros fs2 fl e v enc; simpl; auto.
  destruct (str_in name (md_sexclude m)); auto. destruct (if fl_exclude_unset fl then is_unset v name else Ok false) as [[|]|x|]; simpl; auto.
  destruct (py_getattr v name) as [x|x|]; simpl; auto.
  destruct (match md_cser m name with Some _ => _ | None => _ end) as [e1|x1|]; simpl; auto.
Qed.

Lemma write_items_app : forall w fl vs1 encs1, length vs1 = length encs1 -> forall vs2 encs2 e,
  write_items w fl e (vs1 ++ vs2) (encs1 ++ encs2) =
  obind (write_items w fl e vs1 encs1) (fun e1 => write_items w fl e1 vs2 encs2).
Proof.
  intros w fl vs1; induction vs1 as [|v vs1 IH]; intros [|enc encs1] L vs2 encs2 e; try discriminate; simpl; auto.
  injection L as L. destruct (_ && _); [auto|]. destruct (w fl e v enc); simpl; auto.
Qed.

(** ---- shared wrappers ---- *)

Lemma wraps_tag : forall b ns (k : elem -> elem -> Prop), (forall c c', k c c' -> e_tag c' = e_tag c) ->
  forall path e e', wraps b ns k path e e' -> e_tag e' = e_tag e.
Proof. intros b ns k Hk path e e' H; destruct H; auto; apply H2 || apply H1; auto. Qed.

Lemma wraps_twice : forall b ns ns' (k1 k2 : elem -> elem -> Prop), (forall c c', k1 c c' -> e_tag c' = e_tag c) ->
  forall path e e1 e2, wraps b ns k1 path e e1 -> wraps b ns' k2 path e1 e2 -> inside k2 path e1 e2.
Proof.
  intros b ns ns' k1 k2 Hk path e e1 e2 H; revert e2.
  induction H as [e e' H|p rest e e' front c c' Ee Hc H IH Sh N Ee'|p rest e e' c' Hno H IH Sh N Ee']; intros e2 H2.
  - inv H2. constructor; auto.
  - assert (Tc : called p c') by (unfold called in *; rewrite (wraps_tag Hk H); auto).
    inv H2.
    + rewrite Ee' in H3. apply app_inj_tail in H3. destruct H3 as [<- <-].
      eapply inside_last; eauto.
    + exfalso; eapply H3; eauto.
  - assert (Tc : called p c') by (unfold called in *; rewrite (wraps_tag Hk H); reflexivity).
    inv H2.
    + rewrite Ee' in H3. apply app_inj_tail in H3. destruct H3 as [<- <-].
      eapply inside_last; eauto.
    + exfalso; eapply H3; eauto.
Qed.

(** ---- tags are kept ---- *)

Definition keeps_tag (w : writer) : Prop := forall fl e v enc e', w fl e v enc = Ok e' -> e_tag e' = e_tag e.

Lemma search_tag : forall m e tag behind step r e', search m e tag behind step = (r, e') -> e_tag e' = e_tag e.
Proof. intros m e tag behind step r e' H. apply search_cases in H. destruct H as (l & n & _ & -> & _); auto. Qed.

Lemma find_or_create_perm : forall b e tag m ns i e', find_element_or_create b e tag m ns = (Found i, e') ->
  e_tag e' = e_tag e /\
  (Permutation (e_elems e') (e_elems e) \/ Permutation (e_elems e') (make_element b tag ns :: e_elems e)).
Proof.
  intros b e tag m ns i e' H; unfold find_element_or_create, find_element in H.
  destruct (search m e tag true true) as [[|j|] e1] eqn:S; try discriminate.
  - injection H as <- <-. apply search_cases in S. destruct S as (l & n & P & -> & _). split; auto. right. simpl.
    rewrite Permutation_app_comm. simpl. constructor; auto.
  - injection H as <- <-. apply search_cases in S. destruct S as (l & n & P & -> & _). split; auto.
Qed.

Lemma write_path_tag : forall b mode ns path (k : elem -> out elem), (forall c c', k c = Ok c' -> e_tag c' = e_tag c) ->
  forall e e', write_path b mode ns path k e = Ok e' -> e_tag e' = e_tag e.
Proof.
  intros b mode ns path k Hk; induction path as [|p rest IH]; intros e e' H; simpl in H; auto.
  destruct (find_element_or_create b e p mode ns) as [[|i|] e1] eqn:F; try discriminate.
  destruct (nth_error (e_elems e1) i); [|discriminate]. ok H. injection H as <-. apply find_or_create_perm in F. apply F.
Qed.

Section Skip.
  Variable W : string -> Prop.

  Inductive tidy : elem -> Prop :=
  | tidy_intro : forall e, Forall (fun c => tidy c /\ (is_empty c = false \/ exists t, e_tag c = TName t /\ W t)) (e_elems e) -> tidy e.

  Definition tidy_child (c : elem) : Prop := tidy c /\ (is_empty c = false \/ exists t, e_tag c = TName t /\ W t).

  Lemma tidy_inv : forall e, tidy e -> Forall tidy_child (e_elems e).
  Proof. intros e H; inv H; auto. Qed.

  Lemma tidy_same : forall e e', tidy e -> e_elems e' = e_elems e -> tidy e'.
  Proof. intros e e' H E; constructor; rewrite E; apply tidy_inv; auto. Qed.

  Lemma tidy_append : forall fl c e, fl_skip_empty fl = true -> tidy c -> tidy e -> tidy (append_unless_empty fl c e).
  Proof.
    intros fl c e F Hc He; unfold append_unless_empty. rewrite F; simpl. destruct (is_empty c) eqn:E; auto.
    constructor; simpl. apply Forall_app; split; [apply tidy_inv; auto|]. constructor; [split; auto|constructor].
  Qed.

  Lemma tidy_fresh : forall e, e_elems e = [] -> tidy e.
  Proof. intros e H; constructor; rewrite H; constructor. Qed.

  Variable ev : env.
  Hypothesis Hev : env_skips W ev.

  Definition tidies (w : writer) : Prop := forall fl e v enc e', fl_skip_empty fl = true -> tidy e ->
    w fl e v enc = Ok e' -> tidy e' /\ e_tag e' = e_tag e.

  Lemma write_items_tidy : forall w, tidies w -> forall fl vs encs e e', fl_skip_empty fl = true -> tidy e ->
    write_items w fl e vs encs = Ok e' -> tidy e' /\ e_tag e' = e_tag e.
  Proof.
    intros w Hw fl vs; induction vs as [|v vs IH]; intros encs e e' F He H; simpl in H; [injection H as <-; auto|].
    destruct encs as [|enc encs]; [injection H as <-; auto|]. destruct (_ && _); [eauto|]. ok H.
    destruct (Hw _ _ _ _ _ F He E) as [T1 T2]. destruct (IH _ _ _ F T1 H). split; auto; congruence.
  Qed.

  Lemma write_tuple_tidy : forall ws, Forall tidies ws -> forall fl vs encs e e', fl_skip_empty fl = true -> tidy e ->
    write_tuple ws fl e vs encs = Ok e' -> tidy e' /\ e_tag e' = e_tag e.
  Proof.
    intros ws F; induction F as [|w ws Hw F IH]; intros fl vs encs e e' Fl He H; simpl in H; [injection H as <-; auto|].
    destruct vs as [|v vs]; [injection H as <-; auto|]. destruct encs as [|enc encs]; [injection H as <-; auto|]. ok H.
    destruct (Hw _ _ _ _ _ Fl He E) as [T1 T2]. destruct (IH _ _ _ _ _ Fl T1 H). split; auto; congruence.
  Qed.

  Lemma write_path_tidy : forall b mode ns path (k : elem -> out elem), Forall W path ->
    (forall c c', tidy c -> k c = Ok c' -> tidy c' /\ e_tag c' = e_tag c) ->
    forall e e', tidy e -> write_path b mode ns path k e = Ok e' -> tidy e' /\ e_tag e' = e_tag e.
  Proof.
    intros b mode ns path k Hp Hk; induction Hp as [|p rest Hp Hr IH]; intros e e' He H; simpl in H; auto.
    destruct (find_element_or_create b e p mode ns) as [[|i|] e1] eqn:F; try discriminate.
    destruct (nth_error (e_elems e1) i) as [c|] eqn:En; [|discriminate]. ok H. injection H as <-.
    pose proof F as F0. apply find_or_create_perm in F. destruct F as [Tg P].
    assert (Fe1 : Forall tidy_child (e_elems e1)).
    { destruct P as [P|P]; rewrite P; [apply tidy_inv; auto|constructor; [|apply tidy_inv; auto]].
      split; [apply tidy_fresh; auto|]. right; exists p; split; auto. }
    assert (Hc : tidy_child c) by (rewrite Forall_forall in Fe1; apply Fe1; eapply nth_error_In; eauto).
    destruct Hc as [Hc1 Hc2]. destruct (IH _ _ Hc1 E) as [T1 T2]. split; [|simpl; auto].
    constructor; simpl. apply Forall_list_upd; auto. split; auto.
    (* the child found is called p *)
    right. exists p. rewrite T2. split; auto.
    unfold find_element_or_create, find_element in F0. destruct (search mode e p true true) as [[|j|] e2] eqn:S; try discriminate.
    - injection F0 as <- <-. simpl in En. rewrite nth_error_app2, Nat.sub_diag in En by lia. simpl in En. injection En as <-. reflexivity.
    - injection F0 as <- <-. unfold search in S. destruct (look_behind e p) as [|j'|] eqn:L; try discriminate.
      + clear - S En. destruct mode; simpl in S; unfold strict_forward, ordered_forward, unordered_forward in S.
        * destruct (nth_error (e_elems e) (e_next e)) as [x|] eqn:X; [|discriminate]. destruct (tag_is (e_tag x) p) eqn:T; [|discriminate].
          injection S as <- <-. simpl in En. assert (x = c) by congruence. subst. apply tag_is_called in T. auto.
        * pose proof (find_from_spec p (skipn (e_next e) (e_elems e)) (e_next e)) as Q.
          destruct (find_from _ _ _) as [q|]; [|discriminate]. injection S as <- <-. destruct Q as (skip & x & rest' & Q1 & -> & Q2 & _).
          simpl in En. rewrite <- (firstn_skipn (e_next e) (e_elems e)), Q1 in En.
          assert (Lf : length (firstn (e_next e) (e_elems e)) = e_next e).
          { apply firstn_length_le. destruct (le_lt_dec (e_next e) (length (e_elems e))); auto. rewrite skipn_all2 in Q1 by lia. destruct skip; discriminate. }
          rewrite nth_error_app2 in En by lia. rewrite Lf in En. replace (e_next e + length skip - e_next e) with (length skip) in En by lia.
          rewrite nth_error_app2, Nat.sub_diag in En by lia. simpl in En. injection En as <-. auto.
        * pose proof (find_from_spec p (skipn (e_next e) (e_elems e)) (e_next e)) as Q.
          destruct (find_from _ _ _) as [q|]; [|discriminate]. injection S as <- <-. destruct Q as (skip & x & rest' & Q1 & -> & Q2 & _).
          simpl in En. rewrite <- (firstn_skipn (e_next e) (e_elems e)), Q1 in En.
          assert (Lf : length (firstn (e_next e) (e_elems e)) = e_next e).
          { apply firstn_length_le. destruct (le_lt_dec (e_next e) (length (e_elems e))); auto. rewrite skipn_all2 in Q1 by lia. destruct skip; discriminate. }
          rewrite <- Lf in En at 1 2 4. rewrite list_swap_cursor in En. destruct skip as [|y skip']; rewrite nth_error_app2 in En by lia;
            rewrite Lf, Nat.sub_diag in En; simpl in En; injection En as <-; auto.
      + injection S as <- <-. unfold look_behind in L. destruct (e_next e) as [|i']; [discriminate|].
        destruct (nth_error (e_elems e) i') as [x|] eqn:X; [|discriminate]. destruct (tag_is (e_tag x) p) eqn:T; [|discriminate].
        injection L as <-. assert (x = c) by congruence. subst. apply tag_is_called in T. auto.
  Qed.

  Lemma write_fields_tidy : forall w cls m, en_model ev cls = Some m ->
    forall fs, Forall (fun nf : string * ser => tidies (w (snd nf))) fs ->
    forall fl v enc e e', fl_skip_empty fl = true -> tidy e -> write_fields w m fs fl e v enc = Ok e' -> tidy e' /\ e_tag e' = e_tag e.
  Proof.
    intros w cls m Hm fs F; induction F as [|[name s] fs Hs F IH]; intros fl v enc e e' Fl He H; simpl in H; [injection H as <-; auto|].
    destruct (str_in name (md_sexclude m)); [eauto|]. ok H. destruct a; [eauto|]. ok H. ok H.
    destruct (Hev cls Hm) as (_ & Hc & _). rewrite (Hc name) in E1. ok E1.
    destruct (Hs _ _ _ _ _ Fl He E1) as [T1 T2]. destruct (IH _ _ _ _ _ Fl T1 H). split; auto; congruence.
  Qed.

  Lemma write_model_tidy : forall w cls m, en_model ev cls = Some m -> (forall s, wrappers_in W s -> tidies (w s)) ->
    tidies (write_model w m).
  Proof.
    intros w cls m Hm Hw fl e v enc e' Fl He H; unfold write_model in H. destruct (Hev cls Hm) as (Hs & _ & Hr).
    assert (Fl' : fl_skip_empty (with_skip_empty m fl) = true).
    { unfold with_skip_empty. destruct (md_skip_empty m) as [[|]|]; simpl; auto; exfalso; auto. }
    destruct (is_none v); [injection H as <-; auto|]. destruct (md_root m).
    - ok H. destruct a; [injection H as <-; auto|]. destruct (md_fields m) as [|[nm s] fs]; [discriminate|].
      ok H. inv Hr. eapply Hw; eauto.
    - eapply write_fields_tidy; [exact Hm| |exact Fl'|exact He|exact H]. eapply Forall_impl; [|exact Hr]. simpl; auto.
  Qed.

  Lemma write_proxy_tidy : forall w p, (forall s, wrappers_in W s -> tidies (w s)) -> tidies (write_proxy ev w p).
  Proof.
    intros w p Hw fl e v enc e' Fl He H; unfold write_proxy in H. destruct (en_model ev (px_model p)) as [m|] eqn:Hm; [|discriminate].
    destruct (_ && _); [injection H as <-; auto|].
    destruct (px_nillable p && is_none v).
    { injection H as <-. split; [|reflexivity]. constructor; simpl. apply Forall_app; split; [apply tidy_inv; auto|].
      constructor; [|constructor]. split; [apply tidy_fresh; auto|left; reflexivity]. }
    destruct (is_none v); [injection H as <-; auto|]. ok H. injection H as <-.
    split; [|unfold append_unless_empty; destruct (_ && _); reflexivity]. apply tidy_append; auto.
    eapply (@write_model_tidy w (px_model p) m Hm Hw); [exact Fl| |exact E]. apply tidy_fresh; auto.
  Qed.

  Lemma append_tag : forall fl c e, e_tag (append_unless_empty fl c e) = e_tag e.
  Proof. intros; unfold append_unless_empty; destruct (_ && _); reflexivity. Qed.

  Lemma write_tidy : forall n s, wrappers_in W s -> tidies (write n ev s).
  Proof.
    intros n; induction n as [|n IH]; intros s R fl e v enc e' Fl He H; [discriminate|]. cbn [write] in H.
    destruct s; cbn [write_step] in H.
    - apply text_result in H. split; [eapply tidy_same; [exact He|tauto]|tauto].
    - unfold write_attr in H. destruct (_ && (_ || _)); [injection H as <-; auto|]. ok H. injection H as <-.
      split; [eapply tidy_same; [exact He|reflexivity]|reflexivity].
    - unfold write_elem in H. destruct (_ && (_ || _)); [injection H as <-; auto|]. ok H. injection H as <-.
      split; [|apply append_tag]. apply tidy_append; auto. apply text_result in E. apply tidy_fresh. apply E.
    - apply write_attrs_result in H. split; [eapply tidy_same; [exact He|tauto]|tauto].
    - unfold write_map_elem in H. rewrite Fl in H. destruct (py_len v) as [[|k]|]; [injection H as <-; auto| |discriminate].
      ok H. injection H as <-. split; [|apply append_tag]. apply tidy_append; auto. apply write_attrs_result in E. apply tidy_fresh. apply E.
    - inv R. unfold write_homo in H. destruct (is_none v); [injection H as <-; auto|]. ok H.
      destruct (_ && _); [injection H as <-; auto|]. ok H. eapply write_items_tidy; [|exact Fl|exact He|exact H]. apply IH; auto.
    - inv R. unfold write_hetero in H. destruct (is_none v); [injection H as <-; auto|]. ok H.
      destruct (_ && _); [injection H as <-; auto|]. destruct (negb _); [discriminate|]. ok H.
      eapply write_tuple_tidy; [|exact Fl|exact He|exact H]. rewrite Forall_map. eapply Forall_impl; [|exact H1]. intros; apply IH; auto.
    - inv R. eapply IH; eauto.
    - clear R. induction variants as [|p vs IHv]; simpl in H; [injection H as <-; auto|].
      destruct (match model_type v with Some _ => _ | None => _ end); [eapply write_proxy_tidy; eauto|]. auto.
    - unfold write_tagged in H. destruct enc; try discriminate. destruct (dget disc d) as [tag|]; [|injection H as <-; auto].
      destruct (py_truthy tag); [|injection H as <-; auto]. destruct tag; try discriminate.
      destruct (dget s variants) as [p|]; [|discriminate]. eapply write_proxy_tidy; eauto.
    - inv R. unfold write_wrap in H. destruct (is_none v); [injection H as <-; auto|].
      destruct (_ && _); [injection H as <-; auto|]. eapply write_path_tidy; [eassumption| |exact He|exact H].
      cbv beta. intros c c' Hc Hw. eapply IH; eauto.
    - inv R.
    - eapply write_proxy_tidy; eauto.
  Qed.
End Skip.

(** a tidy tree gives a tidy native tree *)
Lemma map_opt_in : forall A B (f : A -> option B) l l', map_opt f l = Some l' -> forall y, In y l' -> exists x, In x l /\ f x = Some y.
Proof.
  intros A B f l; induction l as [|x l IH]; intros l' H y Hy; simpl in H; [injection H as <-; destruct Hy|].
  destruct (f x) as [z|] eqn:Ef; [|discriminate]. destruct (map_opt f l) as [zs|] eqn:El; [|discriminate].
  injection H as <-. destruct Hy as [->|Hy]; [exists x; simpl; auto|]. destruct (IH zs eq_refl y Hy) as (x' & H1 & H2).
  exists x'; simpl; auto.
Qed.

Lemma map_opt_length : forall A B (f : A -> option B) l l', map_opt f l = Some l' -> length l' = length l.
Proof.
  intros A B f l; induction l as [|x l IH]; intros l' H; simpl in H; [injection H as <-; auto|].
  destruct (f x); [|discriminate]. destruct (map_opt f l) as [zs|]; [|discriminate]. injection H as <-. simpl; rewrite IH; auto.
Qed.

Lemma bare_empty : forall b e n, to_native b e = Some n -> bare n -> is_empty e = true.
Proof.
  intros b e n H B. destruct e as [tag ns text tail attrib elements next line]. simpl in H.
  destruct tag as [t|].
  - destruct (map_opt (to_native b) elements) as [cs|] eqn:M; [|discriminate]. injection H as <-. simpl in B.
    destruct B as (Bt & Bl & Ba & ->). apply map_opt_length in M. destruct elements; [|discriminate]. unfold is_empty; simpl.
    destruct Bt as [->| ->]; destruct Bl as [->| ->]; destruct attrib as [[|]|]; simpl; auto; discriminate.
  - destruct b; [discriminate|]. injection H as <-. destruct B.
Qed.

Lemma tidy_native : forall W b e n, tidy W e -> to_native b e = Some n ->
  forall d, below n d -> bare d -> exists t ns text tail attrib cs line, d = NElem t ns text tail attrib cs line /\ W t.
Proof.
  intros W b e; induction e as [tag ns text tail attrib elements next line IH] using elem_ind'.
  intros n T H d B Bd. simpl in H. destruct tag as [t|]; [|destruct b; [discriminate|injection H as <-; inv B]].
  destruct (map_opt (to_native b) elements) as [cs|] eqn:M; [|discriminate]. injection H as <-.
  apply tidy_inv in T. simpl in T. rewrite Forall_forall in T, IH. inv B.
  - destruct (@map_opt_in _ _ _ _ _ M d ltac:(eassumption)) as (x & Hx & Ex). destruct (T x Hx) as [_ [N|(t' & Ht & HW)]].
    + rewrite (@bare_empty b x d Ex Bd) in N. discriminate.
    + destruct x; simpl in *. subst. destruct (map_opt (to_native b) e_elems); [|discriminate]. injection Ex as <-. repeat eexists; auto.
  - destruct (@map_opt_in _ _ _ _ _ M c ltac:(eassumption)) as (x & Hx & Ex). destruct (T x Hx) as [Tx _]. eapply IH; eauto.
Qed.

Lemma skip_empty_tidy : forall W ev, env_skips W ev -> forall n encode v fl t, fl_skip_empty fl = true ->
  to_xml_tree n ev encode v fl = Ok t ->
  forall d, below t d -> bare d -> exists tag ns text tail attrib cs line, d = NElem tag ns text tail attrib cs line /\ W tag.
Proof.
  intros W ev Hev n encode v fl t Fl H. unfold to_xml_tree in H. destruct (model_type v) as [cls|]; [|discriminate].
  destruct (en_model ev cls) as [m|] eqn:Hm; [|discriminate]. ok H. destruct (to_native (en_backend ev) a) as [t'|] eqn:Et; [|discriminate].
  injection H as <-. intros d B Bd. eapply tidy_native; [|exact Et|exact B|exact Bd].
  assert (X : tidies W (write_model (write n ev) m)).
  { apply (@write_model_tidy W ev Hev (write n ev) cls m Hm). intros s Hs. apply write_tidy; auto. }
  eapply X; [exact Fl| |exact E]. apply tidy_fresh; auto.
Qed.

(** ---- exclude_unset ---- *)

Lemma write_fields_only_set : forall w m cls attrs set enc fl, fl_exclude_unset fl = true ->
  forall fs e, write_fields w m fs fl e (VModel cls attrs set) enc =
    write_fields w m (filter (fun nf => str_in (fst nf) set) fs) fl e (VModel cls attrs set) enc.
Proof.
  intros w m cls attrs set enc fl F fs; induction fs as [|[name s] fs IH]; intros e; simpl; auto.
  destruct (str_in name set) eqn:I.
  - simpl. rewrite ?F, ?I; simpl. rewrite ?F, ?I; simpl. destruct (str_in name (md_sexclude m)); auto.
    destruct (match dget name attrs with Some x => Ok x | None => _ end) as [x|x|]; simpl; auto.
    destruct (match md_cser m name with Some _ => _ | None => _ end); simpl; auto.
  - rewrite F; simpl. destruct (str_in name (md_sexclude m)); auto.
Qed.

Lemma exclude_unset_restricts : forall w m fl e cls attrs set enc, fl_exclude_unset fl = true -> md_root m = false ->
  write_model w m fl e (VModel cls attrs set) enc = write_model w (only_fields set m) fl e (VModel cls attrs set) enc.
Proof.
  intros w m fl e cls attrs set enc F R; unfold write_model; simpl. rewrite R.
  replace (with_skip_empty (only_fields set m) fl) with (with_skip_empty m fl) by reflexivity.
  assert (F' : fl_exclude_unset (with_skip_empty m fl) = true) by (unfold with_skip_empty; destruct (md_skip_empty m); auto).
  rewrite (@write_fields_only_set w m cls attrs set enc _ F').
  generalize (filter (fun nf : string * ser => str_in (fst nf) set) (md_fields m)) as fs. intros fs; revert e.
  induction fs as [|[name s] fs IH]; intros e; simpl; auto. destruct (str_in name (md_sexclude m)); auto.
  destruct (if fl_exclude_unset _ then _ else _) as [[|]|x|]; simpl; auto.
  destruct (match dget name attrs with Some x => Ok x | None => _ end); simpl; auto.
  destruct (match md_cser m name with Some _ => _ | None => _ end); simpl; auto.
Qed.

Lemma str_in_spec : forall k l, str_in k l = true <-> In k l.
Proof.
  intros k l; unfold str_in. rewrite existsb_exists. split.
  - intros (x & Hx & E). apply String.eqb_eq in E. subst; auto.
  - intros H. exists k; split; auto. apply String.eqb_refl.
Qed.

Lemma exclude_unset_ignores : forall w m fl e cls attrs attrs' set d d', fl_exclude_unset fl = true ->
  (forall name, md_cser m name = None) -> md_root m = false ->
  agree_on set attrs attrs' -> agree_on set d d' ->
  write_model w m fl e (VModel cls attrs set) (VDict d) = write_model w m fl e (VModel cls attrs' set) (VDict d').
Proof.
  intros w m fl e cls attrs attrs' set d d' F Hc R Ha Hd; unfold write_model; simpl. rewrite R.
  assert (F' : fl_exclude_unset (with_skip_empty m fl) = true) by (unfold with_skip_empty; destruct (md_skip_empty m); auto).
  generalize dependent (with_skip_empty m fl). intros fl' F'. generalize (md_fields m) as fs. intros fs; revert e.
  induction fs as [|[name s] fs IH]; intros e; simpl; auto. destruct (str_in name (md_sexclude m)); auto.
  rewrite F'; simpl. destruct (str_in name set) eqn:I; simpl; auto. apply str_in_spec in I. rewrite (Ha name I), (Hd name I), Hc.
  destruct (dget name attrs'); simpl; auto. destruct (dget name d'); simpl; auto. destruct (w s fl' e v v0); simpl; auto.
Qed.
