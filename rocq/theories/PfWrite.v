(** PfWrite.v -- proofs about writing: None, order, wrappers, skip_empty, exclude_unset. *)

From Verif Require Import Base Elem Native Errs Names Ser Write Api SpecElem SpecRead SpecWrite PfElem PfFuel.

Ltac inv H := inversion H; subst; clear H.

(** ---- None ---- *)

Lemma write_none : forall ev s, wf_ser ev s -> drops_none s -> forall n fl e enc, fl_exclude_none fl = true ->
  write n ev s fl e VNone enc <> Fuel -> write n ev s fl e VNone enc = Ok e.
Proof.
  intros ev s W D; induction D; intros k fl e enc F N; (destruct k as [|k]; [exfalso; apply N; reflexivity|]);
    cbn [write write_step] in *; auto.
  - unfold write_text; simpl. rewrite F, orb_true_r. auto.
  - unfold write_attr; simpl. rewrite F, orb_true_r. auto.
  - unfold write_elem; simpl. rewrite F, orb_true_r. auto.
  - inv W. apply IHD; auto.
  - induction vs as [|p vs IH]; simpl; auto. inv W. inv H0. apply IH; [apply wf_umodel; auto|exact N].
  - unfold write_proxy. inv W. destruct (en_model ev (px_model p)) as [m|] eqn:E; [|exfalso; apply H0; auto].
    rewrite F; auto.
Qed.

(** ---- growing ---- *)

Lemma grown_refl : forall l, grown l l.
Proof. intros l. rewrite <- (app_nil_r l) at 2. constructor. Qed.

Lemma app_last_cases : forall A (l new front : list A) c, l ++ new = front ++ [c] ->
  (new = [] /\ l = front ++ [c]) \/ (exists new', new = new' ++ [c] /\ front = l ++ new').
Proof.
  intros A l new front c H. destruct new as [|x new] using rev_ind.
  - left; rewrite app_nil_r in H; auto.
  - right. rewrite app_assoc in H. apply app_inj_tail in H. destruct H as [<- <-]. eauto.
Qed.

Lemma grown_trans : forall l1 l2, grown l1 l2 -> forall l3, grown l2 l3 -> grown l1 l3.
Proof.
  intros l1 l2 H; induction H as [l new|front c c' new Ht Hg IH]; intros l3 H3.
  - remember (l ++ new) as l2 eqn:E2. destruct H3 as [l2 new2|front c c' new2 Ht Hg].
    + subst. rewrite <- app_assoc. constructor.
    + symmetry in E2. apply app_last_cases in E2. destruct E2 as [[-> ->]|[new' [-> ->]]].
      * constructor; auto.
      * rewrite <- app_assoc. constructor.
  - remember (front ++ c' :: new) as l2 eqn:E2. destruct H3 as [l2 new2|front2 c2 c2' new2 Ht2 Hg2].
    + subst. rewrite <- app_assoc. simpl. constructor; auto.
    + destruct new as [|x new] using rev_ind.
      * apply app_inj_tail in E2. destruct E2 as [-> ->]. constructor; [congruence|]. apply IH; auto.
      * clear IHnew. rewrite app_comm_cons, app_assoc in E2. apply app_inj_tail in E2. destruct E2 as [-> ->].
        rewrite <- app_assoc. simpl. constructor; auto.
Qed.

Lemma written_inv : forall e, written e -> e_next e = length (e_elems e) /\ Forall written (e_elems e).
Proof. intros e H; inv H; auto. Qed.

Lemma extends_refl : forall e, written e -> extends e e.
Proof. intros e H; split; [auto|split; [apply grown_refl|auto]]. Qed.

Lemma extends_trans : forall e1 e2 e3, extends e1 e2 -> extends e2 e3 -> extends e1 e3.
Proof.
  intros e1 e2 e3 (_ & G1 & T1) (W2 & G2 & T2). split; [auto|split; [eapply grown_trans; eauto|congruence]].
Qed.

Lemma append_extends : forall c e, written e -> written c -> extends e (append_element c e).
Proof.
  intros c e We Wc. apply written_inv in We. destruct We as [N F]. split; [|split; [constructor|reflexivity]].
  constructor; simpl; [rewrite app_length, N; simpl; lia|]. apply Forall_app; auto.
Qed.

Lemma make_written : forall b tag ns, written (make_element b tag ns).
Proof. intros; constructor; simpl; auto. Qed.

Lemma shell_extends : forall e e', written e -> e_elems e' = e_elems e -> e_next e' = e_next e -> e_tag e' = e_tag e ->
  extends e e'.
Proof.
  intros e e' W E N T. apply written_inv in W. destruct W as [Wn Wf]. split; [|split; [rewrite E; apply grown_refl|auto]].
  constructor; congruence.
Qed.

Lemma skip_append_extends : forall fl c e, written e -> written c -> extends e (append_unless_empty fl c e).
Proof.
  intros fl c e We Wc; unfold append_unless_empty. destruct (_ && _); [apply extends_refl|apply append_extends]; auto.
Qed.

Lemma obind_ok : forall A B (o : out A) (f : A -> out B) b, obind o f = Ok b -> exists a, o = Ok a /\ f a = Ok b.
Proof. intros A B [a|x|] f b H; simpl in H; try discriminate; eauto. Qed.

Ltac ok H := let a := fresh "a" in let E := fresh "E" in apply obind_ok in H; destruct H as [a [E H]].

Definition wextends (w : writer) : Prop := forall fl e v enc e', written e -> w fl e v enc = Ok e' -> extends e e'.

Lemma write_text_extends : forall ni, wextends (write_text ni).
Proof.
  intros ni fl e v enc e' W H; unfold write_text in H.
  destruct (_ && (_ || _)); [injection H as <-; apply extends_refl; auto|]. ok H. injection H as <-.
  apply shell_extends; auto; destruct (ni && is_none v); reflexivity.
Qed.

Lemma text_result : forall ni fl e v enc e', write_text ni fl e v enc = Ok e' ->
  e_elems e' = e_elems e /\ e_next e' = e_next e /\ e_tag e' = e_tag e /\ e_tail e' = e_tail e /\ e_nsmap e' = e_nsmap e /\ e_line e' = e_line e.
Proof.
  intros ni fl e v enc e' H; unfold write_text in H.
  destruct (_ && (_ || _)); [injection H as <-; repeat split|]. ok H. injection H as <-.
  destruct (ni && is_none v); repeat split.
Qed.

Lemma write_attrs_result : forall a fl e v enc e', write_attrs a fl e v enc = Ok e' ->
  e_elems e' = e_elems e /\ e_next e' = e_next e /\ e_tag e' = e_tag e /\ e_tail e' = e_tail e /\ e_text e' = e_text e /\ e_nsmap e' = e_nsmap e /\ e_line e' = e_line e.
Proof.
  intros a fl e v enc e' H; unfold write_attrs in H. destruct (is_none v); [injection H as <-; repeat split|].
  destruct enc; try discriminate. ok H. injection H as <-. repeat split.
Qed.

Lemma write_items_extends : forall w, wextends w -> forall fl vs encs e e', written e ->
  write_items w fl e vs encs = Ok e' -> extends e e'.
Proof.
  intros w Hw fl vs; induction vs as [|v vs IH]; intros encs e e' We H; simpl in H; [injection H as <-; apply extends_refl; auto|].
  destruct encs as [|enc encs]; [injection H as <-; apply extends_refl; auto|].
  destruct (_ && _); [eauto|]. ok H. pose proof (Hw _ _ _ _ _ We E) as X. destruct X as [Wa X'].
  eapply extends_trans; [split; [exact Wa|exact X']|]. eauto.
Qed.

Lemma write_tuple_extends : forall ws, Forall wextends ws -> forall fl vs encs e e', written e ->
  write_tuple ws fl e vs encs = Ok e' -> extends e e'.
Proof.
  intros ws F; induction F as [|w ws Hw F IH]; intros fl vs encs e e' We H; simpl in H; [injection H as <-; apply extends_refl; auto|].
  destruct vs as [|v vs]; [injection H as <-; apply extends_refl; auto|].
  destruct encs as [|enc encs]; [injection H as <-; apply extends_refl; auto|].
  ok H. pose proof (Hw _ _ _ _ _ We E) as X. destruct X as [Wa X'].
  eapply extends_trans; [split; [exact Wa|exact X']|]. eauto.
Qed.

(** the position of the last child *)
Lemma last_index : forall A (l front : list A) c, l = front ++ [c] -> nth_error l (length front) = Some c.
Proof. intros A l front c ->. rewrite nth_error_app2, Nat.sub_diag; auto. Qed.

(** with the write position at the end, find_element_or_create looks at the last child only *)
Lemma find_or_create_cases : forall b e tag m ns, e_next e = length (e_elems e) ->
  (exists front c, e_elems e = front ++ [c] /\ called tag c /\
     find_element_or_create b e tag m ns = (Found (length front), e)) \/
  ((forall front c, e_elems e = front ++ [c] -> ~ called tag c) /\
     find_element_or_create b e tag m ns = (Found (length (e_elems e)), append_element (make_element b tag ns) e)).
Proof.
  intros b e tag m ns N. unfold find_element_or_create, find_element, search.
  assert (Fw : forward m e tag true = (NotFound, e)).
  { assert (S0 : skipn (e_next e) (e_elems e) = []) by (apply skipn_all2; lia).
    destruct m; simpl; unfold strict_forward, ordered_forward, unordered_forward; rewrite ?S0; simpl; auto.
    assert (X : nth_error (e_elems e) (e_next e) = None) by (apply nth_error_None; lia). rewrite X; auto. }
  unfold look_behind. destruct (e_elems e) as [|x l] eqn:El.
  - simpl in N. rewrite N. right; split; [intros front c H; destruct front; discriminate|]. rewrite Fw. rewrite El; auto.
  - destruct (@exists_last _ (x :: l) ltac:(discriminate)) as [front [c Ec]]. rewrite Ec in *.
    rewrite app_length in N; simpl in N. replace (e_next e) with (S (length front)) by lia.
    rewrite (@last_index _ _ front c eq_refl). destruct (tag_is (e_tag c) tag) eqn:T.
    + left; exists front, c. repeat split; auto. apply tag_is_called; auto.
    + right; split.
      * intros front' c' H. apply app_inj_tail in H. destruct H as [<- <-]. apply tag_is_not_called; auto.
      * rewrite Fw. rewrite El; auto.
Qed.

Lemma list_upd_last : forall A (front : list A) c c', list_upd (length front) c' (front ++ [c]) = front ++ [c'].
Proof. intros; apply list_upd_split. Qed.

(** write_path as a relation *)
Lemma write_path_wraps : forall b mode ns path (k : elem -> out elem) e e', written e ->
  (write_path b mode ns path k e = Ok e' <-> wraps b ns (fun c c' => k c = Ok c') path e e').
Proof.
  intros b mode ns path k; induction path as [|p rest IH]; intros e e' We; cbn [write_path].
  - split; [constructor; auto|intros H; inv H; auto].
  - pose proof (written_inv We) as [N F].
    destruct (@find_or_create_cases b e p mode ns N) as [(front & c & Ee & Hc & ->)|(Hno & ->)].
    + rewrite (last_index _ _ Ee). assert (Wc : written c) by (rewrite Ee in F; apply Forall_app in F; destruct F as [_ F]; inv F; auto).
      split.
      * intros H. ok H. injection H as <-. apply IH in E; auto.
        eapply wraps_reuse; eauto; [repeat split|]. simpl. rewrite Ee, list_upd_last; auto.
      * intros H; inv H.
        -- rewrite Ee in H2. apply app_inj_tail in H2. destruct H2 as [<- <-].
           apply IH in H4; auto. rewrite H4. simpl. f_equal. destruct e, e'; unfold same_shell, put_child, set_elems in *; simpl in *.
           destruct H5 as (-> & -> & -> & -> & -> & ->). rewrite Ee, list_upd_last. congruence.
        -- exfalso. eapply H2; eauto.
    + simpl. rewrite nth_error_app2, Nat.sub_diag by lia. simpl. pose proof (make_written b p ns) as Wm.
      split.
      * intros H. ok H. injection H as <-. apply IH in E; auto.
        eapply wraps_create; eauto; [repeat split|]. simpl. rewrite list_upd_split; auto.
      * intros H; inv H.
        -- exfalso; eapply Hno; eauto.
        -- apply IH in H3; auto. rewrite H3. simpl. f_equal. destruct e, e'; unfold same_shell, put_child, append_element, set_elems, set_next in *; simpl in *.
           destruct H4 as (-> & -> & -> & -> & -> & ->). rewrite list_upd_split. congruence.
Qed.

Lemma wraps_extends : forall b ns (k : elem -> elem -> Prop),
  (forall c c', written c -> k c c' -> extends c c') ->
  forall path e e', written e -> wraps b ns k path e e' -> extends e e'.
Proof.
  intros b ns k Hk path e e' We H; induction H as [e e' H|p rest e e' front c c' Ee Hc H IH Sh N Ee'|p rest e e' c' Hno H IH Sh N Ee']; auto.
  - apply written_inv in We. destruct We as [Wn F]. rewrite Ee in F. apply Forall_app in F. destruct F as [F1 F2]. inv F2.
    destruct (IH H2) as (Wc' & G & T). split; [|split].
    + constructor; [rewrite N, Wn, Ee, Ee', !app_length; auto|rewrite Ee'; apply Forall_app; auto].
    + rewrite Ee, Ee'. constructor; auto.
    + apply Sh.
  - apply written_inv in We. destruct We as [Wn F]. destruct (IH (make_written _ _ _)) as (Wc' & G & T). split; [|split].
    + constructor; [rewrite N, Wn, Ee', app_length; simpl; lia|rewrite Ee'; apply Forall_app; auto].
    + rewrite Ee'. constructor.
    + apply Sh.
Qed.

Section Extend.
  Variable ev : env.
  Hypothesis Hev : env_extends ev.

  Lemma write_fields_extends : forall w cls m, en_model ev cls = Some m ->
    forall fs, Forall (fun nf : string * ser => wextends (w (snd nf))) fs ->
    forall fl v enc e e', written e -> write_fields w m fs fl e v enc = Ok e' -> extends e e'.
  Proof.
    intros w cls m Hm fs F; induction F as [|[name s] fs Hs F IH]; intros fl v enc e e' We H; simpl in H.
    - injection H as <-. apply extends_refl; auto.
    - destruct (str_in name (md_sexclude m)); [eauto|]. ok H. destruct a; [eauto|]. ok H. ok H.
      assert (X : extends e a0).
      { destruct (md_cser m name) as [f|] eqn:Ef; [|ok E1; eapply Hs; eauto].
        destruct (Hev cls Hm) as [_ Hc]. eapply Hc; eauto. }
      eapply extends_trans; [exact X|]. destruct X as [Wa _]. eauto.
  Qed.

  Lemma write_model_extends : forall w cls m, en_model ev cls = Some m -> (forall s, no_raw s -> wextends (w s)) ->
    wextends (write_model w m).
  Proof.
    intros w cls m Hm Hw fl e v enc e' We H; unfold write_model in H.
    destruct (Hev cls Hm) as [Hr _].
    destruct (is_none v); [injection H as <-; apply extends_refl; auto|]. destruct (md_root m).
    - ok H. destruct a; [injection H as <-; apply extends_refl; auto|]. destruct (md_fields m) as [|[nm s] fs]; [discriminate|].
      ok H. inv Hr. eapply Hw; eauto.
    - eapply write_fields_extends; [exact Hm| |exact We|exact H]. eapply Forall_impl; [|exact Hr]. simpl; auto.
  Qed.

  Lemma write_proxy_extends : forall w p, (forall s, no_raw s -> wextends (w s)) -> wextends (write_proxy ev w p).
  Proof.
    intros w p Hw fl e v enc e' We H; unfold write_proxy in H. destruct (en_model ev (px_model p)) as [m|] eqn:Hm; [|discriminate].
    destruct (_ && _); [injection H as <-; apply extends_refl; auto|].
    destruct (px_nillable p && is_none v); [injection H as <-; apply append_extends; auto; constructor; simpl; auto|].
    destruct (is_none v); [injection H as <-; apply extends_refl; auto|]. ok H. injection H as <-.
    apply skip_append_extends; auto. eapply write_model_extends; [exact Hm|exact Hw|apply make_written|exact E].
  Qed.

  Lemma write_extends : forall n s, no_raw s -> wextends (write n ev s).
  Proof.
    intros n; induction n as [|n IH]; intros s R fl e v enc e' We H; [discriminate|]. cbn [write] in H.
    destruct s; cbn [write_step] in H.
    - eapply write_text_extends; eauto.
    - unfold write_attr in H. destruct (_ && (_ || _)); [injection H as <-; apply extends_refl; auto|]. ok H. injection H as <-.
      apply shell_extends; auto.
    - unfold write_elem in H. destruct (_ && (_ || _)); [injection H as <-; apply extends_refl; auto|]. ok H. injection H as <-.
      apply skip_append_extends; auto. eapply write_text_extends; [|exact E]. apply make_written.
    - apply write_attrs_result in H. apply shell_extends; tauto.
    - unfold write_map_elem in H.
      assert (X : forall e', obind (write_attrs a fl (make_element (en_backend ev) name (as_nsmap a)) v enc)
                     (fun sub => Ok (append_unless_empty fl sub e)) = Ok e' -> extends e e').
      { clear e' H. intros e' H. ok H. injection H as <-. apply skip_append_extends; auto.
        apply write_attrs_result in E. destruct E as (E1 & E2 & _). constructor; rewrite E1; simpl; auto. }
      destruct (fl_skip_empty fl); auto. destruct (py_len v) as [[|k]|]; [injection H as <-; apply extends_refl; auto| |discriminate]; auto.
    - inv R. unfold write_homo in H. destruct (is_none v); [injection H as <-; apply extends_refl; auto|]. ok H.
      destruct (_ && _); [injection H as <-; apply extends_refl; auto|]. ok H. eapply write_items_extends; [|exact We|exact H]. apply IH; auto.
    - inv R. unfold write_hetero in H. destruct (is_none v); [injection H as <-; apply extends_refl; auto|]. ok H.
      destruct (_ && _); [injection H as <-; apply extends_refl; auto|]. destruct (negb _); [discriminate|]. ok H.
      eapply write_tuple_extends; [|exact We|exact H]. rewrite Forall_map. eapply Forall_impl; [|exact H1]. intros; apply IH; auto.
    - inv R. eapply IH; eauto.
    - induction variants as [|p vs IHv]; simpl in H; [injection H as <-; apply extends_refl; auto|].
      destruct (match model_type v with Some _ => _ | None => _ end); [eapply write_proxy_extends; eauto|].
      apply IHv; auto. constructor.
    - unfold write_tagged in H. destruct enc; try discriminate. destruct (dget disc d) as [tag|]; [|injection H as <-; apply extends_refl; auto].
      destruct (py_truthy tag); [|injection H as <-; apply extends_refl; auto]. destruct tag; try discriminate.
      destruct (dget s variants) as [p|]; [|discriminate]. eapply write_proxy_extends; eauto.
    - inv R. unfold write_wrap in H. destruct (is_none v); [injection H as <-; apply extends_refl; auto|].
      destruct (_ && _); [injection H as <-; apply extends_refl; auto|]. apply write_path_wraps in H; auto.
      eapply wraps_extends; [|exact We|exact H]. intros c c' Wc Hc. cbv beta in Hc. eapply IH; eauto.
    - inv R.
    - eapply write_proxy_extends; eauto.
  Qed.
End Extend.
