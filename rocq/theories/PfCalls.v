(** PfCalls.v -- how much user code reading runs (C78): a budget that every call is paid from. *)

From Verif Require Import Base Elem Native Errs Names Ser Read Api Calls SpecElem SpecRead SpecCrash SpecCalls PfElem PfField PfFuel PfRel PfTerm.

Definition maxof (f : elem -> nat) (l : list elem) : nat := fold_right (fun c n => Nat.max (f c) n) 0 l.
Definition sumof (f : elem -> nat) (l : list elem) : nat := fold_right (fun c n => f c + n) 0 l.

Lemma maxof_in : forall f l c, In c l -> f c <= maxof f l.
Proof.
  intros f l c; induction l as [|x l IH]; intros H; [destruct H|]; unfold maxof in *; cbn [fold_right].
  destruct H as [->|H]; [lia|]. specialize (IH H). lia.
Qed.

Lemma maxof_le : forall f l k, (forall c, In c l -> f c <= k) -> maxof f l <= k.
Proof.
  intros f l k; induction l as [|x l IH]; intros H; unfold maxof in *; cbn [fold_right]; [lia|].
  assert (f x <= k) by (apply H; left; auto).
  assert (fold_right (fun c n => Nat.max (f c) n) 0 l <= k) by (apply IH; intros; apply H; right; auto).
  lia.
Qed.

Lemma maxof_perm : forall f l l', Permutation l l' -> maxof f l = maxof f l'.
Proof. intros f l l' P; induction P; unfold maxof in *; cbn [fold_right]; lia. Qed.

Lemma sumof_perm : forall f l l', Permutation l l' -> sumof f l = sumof f l'.
Proof. intros f l l' P; induction P; unfold sumof in *; cbn [fold_right]; lia. Qed.

Lemma sumof_upd : forall f i c c' l, nth_error l i = Some c -> sumof f (list_upd i c' l) + f c = sumof f l + f c'.
Proof.
  intros f i; induction i as [|i IH]; intros c c' [|x l] H; simpl in H; try discriminate.
  - injection H as ->. unfold sumof; cbn [list_upd fold_right]. lia.
  - specialize (IH c c' l H). unfold sumof in *; cbn [list_upd fold_right]. lia.
Qed.

Lemma maxof_upd : forall f i c c' l, nth_error l i = Some c -> f c' <= f c -> maxof f (list_upd i c' l) <= maxof f l.
Proof.
  intros f i c c' l Hn Hh. apply maxof_le. intros x Hx. apply in_list_upd in Hx as [->|Hx].
  - apply nth_error_In in Hn. apply (maxof_in f) in Hn. lia.
  - apply maxof_in; auto.
Qed.

Lemma sumof_in : forall f l c, In c l -> f c <= sumof f l.
Proof.
  intros f l c; induction l as [|x l IH]; intros H; [destruct H|]; unfold sumof in *; cbn [fold_right].
  destruct H as [->|H]; [lia|]. specialize (IH H). lia.
Qed.

Section Budget.
  Variable k : nat.

  (** the price of a child ahead: one visit, or the visits of all variants of a union *)
  Fixpoint budget (e : elem) : nat :=
    match e with
    | Elem _ _ _ _ _ l next _ =>
        (length l - next) * Nat.max 1 (k * S (fold_right (fun c n => Nat.max (budget c) n) 0 l)) +
        fold_right (fun c n => budget c + n) 0 l
    end.
  Definition price (l : list elem) : nat := Nat.max 1 (k * S (maxof budget l)).

  Lemma budget_eq : forall e, budget e = (length (e_elems e) - e_next e) * price (e_elems e) + sumof budget (e_elems e).
  Proof. intros [? ? ? ? ? ? ? ?]; reflexivity. Qed.
End Budget.
Arguments budget : simpl never.

Section Ops.
  Variable k : nat.
  Notation B := (budget k).

  Lemma price_perm : forall l l', Permutation l l' -> price k l = price k l'.
  Proof. intros l l' P; unfold price. rewrite (maxof_perm B P); auto. Qed.

  Lemma price_pos : forall l, 1 <= price k l.
  Proof. intros; unfold price; lia. Qed.

  Lemma price_k : forall l, k * S (maxof B l) <= price k l.
  Proof. intros; unfold price; lia. Qed.

  Lemma price_mono : forall l l', maxof B l' <= maxof B l -> price k l' <= price k l.
  Proof. intros l l' H; unfold price. assert (k * S (maxof B l') <= k * S (maxof B l)) by (apply Nat.mul_le_mono_l; lia). lia. Qed.

  Lemma put_child_budget : forall i c c' e, nth_error (e_elems e) i = Some c -> B c' <= B c ->
    B (put_child i c' e) + B c <= B e + B c'.
  Proof.
    intros i c c' e H L. rewrite (budget_eq k (put_child i c' e)), (budget_eq k e). simpl. rewrite list_upd_length.
    pose proof (sumof_upd B i c' _ H). pose proof (@price_mono _ _ (maxof_upd B i c' _ H L)) as P.
    apply (Nat.mul_le_mono_l _ _ (length (e_elems e) - e_next e)) in P. lia.
  Qed.

  Lemma search_budget : forall m e tag behind step r e', search m e tag behind step = (r, e') ->
    B e' <= B e /\ price k (e_elems e') = price k (e_elems e) /\ maxof B (e_elems e') = maxof B (e_elems e) /\
    (forall i, r = Found i -> behind = false -> step = true ->
       B e' + price k (e_elems e) <= B e /\ e_next e < length (e_elems e)).
  Proof.
    intros m e tag behind step r e' H. apply search_cases in H as (l & n & P & -> & Hn & Hf).
    rewrite !budget_eq. simpl. rewrite (Permutation_length P), (sumof_perm B P), (price_perm P), (maxof_perm B P).
    assert (M : (length (e_elems e) - n) * price k (e_elems e) <= (length (e_elems e) - e_next e) * price k (e_elems e))
      by (apply Nat.mul_le_mono_r; lia).
    split; [lia|]. split; [auto|]. split; [auto|]. intros i Hi Hb Hs. destruct (Hf i Hi Hb Hs) as [H1 H2]. split; auto.
    replace (length (e_elems e) - e_next e) with (S (length (e_elems e) - S (e_next e))) by lia.
    assert (M' : (length (e_elems e) - n) * price k (e_elems e) <= (length (e_elems e) - S (e_next e)) * price k (e_elems e))
      by (apply Nat.mul_le_mono_r; lia).
    simpl. lia.
  Qed.

  Lemma step_budget : forall e, e_next e < length (e_elems e) -> B (step_forward e) + price k (e_elems e) <= B e.
  Proof.
    intros e H. rewrite (budget_eq k (step_forward e)), (budget_eq k e). simpl.
    replace (length (e_elems e) - e_next e) with (S (length (e_elems e) - S (e_next e))) by lia. simpl. lia.
  Qed.

  Lemma same_budget : forall e e', e_elems e' = e_elems e -> e_next e' = e_next e -> B e' = B e.
  Proof. intros e e' E1 E2. rewrite !budget_eq, E1, E2; auto. Qed.

  Lemma pop_attrib_same : forall n e, B (snd (pop_attrib n e)) = B e.
  Proof.
    intros n e; unfold pop_attrib. destruct (e_attrib e) as [d|]; auto. destruct (dget n d); auto. apply same_budget; auto.
  Qed.

  Lemma less_left_budget : forall e e', less_left e e' -> B e' <= B e.
  Proof.
    intros e e'; revert e. induction e' as [tag ns text tail attrib l' next' line IH] using elem_ind'. intros e H.
    inversion H as [? ? from dropped Hn P F]; subst. simpl in *.
    assert (S1 : sumof B l' <= sumof B from /\ maxof B l' <= maxof B from).
    { clear - IH F. revert from F. induction IH as [|c l' Hc Hl IHl]; intros from F; inversion F as [|x ? ? ? Hx Hr]; subst; [auto|].
      destruct (IHl _ Hr). specialize (Hc _ Hx). unfold sumof, maxof in *; cbn [fold_right]. lia. }
    assert (S2 : sumof B from <= sumof B (e_elems e) /\ maxof B from <= maxof B (e_elems e)).
    { rewrite <- (sumof_perm B P), <- (maxof_perm B P). clear. induction from as [|x from IH].
      - simpl; lia.
      - unfold sumof, maxof in *; cbn [fold_right app]. lia. }
    rewrite (budget_eq k (Elem _ _ _ _ _ _ _ _)), (budget_eq k e). simpl.
    assert (Pm : price k l' <= price k (e_elems e)) by (apply price_mono; lia).
    pose proof (Nat.mul_le_mono _ _ _ _ Hn Pm). lia.
  Qed.

  Definition brel (e e' : elem) : Prop := B e' <= B e.

  Variable ev : env.
  Hypothesis Hev : frugal k ev.

  Lemma custom_less : forall cls m name f, en_model ev cls = Some m -> md_cval m name = Some f -> forall e, brel e (snd (f e)).
  Proof. intros cls m name f Hm Hf e. destruct (Hev cls Hm) as (_ & _ & H). apply less_left_budget; eauto. Qed.

  Lemma budget_reader : forall n s, reader_rel brel (read n ev s).
  Proof.
    intros n s. apply (@read_rel brel); unfold brel; clear n s.
    - auto.
    - intros; lia.
    - intros e; rewrite (@same_budget e); auto.
    - intros n e. rewrite pop_attrib_same; auto.
    - intros e; rewrite (@same_budget e); auto.
    - intros m e tag b s. destruct (search m e tag b s) as [r e'] eqn:E. apply search_budget in E as [E _]; auto.
    - intros i c c' e Hn Hh. pose proof (@put_child_budget i c c' e Hn Hh); lia.
    - intros c. rewrite (budget_eq k (snd (extract c))). simpl. lia.
    - intros e H. pose proof (step_budget _ H). lia.
    - intros e s H. rewrite (@same_budget s); auto.
    - intros cls m name f Hm Hf e. eapply custom_less; eauto.
  Qed.
End Ops.

Section Pay.
  Variable k : nat.
  Notation B := (budget k).
  Variable ev : env.
  Hypothesis Hev : frugal k ev.
  Hypothesis Hyield : k = 0 \/ yields_instances ev.

  (** which calls are counted; at most one of those a class makes itself when it is read *)
  Variable qv : string -> bool.
  Variable qf : string -> string -> bool.
  Definition q (c : call) : bool := match c with CValidate cls _ => qv cls | CField cls f _ => qf cls f end.
  Definition own_calls (cls : string) (m : mdef) (fs : list (string * ser)) : nat :=
    length (filter (fun nf => match md_cval m (fst nf) with Some _ => qf cls (fst nf) | None => false end) fs).
  Hypothesis Hone : forall cls m, en_model ev cls = Some m ->
    own_calls cls m (md_fields m) + (if qv cls then 1 else 0) <= 1.

  Notation cost := (count q).

  Lemma cost_app : forall l l', cost (l ++ l') = cost l + cost l'.
  Proof. intros l l'; unfold count. rewrite filter_app, app_length; auto. Qed.

  (** the outcome is one after which reading goes on *)
  Definition settled {A} (o : out A) : Prop :=
    match o with Ok _ => True | Raise (XValidation _) => True | _ => False end.

  (** the calls are paid for, with [extra] from elsewhere *)
  Definition paid {A} (extra : nat) (tr : list call) (s : st) (p : rres A) : Prop :=
    cost tr <= B (st_el s) + extra /\
    (settled (fst p) -> cost tr + B (st_el (snd p)) <= B (st_el s) + extra).
  Definition pays (r : reader) (t : tracer) : Prop := forall eas loc s, paid 0 (t eas loc s) s (r eas loc s).

  Lemma paid_nil : forall A (s : st) (p : rres A), B (st_el (snd p)) <= B (st_el s) -> paid 0 [] s p.
  Proof. intros A s p H; split; simpl; intros; unfold count; simpl; lia. Qed.

  Lemma paid_free : forall n s (r : reader), r = read n ev s -> forall eas loc s0, paid 0 [] s0 (r eas loc s0).
  Proof. intros n s r -> eas loc s0. apply paid_nil. apply (budget_reader Hev n s eas loc s0). Qed.

  Lemma items_pay : forall r t, pays r t -> forall n title hide eas loc idx result errors s,
    paid 0 (t_items n r t eas loc idx s) s (read_items n r title hide eas loc idx result errors s).
  Proof.
    intros r t H n; induction n as [|n IH]; intros title hide eas loc idx result errors s; cbn [t_items read_items].
    - split; unfold count; simpl; intros; lia.
    - specialize (H eas (loc ++ [LIdx idx]) s). unfold paid in *. rewrite cost_app.
      destruct (r eas (loc ++ [LIdx idx]) s) as [[v|x|] s'].
      + destruct H as [_ H]. specialize (H I). simpl in H.
        destruct v; [unfold count at 2 4; simpl; destruct errors; simpl; split; intros; lia|..];
          (match goal with |- _ /\ (settled (fst (read_items _ _ _ _ _ _ _ ?res _ _)) -> _) => destruct (IH title hide eas loc (S idx) res errors s') as [I1 I2] end;
           split; [lia|intros St; specialize (I2 St); lia]).
      + destruct H as [H1 H2]. destruct x; try (unfold count at 2 4; simpl; split; [lia|intros []]).
        specialize (H2 I). simpl in H2.
        destruct (IH title hide eas loc (S idx) result (errors ++ [(Some (LIdx idx), e)]) s') as [I1 I2].
        split; [lia|intros St; specialize (I2 St); lia].
      + destruct H as [H1 _]. unfold count at 2 4; simpl; split; [lia|intros []].
  Qed.

  Lemma tuple_pays : forall rts, Forall (fun rt => pays (fst rt) (snd rt)) rts -> forall title hide eas loc idx result errors s,
    paid 0 (t_tuple rts eas loc idx s) s (read_tuple (map fst rts) title hide eas loc idx result errors s).
  Proof.
    intros rts H; induction H as [|[r t] rts Hr _ IH]; intros title hide eas loc idx result errors s; cbn [t_tuple read_tuple map fst].
    - destruct errors; split; unfold count; simpl; intros; lia.
    - specialize (Hr eas (loc ++ [LIdx idx]) s). simpl in Hr. unfold paid in *. rewrite cost_app.
      destruct (r eas (loc ++ [LIdx idx]) s) as [[v|x|] s'].
      + destruct Hr as [_ H]. specialize (H I). simpl in H.
        destruct (IH title hide eas loc (S idx) (result ++ [v]) errors s') as [I1 I2]; split; [lia|intros St; specialize (I2 St); lia].
      + destruct Hr as [H1 H2]. destruct x; try (unfold count at 2 4; simpl; split; [lia|intros []]).
        specialize (H2 I). simpl in H2.
        destruct (IH title hide eas loc (S idx) result (errors ++ [(Some (LIdx idx), e)]) s') as [I1 I2].
        split; [lia|intros St; specialize (I2 St); lia].
      + destruct Hr as [H1 _]. unfold count at 2 4; simpl; split; [lia|intros []].
  Qed.

  Lemma on_child_pays : forall A i (f : st -> rres A) t s, (forall c, paid 0 (t c) c (f c)) -> (forall c, B (st_el (snd (f c))) <= B (st_el c)) ->
    paid 0 (t_on_child i t s) s (on_child i f s).
  Proof.
    intros A i f t s H M; unfold t_on_child, on_child. destruct (nth_error (e_elems (st_el s)) i) as [c|] eqn:N.
    - specialize (H (St c (st_sm s))). specialize (M (St c (st_sm s))). unfold paid in *. destruct (f (St c (st_sm s))) as [o s']. simpl in *.
      pose proof (@put_child_budget k i c _ (st_el s) N M) as P.
      assert (B c <= B (st_el s)). { rewrite (budget_eq k (st_el s)). eapply Nat.le_trans; [apply (sumof_in B _ _ (nth_error_In _ _ N))|apply Nat.le_add_l]. }
      destruct H as [H1 H2]. split; [lia|]. intros St; specialize (H2 St). lia.
    - split; unfold count; simpl; intros; lia.
  Qed.

  Lemma on_path_mono : forall path (f : st -> rres val), (forall c, B (st_el (snd (f c))) <= B (st_el c)) ->
    forall s, B (st_el (snd (on_path path f s))) <= B (st_el s).
  Proof.
    intros path f M; induction path as [|i path IH]; intros s; cbn [on_path]; auto. unfold on_child.
    destruct (nth_error (e_elems (st_el s)) i) as [c|] eqn:N; [|simpl; auto].
    specialize (IH (St c (st_sm s))). destruct (on_path path f (St c (st_sm s))) as [o s']. simpl in *.
    pose proof (@put_child_budget k i c _ (st_el s) N IH). lia.
  Qed.

  Lemma on_path_pays : forall path (f : st -> rres val) t, (forall c, paid 0 (t c) c (f c)) -> (forall c, B (st_el (snd (f c))) <= B (st_el c)) ->
    forall s, paid 0 (t_on_path path t s) s (on_path path f s).
  Proof.
    intros path f t H M; induction path as [|i path IH]; intros s; cbn [on_path t_on_path]; auto.
    apply on_child_pays; auto. intros c; apply on_path_mono; auto.
  Qed.

  (** ---- models ---- *)

  Lemma fields_pay : forall cls m r t, en_model ev cls = Some m -> (forall s, unions_upto k s -> pays (r s) (t s)) ->
    forall fs, Forall (fun nf => unions_upto k (snd nf)) fs -> forall eas result errors s,
    paid (own_calls cls m fs) (t_fields r t cls m fs eas s) s (read_fields r m fs eas result errors s).
  Proof.
    intros cls m r t Hm H fs Hfs; induction Hfs as [|[name fser] fs Hu Hfs IH]; intros eas result errors s; cbn [t_fields read_fields].
    - split; unfold count; simpl; intros; lia.
    - cbv zeta. unfold paid. rewrite cost_app.
      match goal with |- context [let (o, s2) := ?p in _] => set (P := p) end.
      assert (F : exists own, own + own_calls cls m fs <= own_calls cls m ((name, fser) :: fs) /\
        paid own (t_field t cls m name fser eas (note_line [LKey name] s)) (note_line [LKey name] s) P).
      { unfold own_calls at 2. cbn [filter fst]. unfold t_field. subst P. destruct (md_cval m name) as [f|] eqn:Ef.
        - exists (if qf cls name then 1 else 0). split; [destruct (qf cls name); simpl; unfold own_calls; lia|].
          pose proof (@custom_less k ev Hev cls m name f Hm Ef (st_el s)) as L. unfold brel in L. unfold run_custom, paid, count. simpl.
          destruct (f (st_el s)) as [o e']. simpl in *. destruct (qf cls name); simpl; split; intros; lia.
        - exists 0. split; [unfold own_calls; lia|]. apply H. exact Hu. }
      clearbody P. destruct F as (own & Hown & H1 & H2). simpl in H1, H2.
      destruct P as [[v|x|] s2].
      + specialize (H2 I). simpl in H2.
        assert (G : forall result', paid (own_calls cls m fs) (t_fields r t cls m fs eas s2) s2 (read_fields r m fs eas result' errors s2)) by (intros; apply IH).
        destruct v; (match goal with |- _ /\ (settled (fst (read_fields _ _ _ _ ?res _ _)) -> _) => destruct (G res) as [I1 I2] end; simpl in I1, I2; split; [lia|intros St; specialize (I2 St); lia]).
      + destruct x; try (unfold count at 2 4; simpl; split; [lia|intros []]).
        specialize (H2 I). simpl in H2. destruct (IH eas result (dset name e errors) s2) as [I1 I2].
        split; [lia|intros St; specialize (I2 St); lia].
      + unfold count at 2 4; simpl; split; [lia|intros []].
  Qed.

  Lemma validate_cost : forall cls m i s, cost (t_validate cls m i s) <= (if qv cls then 1 else 0).
  Proof. intros cls m i s; unfold t_validate, count. destruct (if md_forbid m then _ else _); simpl; [lia|]. destruct (qv cls); simpl; lia. Qed.

  Lemma model_pays : forall cls m r t, en_model ev cls = Some m -> (forall s, unions_upto k s -> pays (r s) (t s)) ->
    forall eas loc s, paid 1 (t_model r t cls m eas loc s) s (read_model r m eas loc s).
  Proof.
    intros cls m r t Hm H eas loc s. pose proof (Hone cls Hm) as O. destruct (Hev cls Hm) as (Hfs & _). unfold t_model, read_model. destruct (md_root m).
    - unfold t_root_model, read_root_model. destruct (md_fields m) as [|[n rser] fs]; [split; unfold count; simpl; intros; lia|].
      inversion Hfs as [|? ? Hu _]; subst. specialize (H rser Hu eas loc s). unfold paid in *. rewrite cost_app. destruct (r rser eas loc s) as [[v|x|] s'].
      + destruct H as [_ H]. specialize (H I). simpl in H. pose proof (validate_cost cls m (if is_none v then None else Some v) s') as V.
        split; [lia|]. simpl. lia.
      + destruct H as [H1 H2]. unfold count at 2 4; simpl in *. destruct x; split; try lia; intros []; specialize (H2 I); simpl in *; lia.
      + destruct H as [H1 H2]. unfold count at 2 4; simpl in *. split; [lia|intros []].
    - unfold t_plain_model, read_plain_model. pose proof (@fields_pay cls m r t Hm H (md_fields m) Hfs eas [] [] s) as P.
      unfold paid in *. rewrite cost_app.
      destruct (read_fields r m (md_fields m) eas [] [] s) as [[[result errors]|x|] s'].
      + destruct P as [_ P]. specialize (P I). simpl in P. destruct errors.
        * pose proof (validate_cost cls m (Some (VDict result)) s') as V. simpl. split; [lia|]. intros; lia.
        * unfold count at 2 4; simpl. split; [lia|]. intros; lia.
      + destruct P as [P1 P2]. unfold count at 2 4; simpl in *. destruct x; split; try lia; intros []; specialize (P2 I); simpl in *; lia.
      + destruct P as [P1 P2]. unfold count at 2 4; simpl in *. split; [lia|intros []].
  Qed.

  Lemma nill_same : forall e, e_elems (snd (is_element_nill e)) = e_elems e /\ B (snd (is_element_nill e)) = B e.
  Proof.
    intros e; unfold is_element_nill. pose proof (pop_attrib_same k xsi_nil e) as P.
    assert (E : e_elems (snd (pop_attrib xsi_nil e)) = e_elems e).
    { unfold pop_attrib. destruct (e_attrib e) as [d|]; auto. destruct (dget xsi_nil d); auto. }
    destruct (pop_attrib xsi_nil e); auto.
  Qed.

  (** what a sub-model costs: nothing unless it is found, at most one and its content if it is *)
  Record proxy_cost (r : reader) (t : tracer) : Prop := {
    pc_pays : pays r t;
    pc_found : found_first r;
    pc_ahead : forall eas loc s, 0 < cost (t eas loc s) -> e_next (st_el s) < length (e_elems (st_el s));
    pc_most : forall eas loc s, cost (t eas loc s) <= S (maxof B (e_elems (st_el s)));
    pc_none : forall eas loc s s', r eas loc s = (Ok VNone, s') -> k = 0 \/ cost (t eas loc s) = 0;
    pc_value : forall eas loc s v s', r eas loc s = (Ok v, s') -> v <> VNone ->
      cost (t eas loc s) + B (st_el s') + price k (e_elems (st_el s)) <= B (st_el s) + 1
  }.

  Lemma model_mono : forall n cls m eas loc s, en_model ev cls = Some m ->
    B (st_el (snd (read_model (read n ev) m eas loc s))) <= B (st_el s).
  Proof.
    intros n cls m eas loc s Hm.
    assert (F : reader_rel (brel k) (read_model (read n ev) m)).
    { eapply read_model_rel; unfold brel; eauto.
      - intros; lia.
      - intros cls' m' name f Hm' Hf e. eapply custom_less; eauto.
      - intros s1 eas1 loc1 s2. apply budget_reader; auto. }
    apply (F eas loc s).
  Qed.

  Lemma validate_none : forall n cls m eas loc s s', en_model ev cls = Some m ->
    read_model (read n ev) m eas loc s = (Ok VNone, s') -> k = 0.
  Proof.
    intros n cls m eas loc s s' Hm E. destruct Hyield as [|Y]; auto. exfalso. specialize (Y cls m Hm).
    assert (V : forall i s0, validate_result m i s0 <> Ok VNone).
    { intros i s0; unfold validate_result. destruct (if md_forbid m then _ else _); [discriminate|].
      specialize (Y i). destruct (md_validate m i); congruence. }
    unfold read_model in E. destruct (md_root m).
    - unfold read_root_model in E. destruct (md_fields m) as [|[nm rs] fs]; [discriminate|].
      destruct (read n ev rs eas loc s) as [[v|x|] s1]; try discriminate; [|destruct x; discriminate].
      injection E as E _. eapply V; eauto.
    - unfold read_plain_model in E. destruct (read_fields _ m (md_fields m) eas [] [] s) as [[[res errs]|x|] s1]; try discriminate.
      destruct errs; [|discriminate]. injection E as E _. eapply V; eauto.
  Qed.

  Lemma proxy_costs : forall n p, (forall s, unions_upto k s -> pays (read n ev s) (trace n ev s)) ->
    proxy_cost (read_proxy ev (read n ev) p) (t_proxy ev (read n ev) (trace n ev) p).
  Proof.
    intros n p H.
    (* what happens at one call *)
    assert (C : forall eas loc s,
      (t_proxy ev (read n ev) (trace n ev) p eas loc s = [] /\
       (exists o s', read_proxy ev (read n ev) p eas loc s = (o, s') /\ B (st_el s') <= B (st_el s) /\
          forall v, o = Ok v -> v = VNone \/ False)) \/
      (exists c o c', e_next (st_el s) < length (e_elems (st_el s)) /\
         B c <= maxof B (e_elems (st_el s)) /\ price k (e_elems (st_el s)) + B c <= B (st_el s) /\
         (cost (t_proxy ev (read n ev) (trace n ev) p eas loc s) <= B c + 1) /\
         fst (read_proxy ev (read n ev) p eas loc s) = o /\
         (settled o -> cost (t_proxy ev (read n ev) (trace n ev) p eas loc s) + B c' <= B c + 1) /\
         (B (st_el (snd (read_proxy ev (read n ev) p eas loc s))) + price k (e_elems (st_el s)) + B c <= B (st_el s) + B c') /\
         (o = Ok VNone -> k = 0 \/ cost (t_proxy ev (read n ev) (trace n ev) p eas loc s) = 0))).
    { intros eas loc s. unfold t_proxy, read_proxy. destruct (en_model ev (px_model p)) as [m|] eqn:Em;
        [|left; split; auto; do 2 eexists; split; [reflexivity|]; split; [simpl; lia|discriminate]].
      destruct (px_computed p); [left; split; auto; do 2 eexists; split; [reflexivity|]; split; [simpl; lia|intros v E; injection E as <-; auto]|].
      destruct (pop_element (st_el s) (px_name p) (px_mode p)) as [[|i|] e'] eqn:P; unfold pop_element in P; cbn [t_with_found with_found].
      - apply (@search_budget k) in P as [P _]; left; split; auto; do 2 eexists; split; [reflexivity|]; split; [simpl; exact P|intros v E; injection E as <-; auto].
      - apply (@search_budget k) in P as (P1 & P2 & P3 & P4). specialize (P4 i eq_refl eq_refl eq_refl) as [P4 P5].
        unfold t_on_child, on_child. cbn [set_el st_el st_sm]. destruct (nth_error (e_elems e') i) as [c|] eqn:N;
          [|left; split; auto; do 2 eexists; split; [reflexivity|]; split; [simpl; lia|discriminate]].
        right. cbv zeta. pose proof (nill_same (st_el (note_line loc (St c (st_sm s))))) as [_ NB].
        destruct (is_element_nill _) as [nil e1] eqn:En. simpl in NB.
        assert (Bc : B c <= maxof B (e_elems (st_el s))). { rewrite <- P3. apply maxof_in. eapply nth_error_In; eauto. }
        assert (Bc' : B c <= B e'). { rewrite (budget_eq k e'). eapply Nat.le_trans; [apply (sumof_in B _ _ (nth_error_In _ _ N))|apply Nat.le_add_l]. }
        destruct nil.
        + exists c, (Ok VNone), e1. split; [auto|]. split; [auto|]. split; [lia|]. unfold count; simpl.
          assert (L : B e1 <= B c) by lia. pose proof (@put_child_budget k i c e1 e' N L). repeat split; auto; try lia.
        + pose proof (@model_pays (px_model p) m (read n ev) (trace n ev) Em H eas loc (set_el e1 (note_line loc (St c (st_sm s))))) as M.
          pose proof (@model_mono n (px_model p) m eas loc (set_el e1 (note_line loc (St c (st_sm s)))) Em) as Mm.
          pose proof (fun s' => @validate_none n (px_model p) m eas loc (set_el e1 (note_line loc (St c (st_sm s)))) s' Em) as Vn.
          unfold paid in M. destruct (read_model _ m eas loc _) as [o s'] eqn:Er. cbn [fst snd st_el set_el] in *.
          destruct M as [M1 M2]. rewrite NB in *.
          exists c, o, (st_el s'). split; [auto|]. split; [auto|]. split; [lia|]. split; [lia|]. split; [auto|].
          split; [intros St; specialize (M2 St); lia|].
          pose proof (@put_child_budget k i c (st_el s') e' N Mm). split; [simpl; lia|].
          intros ->. left. eapply Vn; eauto.
      - apply (@search_budget k) in P as [P _]; left; split; auto; do 2 eexists; split; [reflexivity|]; split; [simpl; exact P|discriminate]. }
    constructor.
    - intros eas loc s. destruct (C eas loc s) as [(E & o & s' & Er & L & _)|(c & o & c' & C1 & C2 & C3 & C4 & C5 & C6 & C7 & _)].
      + rewrite E, Er. apply paid_nil. simpl; auto.
      + pose proof (price_pos k (e_elems (st_el s))). unfold paid. rewrite C5. split; [lia|]. intros St; specialize (C6 St). lia.
    - apply read_proxy_found.
    - intros eas loc s H0. destruct (C eas loc s) as [(E & _)|(c & o & c' & C1 & _)]; auto.
      rewrite E in H0. unfold count in H0; simpl in H0; lia.
    - intros eas loc s. destruct (C eas loc s) as [(E & _)|(c & o & c' & C1 & C2 & C3 & C4 & _)].
      + rewrite E; unfold count; simpl; lia.
      + lia.
    - intros eas loc s s' Er. destruct (C eas loc s) as [(E & _)|(c & o & c' & C1 & C2 & C3 & C4 & C5 & C6 & C7 & C8)].
      + right. rewrite E; auto.
      + apply C8. rewrite <- C5, Er; auto.
    - intros eas loc s v s' Er Hv. destruct (C eas loc s) as [(_ & o & s1 & E1 & _ & E2)|(c & o & c' & C1 & C2 & C3 & C4 & C5 & C6 & C7 & C8)].
      + rewrite Er in E1. injection E1 as <- <-. destruct (E2 v eq_refl); [congruence|contradiction].
      + rewrite Er in C5, C7. simpl in C5, C7. subst o. specialize (C6 I). lia.
  Qed.

  Lemma variants_pay : forall rts, Forall (fun rt => proxy_cost (fst rt) (snd rt)) rts -> length rts <= k ->
    forall title hide eas loc s,
    paid 0 (t_variants rts eas loc s) s (read_variants (map fst rts) title hide eas loc [] s).
  Proof.
    intros rts Hc Hk title hide eas loc.
    (* what the remaining variants cost when errors of earlier ones are known *)
    assert (G : forall errors s, (errors <> [] -> e_next (st_el s) < length (e_elems (st_el s))) ->
      cost (t_variants rts eas loc s) <= length rts * S (maxof B (e_elems (st_el s))) /\
      (0 < cost (t_variants rts eas loc s) -> e_next (st_el s) < length (e_elems (st_el s))) /\
      match read_variants (map fst rts) title hide eas loc errors s with
      | (Ok VNone, s') => errors = [] /\ cost (t_variants rts eas loc s) = 0 /\ st_el s' = st_el s
      | (Ok _, s') => exists j, S j <= length rts /\
          cost (t_variants rts eas loc s) + B (st_el s') + price k (e_elems (st_el s)) <=
          B (st_el s) + 1 + j * S (maxof B (e_elems (st_el s)))
      | (Raise (XValidation _), s') => B (st_el s') + price k (e_elems (st_el s)) <= B (st_el s)
      | _ => True
      end).
    { induction Hc as [|[r t] rts Hr _ IH]; intros errors s He; cbn [t_variants read_variants map fst length].
      - unfold count; simpl. split; [lia|]. split; [lia|]. destruct errors as [|er errors]; [auto|]. apply step_budget. apply He; discriminate.
      - cbn [fst snd] in Hr. simpl in Hk. assert (Hk' : length rts <= k) by lia. specialize (IH Hk'). rewrite create_snapshot_id. assert (Es : set_el (st_el s) s = s) by (destruct s; auto). rewrite Es.
        rewrite cost_app. pose proof (pc_ahead Hr eas loc s) as A. pose proof (pc_most Hr eas loc s) as M.
        pose proof (pc_found Hr eas loc s) as F. pose proof (pc_none Hr eas loc s) as Z. pose proof (pc_value Hr eas loc s) as V.
        destruct (r eas loc s) as [[v|x|] s'] eqn:Er.
        + assert (Vn : v = VNone \/ v <> VNone) by (destruct v; auto; right; discriminate). destruct Vn as [->|Vn].
          * specialize (IH errors (St (st_el s) (st_sm s')) He). cbn [st_el] in IH. destruct IH as (I1 & I2 & I3).
            destruct (Z s' eq_refl) as [K0|Z0].
            { lia. }
            { rewrite Z0. cbn [Nat.add]. split; [lia|]. split; [auto|].
              destruct (read_variants (map fst rts) title hide eas loc errors _) as [[v|x|] s2]; auto.
              destruct v; auto; destruct I3 as (j & J1 & J2); exists j; (split; [lia|]); cbn [Nat.add]; lia. }
          * specialize (V v s' eq_refl Vn). assert (E0 : cost (match v with VNone => t_variants rts eas loc (St (st_el s) (st_sm s')) | _ => [] end) = 0)
              by (destruct v; try reflexivity; congruence).
            destruct v; try congruence; unfold count at 2 4 6; simpl; (split; [lia|]); (split; [intros; apply A; lia|]);
              (exists 0; split; [lia|]); rewrite (@same_budget k (st_el s') (apply_snapshot (st_el s) (st_el s'))) by auto; lia.
        + destruct x; try (unfold count at 2 4; simpl; split; [lia|]; split; [intros; apply A; lia|auto]).
          assert (N : e_next (st_el s) < length (e_elems (st_el s))) by (eapply F; eauto).
          specialize (IH (dset (ve_title e) e errors) (St (st_el s) (st_sm s')) (fun _ => N)). cbn [st_el] in IH.
          destruct IH as (I1 & I2 & I3). split; [lia|]. split; [auto|].
          destruct (read_variants (map fst rts) title hide eas loc _ _) as [[v|x|] s2]; auto.
          destruct v; [destruct I3 as (I3 & _); exfalso; destruct errors as [|[kk ee] errors]; simpl in I3; [discriminate|destruct (String.eqb _ _); discriminate]|..]; (destruct I3 as (j & J1 & J2); exists (S j); split; [lia|]; simpl; lia).
        + unfold count at 2 4; simpl; split; [lia|]; split; [intros; apply A; lia|auto]. }
    intros s. destruct (G [] s) as (G1 & G2 & G3); [congruence|]. clear G. unfold paid.
    set (Mx := maxof B (e_elems (st_el s))) in *.
    assert (W : length rts * S Mx <= price k (e_elems (st_el s))).
    { eapply Nat.le_trans; [|apply price_k]. apply Nat.mul_le_mono_r. exact Hk. }
    assert (P : cost (t_variants rts eas loc s) <= B (st_el s)).
    { destruct (cost (t_variants rts eas loc s)) as [|c] eqn:Ec; [lia|]. specialize (G2 ltac:(lia)).
      pose proof (step_budget k (st_el s) G2). lia. }
    split; [lia|]. destruct (read_variants (map fst rts) title hide eas loc [] s) as [[v|x|] s']; simpl; try (intros []).
    - assert (Vn : v = VNone \/ v <> VNone) by (destruct v; auto; right; discriminate). destruct Vn as [->|Vn].
      + destruct G3 as (_ & G3 & ->). lia.
      + assert (J : exists j, S j <= length rts /\ cost (t_variants rts eas loc s) + B (st_el s') + price k (e_elems (st_el s)) <= B (st_el s) + 1 + j * S Mx)
          by (destruct v; auto; congruence).
        destruct J as (j & J1 & J2). apply (Nat.mul_le_mono_r _ _ (S Mx)) in J1. simpl in J1. lia.
    - destruct x; intros []. lia.
  Qed.

  Lemma tagged_pays : forall n a mode vs eas loc, (forall p, pays (read_proxy ev (read n ev) p) (t_proxy ev (read n ev) (trace n ev) p)) ->
    forall s, paid 0 (t_tagged (t_proxy ev (read n ev) (trace n ev)) a mode vs eas loc s) s
                     (read_tagged (read_proxy ev (read n ev)) a mode vs eas loc s).
  Proof.
    intros n a mode vs eas loc H; induction vs as [|[tag p] vs IH]; intros s; cbn [t_tagged read_tagged]; [apply paid_nil; simpl; lia|].
    unfold find_element. destruct (search _ _ _ _ _) as [[|i|] e'] eqn:E; apply (@search_budget k) in E as [E _].
    - destruct (IH (set_el e' s)) as [I1 I2]. split; [simpl in I1; lia|]. intros St; specialize (I2 St). simpl in I2. lia.
    - destruct (nth_error (e_elems e') i) as [c|]; [|apply paid_nil; simpl; lia].
      destruct (match get_attrib a c with Some t => _ | None => _ end).
      + destruct (H p eas loc (St e' (sset loc (e_line c) (st_sm s)))) as [I1 I2]. split; [simpl in I1; lia|]. intros St; specialize (I2 St). simpl in I2. lia.
      + destruct (IH (set_el e' s)) as [I1 I2]. split; [simpl in I1; lia|]. intros St; specialize (I2 St). simpl in I2. lia.
    - apply paid_nil; simpl; lia.
  Qed.

  Lemma read_pays : forall n s, unions_upto k s -> pays (read n ev s) (trace n ev s).
  Proof.
    intros n; induction n as [|n IH]; intros s Hs eas loc s0; [apply paid_nil; simpl; lia|].
    pose proof (budget_reader Hev (S n) s eas loc s0) as Mono. unfold rel, brel in Mono.
    assert (PX : forall p, proxy_cost (read_proxy ev (read n ev) p) (t_proxy ev (read n ev) (trace n ev) p)) by (intros; apply proxy_costs; auto).
    destruct Hs; cbn [read trace] in *; cbn [read_step trace_step] in *; try (apply paid_nil; exact Mono).
    - unfold read_homo. destruct c; [apply paid_nil; simpl; lia|]. apply items_pay. apply IH; auto.
    - unfold read_hetero. destruct c; [apply paid_nil; simpl; lia|].
      replace (map (read n ev) l) with (map fst (map (fun i => (read n ev i, trace n ev i)) l)) by (rewrite map_map; reflexivity).
      apply tuple_pays. rewrite Forall_map. rewrite Forall_forall in *. intros x Hx. simpl. apply IH; auto.
    - unfold read_union_prim. destruct c; [apply paid_nil; simpl; lia|]. apply IH; auto.
    - unfold read_union_model. destruct c; [apply paid_nil; simpl; lia|].
      replace (map (read_proxy ev (read n ev)) vs) with (map fst (map (fun p => (read_proxy ev (read n ev) p, t_proxy ev (read n ev) (trace n ev) p)) vs)) by (rewrite map_map; reflexivity).
      apply variants_pay; [|rewrite map_length; auto]. rewrite Forall_map. rewrite Forall_forall. intros p _. apply PX.
    - destruct c; [apply paid_nil; simpl; lia|]. apply tagged_pays. intros p. apply PX.
    - destruct c; [apply paid_nil; simpl; lia|]. unfold read_wrap, t_wrap.
      assert (L : B (snd (find_sub_element p m (st_el s0))) <= B (st_el s0)).
      { apply (@find_sub_rel (brel k)); unfold brel; auto.
        - intros; lia.
        - intros m1 e tag b s1. destruct (search m1 e tag b s1) as [r e'] eqn:E. apply (@search_budget k) in E as [E _]; simpl; auto.
        - intros i c c' e Hn Hh. pose proof (@put_child_budget k i c c' e Hn Hh); lia. }
      destruct (find_sub_element p m (st_el s0)) as [[idxs|] e']; [|apply paid_nil; exact L]. simpl in L.
      destruct (_ && _); [|apply paid_nil; exact L].
      assert (Q : paid 0 (t_on_path idxs (fun c => trace n ev s eas loc (note_line loc c)) (set_el e' s0)) (set_el e' s0)
                         (on_path idxs (fun c => read n ev s eas loc (note_line loc c)) (set_el e' s0))).
      { apply on_path_pays; intros c; [apply (IH s Hs eas loc (note_line loc c))|apply (budget_reader Hev n s eas loc (note_line loc c))]. }
      destruct Q as [Q1 Q2]. split; [simpl in Q1; lia|]. intros St; specialize (Q2 St). simpl in Q2. lia.
    - apply PX.
  Qed.

  Lemma calls_cost : forall n cls root eas,
    cost (calls n ev cls root eas) <= S (B (from_native (en_backend ev) root)).
  Proof.
    intros n cls root eas; unfold calls. destruct (en_model ev cls) as [m|] eqn:Em; [|unfold count; simpl; lia].
    destruct (tag_is _ _); [|unfold count; simpl; lia].
    destruct (@model_pays cls m (read n ev) (trace n ev) Em (read_pays n) eas [] (St (from_native (en_backend ev) root) [])) as [H _].
    simpl in H. lia.
  Qed.
End Pay.
