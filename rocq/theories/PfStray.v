(** PfStray.v -- reading two documents that differ in strays. *)

From Verif Require Import Base Elem Native Errs Names Ser Read Api SpecElem SpecRead SpecSim SpecStray.
From Verif Require Import PfElem PfField PfSafe PfFuel PfSim PfSim2 PfUnbound.

Definition nonempty_o {A} (o : option A) : bool := match o with Some _ => true | None => false end.

(** an element with left-over data somewhere *)
Fixpoint loud (e : elem) : bool :=
  match e with
  | Elem _ _ text tail attrib elements _ _ =>
      nonempty_o (nonblank text) || nonempty_o (nonblank tail) ||
      match attrib with Some (_ :: _) => true | _ => false end || existsb loud elements
  end.

Lemma loud_unbound : forall e path, loud e = false <-> get_unbound path e = [].
Proof.
  intros e; induction e as [tag ns text tail attrib elements next line IH] using elem_ind'; intros path.
  cbn [loud get_unbound]. rewrite !orb_false_iff.
  assert (C : existsb loud elements = false <-> flat_map (fun c => get_unbound (path ++ [e_tag c]) c) elements = []).
  { induction IH as [|c l Hc IH' IHl]; simpl; [tauto|]. rewrite orb_false_iff, (Hc (path ++ [e_tag c])), IHl.
    split; [intros [-> ->]; auto|]. intros E. apply app_eq_nil in E; auto. }
  rewrite C. split.
  - intros [[[A B] D] ->]. destruct (nonblank text); [discriminate|]. destruct (nonblank tail); [discriminate|].
    destruct attrib as [[|]|]; [auto|discriminate|auto].
  - intros E. apply app_eq_nil in E as [A E]. apply app_eq_nil in E as [B E]. apply app_eq_nil in E as [D E].
    destruct (nonblank text); [discriminate|]. destruct (nonblank tail); [discriminate|].
    destruct attrib as [[|]|]; simpl; auto. discriminate.
Qed.

Lemma loud_shell : forall e e', e_text e = e_text e' -> nonempty_o (nonblank (e_tail e)) = nonempty_o (nonblank (e_tail e')) ->
  e_attrib e = e_attrib e' -> existsb loud (e_elems e) = existsb loud (e_elems e') -> loud e = loud e'.
Proof.
  intros [t n x y a l i z] [t' n' x' y' a' l' i' z']; simpl. intros -> -> -> ->. reflexivity.
Qed.

(** how many of them *)
Definition noise (l : list elem) : nat := length (filter loud l).

Lemma noise_existsb : forall l l', noise l = noise l' -> existsb loud l = existsb loud l'.
Proof.
  assert (X : forall l, existsb loud l = negb (Nat.eqb (noise l) 0)).
  { intros l; induction l as [|c l IH]; simpl; auto. unfold noise in *; simpl. destruct (loud c); simpl; auto. }
  intros l l' H. rewrite !X, H; auto.
Qed.

Lemma noise_perm : forall l l', Permutation l l' -> noise l = noise l'.
Proof.
  intros l l' H. unfold noise. apply Permutation_length.
  induction H; simpl; auto.
  - destruct (loud x); auto.
  - destruct (loud x), (loud y); auto. constructor.
  - etransitivity; eauto.
Qed.

Lemma noise_upd : forall i c d l, nth_error l i = Some c ->
  noise (list_upd i d l) + Nat.b2n (loud c) = noise l + Nat.b2n (loud d).
Proof.
  intros i c d l; revert i; induction l as [|x l IH]; intros [|i] H; simpl in H; try discriminate.
  - injection H as ->. unfold noise; simpl. destruct (loud c), (loud d); simpl; lia.
  - specialize (IH _ H). unfold noise in *; simpl. destruct (loud x); simpl; lia.
Qed.

Section Stray.
  Variable quiet : bool.
  Variable U W : string -> bool.
  Variable M : smode.
  Hypothesis HM : M <> Strict.

  Definition strayE (c : elem) : bool := match e_tag c with TName t => U t | TSpecial => true end.
  Definition wantedE (l : list elem) : list elem := filter (fun c => negb (strayE c)) l.

  Definition distinct (l : list elem) : Prop :=
    match M with Unordered => NoDup (map e_tag l) | _ => True end.

  (** in the same order, except in unordered mode *)
  Definition arranged (l l' : list elem) : Prop :=
    match M with Unordered => Permutation l l' | _ => l' = l end.

  (** an element nobody has read from yet *)
  Inductive pris : elem -> elem -> Prop :=
  | pris_intro : forall tag text tail tail' attrib l l' w' line line',
      arranged (wantedE l') w' -> Forall2 pris (wantedE l) w' -> distinct (wantedE l) ->
      (W tag = true -> tail = tail' /\ Forall2 (differ eq eq any_line eq) l l') ->
      (quiet = true -> nonempty_o (nonblank tail) = nonempty_o (nonblank tail') /\ noise l = noise l') ->
      pris (Elem (TName tag) None text tail attrib l 0 line)
           (Elem (TName tag) None text tail' attrib l' 0 line').

  Definition matched (l l' : list elem) : Prop :=
    (forall c, In c l -> exists c', In c' l' /\ pris c c') /\
    (forall c', In c' l' -> exists c, In c l /\ pris c c') /\
    NoDup (map e_tag l) /\ NoDup (map e_tag l').

  Definition ahead (l l' : list elem) : Prop :=
    match M with
    | Unordered => matched (wantedE l) (wantedE l')
    | _ => Forall2 pris (wantedE l) (wantedE l')
    end.

  (** the same amount of left-over data *)
  Definition alike (e e' : elem) : Prop := quiet = true ->
    nonempty_o (nonblank (e_tail e)) = nonempty_o (nonblank (e_tail e')) /\ noise (e_elems e) = noise (e_elems e').

  Inductive rel : elem -> elem -> Prop :=
  | rel_start : forall e e', e_tag e = e_tag e' -> e_text e = e_text e' -> e_attrib e = e_attrib e' ->
      e_next e = 0 -> e_next e' = 0 -> ahead (unread e) (unread e') -> alike e e' -> rel e e'
  | rel_later : forall e e' i j c c', e_tag e = e_tag e' -> e_text e = e_text e' ->
      e_attrib e = e_attrib e' -> e_next e = S i -> e_next e' = S j ->
      nth_error (e_elems e) i = Some c -> nth_error (e_elems e') j = Some c' -> rel c c' ->
      ahead (unread e) (unread e') -> alike e e' -> rel e e'.

  Lemma pris_tag : forall c c', pris c c' -> e_tag c = e_tag c'.
  Proof. intros c c' H; inversion H; auto. Qed.

  Lemma rel_parts : forall e e', rel e e' ->
    e_tag e = e_tag e' /\ e_text e = e_text e' /\ e_attrib e = e_attrib e' /\ ahead (unread e) (unread e').
  Proof. intros e e' H; inversion H; auto. Qed.

  Lemma rel_alike : forall e e', rel e e' -> alike e e'.
  Proof. intros e e' H; inversion H; auto. Qed.

  Lemma rel_loud : forall e e', rel e e' -> quiet = true -> loud e = loud e'.
  Proof.
    intros e e' H Q. destruct (rel_parts H) as (_ & A & B & _). destruct (rel_alike H Q) as [C D].
    apply loud_shell; auto. apply noise_existsb; auto.
  Qed.

  (** an element put in the place of a found one *)
  Lemma alike_put : forall i j c c' d d' e e', nth_error (e_elems e) i = Some c -> nth_error (e_elems e') j = Some c' ->
    alike e e' -> (quiet = true -> loud c = loud c') -> rel d d' -> alike (put_child i d e) (put_child j d' e').
  Proof.
    intros i j c c' d d' e e' Hi Hj A L R Q. destruct (A Q) as [B C]. simpl. split; auto.
    specialize (L Q). pose proof (rel_loud R Q) as LD.
    pose proof (@noise_upd i c d _ Hi) as X. pose proof (@noise_upd j c' d' _ Hj) as X'. rewrite L, LD in X. lia.
  Qed.

  Lemma pris_forall2_matched : forall l l', Forall2 pris l l' -> NoDup (map e_tag l) -> matched l l'.
  Proof.
    intros l l' H ND.
    assert (TT : map e_tag l = map e_tag l').
    { clear ND. induction H as [|c c' l l' Hc H IH]; simpl; auto. f_equal; auto. apply pris_tag; auto. }
    split; [|split; [|split]]; auto; [| |congruence].
    - clear ND TT. induction H as [|c c' l l' Hc H IH]; intros x Hx; [contradiction|].
      destruct Hx as [<-|Hx]; [exists c'; simpl; auto|].
      destruct (IH _ Hx) as (x' & Hx' & P); exists x'; simpl; auto.
    - clear ND TT. induction H as [|c c' l l' Hc H IH]; intros x Hx; [contradiction|].
      destruct Hx as [<-|Hx]; [exists c; simpl; auto|].
      destruct (IH _ Hx) as (x' & Hx' & P); exists x'; simpl; auto.
  Qed.

  Lemma matched_swap : forall l l' l1', Permutation l' l1' -> matched l l' -> matched l l1'.
  Proof.
    intros l l' l1' P (A & B & C & D). split; [|split; [|split]]; auto.
    - intros c I. destruct (A c I) as (c' & I' & H). exists c'. split; auto. eapply Permutation_in; eauto.
    - intros c' I. apply B. eapply Permutation_in; [apply Permutation_sym|]; eauto.
    - eapply Permutation_NoDup; [apply Permutation_map|]; eauto.
  Qed.

  Lemma pris_ahead : forall l l' w', arranged (wantedE l') w' -> Forall2 pris (wantedE l) w' -> distinct (wantedE l) -> ahead l l'.
  Proof.
    intros l l' w' A H D. unfold ahead, distinct, arranged in *. destruct M; [subst; auto|subst; auto|].
    eapply matched_swap; [apply Permutation_sym; eauto|]. apply pris_forall2_matched; auto.
  Qed.

  Lemma pris_rel : forall c c', pris c c' -> rel c c'.
  Proof.
    intros c c' H; inversion H; subst. apply rel_start; simpl; auto.
    eapply pris_ahead; eauto.
  Qed.

  Lemma wantedE_app : forall l1 l2, wantedE (l1 ++ l2) = wantedE l1 ++ wantedE l2.
  Proof. intros; apply filter_app. Qed.

  Lemma wantedE_called : forall tag c l, U tag = false -> called tag c -> wantedE (c :: l) = c :: wantedE l.
  Proof. intros tag c l Hu Hc. unfold wantedE; simpl. unfold strayE. rewrite Hc, Hu. reflexivity. Qed.

  Lemma wantedE_Forall : forall (P : elem -> Prop) l, Forall P l -> Forall P (wantedE l).
  Proof.
    intros P l H; rewrite Forall_forall in *. intros x Hx. apply filter_In in Hx as [Hx _]; auto.
  Qed.

  Lemma wantedE_perm : forall l l', Permutation l l' -> Permutation (wantedE l) (wantedE l').
  Proof.
    intros l l' H; induction H; simpl; auto.
    - destruct (negb (strayE x)); auto.
    - destruct (negb (strayE x)), (negb (strayE y)); auto. constructor.
    - etransitivity; eauto.
  Qed.

  Lemma first_split : forall tag A A' c c' B B', Forall2 pris (A ++ c :: B) (A' ++ c' :: B') ->
    Forall (fun x => ~ called tag x) A -> Forall (fun x => ~ called tag x) A' -> called tag c -> called tag c' ->
    pris c c' /\ Forall2 pris B B'.
  Proof.
    intros tag A; induction A as [|a A IH]; intros [|a' A'] c c' B B' H HA HA' Hc Hc'; simpl in H;
      inversion H as [|? ? ? ? P0 P1]; subst.
    - auto.
    - exfalso. inversion HA' as [|? ? N _]; subst. apply N. unfold called. rewrite <- (pris_tag P0); auto.
    - exfalso. inversion HA as [|? ? N _]; subst. apply N. unfold called. rewrite (pris_tag P0); auto.
    - inversion HA; inversion HA'; subst. eapply IH; eauto.
  Qed.

  Lemma none_split : forall tag A c B L', Forall2 pris (A ++ c :: B) L' -> called tag c ->
    Forall (fun x => ~ called tag x) L' -> False.
  Proof.
    intros tag A c B L' H Hc HN. apply Forall2_app_inv_l in H as (l1 & l2 & _ & H2 & ->).
    inversion H2 as [|? c' ? ? P0 _]; subst. apply Forall_app in HN as [_ HN]. inversion HN as [|? ? N _]; subst.
    apply N. unfold called. rewrite <- (pris_tag P0); auto.
  Qed.

  Lemma none_split' : forall tag A c B L', Forall2 pris L' (A ++ c :: B) -> called tag c ->
    Forall (fun x => ~ called tag x) L' -> False.
  Proof.
    intros tag A c B L' H Hc HN. apply Forall2_app_inv_r in H as (l1 & l2 & _ & H2 & ->).
    inversion H2 as [|c' ? ? ? P0 _]; subst. apply Forall_app in HN as [_ HN]. inversion HN as [|? ? N _]; subst.
    apply N. unfold called. rewrite (pris_tag P0); auto.
  Qed.

  Lemma NoDup_tag_eq : forall l c d, NoDup (map e_tag l) -> In c l -> In d l -> e_tag c = e_tag d -> c = d.
  Proof.
    intros l; induction l as [|x l IH]; intros c d ND Hc Hd E; [contradiction|].
    simpl in ND; inversion ND as [|? ? N ND']; subst.
    destruct Hc as [<-|Hc], Hd as [<-|Hd]; auto.
    - exfalso; apply N. rewrite E. apply in_map; auto.
    - exfalso; apply N. rewrite <- E. apply in_map; auto.
  Qed.

  Lemma matched_remove : forall c c' l l', matched (c :: l) (c' :: l') -> e_tag c = e_tag c' ->
    pris c c' /\ matched l l'.
  Proof.
    intros c c' l l' (A & B & N1 & N2) E.
    assert (P : pris c c').
    { destruct (A c) as (d & Hd & P); simpl; auto.
      assert (d = c'); [|subst; auto].
      eapply NoDup_tag_eq; [exact N2|auto|simpl; auto|]. rewrite <- (pris_tag P); auto. }
    split; auto. simpl in N1, N2. inversion N1 as [|? ? M1 N1']; inversion N2 as [|? ? M2 N2']; subst.
    split; [|split; [|split]]; auto.
    - intros x Hx. destruct (A x) as (x' & Hx' & Px); simpl; auto.
      destruct Hx' as [<-|Hx']; [|eauto]. exfalso. apply M1. rewrite E, <- (pris_tag Px). apply in_map; auto.
    - intros x Hx. destruct (B x) as (x' & Hx' & Px); simpl; auto.
      destruct Hx' as [<-|Hx']; [|eauto]. exfalso. apply M2. rewrite <- E, (pris_tag Px). apply in_map; auto.
  Qed.

  Lemma matched_perm : forall l l1 l' l1', Permutation l l1 -> Permutation l' l1' -> matched l l' -> matched l1 l1'.
  Proof.
    intros l l1 l' l1' P P' (A & B & N1 & N2). split; [|split; [|split]].
    - intros c Hc. destruct (A c) as (c' & Hc' & Q); [eapply Permutation_in; [symmetry; exact P|auto]|].
      exists c'; split; auto. eapply Permutation_in; eauto.
    - intros c Hc. destruct (B c) as (c' & Hc' & Q); [eapply Permutation_in; [symmetry; exact P'|auto]|].
      exists c'; split; auto. eapply Permutation_in; eauto.
    - eapply Permutation_NoDup; [apply Permutation_map; exact P|auto].
    - eapply Permutation_NoDup; [apply Permutation_map; exact P'|auto].
  Qed.

  (** what is left ahead after a take *)
  Definition left_of (skip rest left_ : list elem) : Prop :=
    match M with Unordered => Permutation left_ (skip ++ rest) | _ => left_ = rest end.

  Lemma ahead_take : forall tag skip c rest left_ skip' c' rest' left_', U tag = false ->
    ahead (skip ++ c :: rest) (skip' ++ c' :: rest') -> called tag c -> called tag c' ->
    Forall (fun x => ~ called tag x) skip -> Forall (fun x => ~ called tag x) skip' ->
    left_of skip rest left_ -> left_of skip' rest' left_' ->
    pris c c' /\ ahead left_ left_'.
  Proof.
    intros tag skip c rest left_ skip' c' rest' left_' Hu H Hc Hc' Hs Hs' L L'.
    unfold ahead, left_of in *. destruct M.
    - congruence.
    - subst. rewrite !wantedE_app, !(wantedE_called _ Hu) in H by auto.
      eapply first_split; eauto; apply wantedE_Forall; auto.
    - assert (X : matched (c :: wantedE left_) (c' :: wantedE left_')).
      { eapply matched_perm; [| |exact H].
        - rewrite <- (wantedE_called _ Hu Hc). apply wantedE_perm.
          rewrite <- Permutation_middle. constructor. symmetry; auto.
        - rewrite <- (wantedE_called _ Hu Hc'). apply wantedE_perm.
          rewrite <- Permutation_middle. constructor. symmetry; auto. }
      apply matched_remove; auto. unfold called in *; congruence.
  Qed.

  Lemma ahead_none : forall tag skip c rest l', U tag = false -> called tag c ->
    Forall (fun x => ~ called tag x) l' -> ahead (skip ++ c :: rest) l' -> False.
  Proof.
    intros tag skip c rest l' Hu Hc HN H. apply wantedE_Forall in HN. unfold ahead in H.
    destruct M; try (rewrite wantedE_app, (wantedE_called _ Hu) in H by auto; eapply none_split; eauto; fail).
    destruct H as (A & _). destruct (A c) as (c' & Hc' & P).
    { rewrite wantedE_app, (wantedE_called _ Hu) by auto. apply in_or_app; simpl; auto. }
    rewrite Forall_forall in HN. apply (HN _ Hc'). unfold called. rewrite <- (pris_tag P); auto.
  Qed.

  Lemma ahead_none' : forall tag skip c rest l', U tag = false -> called tag c ->
    Forall (fun x => ~ called tag x) l' -> ahead l' (skip ++ c :: rest) -> False.
  Proof.
    intros tag skip c rest l' Hu Hc HN H. apply wantedE_Forall in HN. unfold ahead in H.
    destruct M; try (rewrite wantedE_app, (wantedE_called _ Hu) in H by auto; eapply none_split'; eauto; fail).
    destruct H as (_ & A & _). destruct (A c) as (c' & Hc' & P).
    { rewrite wantedE_app, (wantedE_called _ Hu) by auto. apply in_or_app; simpl; auto. }
    rewrite Forall_forall in HN. apply (HN _ Hc'). unfold called. rewrite (pris_tag P); auto.
  Qed.

  (** ---- the forward search, described ---- *)
  Lemma forward_split : forall e tag step, e_next e <= length (e_elems e) ->
    match forward M e tag step with
    | (NotFound, e1) => e1 = e /\ Forall (fun x => ~ called tag x) (unread e)
    | (IndexErr, _) => False
    | (Found i, e1) => exists skip c rest left_,
        unread e = skip ++ c :: rest /\ called tag c /\ Forall (fun x => ~ called tag x) skip /\
        left_of skip rest left_ /\ nth_error (e_elems e1) i = Some c /\ same_shell e e1 /\
        Permutation (e_elems e1) (e_elems e) /\
        (step = true -> e_next e1 = S i /\ unread e1 = left_) /\
        (step = false -> e_next e1 = e_next e /\ passed e1 = passed e /\
           match M with Unordered => Permutation (unread e1) (unread e) | _ => unread e1 = unread e end)
    end.
  Proof.
    intros e tag step Hn. unfold left_of, forward. destruct M; [congruence| |].
    - unfold ordered_forward. pose proof (find_from_spec tag (skipn (e_next e) (e_elems e)) (e_next e)) as F.
      destruct (find_from _ _ _) as [i|]; [|split; auto].
      destruct F as (skip & c & rest & E & -> & Hc & Hs).
      exists skip, c, rest, rest.
      assert (Lp : length (passed e) = e_next e) by (unfold passed; rewrite firstn_length; lia).
      assert (Ee : e_elems e = (passed e ++ skip) ++ c :: rest).
      { rewrite (split_at_cursor e) at 1. unfold unread; rewrite E, <- app_assoc; auto. }
      assert (L2 : length (passed e ++ skip) = e_next e + length skip) by (rewrite app_length; lia).
      split; [exact E|]. split; [auto|]. split; [auto|]. split; [auto|].
      assert (Hnth : nth_error (e_elems e) (e_next e + length skip) = Some c).
      { rewrite Ee, nth_error_app2 by lia. rewrite L2, Nat.sub_diag; auto. }
      split; [destruct step; exact Hnth|]. split; [destruct step; unfold same_shell; simpl; auto 10|].
      split; [destruct step; auto|].
      split; intros ->; simpl.
      + split; auto. unfold unread; simpl e_next; simpl e_elems. rewrite Ee.
        replace (S (e_next e + length skip)) with (length ((passed e ++ skip) ++ [c])) by (rewrite app_length; simpl; lia).
        replace ((passed e ++ skip) ++ c :: rest) with (((passed e ++ skip) ++ [c]) ++ rest) by (rewrite <- !app_assoc; auto).
        apply skipn_app_len; auto.
      + auto.
    - unfold unordered_forward. pose proof (find_from_spec tag (skipn (e_next e) (e_elems e)) (e_next e)) as F.
      destruct (find_from _ _ _) as [i|]; [|split; auto].
      destruct F as (skip & c & rest & E & -> & Hc & Hs).
      assert (Lp : length (passed e) = e_next e) by (unfold passed; rewrite firstn_length; lia).
      assert (Ee : e_elems e = passed e ++ skip ++ c :: rest).
      { rewrite (split_at_cursor e) at 1. unfold unread; rewrite E; auto. }
      set (left_ := match skip with [] => rest | x :: skip' => skip' ++ x :: rest end).
      assert (Es : list_swap (e_next e) (e_next e + length skip) (e_elems e) = passed e ++ c :: left_).
      { rewrite Ee, <- Lp. rewrite list_swap_cursor. unfold left_. destruct skip; auto. }
      assert (PL : Permutation left_ (skip ++ rest)).
      { unfold left_. destruct skip; auto. simpl. symmetry. apply Permutation_middle. }
      exists skip, c, rest, left_. split; [exact E|]. split; [auto|]. split; [auto|]. split; [auto|].
      rewrite Es.
      assert (Hnth : nth_error (passed e ++ c :: left_) (e_next e) = Some c).
      { rewrite nth_error_app2 by lia. rewrite Lp, Nat.sub_diag; auto. }
      split; [destruct step; exact Hnth|]. split; [destruct step; unfold same_shell; simpl; auto 10|].
      split; [destruct step; simpl; rewrite Ee; apply Permutation_app_head; rewrite <- Permutation_middle; constructor; auto|].
      split; intros ->; simpl.
      + split; auto. unfold unread; simpl e_next; simpl e_elems.
        replace (S (e_next e)) with (length (passed e ++ [c])) by (rewrite app_length; simpl; lia).
        replace (passed e ++ c :: left_) with ((passed e ++ [c]) ++ left_) by (rewrite <- app_assoc; auto).
        apply skipn_app_len; auto.
      + split; auto. unfold passed at 1, unread at 1; simpl e_next; simpl e_elems.
        split; [apply firstn_app_len; auto|]. rewrite skipn_app_len by auto.
        unfold unread; rewrite E. rewrite PL. rewrite <- Permutation_middle. auto.
  Qed.

  Lemma unread_put : forall i d e, i < e_next e -> unread (put_child i d e) = unread e.
  Proof. intros i d e H. unfold unread, put_child; simpl. apply skipn_list_upd; auto. Qed.

  Lemma nth_passed : forall e e1 i, passed e1 = passed e -> e_next e1 = e_next e -> i < e_next e ->
    nth_error (e_elems e1) i = nth_error (e_elems e) i.
  Proof.
    assert (X : forall A (l : list A) n i, i < n -> nth_error l i = nth_error (firstn n l) i).
    { intros A l; induction l as [|x l IH]; intros [|n] [|i] H; simpl; auto; try lia. apply IH; lia. }
    intros e e1 i P N L. rewrite (X _ (e_elems e1) (e_next e1)), (X _ (e_elems e) (e_next e)) by lia.
    unfold passed in P. congruence.
  Qed.

  (** the child found on both sides *)
  Definition both (Q : elem -> elem -> Prop) (p p' : found * elem) : Prop :=
    match p, p' with
    | (NotFound, e1), (NotFound, e1') => rel e1 e1'
    | (Found i, e1), (Found j, e1') => exists c c',
        nth_error (e_elems e1) i = Some c /\ nth_error (e_elems e1') j = Some c' /\ Q c c' /\
        (forall d d', rel d d' -> rel (put_child i d e1) (put_child j d' e1'))
    | _, _ => False
    end.

  Lemma alike_perm : forall e e' e1 e1', alike e e' -> same_shell e e1 -> same_shell e' e1' ->
    Permutation (e_elems e1) (e_elems e) -> Permutation (e_elems e1') (e_elems e') -> alike e1 e1'.
  Proof.
    intros e e' e1 e1' A S S' P P' Q. destruct (A Q) as [B C].
    destruct S as (_ & _ & _ & -> & _), S' as (_ & _ & _ & -> & _). split; auto.
    rewrite (noise_perm P), (noise_perm P'); auto.
  Qed.

  Lemma forward_both : forall e e' tag, U tag = false -> rel e e' ->
    e_next e <= length (e_elems e) -> e_next e' <= length (e_elems e') ->
    both pris (forward M e tag true) (forward M e' tag true).
  Proof.
    intros e e' tag Hu R L L'. pose proof (@forward_split e tag true L) as F. pose proof (@forward_split e' tag true L') as F'.
    destruct (rel_parts R) as (Et & Ex & Ea & Ah).
    destruct (forward M e tag true) as [[|i|] e1]; destruct (forward M e' tag true) as [[|j|] e1']; simpl;
      try contradiction.
    - destruct F as [-> _], F' as [-> _]; auto.
    - destruct F as [_ N]. destruct F' as (skip & c & rest & lf & E & Hc & _). rewrite E in Ah.
      eapply ahead_none'; eauto.
    - destruct F' as [_ N]. destruct F as (skip & c & rest & lf & E & Hc & _). rewrite E in Ah.
      eapply ahead_none; eauto.
    - destruct F as (skip & c & rest & lf & E & Hc & Hs & Hl & Hi & Sh & Pm & St & _).
      destruct F' as (skip' & c' & rest' & lf' & E' & Hc' & Hs' & Hl' & Hi' & Sh' & Pm' & St' & _).
      rewrite E, E' in Ah. destruct (@ahead_take tag skip c rest lf skip' c' rest' lf') as [P Q]; auto.
      destruct (St eq_refl) as [Nx Un]. destruct (St' eq_refl) as [Nx' Un'].
      exists c, c'. split; [auto|]. split; [auto|]. split; [auto|].
      pose proof (alike_perm (rel_alike R) Sh Sh' Pm Pm') as Al.
      intros d d' Rd. destruct Sh as (S1 & _ & S2 & _ & S3 & _), Sh' as (S1' & _ & S2' & _ & S3' & _).
      assert (Li : i < length (e_elems e1)) by (apply nth_error_Some; congruence).
      assert (Lj : j < length (e_elems e1')) by (apply nth_error_Some; congruence).
      eapply rel_later with (c := d) (c' := d'); simpl; try congruence; eauto.
      + apply nth_error_list_upd_same; apply nth_error_Some; congruence.
      + apply nth_error_list_upd_same; apply nth_error_Some; congruence.
      + rewrite !unread_put by lia. congruence.
      + eapply alike_put; eauto. intros Q0. apply rel_loud; auto. apply pris_rel; auto.
  Qed.

  (** without moving on *)
  Lemma peek_both : forall e e' tag, U tag = false -> rel e e' ->
    e_next e <= length (e_elems e) -> e_next e' <= length (e_elems e') ->
    match forward M e tag false, forward M e' tag false with
    | (NotFound, e1), (NotFound, e1') => rel e1 e1'
    | (Found i, e1), (Found j, e1') => rel e1 e1' /\ exists c c',
        nth_error (e_elems e1) i = Some c /\ nth_error (e_elems e1') j = Some c' /\ pris c c'
    | _, _ => False
    end.
  Proof.
    intros e e' tag Hu R L L'. pose proof (@forward_split e tag false L) as F. pose proof (@forward_split e' tag false L') as F'.
    destruct (rel_parts R) as (Et & Ex & Ea & Ah).
    destruct (forward M e tag false) as [[|i|] e1]; destruct (forward M e' tag false) as [[|j|] e1']; simpl;
      try contradiction.
    - destruct F as [-> _], F' as [-> _]; auto.
    - destruct F as [_ N]. destruct F' as (skip & c & rest & lf & E & Hc & _). rewrite E in Ah.
      eapply ahead_none'; eauto.
    - destruct F' as [_ N]. destruct F as (skip & c & rest & lf & E & Hc & _). rewrite E in Ah.
      eapply ahead_none; eauto.
    - destruct F as (skip & c & rest & lf & E & Hc & Hs & Hl & Hi & Sh & Pm & _ & St).
      destruct F' as (skip' & c' & rest' & lf' & E' & Hc' & Hs' & Hl' & Hi' & Sh' & Pm' & _ & St').
      pose proof Ah as Ah0. rewrite E, E' in Ah. destruct (@ahead_take tag skip c rest lf skip' c' rest' lf') as [P Q]; auto.
      destruct (St eq_refl) as (Nx & Pa & Un). destruct (St' eq_refl) as (Nx' & Pa' & Un').
      split; [|exists c, c'; auto].
      assert (Ah1 : ahead (unread e1) (unread e1')).
      { unfold ahead in *. destruct M; try congruence.
        eapply matched_perm; [apply wantedE_perm; symmetry; exact Un|apply wantedE_perm; symmetry; exact Un'|auto]. }
      pose proof (alike_perm (rel_alike R) Sh Sh' Pm Pm') as Al.
      destruct Sh as (S1 & _ & S2 & _ & S3 & _), Sh' as (S1' & _ & S2' & _ & S3' & _).
      inversion R; subst.
      + apply rel_start; try congruence; auto.
      + eapply rel_later with (i := i0) (j := j0) (c := c0) (c' := c'0); try congruence; auto.
        * rewrite (@nth_passed e e1); auto; lia.
        * rewrite (@nth_passed e' e1'); auto; lia.
  Qed.

  Lemma behind_both : forall e e' tag, U tag = false -> rel e e' ->
    e_next e <= length (e_elems e) -> e_next e' <= length (e_elems e') ->
    both rel (search M e tag true true) (search M e' tag true true).
  Proof.
    intros e e' tag Hu R L L'. unfold search, look_behind.
    assert (X : both rel (forward M e tag true) (forward M e' tag true)).
    { pose proof (@forward_both e e' tag Hu R L L') as F. unfold both in *.
      destruct (forward M e tag true) as [[|i|] e1]; destruct (forward M e' tag true) as [[|j|] e1']; auto.
      destruct F as (c & c' & A & B & P & D). exists c, c'. split; [auto|]. split; [auto|]. split; [|auto].
      apply pris_rel; auto. }
    inversion R as [? ? T1 T2 T3 N1 N2 Ah Al|? ? i j c c' T1 T2 T3 N1 N2 Hi Hj Rc Ah Al]; subst.
    - rewrite N1, N2. auto.
    - rewrite N1, N2, Hi, Hj. destruct (rel_parts Rc) as (Ec & _). rewrite <- Ec.
      destruct (tag_is (e_tag c) tag); [|auto].
      exists c, c'. split; [auto|]. split; [auto|]. split; [auto|].
      intros d d' Rd. eapply rel_later with (c := d) (c' := d'); simpl; eauto.
      + apply nth_error_list_upd_same; apply nth_error_Some; congruence.
      + apply nth_error_list_upd_same; apply nth_error_Some; congruence.
      + rewrite !unread_put by lia. auto.
      + eapply alike_put; eauto. intros Q0. apply rel_loud; auto.
  Qed.

  (** ---- outcomes ---- *)
  Definition fails {A} (o : out A) : Prop := exists x, o = Raise (XValidation x).

  (** one of the runs ran out of fuel, or both agree *)
  Definition agree {A} (p q : out A * st) : Prop :=
    fst p = Fuel \/ fst q = Fuel \/
    (exists v, fst p = Ok v /\ fst q = Ok v /\ rel (st_el (snd p)) (st_el (snd q))) \/
    (fails (fst p) /\ fails (fst q)).

  Definition T := named_tag.

  Definition both_ok (r : reader) : Prop := forall eas loc s s', rel (st_el s) (st_el s') ->
    sound T (st_el s) -> sound T (st_el s') -> agree (r eas loc s) (r eas loc s').

  Variable ev : env.
  Hypothesis Hwf : wf_env T (fun _ => False) ev.
  Hypothesis Hask : env_asks U W M ev.
  Hypothesis Hforbid : forall cls m, en_model ev cls = Some m -> md_forbid m = true -> quiet = true.

  Definition tame (r : reader) : Prop := forall eas loc s, sound T (st_el s) ->
    sound T (st_el (snd (r eas loc s))) /\
    match fst (r eas loc s) with Raise x => exists e, x = XValidation e | _ => True end.

  Lemma tame_of_safe : forall r, reader_safe T (fun _ => False) ev r -> tame r.
  Proof.
    intros r H eas loc s Hs. specialize (H eas loc s Hs). destruct (r eas loc s) as [o s'].
    destruct H as [A B]. simpl. split; auto. destruct o; auto.
    destruct B as [B|(_ & B & _)]; [|exfalso; apply B; auto].
    destruct x; simpl in B; try contradiction; eauto.
  Qed.

  Lemma agree_ok : forall A (v : A) s s', rel (st_el s) (st_el s') -> agree (Ok v, s) (Ok v, s').
  Proof. intros A v s s' H. right; right; left. exists v; auto. Qed.

  Lemma agree_fail : forall A x x' s s', agree (A := A) (Raise (XValidation x), s) (Raise (XValidation x'), s').
  Proof. intros A x x' s s'. right; right; right. unfold fails; simpl; eauto. Qed.

  Lemma next_le : forall e, sound T e -> e_next e <= length (e_elems e).
  Proof. intros e H; inversion H; auto. Qed.

  Lemma on_child_agree : forall A i j c c' (f g : st -> rres A) s s',
    nth_error (e_elems (st_el s)) i = Some c -> nth_error (e_elems (st_el s')) j = Some c' ->
    agree (f (St c (st_sm s))) (g (St c' (st_sm s'))) ->
    (forall d d', rel d d' -> rel (put_child i d (st_el s)) (put_child j d' (st_el s'))) ->
    agree (on_child i f s) (on_child j g s').
  Proof.
    intros A i j c c' f g s s' Hi Hj H P. unfold on_child. rewrite Hi, Hj.
    destruct (f (St c (st_sm s))) as [o t]. destruct (g (St c' (st_sm s'))) as [o' t'].
    destruct H as [H|[H|[(v & H1 & H2 & R)|[F1 F2]]]]; simpl in *; subst.
    - left; auto.
    - right; left; auto.
    - apply agree_ok; simpl; auto.
    - right; right; right; auto.
  Qed.

  Lemma with_found_agree : forall tag (f : st -> rres val) s s', U tag = false ->
    rel (st_el s) (st_el s') -> sound T (st_el s) -> sound T (st_el s') ->
    (forall c c' sm sm', pris c c' -> called tag c -> sound T c -> sound T c' -> agree (f (St c sm)) (f (St c' sm'))) ->
    agree (with_found (pop_element (st_el s) tag M) f s) (with_found (pop_element (st_el s') tag M) f s').
  Proof.
    intros tag f s s' Hu R S S' Hf. unfold pop_element, search.
    pose proof (@forward_both _ _ tag Hu R (next_le S) (next_le S')) as B.
    pose proof (@forward_split (st_el s) tag true (next_le S)) as Sp.
    pose proof (@forward_sound T M (st_el s) tag true S) as X.
    pose proof (@forward_sound T M (st_el s') tag true S') as X'.
    unfold both in B.
    destruct (forward M (st_el s) tag true) as [[|i|] e1]; destruct (forward M (st_el s') tag true) as [[|j|] e1'];
      try contradiction; cbn [with_found].
    - apply agree_ok; auto.
    - destruct B as (c & c' & Hi & Hj & P & Put).
      destruct Sp as (skip & d & rest & lf & _ & Hd & _ & _ & Hi2 & _). assert (d = c) by congruence; subst d.
      eapply on_child_agree; simpl; eauto. apply Hf; auto.
      + eapply sound_nth; [apply X|eauto].
      + eapply sound_nth; [apply X'|eauto].
  Qed.

  Lemma rel_text : forall t e e', rel e e' -> rel (set_text_o t e) (set_text_o t e').
  Proof.
    intros t e e' R; inversion R; subst; [apply rel_start|eapply rel_later]; simpl; eauto.
  Qed.

  Lemma rel_attrib : forall t e e', rel e e' -> rel (set_attrib_o t e) (set_attrib_o t e').
  Proof.
    intros t e e' R; inversion R; subst; [apply rel_start|eapply rel_later]; simpl; eauto.
  Qed.

  Lemma pop_attrib_rel : forall k e e', rel e e' ->
    fst (pop_attrib k e) = fst (pop_attrib k e') /\ rel (snd (pop_attrib k e)) (snd (pop_attrib k e')).
  Proof.
    intros k e e' R. destruct (rel_parts R) as (_ & _ & Ea & _). unfold pop_attrib. rewrite <- Ea.
    destruct (e_attrib e) as [d|]; auto. destruct (dget k d); simpl; auto. split; auto. apply rel_attrib; auto.
  Qed.

  Lemma nill_rel : forall e e', rel e e' ->
    fst (is_element_nill e) = fst (is_element_nill e') /\ rel (snd (is_element_nill e)) (snd (is_element_nill e')).
  Proof.
    intros e e' R. destruct (pop_attrib_rel xsi_nil R) as [A B]. unfold is_element_nill.
    destruct (pop_attrib xsi_nil e), (pop_attrib xsi_nil e'); simpl in *; subst; auto.
  Qed.

  Lemma text_both : forall c n, both_ok (read_text c n).
  Proof.
    intros c n eas loc s s' R _ _. unfold read_text. destruct c; [apply agree_ok; auto|].
    destruct n.
    - destruct (nill_rel R) as [A B]. destruct (is_element_nill (st_el s)) as [nl e1], (is_element_nill (st_el s')) as [nl' e1'].
      simpl in A, B. subst nl'. destruct nl; [apply agree_ok; auto|].
      destruct (rel_parts B) as (_ & Et & _). simpl. rewrite <- Et. apply agree_ok. simpl. apply rel_text; auto.
    - destruct (rel_parts R) as (_ & Et & _). simpl. rewrite <- Et. apply agree_ok. simpl. apply rel_text; auto.
  Qed.

  Lemma attr_both : forall k c, both_ok (read_attr k c).
  Proof.
    intros k c eas loc s s' R _ _. unfold read_attr. destruct c; [apply agree_ok; auto|].
    destruct (pop_attrib_rel k R) as [A B].
    destruct (pop_attrib k (st_el s)), (pop_attrib k (st_el s')); simpl in *; subst. apply agree_ok; auto.
  Qed.

  Lemma attrs_both : forall a, both_ok (read_attrs a).
  Proof.
    intros a eas loc s s' R _ _. unfold read_attrs. destruct (as_computed a); [apply agree_ok; auto|].
    unfold pop_attributes. destruct (rel_parts R) as (_ & _ & Ea & _). rewrite <- Ea.
    destruct (e_attrib (st_el s)); apply agree_ok; simpl; apply rel_attrib; auto.
  Qed.

  Lemma elem_both : forall tag ni c, U tag = false -> both_ok (read_elem tag M c ni).
  Proof.
    intros tag ni c Hu eas loc s s' R S S'. unfold read_elem. destruct c; [apply agree_ok; auto|].
    apply with_found_agree; auto. intros c c' sm sm' P _ Sc Sc'. apply text_both; simpl; auto. apply pris_rel; auto.
  Qed.

  Lemma map_both : forall tag a, U tag = false -> both_ok (read_map_elem tag M a).
  Proof.
    intros tag a Hu eas loc s s' R S S'. unfold read_map_elem. destruct (as_computed a); [apply agree_ok; auto|].
    apply with_found_agree; auto. intros c c' sm sm' P _ Sc Sc'. apply attrs_both; simpl; auto. apply pris_rel; auto.
  Qed.

  Lemma raw_both : forall b tag c, U tag = false -> W tag = true -> both_ok (read_raw b tag M c).
  Proof.
    intros b tag c Hu Hw eas loc s s' R S S'. unfold read_raw. destruct c; [apply agree_ok; auto|].
    apply with_found_agree; auto. intros c c' sm sm' P Hc Sc Sc'.
    inversion P as [tg text tail tail' attrib l l' w' line line' HA HF HD HW HQ]; subst. unfold called in Hc; simpl in Hc.
    injection Hc as ->. destruct (HW Hw) as [-> HL]. cbn [st_el extract pop_text pop_tail pop_attributes pop_elements].
    assert (X : to_native b (fst (extract (Elem (TName tag) None text tail' attrib l 0 line))) =
                to_native b (fst (extract (Elem (TName tag) None text tail' attrib l' 0 line')))).
    { apply differ_lines_native. simpl. constructor; auto. exact I. }
    unfold extract in *; simpl in X. simpl. rewrite X.
    destruct (match map_opt (to_native b) l' with Some _ => _ | None => _ end) eqn:E.
    - apply agree_ok. simpl. apply rel_start; simpl; auto; [|intros _; simpl; auto]. unfold unread; simpl. apply (@pris_ahead [] [] []); [unfold arranged; destruct M; auto|constructor|].
      unfold distinct; destruct M; auto. constructor.
    - exfalso. assert (Y : T TSpecial /\ b = Lxml).
      { eapply to_native_none with (e := Elem (TName tag) None text tail' attrib l' 0 line'); [exact Sc'|exact E]. }
      destruct Y as [Y _]. apply Y; auto.
  Qed.

  (** loops in which an error has already been noted end with a ValidationError *)
  Lemma items_fail : forall r, tame r -> forall k title hide eas loc idx result errors s, errors <> [] ->
    sound T (st_el s) ->
    let o := fst (read_items k r title hide eas loc idx result errors s) in o = Fuel \/ fails o.
  Proof.
    intros r Hr k; induction k as [|k IH]; intros title hide eas loc idx result errors s He Hs; [left; auto|].
    cbn [read_items]. destruct (Hr eas (loc ++ [LIdx idx]) s Hs) as [A B].
    destruct (r eas (loc ++ [LIdx idx]) s) as [o s1]. simpl in A, B. destruct o as [v|x|].
    - destruct v; try (apply IH; auto; fail). destruct errors; [congruence|]. right. unfold fails; simpl; eauto.
    - destruct B as [e ->]. apply IH; auto. destruct errors; discriminate.
    - left; auto.
  Qed.

  Lemma tuple_fail : forall rs, Forall tame rs -> forall title hide eas loc idx result errors s, errors <> [] ->
    sound T (st_el s) ->
    let o := fst (read_tuple rs title hide eas loc idx result errors s) in o = Fuel \/ fails o.
  Proof.
    intros rs H; induction H as [|r rs Hr H IH]; intros title hide eas loc idx result errors s He Hs; cbn [read_tuple].
    - destruct errors; [congruence|]. right. unfold fails; simpl; eauto.
    - destruct (Hr eas (loc ++ [LIdx idx]) s Hs) as [A B].
      destruct (r eas (loc ++ [LIdx idx]) s) as [o s1]. simpl in A, B. destruct o as [v|x|].
      + apply IH; auto.
      + destruct B as [e ->]. apply IH; auto. destruct errors; discriminate.
      + left; auto.
  Qed.

  Lemma agree_fails : forall A (p q : out A * st), (fst p = Fuel \/ fails (fst p)) -> (fst q = Fuel \/ fails (fst q)) ->
    agree p q.
  Proof. intros A p q [H|H] [H'|H']; unfold agree; auto. Qed.

  Lemma items_both : forall r, both_ok r -> tame r -> forall k title hide eas loc idx result s s',
    rel (st_el s) (st_el s') -> sound T (st_el s) -> sound T (st_el s') ->
    agree (read_items k r title hide eas loc idx result [] s) (read_items k r title hide eas loc idx result [] s').
  Proof.
    intros r Hb Hr k; induction k as [|k IH]; intros title hide eas loc idx result s s' R S S'; [left; auto|].
    cbn [read_items]. pose proof (Hb eas (loc ++ [LIdx idx]) s s' R S S') as G.
    destruct (Hr eas (loc ++ [LIdx idx]) s S) as [A B]. destruct (Hr eas (loc ++ [LIdx idx]) s' S') as [A' B'].
    destruct (r eas (loc ++ [LIdx idx]) s) as [o s1]. destruct (r eas (loc ++ [LIdx idx]) s') as [o' s1'].
    simpl in A, B, A', B'. destruct G as [G|[G|[(v & G1 & G2 & R1)|[[x G1] [x' G2]]]]]; simpl in *; subst.
    - left; auto.
    - right; left; auto.
    - destruct v; try (apply IH; auto; fail). apply agree_ok; auto.
    - apply agree_fails; apply items_fail; auto; discriminate.
  Qed.

  Lemma tuple_both : forall rs, Forall both_ok rs -> Forall tame rs -> forall title hide eas loc idx result s s',
    rel (st_el s) (st_el s') -> sound T (st_el s) -> sound T (st_el s') ->
    agree (read_tuple rs title hide eas loc idx result [] s) (read_tuple rs title hide eas loc idx result [] s').
  Proof.
    intros rs H; induction H as [|r rs Hb H IH]; intros Ht title hide eas loc idx result s s' R S S'; cbn [read_tuple].
    - apply agree_ok; auto.
    - inversion Ht as [|? ? Hr Hrs]; subst.
      pose proof (Hb eas (loc ++ [LIdx idx]) s s' R S S') as G.
      destruct (Hr eas (loc ++ [LIdx idx]) s S) as [A B]. destruct (Hr eas (loc ++ [LIdx idx]) s' S') as [A' B'].
      destruct (r eas (loc ++ [LIdx idx]) s) as [o s1]. destruct (r eas (loc ++ [LIdx idx]) s') as [o' s1'].
      simpl in A, B, A', B'. destruct G as [G|[G|[(v & G1 & G2 & R1)|[[x G1] [x' G2]]]]]; simpl in *; subst.
      + left; auto.
      + right; left; auto.
      + apply IH; auto.
      + apply agree_fails; apply tuple_fail; auto; discriminate.
  Qed.

  Lemma variants_both : forall rs, Forall both_ok rs -> Forall tame rs -> forall title hide eas loc errors errors' s s',
    (errors = [] <-> errors' = []) -> rel (st_el s) (st_el s') -> sound T (st_el s) -> sound T (st_el s') ->
    agree (read_variants rs title hide eas loc errors s) (read_variants rs title hide eas loc errors' s').
  Proof.
    intros rs H; induction H as [|r rs Hb H IH]; intros Ht title hide eas loc errors errors' s s' HE R S S';
      cbn [read_variants].
    - destruct errors, errors'; try (exfalso; destruct HE as [H1 H2]; try (discriminate H1; auto); try (discriminate H2; auto); fail).
      + apply agree_ok; auto.
      + apply agree_fail.
    - inversion Ht as [|? ? Hr Hrs]; subst. rewrite !create_snapshot_id.
      assert (E0 : forall s0, set_el (st_el s0) s0 = s0) by (intros [e0 sm0]; auto). rewrite !E0.
      pose proof (Hb eas loc s s' R S S') as G.
      destruct (Hr eas loc s S) as [A B]. destruct (Hr eas loc s' S') as [A' B'].
      destruct (r eas loc s) as [o s1]. destruct (r eas loc s') as [o' s1'].
      simpl in A, B, A', B'. destruct G as [G|[G|[(v & G1 & G2 & R1)|[[x G1] [x' G2]]]]]; simpl in *; subst.
      + left; auto.
      + right; left; destruct o as [[]|[]|]; auto.
      + assert (RA : rel (apply_snapshot (st_el s) (st_el s1)) (apply_snapshot (st_el s') (st_el s1'))).
        { inversion R1; subst; [apply rel_start|eapply rel_later]; simpl; eauto. }
        destruct v; try (apply agree_ok; exact RA). apply IH; auto.
      + apply IH; auto. clear. assert (D : forall k (v : verr) d, dset k v d <> []).
        { intros k v [|[k0 v0] d]; simpl; [discriminate|]. destruct (String.eqb k k0); discriminate. }
        split; intros X; exfalso; eapply D; eauto.
  Qed.

  Lemma tagged_both : forall rp, forall vs, Forall (fun kv : string * proxy => proxy_asks U M (snd kv) /\ both_ok (rp (snd kv))) vs ->
    forall attr_name eas loc s s', rel (st_el s) (st_el s') -> sound T (st_el s) -> sound T (st_el s') ->
    agree (read_tagged rp attr_name M vs eas loc s) (read_tagged rp attr_name M vs eas loc s').
  Proof.
    intros rp vs H; induction H as [|[tag p] vs [[Hu Hm] Hb] H IH]; intros attr_name eas loc s s' R S S';
      cbn [read_tagged]; [apply agree_ok; auto|].
    simpl in Hu, Hb. unfold find_element, search.
    pose proof (@peek_both _ _ (px_name p) Hu R (next_le S) (next_le S')) as B.
    pose proof (@forward_sound T M (st_el s) (px_name p) false S) as X.
    pose proof (@forward_sound T M (st_el s') (px_name p) false S') as X'.
    destruct (forward M (st_el s) (px_name p) false) as [[|i|] e1];
      destruct (forward M (st_el s') (px_name p) false) as [[|j|] e1']; try contradiction.
    - apply IH; simpl; auto; [apply X|apply X'].
    - destruct B as [R1 (c & c' & Hi & Hj & P)]. rewrite Hi, Hj.
      destruct (rel_parts (pris_rel P)) as (_ & _ & Ea & _). unfold get_attrib. rewrite <- Ea.
      destruct (match match e_attrib c with Some _ => _ | None => _ end with Some _ => _ | None => _ end).
      + apply Hb; simpl; auto; [apply X|apply X'].
      + apply IH; simpl; auto; [apply X|apply X'].
  Qed.

  (** ---- paths ---- *)
  Fixpoint prel (idxs idxs' : list nat) (e e' : elem) : Prop :=
    match idxs, idxs' with
    | [], [] => rel e e'
    | i :: is, j :: js => exists c c', nth_error (e_elems e) i = Some c /\ nth_error (e_elems e') j = Some c' /\
        prel is js c c' /\ forall d d', rel d d' -> rel (put_child i d e) (put_child j d' e')
    | _, _ => False
    end.

  Lemma put_same : forall i c e, nth_error (e_elems e) i = Some c -> put_child i c e = e.
  Proof.
    intros i c [tag ns text tail attrib l next line] H. unfold put_child, set_elems; simpl in *.
    rewrite (list_upd_same i l H); auto.
  Qed.

  Lemma list_upd_twice : forall A i (x y : A) l, list_upd i x (list_upd i y l) = list_upd i x l.
  Proof. intros A i x y l; revert i; induction l as [|z l IH]; intros [|i]; simpl; auto. rewrite IH; auto. Qed.

  Lemma put_put : forall i c d e, put_child i c (put_child i d e) = put_child i c e.
  Proof. intros i c d e. unfold put_child, set_elems; simpl. rewrite list_upd_twice; auto. Qed.

  Lemma prel_rel : forall idxs idxs' e e', prel idxs idxs' e e' -> rel e e'.
  Proof.
    intros idxs; induction idxs as [|i idxs IH]; intros [|j idxs'] e e' H; simpl in H; try contradiction; auto.
    destruct H as (c & c' & Hi & Hj & P & Put). specialize (Put c c' (IH _ _ _ P)).
    rewrite !put_same in Put by auto. auto.
  Qed.

  Lemma find_sub_both : forall path e e', Forall (fun t => U t = false) path -> rel e e' -> sound T e -> sound T e' ->
    match find_sub_element path M e, find_sub_element path M e' with
    | (Some is, e1), (Some js, e1') => length is = length js /\ prel is js e1 e1'
    | _, _ => False
    end.
  Proof.
    intros path; induction path as [|tag rest IH]; intros e e' HU R S S'; cbn [find_sub_element].
    - simpl; auto.
    - inversion HU as [|? ? Hu HU']; subst. unfold find_element.
      pose proof (@behind_both e e' tag Hu R (next_le S) (next_le S')) as B.
      pose proof (@search_sound T M e tag true true S) as X. pose proof (@search_sound T M e' tag true true S') as X'.
      unfold both in B.
      destruct (search M e tag true true) as [[|i|] e1]; destruct (search M e' tag true true) as [[|j|] e1'];
        try contradiction.
      + simpl; auto.
      + destruct B as (c & c' & Hi & Hj & Rc & Put). destruct rest as [|t2 rest].
        * simpl. split; auto. exists c, c'; auto.
        * rewrite Hi, Hj. specialize (IH c c' HU' Rc (sound_nth i (proj1 X) Hi) (sound_nth j (proj1 X') Hj)).
          destruct (find_sub_element (t2 :: rest) M c) as [[is|] c1]; [|contradiction].
          destruct (find_sub_element (t2 :: rest) M c') as [[js|] c1']; [|contradiction].
          destruct IH as [L P]. simpl. split; [auto|]. exists c1, c1'.
          split; [apply nth_error_list_upd_same; apply nth_error_Some; congruence|].
          split; [apply nth_error_list_upd_same; apply nth_error_Some; congruence|].
          split; [auto|]. intros d d' Rd. rewrite !put_put. auto.
  Qed.

  Lemma on_path_agree : forall A (f : st -> rres A),
    (forall s s', rel (st_el s) (st_el s') -> sound T (st_el s) -> sound T (st_el s') -> agree (f s) (f s')) ->
    forall is js s s', prel is js (st_el s) (st_el s') -> sound T (st_el s) -> sound T (st_el s') ->
    agree (on_path is f s) (on_path js f s').
  Proof.
    intros A f Hf is; induction is as [|i is IH]; intros [|j js] s s' P S S'; simpl in P; try contradiction; cbn [on_path].
    - apply Hf; auto.
    - destruct P as (c & c' & Hi & Hj & P & Put). eapply on_child_agree; [exact Hi|exact Hj| |exact Put].
      apply IH; simpl; auto; [exact (sound_nth i S Hi)|exact (sound_nth j S' Hj)].
  Qed.

  Lemma wrap_both : forall path c r, Forall (fun t => U t = false) path -> both_ok r -> both_ok (read_wrap path M c r).
  Proof.
    intros path c r HU Hb eas loc s s' R S S'. unfold read_wrap. destruct c; [apply agree_ok; auto|].
    pose proof (@find_sub_both path _ _ HU R S S') as F.
    pose proof (@find_sub_sound T path M _ S) as X. pose proof (@find_sub_sound T path M _ S') as X'.
    destruct (find_sub_element path M (st_el s)) as [[is|] e1]; [|contradiction].
    destruct (find_sub_element path M (st_el s')) as [[js|] e1']; [|contradiction].
    destruct F as [L P]. rewrite <- L. destruct (negb _ && _); [|apply agree_ok; simpl; eapply prel_rel; eauto].
    destruct X as [X _], X' as [X' _].
    apply on_path_agree; simpl; auto.
  Qed.

  (** ---- models ---- *)
  Lemma validate_agree : forall m i s s', (forall w, md_validate m i = Crashed w -> False) -> (md_forbid m = true -> quiet = true) -> rel (st_el s) (st_el s') ->
    agree (validate_result m i s, s) (validate_result m i s', s').
  Proof.
    intros m i s s' HC HF R. unfold validate_result. destruct (md_forbid m).
    - pose proof (rel_loud R (HF eq_refl)) as L. unfold check_extra.
      pose proof (loud_unbound (st_el s) []) as X. pose proof (loud_unbound (st_el s') []) as X'.
      destruct (get_unbound [] (st_el s)), (get_unbound [] (st_el s')); try apply agree_fail;
        try (destruct (md_validate m i) eqn:Hv; [apply agree_ok; auto|apply agree_fail|destruct (HC _ eq_refl)]; fail);
        exfalso; destruct (loud (st_el s)), (loud (st_el s')); destruct X, X'; intuition discriminate.
    - destruct (md_validate m i) eqn:Hv; [apply agree_ok; auto|apply agree_fail|destruct (HC _ eq_refl)].
  Qed.

  Lemma dset_not_nil : forall A k (v : A) d, dset k v d <> [].
  Proof. intros A k v [|[k0 v0] d]; simpl; [discriminate|]. destruct (String.eqb k k0); discriminate. Qed.

  Lemma fields_fail : forall r m, (forall name, md_cval m name = None) -> forall fs, Forall (fun nf => tame (r (snd nf))) fs ->
    forall eas result errors s, errors <> [] -> sound T (st_el s) ->
    let o := fst (read_fields r m fs eas result errors s) in
    o = Fuel \/ exists result' errors', o = Ok (result', errors') /\ errors' <> [].
  Proof.
    intros r m Hc fs H; induction H as [|[name fser] fs Hr H IH]; intros eas result errors s He Hs; cbn [read_fields].
    - right. simpl. eauto.
    - rewrite Hc. simpl in Hr. destruct (Hr eas [LKey name] (note_line [LKey name] s) Hs) as [A B].
      destruct (r fser eas [LKey name] (note_line [LKey name] s)) as [o s1]. simpl in A, B. destruct o as [v|x|].
      + destruct v; apply IH; auto.
      + destruct B as [e ->]. apply IH; auto. apply dset_not_nil.
      + left; auto.
  Qed.

  Lemma fields_both : forall r m, (forall name, md_cval m name = None) -> forall fs,
    Forall (fun nf => both_ok (r (snd nf)) /\ tame (r (snd nf))) fs ->
    forall eas result s s', rel (st_el s) (st_el s') -> sound T (st_el s) -> sound T (st_el s') ->
    let p := read_fields r m fs eas result [] s in let q := read_fields r m fs eas result [] s' in
    fst p = Fuel \/ fst q = Fuel \/
    (exists result', fst p = Ok (result', []) /\ fst q = Ok (result', []) /\ rel (st_el (snd p)) (st_el (snd q))) \/
    (exists r1 e1 r2 e2, fst p = Ok (r1, e1) /\ e1 <> [] /\ fst q = Ok (r2, e2) /\ e2 <> []).
  Proof.
    intros r m Hc fs H; induction H as [|[name fser] fs [Hb Hr] H IH]; intros eas result s s' R S S'; cbn [read_fields].
    - right; right; left. simpl. eauto.
    - assert (Ht : Forall (fun nf => tame (r (snd nf))) fs) by (eapply Forall_impl; [|exact H]; simpl; tauto).
      rewrite Hc. simpl in Hr, Hb.
      pose proof (Hb eas [LKey name] (note_line [LKey name] s) (note_line [LKey name] s') R S S') as G.
      destruct (Hr eas [LKey name] (note_line [LKey name] s) S) as [A B].
      destruct (Hr eas [LKey name] (note_line [LKey name] s') S') as [A' B'].
      destruct (r fser eas [LKey name] (note_line [LKey name] s)) as [o s1].
      destruct (r fser eas [LKey name] (note_line [LKey name] s')) as [o' s1'].
      simpl in A, B, A', B'. destruct G as [G|[G|[(v & G1 & G2 & R1)|[[x G1] [x' G2]]]]]; cbn [fst snd] in *; subst.
      + left; auto.
      + right; left; auto.
      + destruct v; apply IH; auto.
      + pose proof (@fields_fail r m Hc fs Ht eas result (dset name x []) s1 (@dset_not_nil _ _ _ _) A) as X.
        pose proof (@fields_fail r m Hc fs Ht eas result (dset name x' []) s1' (@dset_not_nil _ _ _ _) A') as X'.
        simpl in X, X'. destruct X as [X|(r1 & e1 & X & N)]; [left; auto|].
        destruct X' as [X'|(r2 & e2 & X' & N')]; [right; left; auto|].
        right; right; right. exists r1, e1, r2, e2. auto.
  Qed.

  Lemma model_both : forall cls m r, en_model ev cls = Some m ->
    Forall (fun nf => both_ok (r (snd nf)) /\ tame (r (snd nf))) (md_fields m) -> both_ok (read_model r m).
  Proof.
    intros cls m r Hm HF eas loc s s' R S S'. destruct (Hask _ Hm) as (_ & HC). pose proof (Hforbid _ Hm) as HX. destruct (Hwf _ Hm) as (_ & HR & _ & HV).
    unfold read_model. destruct (md_root m).
    - unfold read_root_model. destruct (md_fields m) as [|[name rser] fs] eqn:Ef; [exfalso; apply HR; auto|].
      inversion HF as [|? ? [Hb Hr] _]; subst. simpl in Hb, Hr.
      pose proof (Hb eas loc s s' R S S') as G. destruct (Hr eas loc s S) as [A B]. destruct (Hr eas loc s' S') as [A' B'].
      destruct (r rser eas loc s) as [o s1]. destruct (r rser eas loc s') as [o' s1'].
      simpl in A, B, A', B'. destruct G as [G|[G|[(v & G1 & G2 & R1)|[[x G1] [x' G2]]]]]; simpl in *; subst.
      + left; auto.
      + right; left; auto.
      + apply validate_agree; eauto.
      + apply agree_fail.
    - unfold read_plain_model. pose proof (@fields_both r m HC _ HF eas [] s s' R S S') as G. simpl in G.
      destruct (read_fields r m (md_fields m) eas [] [] s) as [o s1].
      destruct (read_fields r m (md_fields m) eas [] [] s') as [o' s1'].
      destruct G as [G|[G|[(v & G1 & G2 & R1)|(r1 & e1 & r2 & e2 & G1 & N1 & G2 & N2)]]]; simpl in *; subst.
      + left; auto.
      + right; left; auto.
      + apply validate_agree; eauto.
      + destruct e1; [congruence|]. destruct e2; [congruence|]. apply agree_fail.
  Qed.

  Lemma proxy_both : forall r p, known ev p -> proxy_asks U M p ->
    (forall m, en_model ev (px_model p) = Some m -> both_ok (read_model r m)) -> both_ok (read_proxy ev r p).
  Proof.
    intros r p Hk [Hu Hm] Hb eas loc s s' R S S'. unfold read_proxy. unfold known in Hk.
    destruct (en_model ev (px_model p)) as [m|]; [|congruence]. destruct (px_computed p); [apply agree_ok; auto|].
    rewrite Hm. apply with_found_agree; auto. intros c c' sm sm' P _ Sc Sc'.
    destruct (nill_rel (pris_rel P)) as [A B]. simpl.
    pose proof (@nill_sound T c Sc) as X. pose proof (@nill_sound T c' Sc') as X'.
    destruct (is_element_nill c) as [nl c1], (is_element_nill c') as [nl' c1']. simpl in A, B, X, X'. subst nl'.
    destruct nl; [apply agree_ok; auto|]. apply Hb; simpl; auto.
  Qed.

  Lemma fields_wf : forall cls m, en_model ev cls = Some m -> forall n,
    (forall s, wf_ser ev s -> asks U W M s -> both_ok (read n ev s)) ->
    Forall (fun nf => both_ok (read n ev (snd nf)) /\ tame (read n ev (snd nf))) (md_fields m).
  Proof.
    intros cls m Hm n IH. destruct (Hask _ Hm) as (HA & _). destruct (Hwf _ Hm) as (HW & _ & _).
    rewrite Forall_forall in *. intros nf Hnf. split; [apply IH; auto|].
    apply tame_of_safe. apply read_safe; auto.
  Qed.

  Lemma read_both : forall n s, wf_ser ev s -> asks U W M s -> both_ok (read n ev s).
  Proof.
    intros n; induction n as [|n IH]; intros s Hw Ha; [intros eas loc st0 st1 _ _ _; left; auto|].
    assert (HP : forall p, known ev p -> proxy_asks U M p -> both_ok (read_proxy ev (read n ev) p)).
    { intros p Hk Hp. apply proxy_both; auto. intros m Hm. eapply model_both; eauto. eapply fields_wf; eauto. }
    assert (TP : forall p, known ev p -> tame (read_proxy ev (read n ev) p)).
    { intros p Hk. apply tame_of_safe.
      pose proof (@read_safe T (fun _ => False) ev Hwf (S n) (SProxy p) (wf_proxy Hk)) as X. exact X. }
    cbn [read].
    destruct Ha; cbn [read_step].
    - apply text_both.
    - apply attr_both.
    - apply elem_both; auto.
    - apply attrs_both.
    - apply map_both; auto.
    - inversion Hw; subst. intros eas loc s0 s1 R S0 S1. unfold read_homo. destruct c; [apply agree_ok; auto|].
      apply items_both; auto. apply tame_of_safe, read_safe; auto.
    - inversion Hw as [| | | | | |? ? ? ? HW'| | | | | |]; subst. intros eas loc s0 s1 R S0 S1. unfold read_hetero. destruct c; [apply agree_ok; auto|].
      apply tuple_both; auto; rewrite Forall_forall in *; intros x Hx; apply in_map_iff in Hx as (y & <- & Hy); auto.
      apply tame_of_safe, read_safe; auto.
    - inversion Hw; subst. intros eas loc s0 s1 R S0 S1. unfold read_union_prim. destruct c; [apply agree_ok; auto|].
      apply IH; auto.
    - inversion Hw as [| | | | | | | |? ? ? ? HW'| | | |]; subst. intros eas loc s0 s1 R S0 S1. unfold read_union_model. destruct c; [apply agree_ok; auto|].
      apply variants_both; auto; try tauto; rewrite Forall_forall in *; intros x Hx; apply in_map_iff in Hx as (y & <- & Hy); auto.
    - inversion Hw as [| | | | | | | | |? ? ? ? ? HW'| | |]; subst. intros eas loc s0 s1 R S0 S1. destruct c; [apply agree_ok; auto|].
      apply tagged_both; auto. rewrite Forall_forall in *. intros kv Hkv. split; auto.
    - inversion Hw; subst. apply wrap_both; auto.
    - apply raw_both; auto.
    - inversion Hw; subst. apply HP; auto.
  Qed.
End Stray.

(** ---- from parsed documents ---- *)
Lemma wanted_from : forall U b cs,
  wantedE U (flat_map (fun c => if is_xml_comment c then [] else [from_native b c]) cs) = map (from_native b) (wanted U cs).
Proof.
  intros U b cs; induction cs as [|c cs IH]; simpl; auto.
  rewrite wantedE_app, IH. destruct c as [tag ns text tail a l line|text tail|text tail a]; simpl; auto.
  unfold strayE, new_elem; simpl. destruct (U tag); simpl; auto.
Qed.

Lemma nonempty_blank : forall o, nonempty_o (nonblank o) = false <-> oblank o.
Proof.
  intros o. unfold oblank. split.
  - intros H s ->. simpl in H. destruct (String.eqb_spec (py_strip s) "") as [E|E]; [|discriminate]. apply py_strip_blank; auto.
  - intros H. destruct o as [s|]; auto. simpl. specialize (H s eq_refl). apply py_strip_blank in H. rewrite H. reflexivity.
Qed.

Lemma bare_quiet : forall b c, bare c -> is_xml_comment c = false -> loud (from_native b c) = false.
Proof.
  intros b c; induction c as [tag ns text tail a cs line IH| |] using native_ind'; intros H C; [|discriminate|inversion H].
  inversion H as [? ? ? ? ? ? B1 B2 B3|]; subst. simpl. apply nonempty_blank in B1, B2. rewrite B1, B2. simpl.
  clear - IH B3. induction IH as [|c l Hc IH IHl]; simpl; auto. inversion B3; subst.
  destruct (is_xml_comment c) eqn:E; simpl; auto. rewrite Hc by auto. simpl. auto.
Qed.

(** the left-over data of the children: that of the strays and that of the others *)
Lemma noise_from : forall U b cs, Forall bare (strays U cs) ->
  noise (flat_map (fun c => if is_xml_comment c then [] else [from_native b c]) cs) = noise (map (from_native b) (wanted U cs)).
Proof.
  intros U b cs; induction cs as [|c cs IH]; intros H; auto. cbn [flat_map].
  unfold strays, wanted in *. simpl in H |- *. destruct (stray U c) eqn:E.
  - inversion H; subst. simpl. rewrite <- IH by auto.
    destruct (is_xml_comment c) eqn:C; auto. simpl. unfold noise; simpl. rewrite bare_quiet; auto.
  - simpl. destruct c; try discriminate. cbn [is_xml_comment app]. unfold noise in *. cbn [filter map].
    destruct (loud _); simpl; rewrite IH; auto.
Qed.

Lemma from_pris : forall loose quiet U W M b, M <> Strict -> (loose = true -> M = Unordered) ->
  forall n n', like_but_strays loose quiet U W n n' -> (M = Unordered -> siblings_differ U n) ->
  pris quiet U W M (from_native b n) (from_native b n').
Proof.
  intros loose quiet U W M b HM HL n; induction n as [tag ns text tail a cs line IH| |] using native_ind'; intros n' H D;
    inversion H as [? ? ns' ? ? tail' ? ? cs' w ? line' HP HF HW HQ]; subst.
  assert (PF : Forall2 (pris quiet U W M) (map (from_native b) (wanted U cs)) (map (from_native b) w)).
  { assert (D' : M = Unordered -> Forall (siblings_differ U) (wanted U cs)) by (intros E; specialize (D E); inversion D; auto).
    assert (IH' : Forall (fun c => forall n', like_but_strays loose quiet U W c n' -> (M = Unordered -> siblings_differ U c) ->
                    pris quiet U W M (from_native b c) (from_native b n')) (wanted U cs)).
    { rewrite Forall_forall in *. intros c Hc. apply IH. apply filter_In in Hc; tauto. }
    clear - HF IH' D'. induction HF as [|c c' l l' Hc HF IHF]; simpl; [constructor|].
    inversion IH'; subst. constructor.
    + match goal with X : forall n', _ |- _ => apply X; auto end. intros E; specialize (D' E); inversion D'; auto.
    + apply IHF; auto. intros E; specialize (D' E); inversion D'; auto. }
  assert (PP : Permutation (wanted U cs') w) by (destruct loose; [auto|subst; apply Permutation_refl]).
  simpl. econstructor.
  - rewrite wanted_from. unfold arranged. instantiate (1 := map (from_native b) w).
    destruct loose; [rewrite (HL eq_refl); apply Permutation_map; auto|]. subst w. destruct M; auto.
  - rewrite wanted_from. exact PF.
  - unfold distinct. destruct M; auto. specialize (D eq_refl). inversion D as [? ? ? ? ? ? ? ND _]; subst.
    rewrite wanted_from, map_map.
    assert (X : forall l, Forall (fun c => exists t ns x y a l i, c = NElem t ns x y a l i) l ->
                map (fun x => e_tag (from_native b x)) l = map native_tag l).
    { clear. intros l H; induction H as [|c l (t & ns & x & y & a & k & i & ->) H IH]; simpl; auto. f_equal; auto. }
    rewrite X; auto. apply Forall_forall. intros c Hc. apply filter_In in Hc as [_ Hc].
    destruct c; try discriminate. eauto 12.
  - intros E. specialize (HW E). pose proof (@same_but_comments_from b _ _ HW) as X. simpl in X.
    inversion X; subst; auto.
  - intros Q. destruct (HQ Q) as (B1 & B2 & B3). split.
    + pose proof (nonempty_blank tail) as X. pose proof (nonempty_blank tail') as X'.
      destruct (nonempty_o (nonblank tail)), (nonempty_o (nonblank tail')); auto; exfalso; intuition discriminate.
    + rewrite (@noise_from U b cs B1), (@noise_from U b cs' B2).
      rewrite (noise_perm (Permutation_map (from_native b) PP)). clear - PF Q HM.
      induction PF as [|c c' l l' Hc PF IH]; auto. unfold noise in *. cbn [filter].
      rewrite (rel_loud (pris_rel HM Hc) Q). destruct (loud c'); simpl; auto.
Qed.

Lemma from_xml_strays : forall loose quiet U W M ev, M <> Strict -> (loose = true -> M = Unordered) -> wf_env named_tag (fun _ => False) ev -> env_asks U W M ev ->
  (forall cls m, en_model ev cls = Some m -> md_forbid m = true -> quiet = true) ->
  forall n n' cls root root' eas, like_but_strays loose quiet U W root root' -> (M = Unordered -> siblings_differ U root) ->
  no_pi root -> no_pi root' ->
  from_xml_tree n ev cls root eas <> Fuel -> from_xml_tree n' ev cls root' eas <> Fuel ->
  same_result (from_xml_tree n ev cls root eas) (from_xml_tree n' ev cls root' eas).
Proof.
  intros loose quiet U W M ev HM HL Hwf Hask Hfb n n' cls root root' eas H D P P' F F'.
  set (k := Nat.max n n').
  rewrite <- (@from_xml_stable ev n k cls root eas) in F |- * by (unfold k; auto; lia).
  rewrite <- (@from_xml_stable ev n' k cls root' eas) in F' |- * by (unfold k; auto; lia).
  unfold from_xml_tree in *. destruct (en_model ev cls) as [m|] eqn:Em; [|simpl; auto].
  assert (Et : native_tag root = native_tag root') by (inversion H; auto).
  rewrite <- Et in *. destruct (tag_is (native_tag root) (md_elem_name m)); [|simpl; auto].
  assert (R : both_ok quiet U W M (read_model (read k ev) m)).
  { eapply model_both; eauto. eapply fields_wf; eauto. intros s Hs Ha. eapply read_both; eauto. }
  assert (RL : rel quiet U W M (from_native (en_backend ev) root) (from_native (en_backend ev) root'))
    by (eapply pris_rel; auto; eapply from_pris; eauto).
  specialize (R eas [] (St (from_native (en_backend ev) root) []) (St (from_native (en_backend ev) root') []) RL
                (named_clean (en_backend ev) P) (named_clean (en_backend ev) P')).
  destruct R as [R|[R|[(v & R1 & R2 & _)|[R1 R2]]]].
  - contradiction.
  - contradiction.
  - rewrite R1, R2. simpl; auto.
  - unfold fails in *. destruct R1 as [x R1], R2 as [x' R2]. rewrite R1, R2. simpl; auto.
Qed.

(** ---- the order of siblings ---- *)
Definition nothing (s : string) : bool := false.

Lemma order_named : forall W l l', Forall2 (same_but_order W) l l' ->
  Forall (fun c => stray nothing c = false) l /\ Forall (fun c => stray nothing c = false) l'.
Proof.
  intros W l l' H; induction H as [|c c' l l' Hc H [IH1 IH2]]; [auto|]. inversion Hc; subst. split; constructor; auto.
Qed.

Lemma wanted_elements : forall l, Forall (fun c => stray nothing c = false) (elements l) -> wanted nothing l = elements l.
Proof.
  intros l; induction l as [|c l IH]; simpl; auto. destruct c; simpl; intros H; [|auto|].
  - inversion H; subst. f_equal; auto.
  - inversion H; discriminate.
Qed.

Lemma strays_comments : forall l, Forall (fun c => stray nothing c = false) (elements l) -> Forall bare (strays nothing l).
Proof.
  intros l; induction l as [|c l IH]; simpl; auto. destruct c; simpl; intros H.
  - inversion H; subst. auto.
  - constructor; auto. constructor.
  - inversion H; discriminate.
Qed.

Lemma order_like : forall W n n', same_but_order W n n' -> like_but_strays true true nothing W n n'.
Proof.
  intros W n; induction n as [tag ns text tail a cs line IH| |] using native_ind'; intros n' H;
    inversion H as [? ? ns' ? ? tail' ? ? cs' l ? line' HP HF HW HT]; subst.
  destruct (order_named HF) as [N1 N2].
  assert (N3 : Forall (fun c => stray nothing c = false) (elements cs')).
  { rewrite Forall_forall in *. intros c I. apply N2. eapply Permutation_in; eauto. }
  econstructor.
  - rewrite (wanted_elements cs' N3). exact HP.
  - rewrite (wanted_elements cs N1).
    assert (IH' : Forall (fun c => forall n', same_but_order W c n' -> like_but_strays true true nothing W c n') (elements cs)).
    { rewrite Forall_forall in *. intros c I. apply IH. apply filter_In in I; tauto. }
    clear - HF IH'. induction HF; constructor; inversion IH'; subst; auto.
  - exact HW.
  - intros _. repeat split; try apply strays_comments; auto; apply HT.
Qed.

Lemma from_xml_order : forall W ev, wf_env named_tag (fun _ => False) ev -> env_asks nothing W Unordered ev ->
  forall n n' cls root root' eas, same_but_order W root root' -> siblings_differ nothing root ->
  no_pi root -> no_pi root' ->
  from_xml_tree n ev cls root eas <> Fuel -> from_xml_tree n' ev cls root' eas <> Fuel ->
  same_result (from_xml_tree n ev cls root eas) (from_xml_tree n' ev cls root' eas).
Proof.
  intros W ev Hwf Ha n n' cls root root' eas H D P P' F F'.
  eapply (@from_xml_strays true true nothing W Unordered); eauto; [discriminate|]. apply order_like; auto.
Qed.
