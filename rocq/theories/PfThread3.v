(** PfThread3.v -- threads that are in step with their run on their own end with its result (C74). *)

From Verif Require Import Base Elem Native Errs Names Ser Read Write Api Heap HeapRead HeapRead2 HeapWrite SpecHeap SpecHeap3
  Prog ProgRead ProgWrite SpecThread PfThread1 PfThread2 SpecHeap2 PfHeap9 PfHeap10.

Local Ltac inv H := inversion H; subst; clear H.

Section Threads.
  Variable A : Type.
  Variable h0 : heap.
  Notation sh := (dict_in h0).

  Definition kept (h : heap) : Prop := forall r, r < length h0 -> nth_error h r = nth_error h0 r.

  (** the state of a thread's own run: what it has made, what it still has to do, its memory *)
  Record solo := { so_w : pairs; so_p : prog A; so_h : heap }.

  Definition paired (w : pairs) (lh gh : heap) : Prop :=
    forall r r', In (r, r') w -> length h0 <= r /\ length h0 <= r' /\
      exists o o', nth_error lh r = Some o /\ nth_error gh r' = Some o' /\ obj_rel sh w o o'.
  Definition injective (w : pairs) : Prop :=
    forall r1 r1' r2 r2', In (r1, r1') w -> In (r2, r2') w -> (r1 = r2 <-> r1' = r2').

  Record linked (s : solo) (gp : prog A) (gh : heap) (x : A) : Prop := {
    ln_step : in_step sh same_as (so_w s) (so_p s) gp;
    ln_ends : exists hf, go (so_p s) (so_h s) = Some (x, hf);
    ln_size : length (so_h s) <= length gh;
    ln_pair : paired (so_w s) (so_h s) gh;
    ln_inj : injective (so_w s);
    ln_lkept : kept (so_h s);
    ln_gkept : kept gh
  }.

  (** what changes in the common memory when the thread gets its turn *)
  Definition touches (w : pairs) (gh gh' : heap) : Prop :=
    length gh <= length gh' /\
    forall r', r' < length gh -> (forall r, ~ In (r, r') w) -> nth_error gh' r' = nth_error gh r'.

  Lemma obj_up : forall w w' o o', incl w w' -> obj_rel sh w o o' -> obj_rel sh w' o o'.
  Proof.
    intros w w' o o' I H; inv H; constructor.
    - inv H0. constructor.
      + destruct ns, ns'; simpl in *; auto. destruct H; [left; apply I; auto|right; auto].
      + destruct at_, at_'; simpl in *; auto. apply I; auto.
      + apply I; auto.
    - induction H0; constructor; auto. apply I; auto.
  Qed.

  Lemma nth_lt : forall B (l : list B) i x, nth_error l i = Some x -> i < length l.
  Proof. intros B l i x H. apply nth_error_Some. congruence. Qed.
  Lemma nth_last : forall B (l : list B) x, nth_error (l ++ [x]) (length l) = Some x.
  Proof. intros. rewrite nth_error_app2, Nat.sub_diag by lia. reflexivity. Qed.
  Lemma nth_old : forall B (l : list B) x i y, nth_error l i = Some y -> nth_error (l ++ [x]) i = Some y.
  Proof. intros B l x i y H. rewrite nth_error_app1; auto. eapply nth_lt; eauto. Qed.
  Lemma upd_here : forall B i (x : B) l, i < length l -> nth_error (list_upd i x l) i = Some x.
  Proof. intros B i x; induction i; intros [|y l] H; simpl in *; try lia; auto. apply IHi. lia. Qed.
  Lemma upd_there : forall B i j (x : B) l, i <> j -> nth_error (list_upd i x l) j = nth_error l j.
  Proof. intros B i j x; revert j; induction i; intros [|j] [|y l] H; simpl; auto; try congruence. Qed.
  Lemma upd_length : forall B i (x : B) l, length (list_upd i x l) = length l.
  Proof. intros B i x; induction i; intros [|y l]; simpl; auto. Qed.

  (** a thread gets its turn *)
  Lemma linked_turn : forall s gp gh x, linked s gp gh x ->
    exists s', linked s' (fst (turn gp gh)) (snd (turn gp gh)) x /\
      touches (so_w s) gh (snd (turn gp gh)) /\
      (forall r r', In (r, r') (so_w s') -> In (r, r') (so_w s) \/ length gh <= r' < length (snd (turn gp gh))) /\
      accesses (so_p s') (so_h s') = pred (accesses (so_p s) (so_h s)).
  Proof.
    intros [w lp lh] gp gh x [Hs [hf He] Hz Hp Hi Hl Hg]; simpl in *.
    assert (Same : forall gp', linked {| so_w := w; so_p := lp; so_h := lh |} gp' gh x ->
      touches w gh gh) by (split; auto).
    destruct Hs as [a a' Ha|gp|o o' k k' Ho K|r r' k k' Hr K|r r' o o' k k' Hr Ho K|k k' K].
    - exists {| so_w := w; so_p := Ret a; so_h := lh |}. simpl. split; [|split; [|split]]; auto.
      + split; simpl; auto. constructor; auto. eauto.
      + split; auto.
    - discriminate He.
    - set (w' := (length lh, length gh) :: w). simpl in *.
      assert (Iw : incl w w') by (intros q Hq; right; auto).
      exists {| so_w := w'; so_p := k (length lh); so_h := lh ++ [o] |}. simpl. split; [|split; [|split]].
      + assert (L0 : length h0 <= length lh /\ length h0 <= length gh).
        { split.
          - destruct (le_lt_dec (length h0) (length lh)) as [|C]; auto. exfalso. specialize (Hl _ C).
            assert (N : nth_error lh (length lh) = None) by (apply nth_error_None; lia). rewrite N in Hl. symmetry in Hl. apply nth_error_None in Hl. lia.
          - destruct (le_lt_dec (length h0) (length gh)) as [|C]; auto. exfalso. specialize (Hg _ C).
            assert (N : nth_error gh (length gh) = None) by (apply nth_error_None; lia). rewrite N in Hg. symmetry in Hg. apply nth_error_None in Hg. lia. }
        split; simpl; eauto.
        * apply K; auto. left; reflexivity.
        * rewrite !app_length; simpl; lia.
        * intros q q' [E|Hq].
          -- inv E. split; [tauto|]. split; [tauto|]. exists o, o'. rewrite !nth_last. split; [reflexivity|]. split; [reflexivity|]. eapply obj_up; eauto.
          -- destruct (Hp _ _ Hq) as (Q1 & Q2 & y & y' & Y & Y' & R). split; [auto|]. split; [auto|]. exists y, y'.
             split; [apply nth_old; auto|]. split; [apply nth_old; auto|]. eapply obj_up; eauto.
        * intros q1 q1' q2 q2' [E1|H1] [E2|H2]; try (inv E1); try (inv E2); [tauto| | |eapply Hi; eauto].
          -- destruct (Hp _ _ H2) as (_ & _ & y & y' & Y & Y' & _). apply nth_lt in Y. apply nth_lt in Y'. lia.
          -- destruct (Hp _ _ H1) as (_ & _ & y & y' & Y & Y' & _). apply nth_lt in Y. apply nth_lt in Y'. lia.
        * intros q Hq. rewrite nth_error_app1 by lia. auto.
        * intros q Hq. rewrite nth_error_app1 by lia. auto.
      + split; [rewrite app_length; lia|]. intros q Hq _. apply nth_error_app1; auto.
      + intros q q' [E|Hq]; [inv E; right; rewrite app_length; simpl; lia|auto].
      + reflexivity.
    - simpl in *.
      assert (L : exists o o', nth_error lh r = Some o /\ nth_error gh r' = Some o' /\ obj_rel sh w o o').
      { destruct Hr as [Hr|[<- [d Hd]]].
        - destruct (Hp _ _ Hr) as (_ & _ & R). exact R.
        - exists (ODict d), (ODict d). assert (Lr := nth_lt _ _ Hd). rewrite (Hl _ Lr), (Hg _ Lr). repeat split; auto. constructor. }
      destruct L as (o & o' & E & E' & R). rewrite E in *. rewrite E'.
      exists {| so_w := w; so_p := k (Some o); so_h := lh |}. simpl. split; [|split; [|split]]; auto.
      + split; simpl; eauto. apply K; auto. apply incl_refl.
      + split; auto.
    - simpl in *. destruct (Hp _ _ Hr) as (Q1 & Q2 & y & y' & Y & Y' & R). apply nth_lt in Y. apply nth_lt in Y'.
      assert (T1 : (r <? length lh) = true) by (apply Nat.ltb_lt; auto).
      assert (T2 : (r' <? length gh) = true) by (apply Nat.ltb_lt; auto). rewrite T1 in *. rewrite T2.
      exists {| so_w := w; so_p := k true; so_h := list_upd r o lh |}. simpl. split; [|split; [|split]]; auto.
      + split; simpl; eauto.
        * apply K. apply incl_refl.
        * rewrite !upd_length. auto.
        * intros q q' Hq. destruct (Hp _ _ Hq) as (U1 & U2 & z & z' & Z & Z' & RZ). split; [auto|]. split; [auto|].
          destruct (Nat.eq_dec r q) as [->|N].
          -- assert (r' = q') by (apply (Hi q r' q q'); auto). subst q'. exists o, o'. rewrite !upd_here by auto. auto.
          -- assert (N' : r' <> q') by (intros E; apply N; apply (Hi r r' q q'); auto). exists z, z'. rewrite !upd_there by auto. auto.
        * intros q Hq. rewrite upd_there by lia. auto.
        * intros q Hq. rewrite upd_there by lia. auto.
      + split; [rewrite upd_length; auto|]. intros q Hq Nq. apply upd_there. intros <-. apply (Nq _ Hr).
    - simpl in *.
      exists {| so_w := w; so_p := k (length lh); so_h := lh |}. simpl. split; [|split; [|split]]; auto.
      + split; simpl; eauto. apply K; auto. apply incl_refl.
      + split; auto.
  Qed.

  (** another thread gets its turn *)
  Lemma linked_other : forall s gp gh gh' x w, linked s gp gh x -> touches w gh gh' -> kept gh' ->
    (forall r r' q, In (r, r') (so_w s) -> ~ In (q, r') w) -> linked s gp gh' x.
  Proof.
    intros s gp gh gh' x w [Hs He Hz Hp Hi Hl Hg] [L T] G D. split; auto; [lia|].
    intros r r' Hr. destruct (Hp _ _ Hr) as (Q1 & Q2 & y & y' & Y & Y' & R). split; [auto|]. split; [auto|]. exists y, y'.
    split; [auto|]. split; [|auto]. rewrite T; auto. eapply nth_lt; eauto.
    intros q. eapply D; eauto.
  Qed.

  Definition all_linked (st : nat -> solo) (xs : list A) (ts : list (prog A)) (gh : heap) : Prop :=
    length ts = length xs /\
    (forall i p x, nth_error ts i = Some p -> nth_error xs i = Some x -> linked (st i) p gh x) /\
    (forall i j r q r', i < length ts -> j < length ts -> i <> j -> In (r, r') (so_w (st i)) -> ~ In (q, r') (so_w (st j))).

  Lemma all_linked_run : forall xs schedule st ts gh, all_linked st xs ts gh -> kept gh ->
    exists st', all_linked st' xs (fst (run_threads schedule ts gh)) (snd (run_threads schedule ts gh)) /\
      kept (snd (run_threads schedule ts gh)) /\
      forall i, i < length ts ->
        accesses (so_p (st' i)) (so_h (st' i)) = accesses (so_p (st i)) (so_h (st i)) - turns i schedule.
  Proof.
    intros xs schedule; induction schedule as [|i schedule IH]; intros st ts gh H G.
    - exists st. simpl. split; [auto|]. split; [auto|]. intros. lia.
    - cbn [run_threads]. destruct (nth_error ts i) as [p|] eqn:E.
      + destruct H as (Len & Each & Apart). assert (Li := nth_lt _ _ E).
        destruct (nth_error xs i) as [x|] eqn:EX; [|apply nth_error_None in EX; lia].
        destruct (linked_turn (Each _ _ _ E EX)) as (s' & K & T & New & Acc).
        destruct (turn p gh) as [p' gh'] eqn:ET. simpl in *.
        assert (G' : kept gh') by (destruct K; auto).
        set (st1 := fun j => if Nat.eq_dec j i then s' else st j).
        assert (H1 : all_linked st1 xs (list_upd i p' ts) gh').
        { split; [rewrite upd_length; auto|]. split.
          - intros j q y Ej Ey. unfold st1. destruct (Nat.eq_dec j i) as [->|N].
            + rewrite upd_here in Ej by auto. inv Ej. congruence.
            + rewrite upd_there in Ej by auto. eapply linked_other; [eapply Each; eauto|exact T|auto|].
              intros r r' q' Hr. apply (@Apart j i r q' r'); auto. eapply nth_lt; eauto.
          - rewrite upd_length. intros j j' r q r' Lj Lj' N Hr. unfold st1 in *.
            assert (Fresh : forall k r r', k < length ts -> k <> i -> In (r, r') (so_w (st k)) -> r' < length gh).
            { intros k u u' Lk Nk Hu. destruct (nth_error ts k) as [pk|] eqn:Ek; [|apply nth_error_None in Ek; lia].
              destruct (nth_error xs k) as [xk|] eqn:Exk; [|apply nth_error_None in Exk; lia].
              destruct (Each _ _ _ Ek Exk) as [_ _ _ Hpk _ _ _]; destruct (Hpk _ _ Hu) as (_ & _ & z & z' & _ & Z & _). eapply nth_lt; eauto. }
            destruct (Nat.eq_dec j i) as [->|Nj]; destruct (Nat.eq_dec j' i) as [->|Nj']; try (exfalso; congruence).
            + destruct (New _ _ Hr) as [Old|B]; [apply (@Apart i j' r q r'); auto|]. intros Hq. specialize (Fresh _ _ _ Lj' Nj' Hq). lia.
            + intros Hq. destruct (New _ _ Hq) as [Old|B]; [apply (@Apart j i r q r' Lj Lj' N Hr Old)|]. specialize (Fresh _ _ _ Lj Nj Hr). lia.
            + apply (@Apart j j' r q r'); auto. }
        destruct (IH st1 _ _ H1 G') as (st' & K1 & K2 & K3). exists st'. split; [auto|]. split; [auto|].
        intros j Lj. rewrite K3 by (rewrite upd_length; auto). unfold st1, turns. cbn [count_occ].
        destruct (Nat.eq_dec j i) as [->|N].
        * destruct (Nat.eq_dec i i); [|congruence]. rewrite Acc. lia.
        * destruct (Nat.eq_dec i j); [congruence|]. lia.
      + destruct (IH st ts gh H G) as (st' & K1 & K2 & K3). exists st'. split; [auto|]. split; [auto|].
        intros j Lj. rewrite K3 by auto. unfold turns. cbn [count_occ]. apply nth_error_None in E.
        destruct (Nat.eq_dec i j); lia.
  Qed.

  Lemma linked_end : forall s p gh x, linked s p gh x -> accesses (so_p s) (so_h s) = 0 -> p = Ret x.
  Proof.
    intros [w lp lh] p gh x [Hs [hf He] _ _ _ _ _] E; simpl in *. destruct Hs; simpl in *; try discriminate.
    inv He. unfold same_as in H. congruence.
  Qed.
  Lemma linked_running : forall s p gh x, linked s p gh x -> accesses (so_p s) (so_h s) > 0 -> running p.
  Proof.
    intros [w lp lh] p gh x [Hs [hf He] _ _ _ _ _] E; simpl in *. destruct Hs; simpl in *; try discriminate; try lia; exact I.
  Qed.

  (** every thread does what it does on its own *)
  Lemma threads_alone : forall (ts : list (prog A)) (xs : list A), Forall2 (fun p x => in_step sh same_as [] p p /\ exists hf, go p h0 = Some (x, hf)) ts xs ->
    forall schedule,
    (forall i p x, nth_error ts i = Some p -> nth_error xs i = Some x ->
      exists p', nth_error (fst (run_threads schedule ts h0)) i = Some p' /\
        if Nat.leb (accesses p h0) (turns i schedule) then p' = Ret x else running p') /\
    kept (snd (run_threads schedule ts h0)).
  Proof.
    intros ts xs H schedule. assert (Len : length ts = length xs) by (clear - H; induction H; simpl; auto).
    set (st := fun i => {| so_w := []; so_p := match nth_error ts i with Some p => p | None => Stop end; so_h := h0 |}).
    assert (H1 : all_linked st xs ts h0).
    { split; [auto|]. split.
      - intros i p x E EX. assert (K : in_step sh same_as [] p p /\ exists hf, go p h0 = Some (x, hf)).
        { clear - H E EX. revert i E EX. induction H; intros [|i] E EX; simpl in *; try discriminate; [inv E; inv EX; auto|eauto]. }
        destruct K as [K1 K2]. unfold st. rewrite E. split; simpl; auto; intros r; intros; try contradiction; reflexivity.
      - intros i j r q r' _ _ _ []. }
    assert (G : kept h0) by (intros r Hr; reflexivity).
    destruct (all_linked_run schedule H1 G) as (st' & (L1 & L2 & _) & K & Acc). split; [|exact K].
    intros i p x E EX. assert (Li := nth_lt _ _ E).
    destruct (nth_error (fst (run_threads schedule ts h0)) i) as [p'|] eqn:E'; [|apply nth_error_None in E'; apply nth_lt in EX; lia].
    exists p'. split; [reflexivity|]. specialize (L2 _ _ _ E' EX). specialize (Acc _ Li). unfold st in Acc. rewrite E in Acc. simpl in Acc.
    destruct (Nat.leb_spec (accesses p h0) (turns i schedule)).
    - eapply linked_end; [exact L2|]. lia.
    - eapply linked_running; [exact L2|]. lia.
  Qed.
End Threads.

(** a call that is started on a memory that is not empty ends with what it gives alone *)
Lemma one_call_go : forall nsr maps n ev hv hs encode, customs_as (uninterrupted_vals hv) ev -> covers maps ev ->
  custom_sers_as nsr maps (uninterrupted_sers hs) ev ->
  forall c h, placed nsr maps h -> h <> [] ->
  exists hf, go (one_call nsr n ev hv hs encode c) h = Some (alone n ev encode c, hf) /\ only_changes [] h hf.
Proof.
  intros nsr maps n ev hv hs encode HV Cov HS c h P N. destruct c as [cls root eas|v fl]; unfold one_call; rewrite go_andthen.
  - pose proof (from_xml_tree_go n ev hv cls root eas h) as G.
    destruct (@from_xml_tree_as n ev _ cls root eas h HV) as (h' & E & C). pose proof C as [L _].
    destruct (go (p_from_xml_tree n ev hv cls root eas) h) as [[o hf]|].
    + exists h'. rewrite G in E. inversion E; subst. split; [reflexivity|exact C].
    + exfalso. rewrite E in G. inversion G; subst. destruct h; [congruence|simpl in L; lia].
  - pose proof (to_xml_tree_go nsr n ev hs encode v fl h) as G.
    destruct (@to_xml_tree_as nsr maps ev _ Cov HS n encode v fl h P) as (h' & E & C). pose proof C as [L _].
    destruct (go (p_to_xml_tree nsr n ev hs encode v fl) h) as [[o hf]|].
    + exists h'. rewrite G in E. inversion E; subst. split; [reflexivity|exact C].
    + exfalso. rewrite E in G. inversion G; subst. destruct h; [congruence|simpl in L; lia].
Qed.

Lemma thread_go : forall nsr maps n ev hv hs encode, customs_as (uninterrupted_vals hv) ev -> covers maps ev ->
  custom_sers_as nsr maps (uninterrupted_sers hs) ev ->
  forall cs h, placed nsr maps h -> h <> [] ->
  exists hf, go (thread nsr n ev hv hs encode cs) h = Some (map (alone n ev encode) cs, hf).
Proof.
  intros nsr maps n ev hv hs encode HV Cov HS cs; induction cs as [|c cs IH]; intros h P N; simpl; [eauto|].
  rewrite go_andthen. destruct (@one_call_go nsr maps n ev hv hs encode HV Cov HS c h P N) as (h1 & E & C). rewrite E. simpl.
  rewrite go_andthen. destruct (IH h1) as (h2 & E2).
  - eapply placed_keeps; [exact P| |exact C]. intros x _ [].
  - intros ->. destruct C as [L _]. destruct h; [congruence|simpl in L; lia].
  - rewrite E2. simpl. eauto.
Qed.

Lemma one_call_step : forall nsr maps n ev hv hs encode c h w, covers maps ev -> placed nsr maps h ->
  local_vals (dict_in h) hv -> local_sers (dict_in h) hs ->
  in_step (dict_in h) same_as w (one_call nsr n ev hv hs encode c) (one_call nsr n ev hv hs encode c).
Proof.
  intros nsr maps n ev hv hs encode c h w Cov P LV LS. destruct c as [cls root eas|v fl]; unfold one_call.
  - eapply step_andthen; [apply from_xml_tree_step; exact LV|]. intros w1 o o' _ ->. apply StepRet. reflexivity.
  - eapply step_andthen; [eapply to_xml_tree_step; eauto; intros m Hm; exists m; apply P; auto|].
    intros w1 o o' _ ->. apply StepRet. reflexivity.
Qed.

Lemma thread_step : forall nsr maps n ev hv hs encode h, covers maps ev -> placed nsr maps h ->
  local_vals (dict_in h) hv -> local_sers (dict_in h) hs -> forall cs w,
  in_step (dict_in h) same_as w (thread nsr n ev hv hs encode cs) (thread nsr n ev hv hs encode cs).
Proof.
  intros nsr maps n ev hv hs encode h Cov P LV LS cs; induction cs as [|c cs IH]; intros w; simpl; [apply StepRet; reflexivity|].
  eapply step_andthen; [eapply one_call_step; eassumption|]. intros w1 o o' _ ->.
  eapply step_andthen; [apply IH|]. intros w2 os os' _ ->. apply StepRet. reflexivity.
Qed.

Lemma all_threads : forall nsr maps n ev hv hs encode h,
  customs_as (uninterrupted_vals hv) ev -> covers maps ev -> custom_sers_as nsr maps (uninterrupted_sers hs) ev ->
  placed nsr maps h -> h <> [] -> local_vals (dict_in h) hv -> local_sers (dict_in h) hs -> forall css,
  Forall2 (fun p x => in_step (dict_in h) same_as [] p p /\ exists hf, go p h = Some (x, hf))
    (map (thread nsr n ev hv hs encode) css) (map (map (alone n ev encode)) css).
Proof.
  intros nsr maps n ev hv hs encode h HV Cov HS P N LV LS css; induction css as [|cs css IH]; simpl; constructor; auto.
  split; [eapply thread_step; eassumption|eapply thread_go; eassumption].
Qed.
