(** PfHeap4.v -- children: searching, appending, popping, and working on one child of a tree. *)

From Verif Require Import Base Elem Heap SpecHeap PfHeap PfHeap2 PfHeap3 PfElem.

Lemma list_upd_id : forall A (l : list A) i x, nth_error l i = Some x -> list_upd i x l = l.
Proof.
  intros A l; induction l as [|y l IH]; intros [|i] x E; simpl in *; try discriminate; auto.
  - congruence.
  - rewrite IH; auto.
Qed.

(** ---- working on one child ---- *)
Lemma child_ref_at : forall h a i c nsr te ta ar lr nx li t rs,
  nth_error h a = Some (ONode (Node t nsr te ta ar lr nx li)) ->
  nth_error h lr = Some (OList rs) -> nth_error rs i = Some c -> child_ref h a i c.
Proof. intros. eexists _, rs. split; [eassumption|]. simpl. auto. Qed.

Lemma focus : forall h a e F N i ec, tree h a e F N -> nth_error (e_elems e) i = Some ec ->
  exists c Fc Nc, child_ref h a i c /\ tree h c ec Fc Nc /\ incl Fc F /\ incl Nc N /\ ~ In a Fc /\
    forall X h' ec' Fc' Nc', tree h' c ec' Fc' Nc' -> only_changes Fc h h' ->
      (forall x, In x X -> ~ In x F /\ x < length h) ->
      from_or_new Fc h Fc' -> from_or_new (X ++ Fc ++ Nc) h Nc' ->
      child_ref h' a i c /\
      exists F' N', tree h' a (put_child i ec' e) F' N' /\ only_changes F h h' /\
        from_or_new F h F' /\ from_or_new (X ++ F ++ N) h N' /\ incl Fc' F' /\ incl Nc' N' /\ In a F' /\
        (forall x, In x F' -> (In x F /\ ~ In x Fc) \/ In x Fc').
Proof.
  intros h a e F N i ec T Ei. pose proof T as [O [ND DJ]]. parts T.
  destruct (owns_all_nth _ Hall Ei) as [c [Fc [Nc [Ec [EFc [ENc Oc]]]]]].
  assert (IF : forall x, In x Fc -> In x (concat Fs)) by (intros x Hx; eapply in_concat_nth; eauto).
  assert (IN : forall x, In x Nc -> In x (concat Ns)) by (intros x Hx; eapply in_concat_nth; eauto).
  assert (IF' : forall x, In x (concat Fs) -> In x F).
  { intros x Hx; subst F; simpl; right; apply in_or_app; simpl; auto. }
  assert (IN' : forall x, In x (concat Ns) -> In x N) by (intros x Hx; subst N; apply in_or_app; auto).
  assert (ND1 : NoDup Fc).
  { clear - NDF EFc. revert i EFc. induction Fs as [|G Fs IH]; intros [|i] E; simpl in *; try discriminate;
      apply NoDup_app_elim in NDF; destruct NDF as [A1 [A2 A3]].
    - inversion E; subst; auto.
    - eauto. }
  exists c, Fc, Nc. split. { eapply child_ref_at; eauto. }
  split. { split; [auto|]. split; [auto|]. intros x Hx HN. apply (DJ x); auto. }
  split. { intros x Hx; auto. } split. { intros x Hx; auto. }
  split. { intros H; apply NaF; auto. }
  intros X h' ec' Fc' Nc' T' C XX NF NN. pose proof T' as [O' [ND' DJ']].
  pose proof C as [LC KC].
  assert (LF : forall x, In x F \/ In x N -> x < length h) by (intros x Hx; eapply owns_lt; [exact O|exact Hx]).
  assert (KF : forall x, In x F -> ~ In x Fc -> nth_error h' x = nth_error h x).
  { intros x Hx HN. apply KC; auto. }
  assert (Ha' : nth_error h' a = nth_error h a).
  { apply KF; [subst F; simpl; auto|]. intros H; apply NaF; auto. }
  assert (Hl' : nth_error h' lr = nth_error h lr).
  { apply KF; [subst F; simpl; right; apply in_or_app; simpl; auto|]. intros H; apply NlF; auto. }
  rewrite Ha in Ha'. rewrite Hl in Hl'.
  split. { eapply child_ref_at; eauto. }
  assert (KN : forall x, In x N -> nth_error h' x = nth_error h x).
  { intros x Hx. apply KC; auto. intros H. apply (DJ x); auto. }
  assert (INF : forall x, In x Fc' -> In x F \/ length h <= x).
  { intros x Hx. destruct (NF _ Hx) as [H|H]; auto. }
  exists (a :: opt_list ar ++ lr :: concat (list_upd i Fc' Fs)), (opt_list nsr ++ concat (list_upd i Nc' Ns)).
  assert (XF : forall x, In x (concat (list_upd i Fc' Fs)) -> In x (concat Fs) \/ length h <= x).
  { intros x Hx. apply in_concat_upd in Hx. destruct Hx as [Hx|Hx]; auto.
    destruct (NF _ Hx) as [H|H]; auto. }
  assert (XN : forall x, In x (concat (list_upd i Nc' Ns)) -> In x (X ++ F ++ N) \/ length h <= x).
  { intros x Hx. apply in_concat_upd in Hx. destruct Hx as [Hx|Hx].
    - destruct (NN _ Hx) as [H|H]; auto. left. apply in_app_or in H. apply in_or_app.
      destruct H as [H|H]; auto. right. apply in_app_or in H. apply in_or_app. destruct H; auto.
    - left. apply in_or_app; right; apply in_or_app; right; auto. }
  (* what the nsmap dicts of the new child cannot be *)
  assert (NNo : forall x, In x F -> ~ In x Fc -> ~ In x Nc').
  { intros x Hx HC HN. destruct (NN _ HN) as [H|H].
    - apply in_app_or in H. destruct H as [H|H].
      + destruct (XX _ H); auto.
      + apply in_app_or in H. destruct H as [H|H]; auto. apply (DJ x); auto.
    - specialize (LF x (or_introl Hx)). lia. }
  assert (XX2 : forall x, In x (a :: opt_list ar ++ lr :: concat (list_upd i Fc' Fs)) ->
                  (In x F /\ ~ In x Fc) \/ In x Fc').
  { intros x Hx. destruct Hx as [<-|Hx].
        - left. split; [subst F; simpl; auto|]. intros H; apply NaF; auto.
        - apply in_app_or in Hx. destruct Hx as [Hx|[<-|Hx]].
          + left. split; [subst F; simpl; right; apply in_or_app; auto|]. intros H; eapply NarF; eauto.
          + left. split; [subst F; simpl; right; apply in_or_app; simpl; auto|]. intros H; apply NlF; auto.
          + clear - Hx NDF EFc IF'. revert i EFc Hx. revert NDF IF'.
            generalize F. intros F0.
            induction Fs as [|G Fs IH]; intros NDF IF' i E Hx.
            * destruct i; destruct Hx.
            * simpl in NDF. apply NoDup_app_elim in NDF. destruct NDF as [A1 [A2 A3]].
              destruct i as [|i]; simpl in E, Hx.
              -- inversion E; subst. apply in_app_or in Hx. destruct Hx as [Hx|Hx]; auto.
                 left. split; [apply IF'; simpl; apply in_or_app; auto|]. intros H. eapply A3; eauto.
              -- apply in_app_or in Hx. destruct Hx as [Hx|Hx].
                 ++ left. split; [apply IF'; simpl; apply in_or_app; auto|]. intros H. eapply A3; eauto.
                    eapply in_concat_nth; eauto.
                 ++ eapply IH; eauto. intros y Hy. apply IF'. simpl. apply in_or_app; auto. }
  split; [|split; [|split; [|split; [|split; [|split; [|split]]]]]].
  - split; [|split].
    + unfold put_child, set_elems. econstructor.
      * rewrite Ha'. reflexivity.
      * eapply odict_at_frame; [exact Hns|]. intros x Hx. apply KN. subst N; apply in_or_app; auto.
      * eapply odict_at_frame; [exact Hat|]. intros x Hx. apply KF.
        -- subst F; simpl; right; apply in_or_app; auto.
        -- intros H. eapply NarF; eauto.
      * exact Hl'.
      * eapply owns_all_upd; [exact Hall|auto| |exact Ec|exact EFc|exact ENc|exact C|exact O'].
        intros x Hx HN. apply (DJ x); auto.
    + constructor.
      * intros H. apply in_app_or in H. destruct H as [H|[H|H]]; [auto|congruence|].
        destruct (XF _ H) as [H'|H']; auto. pose proof (nth_lt _ _ Ha). lia.
      * apply NoDup_app_intro.
        -- destruct ar as [r|]; simpl; [constructor; [intros []|constructor]|constructor].
        -- constructor.
           ++ intros H. destruct (XF _ H) as [H'|H']; auto. pose proof (nth_lt _ _ Hl). lia.
           ++ eapply NoDup_concat_upd; eauto. intros x Hx. destruct (NF _ Hx) as [H|H]; auto.
              right. intros H'. specialize (LF x (or_introl (IF' _ H'))). lia.
        -- intros x Hx [H|H].
           ++ subst; auto.
           ++ destruct (XF _ H) as [H'|H']; [eapply NarF; eauto|].
              pose proof (@odict_at_lt _ _ _ _ Hat Hx). lia.
    + intros x Hx HN.
      pose proof (XX2 x Hx) as Hx2.
      assert (HN2 : (In x N) \/ In x Nc').
      { apply in_app_or in HN. destruct HN as [HN|HN].
        - left. subst N. apply in_or_app; auto.
        - apply in_concat_upd in HN. destruct HN as [HN|HN]; auto. }
      destruct Hx2 as [[H1 H2]|H1], HN2 as [H3|H3].
      * apply (DJ x); auto.
      * eapply NNo; eauto.
      * destruct (NF _ H1) as [H|H]; [apply (DJ x); auto|]. specialize (LF x (or_intror H3)). lia.
      * eapply DJ'; eauto.
  - split; [auto|]. intros x Hx HF. apply KC; auto.
  - intros x Hx. destruct Hx as [<-|Hx]; [left; subst F; simpl; auto|].
    apply in_app_or in Hx. destruct Hx as [Hx|[<-|Hx]].
    + left. subst F; simpl; right; apply in_or_app; auto.
    + left. subst F; simpl; right; apply in_or_app; simpl; auto.
    + destruct (XF _ Hx) as [H|H]; auto.
  - intros x Hx. apply in_app_or in Hx. destruct Hx as [Hx|Hx]; auto.
    left. apply in_or_app; right; apply in_or_app; right. subst N; apply in_or_app; auto.
  - intros x Hx. right. apply in_or_app; right; right.
    apply in_concat_nth with (i := i) (l := Fc'); auto. apply nth_upd_same.
    apply nth_error_Some. congruence.
  - intros x Hx. apply in_or_app; right.
    apply in_concat_nth with (i := i) (l := Nc'); auto. apply nth_upd_same.
    apply nth_error_Some. congruence.
  - simpl; auto.
  - exact XX2.
Qed.

(** ---- the list of children is changed in place ---- *)
Lemma tree_kids : forall h a e F N nsr ar lr rs Fs Ns rs' es' Fs' Ns' k,
  tree h a e F N ->
  nth_error h a = Some (ONode (Node (e_tag e) nsr (e_text e) (e_tail e) ar lr (e_next e) (e_line e))) ->
  nth_error h lr = Some (OList rs) ->
  owns_all h rs (e_elems e) Fs Ns ->
  owns_all h rs' es' Fs' Ns' ->
  NoDup (concat Fs') ->
  (forall x, In x (concat Fs') -> In x (concat Fs) \/ ~ In x F /\ ~ In x N) ->
  (forall x, In x (concat Ns') -> ~ In x (concat Fs') /\ (In x (concat Ns) \/ ~ In x F)) ->
  let h' := list_upd a (ONode (Node (e_tag e) nsr (e_text e) (e_tail e) ar lr k (e_line e)))
                     (list_upd lr (OList rs') h) in
  let F' := a :: opt_list ar ++ lr :: concat Fs' in
  tree h' a (set_next k (set_elems es' e)) F' (opt_list nsr ++ concat Ns') /\ only_changes F h h' /\
  length h' = length h /\ nth_error h' lr = Some (OList rs') /\
  nth_error h' a = Some (ONode (Node (e_tag e) nsr (e_text e) (e_tail e) ar lr k (e_line e))).
Proof.
  intros h a e F N nsr ar lr rs Fs Ns rs' es' Fs' Ns' k T Ha0 Hl0 Hall0 Hall' ND' HF' HN' h' F'.
  pose proof T as [O [ND DJ]]. parts T.
  rewrite Ha in Ha0. inversion Ha0; subst nsr0 ar0 lr0. clear Ha0.
  rewrite Hl in Hl0. inversion Hl0; subst rs0. clear Hl0.
  destruct (proj2 (owns_det_both h) _ _ _ _ Hall _ _ _ Hall0) as [_ [-> ->]].
  pose proof (nth_lt _ _ Ha) as La. pose proof (nth_lt _ _ Hl) as Ll.
  assert (IaF : In a F) by (subst F; simpl; auto).
  assert (IlF : In lr F) by (subst F; simpl; right; apply in_or_app; simpl; auto).
  assert (IarF : forall x, In x (opt_list ar) -> In x F) by (intros x Hx; subst F; simpl; right; apply in_or_app; auto).
  assert (K : forall x, x <> a -> x <> lr -> nth_error h' x = nth_error h x).
  { intros x H1 H2. unfold h'. rewrite nth_upd_other by auto. rewrite nth_upd_other by auto. reflexivity. }
  assert (KN : forall x, In x N -> nth_error h' x = nth_error h x).
  { intros x Hx. apply K; intros ->; [apply (DJ a)|apply (DJ lr)]; auto. }
  assert (NK : forall x, In x (concat Fs') -> x <> a /\ x <> lr /\ ~ In x (opt_list ar)).
  { intros x Hx. destruct (HF' _ Hx) as [H|[H1 H2]].
    - repeat split; [intros ->; contradiction|intros ->; contradiction|]. intros H'. eapply NarF; eauto.
    - repeat split; [intros ->; contradiction|intros ->; contradiction|]. intros H'. auto. }
  assert (NKN : forall x, In x (concat Ns') -> x <> a /\ x <> lr /\ ~ In x (opt_list ar)).
  { intros x Hx. destruct (HN' _ Hx) as [_ [H|H]].
    - assert (HNx : In x N) by (subst N; apply in_or_app; auto).
      repeat split; [intros ->; apply (DJ a); auto|intros ->; apply (DJ lr); auto|].
      intros H'. apply (DJ x); auto.
    - repeat split; [intros ->; contradiction|intros ->; contradiction|]. intros H'. auto. }
  assert (Ea : nth_error h' a = Some (ONode (Node (e_tag e) nsr (e_text e) (e_tail e) ar lr k (e_line e)))).
  { unfold h'. apply nth_upd_same. rewrite upd_length. auto. }
  assert (El : nth_error h' lr = Some (OList rs')).
  { unfold h'. rewrite nth_upd_other by auto. apply nth_upd_same; auto. }
  split; [|split; [|split; [|split]]]; auto.
  - split; [|split].
    + unfold set_next, set_elems; simpl. unfold F'. econstructor.
      * exact Ea.
      * eapply odict_at_frame; [exact Hns|]. intros x Hx. apply KN. subst N; apply in_or_app; auto.
      * eapply odict_at_frame; [exact Hat|]. intros x Hx. apply K; intros ->; contradiction.
      * exact El.
      * eapply owns_all_frame; [exact Hall'|]. intros x [Hx|Hx].
        -- destruct (NK _ Hx) as [H1 [H2 _]]. auto.
        -- destruct (NKN _ Hx) as [H1 [H2 _]]. auto.
    + unfold F'. constructor.
      * intros H. apply in_app_or in H. destruct H as [H|[H|H]]; [auto|congruence|].
        destruct (NK _ H) as [H1 _]; auto.
      * apply NoDup_app_intro.
        -- destruct ar as [r|]; simpl; [constructor; [intros []|constructor]|constructor].
        -- constructor; auto. intros H. destruct (NK _ H) as [_ [H1 _]]; auto.
        -- intros x Hx [H|H]; [subst; auto|]. destruct (NK _ H) as [_ [_ H1]]; auto.
    + intros x Hx HN. apply in_app_or in HN. destruct HN as [HN|HN].
      * assert (HNx : In x N) by (subst N; apply in_or_app; auto).
        assert (HFx : ~ In x F) by (intros H; apply (DJ x); auto).
        unfold F' in Hx. destruct Hx as [<-|Hx]; [auto|]. apply in_app_or in Hx.
        destruct Hx as [Hx|[<-|Hx]]; [auto|auto|]. destruct (HF' _ Hx) as [H|[_ H]]; [|auto].
        apply HFx. subst F; simpl; right; apply in_or_app; simpl; auto.
      * destruct (NKN _ HN) as [H1 [H2 H3]]. destruct (HN' _ HN) as [H4 _].
        unfold F' in Hx. destruct Hx as [<-|Hx]; [auto|]. apply in_app_or in Hx.
        destruct Hx as [Hx|[<-|Hx]]; auto.
  - split; [unfold h'; rewrite !upd_length; auto|]. intros x _ HF. apply K; intros ->; contradiction.
  - unfold h'; rewrite !upd_length; auto.
Qed.

(** ---- searching ---- *)
Lemma tag_is_at : forall h c e F N tag, owns h c e F N -> h_tag_is tag c h = (Some (tag_is (e_tag e) tag), h).
Proof.
  intros h c e F N tag O. inversion O; subst. unfold h_tag_is, bind.
  match goal with A : nth_error h c = _ |- _ => rewrite (load_node_at _ _ A) end. reflexivity.
Qed.

Lemma find_from_at : forall h rs es Fs Ns, owns_all h rs es Fs Ns -> forall i tag,
  match find_from i es tag with
  | None => h_find_from i rs tag h = (Some None, h)
  | Some j => exists c, i <= j /\ nth_error rs (j - i) = Some c /\
                        h_find_from i rs tag h = (Some (Some (j, c)), h)
  end.
Proof.
  intros h rs es Fs Ns A; induction A as [|a e F N rs es Fs Ns O A IH]; intros i tag; simpl; [reflexivity|].
  unfold bind. rewrite (tag_is_at tag O).
  destruct (tag_is (e_tag e) tag) eqn:E.
  - exists a. rewrite Nat.sub_diag. auto.
  - specialize (IH (S i) tag). destruct (find_from (S i) es tag) as [j|]; [|exact IH].
    destruct IH as [c [L [E1 E2]]]. exists c. split; [lia|]. split; [|exact E2].
    replace (j - i) with (S (j - S i)) by lia. exact E1.
Qed.

Lemma owns_all_skipn : forall n h rs es Fs Ns, owns_all h rs es Fs Ns ->
  owns_all h (skipn n rs) (skipn n es) (skipn n Fs) (skipn n Ns).
Proof.
  induction n as [|n IH]; intros h rs es Fs Ns A; simpl; auto.
  inversion A; subst; simpl; auto; constructor.
Qed.

Lemma owns_all_set : forall h rs es Fs Ns, owns_all h rs es Fs Ns -> forall i c e F N,
  owns h c e F N ->
  owns_all h (list_upd i c rs) (list_upd i e es) (list_upd i F Fs) (list_upd i N Ns).
Proof.
  intros h rs es Fs Ns A; induction A as [|a e0 F0 N0 rs es Fs Ns O A IH]; intros i c e F N Oc; simpl.
  - destruct i; constructor.
  - destruct i as [|i]; constructor; auto.
Qed.

Lemma owns_all_nth_none : forall h rs es Fs Ns i, owns_all h rs es Fs Ns -> nth_error es i = None ->
  nth_error rs i = None /\ nth_error Fs i = None /\ nth_error Ns i = None.
Proof.
  intros h rs es Fs Ns i A; revert i; induction A as [|a e0 F0 N0 rs es Fs Ns O A IH]; intros [|i] E;
    simpl in *; auto; discriminate.
Qed.

Lemma owns_all_swap : forall h rs es Fs Ns i j, owns_all h rs es Fs Ns ->
  owns_all h (list_swap i j rs) (list_swap i j es) (list_swap i j Fs) (list_swap i j Ns).
Proof.
  intros h rs es Fs Ns i j A. unfold list_swap.
  destruct (nth_error es i) as [x|] eqn:Ei.
  - destruct (owns_all_nth _ A Ei) as [c [F [N [E1 [E2 [E3 O1]]]]]]. rewrite E1, E2, E3.
    destruct (nth_error es j) as [y|] eqn:Ej.
    + destruct (owns_all_nth _ A Ej) as [c' [F' [N' [E1' [E2' [E3' O1']]]]]]. rewrite E1', E2', E3'.
      apply owns_all_set; auto. apply owns_all_set; auto.
    + destruct (owns_all_nth_none _ A Ej) as [-> [-> ->]]. auto.
  - destruct (owns_all_nth_none _ A Ei) as [-> [-> ->]]. auto.
Qed.

Lemma perm_upd_cons : forall A (l : list A) j x y, nth_error l j = Some y ->
  Permutation (y :: list_upd j x l) (x :: l).
Proof.
  intros A l; induction l as [|z l IH]; intros [|j] x y E; simpl in *; try discriminate.
  - inversion E; subst. constructor.
  - eapply perm_trans; [apply perm_swap|]. eapply perm_trans; [|apply perm_swap].
    constructor. apply IH; auto.
Qed.

Lemma list_swap_perm : forall A (l : list A) i j, Permutation (list_swap i j l) l.
Proof.
  intros A l i j. unfold list_swap. destruct (nth_error l i) as [x|] eqn:Ei; auto.
  destruct (nth_error l j) as [y|] eqn:Ej; auto.
  revert i j Ei Ej. induction l as [|z l IH]; intros [|i] [|j] Ei Ej; simpl in *; try discriminate.
  - inversion Ei; inversion Ej; subst; auto.
  - inversion Ei; subst. apply perm_upd_cons; auto.
  - inversion Ej; subst. apply perm_upd_cons; auto.
  - constructor; auto.
Qed.

Lemma perm_concat : forall A (l m : list (list A)), Permutation l m -> Permutation (concat l) (concat m).
Proof.
  intros A l m P; induction P; simpl; auto.
  - apply Permutation_app_head; auto.
  - rewrite !app_assoc. apply Permutation_app_tail, Permutation_app_comm.
  - eapply perm_trans; eauto.
Qed.

(** what a search does *)
Definition search_ok (m : ref -> hp (option ref)) (f : elem -> found * elem) : Prop :=
  forall h a e F N, tree h a e F N ->
  exists h' F' N' r,
    m a h = (r, h') /\ tree h' a (snd (f e)) F' N' /\ found_ref h' a (fst (f e)) r /\
    only_changes F h h' /\ Permutation F' F /\ Permutation N' N /\ length h' = length h.

Lemma look_behind_at : forall h a e F N tag, tree h a e F N ->
  exists r, h_look_behind a tag h = (r, h) /\ found_ref h a (look_behind e tag) r.
Proof.
  intros h a e F N tag T. parts T. unfold h_look_behind, look_behind, bind.
  rewrite (load_node_at _ _ Ha). simpl. destruct (e_next e) as [|i]; [eexists; split; reflexivity|].
  rewrite (load_list_at _ _ Hl).
  destruct (nth_error (e_elems e) i) as [c|] eqn:Ei.
  - destruct (owns_all_nth _ Hall Ei) as [c' [F' [N' [E1 [E2 [E3 O1]]]]]]. rewrite E1.
    rewrite (tag_is_at tag O1). destruct (tag_is (e_tag c) tag).
    + exists (Some (Some c')). split; [reflexivity|]. exists c'. split; auto.
      eapply child_ref_at; eauto.
    + exists (Some None). split; reflexivity.
  - destruct (owns_all_nth_none _ Hall Ei) as [-> _]. exists None. split; reflexivity.
Qed.

Lemma set_next_same : forall e, set_next (e_next e) e = e.
Proof. intros []; reflexivity. Qed.

Lemma set_elems_same : forall e, set_elems (e_elems e) e = e.
Proof. intros []; reflexivity. Qed.

Lemma maybe_step_at : forall (b : bool) h a n, a < length h ->
  (if b then store a (ONode n) else ret tt) h =
  (Some tt, if b then list_upd a (ONode n) h else h).
Proof. intros [] h a n L; [apply store_at; auto|reflexivity]. Qed.

Lemma moved : forall h a e F N k, tree h a e F N ->
  forall n, nth_error h a = Some (ONode n) ->
  tree (list_upd a (ONode (nset_next k n)) h) a (set_next k e) F N /\
  only_changes F h (list_upd a (ONode (nset_next k n)) h).
Proof.
  intros h a e F N k T n Hn. pose proof T as T0. parts T. rewrite Ha in Hn. inversion Hn; subst n.
  exact (@tree_slots h a e F N _ (set_next k e) T0 eq_refl eq_refl eq_refl Ha _ eq_refl).
Qed.

(** moving the cursor leaves the children where they are *)
Lemma found_moved : forall h a e F N k (b : bool) i c nsr ar lr rs,
  tree h a e F N ->
  nth_error h a = Some (ONode (Node (e_tag e) nsr (e_text e) (e_tail e) ar lr (e_next e) (e_line e))) ->
  nth_error h lr = Some (OList rs) -> nth_error rs i = Some c -> a <> lr ->
  let h' := if b then list_upd a (ONode (nset_next k (Node (e_tag e) nsr (e_text e) (e_tail e) ar lr (e_next e) (e_line e)))) h else h in
  tree h' a (if b then set_next k e else e) F N /\ found_ref h' a (Found i) (Some (Some c)) /\
  only_changes F h h' /\ length h' = length h.
Proof.
  intros h a e F N k b i c nsr ar lr rs T Ha Hl Hc Nal h'. unfold h'. destruct b.
  - destruct (moved k T Ha) as [T1 C1].
    split; [exact T1|]. split; [|split; [exact C1|apply upd_length]].
    exists c. split; auto. eapply child_ref_at.
    + apply nth_upd_same. eapply nth_lt; eauto.
    + rewrite nth_upd_other by auto. exact Hl.
    + exact Hc.
  - split; [auto|]. split; [|split; [apply only_changes_refl|auto]].
    exists c. split; auto. eapply child_ref_at; eauto.
Qed.

Lemma strict_ok : forall tag step,
  search_ok (fun a => h_strict_forward a tag step) (fun e => strict_forward e tag step).
Proof.
  intros tag step h a e F N T. pose proof T as T0. parts T. pose proof (nth_lt _ _ Ha) as La.
  unfold h_strict_forward, strict_forward, bind. rewrite (load_node_at _ _ Ha). simpl.
  rewrite (load_list_at _ _ Hl).
  destruct (nth_error (e_elems e) (e_next e)) as [c|] eqn:Ei.
  - destruct (owns_all_nth _ Hall Ei) as [c' [F' [N' [E1 [E2 [E3 O1]]]]]]. rewrite E1.
    rewrite (tag_is_at tag O1). destruct (tag_is (e_tag c) tag).
    + rewrite maybe_step_at by auto.
      destruct (@found_moved h a e F N (S (e_next e)) step (e_next e) c' nsr ar lr rs T0 Ha Hl E1 Nal)
        as [T1 [R1 [C1 L1]]].
      eexists _, F, N, _. split; [reflexivity|]. simpl.
      split; [destruct step; exact T1|]. split; [exact R1|]. auto.
    + exists h, F, N, (Some None). split; [reflexivity|]. simpl.
      split; [exact T0|]. split; [reflexivity|]. split; [apply only_changes_refl|auto].
  - destruct (owns_all_nth_none _ Hall Ei) as [-> _].
    exists h, F, N, (Some None). split; [reflexivity|]. simpl.
    split; [exact T0|]. split; [reflexivity|]. split; [apply only_changes_refl|auto].
Qed.

Lemma nth_error_skipn : forall A n (l : list A) i, nth_error (skipn n l) i = nth_error l (n + i).
Proof.
  intros A n; induction n as [|n IH]; intros [|x l] i; simpl; auto. destruct i; reflexivity.
Qed.

Lemma ordered_ok : forall tag step,
  search_ok (fun a => h_ordered_forward a tag step) (fun e => ordered_forward e tag step).
Proof.
  intros tag step h a e F N T. pose proof T as T0. parts T. pose proof (nth_lt _ _ Ha) as La.
  unfold h_ordered_forward, ordered_forward, bind. rewrite (load_node_at _ _ Ha). simpl.
  rewrite (load_list_at _ _ Hl).
  pose proof (find_from_at (owns_all_skipn (e_next e) Hall) (e_next e) tag) as FF.
  destruct (find_from (e_next e) (skipn (e_next e) (e_elems e)) tag) as [j|] eqn:Ef.
  - destruct FF as [c [Lj [Ec ->]]]. rewrite nth_error_skipn in Ec.
    replace (e_next e + (j - e_next e)) with j in Ec by lia.
    rewrite maybe_step_at by auto.
    destruct (@found_moved h a e F N (S j) step j c nsr ar lr rs T0 Ha Hl Ec Nal) as [T1 [R1 [C1 L1]]].
    eexists _, F, N, _. split; [reflexivity|]. simpl.
    split; [destruct step; exact T1|]. split; [exact R1|]. auto.
  - rewrite FF. exists h, F, N, (Some None). split; [reflexivity|]. simpl.
    split; [exact T0|]. split; [reflexivity|]. split; [apply only_changes_refl|auto].
Qed.

Lemma list_swap_at : forall A (l : list A) i j c, nth_error l j = Some c -> i <= j ->
  nth_error (list_swap i j l) i = Some c.
Proof.
  intros A l i j c E L. unfold list_swap. pose proof (nth_lt _ _ E) as Lj.
  destruct (nth_error l i) as [x|] eqn:Ei.
  - rewrite E. apply nth_upd_same. rewrite upd_length. lia.
  - apply nth_error_None in Ei. lia.
Qed.

Lemma unordered_ok : forall tag step,
  search_ok (fun a => h_unordered_forward a tag step) (fun e => unordered_forward e tag step).
Proof.
  intros tag step h a e F N T. pose proof T as T0. pose proof T as [O [ND DJ]]. parts T.
  pose proof (nth_lt _ _ Ha) as La. pose proof (nth_lt _ _ Hl) as Ll.
  unfold h_unordered_forward, unordered_forward, bind. rewrite (load_node_at _ _ Ha). simpl.
  rewrite (load_list_at _ _ Hl).
  pose proof (find_from_at (owns_all_skipn (e_next e) Hall) (e_next e) tag) as FF.
  destruct (find_from (e_next e) (skipn (e_next e) (e_elems e)) tag) as [j|] eqn:Ef.
  - destruct FF as [c [Lj [Ec ->]]]. rewrite nth_error_skipn in Ec.
    replace (e_next e + (j - e_next e)) with j in Ec by lia.
    rewrite store_at by auto. rewrite maybe_step_at by (rewrite upd_length; auto).
    pose proof (owns_all_swap (e_next e) j Hall) as Hsw.
    pose proof (perm_concat (list_swap_perm Fs (e_next e) j)) as PF.
    pose proof (perm_concat (list_swap_perm Ns (e_next e) j)) as PN.
    set (k := if step then S (e_next e) else e_next e).
    destruct (@tree_kids h a e F N nsr ar lr rs Fs Ns (list_swap (e_next e) j rs)
                (list_swap (e_next e) j (e_elems e)) (list_swap (e_next e) j Fs) (list_swap (e_next e) j Ns) k
                T0 Ha Hl Hall Hsw) as [T1 [C1 [L1 [El1 Ea1]]]].
    + eapply Permutation_NoDup; [symmetry; exact PF|auto].
    + intros x Hx. left. eapply Permutation_in; eauto.
    + intros x Hx. apply (Permutation_in _ PN) in Hx. split; auto.
      intros Hx'. apply (Permutation_in _ PF) in Hx'. apply (DJ x).
      * subst F; simpl; right; apply in_or_app; simpl; auto.
      * subst N; apply in_or_app; auto.
    + match type of T1 with tree ?x _ _ _ _ => set (h' := x) in * end.
      assert (Eh : h' = (if step
        then list_upd a (ONode (nset_next (S (e_next e)) (Node (e_tag e) nsr (e_text e) (e_tail e) ar lr (e_next e) (e_line e))))
               (list_upd lr (OList (list_swap (e_next e) j rs)) h)
        else list_upd lr (OList (list_swap (e_next e) j rs)) h)).
      { unfold h', k. destruct step; [reflexivity|]. apply list_upd_id.
        rewrite nth_upd_other by auto. exact Ha. }
      rewrite <- Eh.
      eexists h', _, _, _. split; [reflexivity|]. split.
      { replace (snd _) with (set_next k (set_elems (list_swap (e_next e) j (e_elems e)) e)); [exact T1|].
        unfold k. destruct step; reflexivity. }
      split. { simpl. exists c. split; auto. eapply child_ref_at; eauto. apply list_swap_at; auto. }
      split; [auto|]. split; [|split; [|auto]].
      * subst F. apply perm_skip. apply Permutation_app_head. apply perm_skip. exact PF.
      * subst N. apply Permutation_app_head. exact PN.
  - rewrite FF. exists h, F, N, (Some None). split; [reflexivity|]. simpl.
    split; [exact T0|]. split; [reflexivity|]. split; [apply only_changes_refl|auto].
Qed.

Lemma forward_ok : forall m tag step,
  search_ok (fun a => h_forward m a tag step) (fun e => forward m e tag step).
Proof.
  intros [] tag step; simpl; [apply strict_ok|apply ordered_ok|apply unordered_ok].
Qed.

Lemma find_element_ok : forall m tag behind step,
  search_ok (fun a => h_find_element a tag m behind step) (fun e => search m e tag behind step).
Proof.
  intros m tag behind step h a e F N T. unfold h_find_element, search.
  destruct behind; [|exact (forward_ok m tag step T)].
  destruct (look_behind_at tag T) as [r [E R]]. unfold bind. rewrite E.
  destruct (look_behind e tag) as [|i|] eqn:El; simpl in R.
  - subst r. exact (forward_ok m tag step T).
  - destruct R as [c [-> R]]. exists h, F, N, (Some (Some c)). split; [reflexivity|]. simpl.
    split; [exact T|]. split; [eauto|]. split; [apply only_changes_refl|auto].
  - subst r. exists h, F, N, None. split; [reflexivity|]. simpl.
    split; [exact T|]. split; [reflexivity|]. split; [apply only_changes_refl|auto].
Qed.
