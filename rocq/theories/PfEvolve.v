(** PfEvolve.v -- pieces and drafts of the old and the new classes (C85). *)

From Verif Require Import Base Elem Native Errs Names Ser SpecOut SpecAttrs SpecEvolve PfOut.

Local Ltac inv H := inversion H; subst; clear H.

Section Evolve.
  Variables (U : string -> bool) (A : string -> string -> bool) (T W : string -> bool) (late : bool).

  Definition kept_name (d : draft) : bool := match draft_tag d with Some t => negb (U t) | None => false end.

  (** if [late], the new children come last *)
  Definition new_last (ch : list draft) : Prop :=
    late = true -> exists k x, ch = k ++ x /\ filter kept_name k = k /\ filter kept_name x = [].

  (** the old draft and the new one, which has got new attributes and new children *)
  Inductive drel : draft -> draft -> Prop :=
  | dr_leaf : forall tag ns text a, U tag = false -> drel (Draft tag ns text a []) (Draft tag ns text a [])
  | dr_given : forall n t, draft_tag (Given n) = Some t -> U t = false -> drel (Given n) (Given n)
  | dr_tight : forall tag ns text a a' ch ch', T tag = true -> W tag = false -> U tag = false ->
      asked A tag a = asked A tag a' -> Forall2 drel ch ch' ->
      drel (Draft tag ns text a ch) (Draft tag ns text a' ch')
  | dr_loose : forall tag ns text a a' ch ch', T tag = false -> W tag = false -> U tag = false ->
      asked A tag a = asked A tag a' -> Forall2 drel ch (filter kept_name ch') -> new_last ch' ->
      drel (Draft tag ns text a ch) (Draft tag ns text a' ch').

  Inductive prel : piece -> piece -> Prop :=
  | pr_text : forall s, prel (PText s) (PText s)
  | pr_attr : forall n v, prel (PAttr n v) (PAttr n v)
  | pr_attrs : forall m, prel (PAttrs m) (PAttrs m)
  | pr_child : forall d d', drel d d' -> prel (PChild d) (PChild d')
  | pr_in : forall t ns ps ps', T t = true -> W t = false -> U t = false -> Forall2 prel ps ps' ->
      prel (PIn t ns ps) (PIn t ns ps').

  (** the element being written, no new child yet; then with new children *)
  Inductive tight : draft -> draft -> Prop :=
  | tight_intro : forall tag ns text a a' ch ch', asked A tag a = asked A tag a' -> Forall2 drel ch ch' ->
      tight (Draft tag ns text a ch) (Draft tag ns text a' ch').
  Inductive loose : draft -> draft -> Prop :=
  | loose_intro : forall tag ns text a a' ch ch', asked A tag a = asked A tag a' -> Forall2 drel ch (filter kept_name ch') -> new_last ch' ->
      loose (Draft tag ns text a ch) (Draft tag ns text a' ch').

  Lemma drel_tag : forall d d', drel d d' -> draft_tag d = draft_tag d'.
  Proof. intros d d' H; inv H; reflexivity. Qed.

  Lemma drel_kept : forall d d', drel d d' -> kept_name d' = true.
  Proof.
    intros d d' H; inv H; unfold kept_name; simpl; try (rewrite H0 || rewrite H2 || rewrite H1); auto.
    - simpl in H0. destruct n; try discriminate. injection H0 as ->. rewrite H1; auto.
  Qed.

  Lemma all_kept : forall l l', Forall2 drel l l' -> filter kept_name l' = l'.
  Proof. intros l l' H; induction H as [|d d' l l' D F IH]; simpl; auto. rewrite (drel_kept D), IH; auto. Qed.

  Lemma kept_last : forall l l', Forall2 drel l l' -> new_last l'.
  Proof. intros l l' H _. exists l', []. rewrite app_nil_r. split; auto. split; auto. exact (all_kept H). Qed.

  Lemma last_more : forall l c, new_last l -> kept_name c = false -> new_last (l ++ [c]).
  Proof.
    intros l c H K E. destruct (H E) as (k & x & -> & Hk & Hx). exists k, (x ++ [c]). rewrite app_assoc. split; auto. split; auto.
    rewrite filter_app, Hx. simpl. rewrite K; auto.
  Qed.

  Lemma last_upd : forall l c c', new_last (l ++ [c]) -> kept_name c = false -> kept_name c' = false -> new_last (l ++ [c']).
  Proof.
    intros l c c' H K K' E. destruct (H E) as (k & x & Q & Hk & Hx). destruct (rev x) as [|c0 r] eqn:Er.
    - assert (x = []) by (rewrite <- (rev_involutive x), Er; auto). subst x. rewrite app_nil_r in Q. exfalso.
      assert (I : In c (filter kept_name k)) by (rewrite Hk, <- Q; apply in_or_app; simpl; auto).
      apply filter_In in I. destruct I; congruence.
    - assert (x = rev r ++ [c0]) by (rewrite <- (rev_involutive x), Er; auto). subst x. rewrite app_assoc in Q.
      apply app_inj_tail in Q. destruct Q as [-> <-]. rewrite filter_app in Hx. apply app_eq_nil in Hx. destruct Hx as [Hx _].
      exists k, (rev r ++ [c']). rewrite app_assoc. split; auto. split; auto. rewrite filter_app, Hx. simpl. rewrite K'; auto.
  Qed.

  Lemma tight_loose : forall d d', tight d d' -> loose d d'.
  Proof. intros d d' H; inv H. constructor; auto; [rewrite (all_kept H1); auto|exact (kept_last H1)]. Qed.

  Lemma tight_fresh : forall t ns, tight (fresh t ns) (fresh t ns).
  Proof. intros t ns. constructor; auto. Qed.

  Lemma asked_dset : forall tag k v a a', asked A tag a = asked A tag a' -> asked A tag (dset k v a) = asked A tag (dset k v a').
  Proof.
    assert (X : forall tag k (v : string) a, asked A tag (dset k v a) = if A tag k then dset k v (asked A tag a) else asked A tag a).
    { intros tag k v a; induction a as [|[k0 v0] a IH]; simpl.
      - destruct (A tag k); auto.
      - destruct (String.eqb k k0) eqn:E; simpl.
        + apply String.eqb_eq in E; subst k0. destruct (A tag k) eqn:B; simpl; [|reflexivity]. rewrite String.eqb_refl; reflexivity.
        + rewrite IH. destruct (A tag k0) eqn:B0; destruct (A tag k) eqn:B; simpl; auto. rewrite E; auto. }
    intros tag k v a a' H. rewrite !X, H. reflexivity.
  Qed.

  Lemma asked_new : forall tag k v a, A tag k = false -> asked A tag (dset k v a) = asked A tag a.
  Proof.
    intros tag k v a B; induction a as [|[k0 v0] a IH]; simpl.
    - rewrite B; auto.
    - destruct (String.eqb k k0) eqn:E; simpl.
      + apply String.eqb_eq in E; subst k0. rewrite B; auto.
      + rewrite IH. auto.
  Qed.

  Lemma last_two : forall (l l' : list draft), Forall2 drel l l' ->
    l = [] /\ l' = [] \/ exists f c f' c', l = f ++ [c] /\ l' = f' ++ [c'] /\ Forall2 drel f f' /\ drel c c'.
  Proof.
    intros l l' H.
    destruct (rev l) as [|c r] eqn:E.
    - left. assert (l = []) by (rewrite <- (rev_involutive l), E; auto). subst. inv H; auto.
    - right. assert (El : l = rev r ++ [c]) by (rewrite <- (rev_involutive l), E; auto). subst l.
      destruct (Forall2_app_inv_l _ _ H) as (f' & r' & F1 & F2 & ->). inv F2. inv H4. exists (rev r), c, f', y. auto.
  Qed.

  Lemma put_made : forall p tag ns text a ch e, put p (Draft tag ns text a ch) = Some e ->
    exists ns1 text1 a1 ch1, e = Draft tag ns1 text1 a1 ch1.
  Proof.
    intros p; destruct p; intros tag0 ns0 text a ch e H; try (simpl in H; injection H as <-; eauto).
    rewrite put_in in H.
    destruct (match split_last ch with Some (front, c) => if match draft_tag c with Some t' => String.eqb t' tag | None => false end then (front, c) else (ch, fresh tag ns) | None => (ch, fresh tag ns) end) as [front c].
    destruct c; [|discriminate]. match type of H with match ?x with _ => _ end = _ => destruct x; [|discriminate] end. injection H as <-; eauto.
  Qed.

  Lemma put_same_tag : forall p tag ns text a ch e, put p (Draft tag ns text a ch) = Some e -> draft_tag e = Some tag.
  Proof. intros p tag ns text a ch e H. destruct (put_made _ _ _ _ _ _ H) as (n1 & t1 & a1 & c1 & ->). reflexivity. Qed.

  Lemma puts_tag : forall ps tag ns text a ch e, puts ps (Draft tag ns text a ch) = Some e -> draft_tag e = Some tag.
  Proof.
    intros ps; induction ps as [|p ps IH]; intros tag ns text a ch e P; simpl in P.
    - injection P as <-; auto.
    - destruct (put p (Draft tag ns text a ch)) as [d1|] eqn:E1; [|discriminate].
      destruct (put_made _ _ _ _ _ _ E1) as (n1 & t1 & a1 & c1 & ->). eauto.
  Qed.

  Lemma puts_tight_all : forall ps', Forall (fun p' => forall p d d' e', prel p p' -> tight d d' -> put p' d' = Some e' ->
      exists e, put p d = Some e /\ tight e e') ps' ->
    forall ps d d' e', Forall2 prel ps ps' -> tight d d' -> puts ps' d' = Some e' -> exists e, puts ps d = Some e /\ tight e e'.
  Proof.
    intros ps' H; induction H as [|p' ps' Hp F IH]; intros ps d d' e' R Td P; inv R; simpl in *.
    - injection P as <-. eauto.
    - destruct (put p' d') as [d1'|] eqn:E; [|discriminate]. match goal with R : prel _ p' |- _ => destruct (Hp _ _ _ _ R Td E) as (d1 & E1 & T1) end. rewrite E1. eauto.
  Qed.

  Lemma put_tight : forall p' p d d' e', prel p p' -> tight d d' -> put p' d' = Some e' -> exists e, put p d = Some e /\ tight e e'.
  Proof.
    intros p'. induction p' as [s|n v|m|c|t ns ps' IH] using piece_ind'; intros p d d' e' R Td P; inv R; inv Td; simpl in P.
    - injection P as <-. eexists; split; [reflexivity|constructor; auto].
    - injection P as <-. eexists; split; [reflexivity|constructor; auto]. apply asked_dset; auto.
    - injection P as <-. eexists; split; [reflexivity|constructor; auto].
    - injection P as <-. eexists; split; [reflexivity|constructor; auto]. apply Forall2_app; auto.
    - change (put (PIn t ns ps') (Draft tag ns0 text a' ch') = Some e') in P. rewrite put_in in P.
      rewrite put_in.
      assert (Wrap : forall c c' front front' e0', Forall2 drel front front' -> tight c c' -> draft_tag c' = Some t -> puts ps' c' = Some e0' ->
        exists e0, puts ps c = Some e0 /\ tight (Draft tag ns0 text a (front ++ [e0])) (Draft tag ns0 text a' (front' ++ [e0']))).
      { intros c c' front front' e0' Ff Tc Tg Pc. match goal with R : Forall2 prel _ ps' |- _ => destruct (puts_tight_all IH R Tc Pc) as (e0 & E0 & T0) end. exists e0. split; auto.
        constructor; auto. apply Forall2_app; auto. constructor; auto.
        inv Tc. simpl in Tg. injection Tg as ->. pose proof (puts_tag _ _ _ _ _ _ Pc) as G. inv T0. simpl in G. injection G as ->.
        apply dr_tight; auto. }
      match goal with F : Forall2 drel _ _ |- _ => destruct (last_two F) as [[-> ->]|(f & c & f' & c' & -> & -> & Ff & Dc)] end.
      + simpl in *. destruct (puts ps' (fresh t ns)) as [e0'|] eqn:E; [|discriminate]. injection P as <-.
        destruct (Wrap _ _ _ _ _ (Forall2_nil _) (tight_fresh t ns) eq_refl E) as (e0 & E0 & X). rewrite E0. eauto.
      + rewrite split_last_app in *. rewrite (drel_tag Dc). destruct (match draft_tag c' with Some t' => String.eqb t' t | None => false end) eqn:Et.
        * assert (Tg : draft_tag c' = Some t). { destruct (draft_tag c'); [|discriminate]. apply String.eqb_eq in Et; subst; auto. }
          destruct c' as [tg nsg txg ag chg|n]; [|discriminate].
          destruct (puts ps' (Draft tg nsg txg ag chg)) as [e0'|] eqn:E; [|discriminate]. injection P as <-.
          simpl in Tg; injection Tg as ->.
          assert (Tc : exists nsc txc ac chc, c = Draft t nsc txc ac chc /\ tight c (Draft t nsg txg ag chg)).
          { inv Dc; try congruence; repeat eexists; auto. }
          destruct Tc as (nsc & txc & ac & chc & -> & Tc).
          destruct (Wrap _ _ _ _ _ Ff Tc eq_refl E) as (e0 & E0 & X). rewrite E0. eauto.
        * simpl in *. destruct (puts ps' (fresh t ns)) as [e0'|] eqn:E; [|discriminate]. injection P as <-.
          destruct (Wrap _ _ _ _ _ (Forall2_app Ff (Forall2_cons _ _ Dc (Forall2_nil _))) (tight_fresh t ns) eq_refl E) as (e0 & E0 & X). rewrite E0. eauto.
  Qed.

  Lemma puts_tight : forall ps ps' d d' e', Forall2 prel ps ps' -> tight d d' -> puts ps' d' = Some e' -> exists e, puts ps d = Some e /\ tight e e'.
  Proof. intros ps ps'. apply puts_tight_all. apply Forall_forall. intros p _. apply put_tight. Qed.

  (** ---- old and new pieces together ---- *)

  Definition flat (p : piece) : Prop := match p with PIn _ _ _ => False | PChild _ => late = false | _ => True end.

  (** a new child *)
  Definition extra (p : piece) : Prop :=
    match p with
    | PChild d => exists t, draft_tag d = Some t /\ U t = true
    | PIn t _ _ => U t = true
    | _ => False
    end.

  (** [mixed tag wide ps ps']: the new pieces are the old ones, with new attributes ([tag]: of which element) and new
      children among them, the latter not before old wrappers *)
  Inductive mixed (tag : string) : list piece -> list piece -> Prop :=
  | mx_nil : mixed tag [] []
  | mx_old : forall p p' ps ps', prel p p' -> mixed tag ps ps' -> mixed tag (p :: ps) (p' :: ps')
  | mx_attr : forall n v ps ps', A tag n = false -> mixed tag ps ps' -> mixed tag ps (PAttr n v :: ps')
  | mx_child : forall p' ps ps', extra p' -> Forall flat ps -> mixed tag ps ps' -> mixed tag ps (p' :: ps').

  Lemma mixed_old : forall tag ps ps' qs qs', Forall2 prel ps ps' -> mixed tag qs qs' -> mixed tag (ps ++ qs) (ps' ++ qs').
  Proof. intros tag ps ps' qs qs' H M; induction H; simpl; auto. apply mx_old; auto. Qed.

  Lemma mixed_children : forall tag ps' qs qs', Forall extra ps' -> Forall flat qs -> mixed tag qs qs' -> mixed tag qs (ps' ++ qs').
  Proof. intros tag ps' qs qs' H F M; induction H; simpl; auto. apply mx_child; auto. Qed.

  Lemma put_loose : forall p p' d d' e', flat p -> prel p p' -> loose d d' -> put p' d' = Some e' -> exists e, put p d = Some e /\ loose e e'.
  Proof.
    intros p p' d d' e' F R L P. inv R; inv L; simpl in P; try contradiction; injection P as <-; (eexists; split; [reflexivity|constructor; auto]).
    - apply asked_dset; auto.
    - rewrite filter_app. simpl. rewrite (drel_kept H). apply Forall2_app; auto.
    - intros L. simpl in F. congruence.
  Qed.

  Lemma put_extra : forall p' d d' e', extra p' -> loose d d' -> put p' d' = Some e' -> loose d e'.
  Proof.
    intros p' d d' e' X L P. inv L. destruct p' as [s|n v|m|c|t tns ps]; try contradiction.
    - simpl in P. injection P as <-. destruct X as (t & Et & Ut).
      assert (K : kept_name c = false) by (unfold kept_name; rewrite Et, Ut; auto).
      constructor; auto using last_more. rewrite filter_app. simpl. rewrite K, app_nil_r; auto.
    - simpl in X. rewrite put_in in P.
      assert (Gone : forall c, draft_tag c = Some t -> kept_name c = false) by (intros c E; unfold kept_name; rewrite E, X; auto).
      destruct (split_last ch') as [[front c]|] eqn:Sp.
      + assert (ch' = front ++ [c]) as ->.
        { clear - Sp. revert front c Sp. induction ch' as [|x l IH]; intros front c Sp; simpl in Sp; [discriminate|].
          destruct (split_last l) as [[f z]|] eqn:E.
          - injection Sp as <- <-. simpl. f_equal. apply IH; auto.
          - injection Sp as <- <-. destruct l; [reflexivity|]. simpl in E. destruct (split_last l) as [[? ?]|]; discriminate. }
        destruct (match draft_tag c with Some t' => String.eqb t' t | None => false end) eqn:Et.
        * assert (Tg : draft_tag c = Some t). { destruct (draft_tag c); [|discriminate]. apply String.eqb_eq in Et; subst; auto. }
          destruct c as [tg nsg txg ag chg|n]; [|discriminate].
          destruct (puts ps (Draft tg nsg txg ag chg)) as [e0'|] eqn:E; [|discriminate]. injection P as <-.
          pose proof (Gone _ Tg) as K. simpl in Tg. injection Tg as ->. pose proof (Gone e0' (puts_tag _ _ _ _ _ _ E)) as K'.
          constructor; auto; [|eapply last_upd; eauto]. rewrite filter_app in *. cbn [filter] in *. rewrite K in H0. rewrite K'. auto.
        * simpl in P. destruct (puts ps (fresh t tns)) as [e0'|] eqn:E; [|discriminate]. injection P as <-.
          constructor; auto; [|apply last_more; auto; apply (Gone e0' (puts_tag _ _ _ _ _ _ E))]. rewrite filter_app. simpl. rewrite (Gone e0' (puts_tag _ _ _ _ _ _ E)). rewrite app_nil_r; auto.
      + simpl in P. destruct (puts ps (fresh t tns)) as [e0'|] eqn:E; [|discriminate]. injection P as <-.
        constructor; auto; [|apply last_more; auto; apply (Gone e0' (puts_tag _ _ _ _ _ _ E))]. rewrite filter_app. simpl. rewrite (Gone e0' (puts_tag _ _ _ _ _ _ E)). rewrite app_nil_r; auto.
  Qed.

  Lemma puts_loose : forall tag ps ps', mixed tag ps ps' -> Forall flat ps -> forall ns text a ch d' e',
    loose (Draft tag ns text a ch) d' -> puts ps' d' = Some e' -> exists e, puts ps (Draft tag ns text a ch) = Some e /\ loose e e'.
  Proof.
    intros tag ps ps' M; induction M as [|p p' ps ps' R M IH|n v ps ps' N M IH|p' ps ps' X F M IH]; intros Fl ns text a ch d' e' L P; simpl in *.
    - injection P as <-. eauto.
    - inv Fl. destruct (put p' d') as [d1'|] eqn:E; [|discriminate]. destruct (put_loose H1 R L E) as (d1 & E1 & L1). rewrite E1.
      pose proof (put_same_tag _ _ _ _ _ _ E1) as G. inv L1. simpl in G; injection G as ->. eapply IH; eauto. constructor; auto.
    - inv L. eapply IH; eauto. constructor; auto. rewrite asked_new; auto.
    - destruct (put p' d') as [d1'|] eqn:E; [|discriminate]. pose proof (@put_extra _ _ _ _ X L E) as L'. eapply IH; eauto.
  Qed.

  Lemma puts_mixed : forall tag ps ps', mixed tag ps ps' -> forall ns text a ch d' e',
    tight (Draft tag ns text a ch) d' -> puts ps' d' = Some e' -> exists e, puts ps (Draft tag ns text a ch) = Some e /\ loose e e'.
  Proof.
    intros tag ps ps' M; induction M as [|p p' ps ps' R M IH|n v ps ps' N M IH|p' ps ps' X F M IH]; intros ns text a ch d' e' L P; simpl in *.
    - injection P as <-. eexists; split; [reflexivity|]. apply tight_loose; auto.
    - destruct (put p' d') as [d1'|] eqn:E; [|discriminate]. destruct (put_tight R L E) as (d1 & E1 & L1). rewrite E1.
      pose proof (put_same_tag _ _ _ _ _ _ E1) as G. inv L1. simpl in G; injection G as ->. eapply IH; eauto. constructor; auto.
    - inv L. eapply IH; eauto. constructor; auto. rewrite asked_new; auto.
    - destruct (put p' d') as [d1'|] eqn:E; [|discriminate]. pose proof (@put_extra _ _ _ _ X (tight_loose L) E) as L'. eapply puts_loose; eauto.
  Qed.
End Evolve.
