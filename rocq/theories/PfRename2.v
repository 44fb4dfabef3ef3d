(** PfRename2.v -- proofs for C87: writing. *)

From Verif Require Import Base Elem Native Errs Names Ser Write Read Api SpecSim SpecRename PfRename.

Local Ltac inv H := inversion H; subst; clear H.

Section Rename.
  Variable R : renaming.
  Hypothesis HR : one_to_one R.
  Variables ev ev' : env.
  Hypothesis HE : renamed_env R ev ev'.

  Lemma dget_like : forall A B (P : string * A -> string * B -> Prop) f, (forall a b, f a = f b -> a = b) ->
    (forall a b, P a b -> fst b = f (fst a)) -> forall d d' k, Forall2 P d d' ->
    match dget k d, dget (f k) d' with
    | Some x, Some x' => exists a b, P a b /\ snd a = x /\ snd b = x'
    | None, None => True
    | _, _ => False
    end.
  Proof.
    intros A B P f I HP d d' k H. induction H as [|[a x] [b x'] d d' Hx H IH]; simpl; auto.
    assert (E := HP _ _ Hx). simpl in E. subst b. destruct (String.eqb_spec k a) as [->|N].
    - rewrite String.eqb_refl. eauto 6.
    - destruct (String.eqb_spec (f k) (f a)) as [Q|_]; [apply I in Q; contradiction|]. exact IH.
  Qed.

  Lemma in_like : forall f, (forall a b : string, f a = f b -> a = b) -> forall k l, str_in (f k) (map f l) = str_in k l.
  Proof.
    intros f I k l. induction l as [|a l IH]; simpl; auto. unfold str_in in *. simpl. rewrite IH. f_equal.
    destruct (String.eqb_spec k a) as [->|N]; [apply String.eqb_refl|]. destruct (String.eqb_spec (f k) (f a)) as [Q|_]; auto. apply I in Q; contradiction.
  Qed.

  Lemma inst_model : forall k v enc v' enc', renamed_inst R ev k v enc v' enc' -> exists c a s a' s', v = VModel c a s /\ v' = VModel (rn_cls R c) a' s'.
  Proof. intros k v enc v' enc' H; inv H; eauto 8. Qed.

  Definition wlike (s : ser) (w w' : writer) : Prop := forall fl e v enc v' enc', renamed_at R ev s v enc v' enc' -> w fl e v enc = w' fl e v' enc'.
  Definition wlike_all (w w' : ser -> writer) : Prop := forall s s', renamed_ser R s s' -> wlike s (w s) (w' s').

  Lemma write_items_like : forall s w w', wlike s w w' -> forall fl ves ves',
    Forall2 (fun a b => renamed_at R ev s (fst a) (snd a) (fst b) (snd b)) ves ves' -> (forall x x' y y', renamed_at R ev s x y x' y' -> is_none x = is_none x') ->
    forall e, write_items w fl e (map fst ves) (map snd ves) = write_items w' fl e (map fst ves') (map snd ves').
  Proof.
    intros s w w' H fl ves ves' F N. induction F as [|[x y] [x' y'] ves ves' Hx F IH]; intros e; simpl in *; auto.
    rewrite <- (N _ _ _ _ Hx). destruct (fl_skip_empty fl && is_none x); auto. rewrite (H fl e _ _ _ _ Hx). destruct (w' fl e x' y'); simpl; auto.
  Qed.

  Lemma at_renamed_none : forall v w, renamed R v w -> is_none v = is_none w /\ py_len v = py_len w.
  Proof. intros v w H; inv H; simpl; auto. split; auto. f_equal. clear -H0. induction H0; simpl; auto. Qed.

  Lemma len_map : forall A B (f : A -> B) (g : A -> B) l l', length l = length l' -> length (map f l) = length (map g l').
  Proof. intros; rewrite !map_length; auto. Qed.

  Lemma long_like : forall A B (P : A -> B -> Prop) l l', Forall2 P l l' -> length l = length l'.
  Proof. intros A B P l l' H; induction H; simpl; auto. Qed.

  Lemma at_none : forall s x y x' y', renamed_at R ev s x y x' y' -> is_none x = is_none x' /\ py_len x = py_len x'.
  Proof.
    intros s x y x' y' H; induction H; auto;
      try (match goal with X : renamed_inst _ _ _ _ _ _ _ |- _ => destruct (inst_model X) as (? & ? & ? & ? & ? & -> & ->) end);
      try (apply at_renamed_none; auto; fail); try (split; reflexivity).
    - split; auto. simpl. f_equal. apply len_map. eapply long_like; eauto.
    - split; auto. simpl. f_equal. apply len_map; auto.
  Qed.

  Lemma write_tuple_like : forall ss ss', Forall2 (renamed_ser R) ss ss' -> forall w w', wlike_all w w' -> forall fl ves ves',
    (forall i s a b, nth_error ss i = Some s -> nth_error ves i = Some a -> nth_error ves' i = Some b -> renamed_at R ev s (fst a) (snd a) (fst b) (snd b)) ->
    length ves = length ves' ->
    forall e, write_tuple (map w ss) fl e (map fst ves) (map snd ves) = write_tuple (map w' ss') fl e (map fst ves') (map snd ves').
  Proof.
    intros ss ss' H. induction H as [|s s' ss ss' Hs H IH]; intros w w' Hw fl ves ves' F L e; simpl; auto.
    destruct ves as [|[x y] ves], ves' as [|[x' y'] ves']; try discriminate L; simpl; auto.
    rewrite (Hw _ _ Hs fl e x y x' y' (F 0 s (x, y) (x', y') eq_refl eq_refl eq_refl)).
    destruct (w' s' fl e x' y'); simpl; auto. apply IH; auto. intros i t u1 u2; apply (F (S i)).
  Qed.

  Lemma write_path_like : forall b mode nsm path k k', (forall e, k e = k' e) -> forall e, write_path b mode nsm path k e = write_path b mode nsm path k' e.
  Proof.
    intros b mode nsm path k k' H. induction path as [|a path IH]; intros e; simpl; auto.
    destruct (find_element_or_create b e a mode nsm) as [[|i|] e']; auto. destruct (nth_error (e_elems e') i); auto. rewrite IH; auto.
  Qed.

  (** the fields of an instance *)
  Lemma write_fields_like : forall w w', wlike_all w w' -> forall k c m m' attrs attrs' set d d', renamed_class R k m m' ->
    (forall name, In name (map fst (md_fields m)) -> rn_field R c name = rn_field R k name) ->
    renamed R (VModel c attrs set) (VModel (rn_cls R c) attrs' (map (rn_field R c) set)) ->
    Forall2 (fun a b => fst b = rn_field R c (fst a)) d d' ->
    (forall name s x x' y y', In (name, s) (md_fields m) -> dget name attrs = Some x -> dget (rn_field R c name) attrs' = Some x' ->
       dget name d = Some y -> dget (rn_field R c name) d' = Some y' -> renamed_at R ev s x y x' y') ->
    forall fs fs', Forall2 (fun a b => fst b = rn_field R k (fst a) /\ renamed_ser R (snd a) (snd b)) fs fs' -> incl fs (md_fields m) ->
    forall fl e, write_fields w m fs fl e (VModel c attrs set) (VDict d) =
                 write_fields w' m' fs' fl e (VModel (rn_cls R c) attrs' (map (rn_field R c) set)) (VDict d').
  Proof.
    intros w w' Hw k c m m' attrs attrs' set d d' Hc Hn Hv Hd Hat fs fs' H. induction H as [|[n s] [n' s'] fs fs' [En Hs] H IH]; intros Inc fl e; auto.
    simpl in En, Hs. subst n'. cbn [write_fields].
    assert (I : In (n, s) (md_fields m)) by (apply Inc; simpl; auto).
    assert (Inc' : incl fs (md_fields m)) by (intros y Hy; apply Inc; simpl; auto).
    assert (En : rn_field R k n = rn_field R c n) by (symmetry; apply Hn; apply (in_map fst) in I; exact I).
    rewrite (rc_exclude Hc n). destruct (str_in n (md_sexclude m)); [apply IH; auto|].
    rewrite En.
    assert (U : (if fl_exclude_unset fl then is_unset (VModel c attrs set) n else Ok false) =
                (if fl_exclude_unset fl then is_unset (VModel (rn_cls R c) attrs' (map (rn_field R c) set)) (rn_field R c n) else Ok false)).
    { destruct (fl_exclude_unset fl); auto. simpl. rewrite in_like; auto. apply HR. }
    rewrite <- U. destruct (if fl_exclude_unset fl then _ else _) as [[]|x|]; simpl; auto.
    inversion Hv as [|? ? ?|? ? ? ? Ha]; subst; [match goal with X : forall c a s, _ <> _ |- _ => exfalso; eapply X; reflexivity end|].
    pose proof (@dget_like _ _ _ (rn_field R c) (proj2 HR c) (fun a b (X : fst b = rn_field R c (fst a) /\ _) => proj1 X) attrs attrs' n Ha) as D.
    pose proof (@dget_like _ _ _ (rn_field R c) (proj2 HR c) (fun a b (X : fst b = rn_field R c (fst a)) => X) d d' n Hd) as D2.
    destruct (dget n attrs) as [x|] eqn:Gx, (dget (rn_field R c n) attrs') as [x'|] eqn:Gx'; try contradiction; simpl; auto.
    destruct D as (a & b & [_ Rx] & <- & <-).
    pose proof (rc_cser Hc n) as C. rewrite En in C.
    assert (X : (match md_cser m n with Some custom => custom (VModel c attrs set) e (snd a) | None => obind (py_getitem (VDict d) n) (fun xe => w s fl e (snd a) xe) end) =
                (match md_cser m' (rn_field R c n) with Some custom => custom (VModel (rn_cls R c) attrs' (map (rn_field R c) set)) e (snd b)
                 | None => obind (py_getitem (VDict d') (rn_field R c n)) (fun xe => w' s' fl e (snd b) xe) end)).
    { destruct (md_cser m n) as [f|], (md_cser m' (rn_field R c n)) as [f'|]; try contradiction; [apply C; auto|]. simpl.
      destruct (dget n d) as [y|] eqn:Gy, (dget (rn_field R c n) d') as [y'|] eqn:Gy'; try contradiction; simpl; auto.
      apply Hw; auto. eapply Hat; eauto. }
    simpl in X. rewrite X. destruct (match md_cser m' _ with Some _ => _ | None => _ end); simpl; auto.
  Qed.

  Lemma write_model_like : forall w w', wlike_all w w' -> forall k m m' v enc v' enc', en_model ev k = Some m -> renamed_class R k m m' ->
    renamed_inst R ev k v enc v' enc' -> forall fl e, write_model w m fl e v enc = write_model w' m' fl e v' enc'.
  Proof.
    intros w w' Hw k m m' v enc v' enc' Em Hc H fl e. unfold write_model.
    assert (Sk : with_skip_empty m' fl = with_skip_empty m fl) by (unfold with_skip_empty; rewrite (rc_skip Hc); auto).
    rewrite Sk, (rc_root Hc). inv H.
    - assert (m0 = m) by congruence; subst m0.
      match goal with X : md_root m = _ |- _ => rewrite X end. cbn [is_none].
      eapply write_fields_like; eauto; [apply Hc|intros y; auto].
    - assert (m0 = m) by congruence; subst m0.
      match goal with X : md_root m = _ |- _ => rewrite X end. cbn [is_none].
      match goal with X : md_fields m = _ |- _ => rewrite X; pose proof (rc_fields Hc) as Hf; rewrite X in Hf end.
      inversion Hf as [|a b la lb [_ Hs] Hl E1 E2]; subst. destruct b as [n' s']. simpl in Hs.
      assert (U : is_unset (VModel (rn_cls R c) [("root", x')] (map (rn_field R c) set)) "root" = is_unset (VModel c [("root", x)] set) "root").
      { simpl. match goal with X : rn_field R c "root" = _ |- _ => rewrite <- X at 1 end. rewrite in_like; auto. apply HR. }
      rewrite U. destruct (if fl_exclude_unset fl then _ else _) as [[]|y|]; simpl; auto. apply Hw; auto.
  Qed.

  Lemma write_proxy_like : forall w w', wlike_all w w' -> forall p q, renamed_proxy R p q -> forall fl e v enc v' enc',
    (v = VNone /\ v' = VNone \/ renamed_inst R ev (px_model p) v enc v' enc') ->
    write_proxy ev w p fl e v enc = write_proxy ev' w' q fl e v' enc'.
  Proof.
    intros w w' Hw p q (P1 & P2 & P3 & P4 & P5 & P6) fl e v enc v' enc' H. unfold write_proxy. rewrite P1, P2, P3, P6.
    destruct HE as [-> Hm]. specialize (Hm (px_model p)).
    destruct (en_model ev (px_model p)) as [m|] eqn:Em, (en_model ev' (rn_cls R (px_model p))) as [m'|]; try contradiction; auto.
    destruct H as [(-> & ->)|H]; [simpl; destruct (fl_exclude_none fl), (px_nillable p); auto|].
    assert (N : is_none v = is_none v') by (destruct (inst_model H) as (? & ? & ? & ? & ? & -> & ->); auto).
    rewrite <- N. destruct (fl_exclude_none fl && is_none v); auto. destruct (px_nillable p && is_none v); auto. destruct (is_none v); auto.
    rewrite (@write_model_like w w' Hw _ _ _ _ _ _ _ Em Hm H). reflexivity.
  Qed.

  Lemma write_union_like : forall w w', wlike_all w w' -> forall vs vs', Forall2 (renamed_proxy R) vs vs' -> forall k attrs set enc v' enc',
    (forall p, In p vs -> px_model p = k -> renamed_inst R ev k (VModel k attrs set) enc v' enc') -> model_type v' = Some (rn_cls R k) ->
    forall fl e, write_union (write_proxy ev w) vs fl e (VModel k attrs set) enc = write_union (write_proxy ev' w') vs' fl e v' enc'.
  Proof.
    intros w w' Hw vs vs' H. induction H as [|p q vs vs' Hp H IH]; intros k attrs set enc v' enc' Hi T fl e; cbn [write_union]; auto.
    rewrite T. cbn [model_type]. assert (P1 := proj1 Hp). rewrite P1.
    destruct (String.eqb_spec (px_model p) k) as [Q|N].
    - subst k. rewrite String.eqb_refl. apply write_proxy_like; auto. right. apply (Hi p); simpl; auto.
    - destruct (String.eqb_spec (rn_cls R (px_model p)) (rn_cls R k)) as [Q|_]; [apply HR in Q; contradiction|].
      eapply IH; eauto. intros p0 I0 E0; apply (Hi p0); simpl; auto.
  Qed.

  Lemma tagged_get : forall (Q : string * proxy -> string * proxy -> Prop) vs vs' t,
    Forall2 (fun a b : string * proxy => fst a = fst b /\ renamed_proxy R (snd a) (snd b) /\ Q a b) vs vs' ->
    match dget t vs, dget t vs' with Some p, Some q => renamed_proxy R p q | None, None => True | _, _ => False end.
  Proof.
    intros Q vs vs' t H. induction H as [|[a p] [b q] vs vs' (E & Hp & _) H IH]; simpl in *; auto. subst b. destruct (String.eqb t a); auto.
  Qed.

  Lemma write_like : forall n, wlike_all (write n ev) (write n ev').
  Proof.
    induction n as [|n IH]; intros s s' H fl e v enc v' enc' A; [reflexivity|]. cbn [write].
    destruct H; cbn [write_step]; try (inv A; reflexivity).
    - inv A; rewrite (proj1 HE); reflexivity.
    - inv A; rewrite (proj1 HE); reflexivity.
    - unfold write_homo. destruct (at_none A) as [N L]. inv A; try contradiction; auto.
      cbn [is_none py_iter obind]. cbn [py_len] in L. injection L as L. rewrite L.
      destruct (fl_skip_empty fl && _); auto. eapply write_items_like with (s := s); [apply IH; auto| |]; eauto. intros; eapply at_none; eauto.
    - unfold write_hetero. destruct (at_none A) as [N L]. inv A; try contradiction; auto.
      cbn [is_none py_iter obind]. cbn [py_len] in L. injection L as L. rewrite L.
      destruct (fl_skip_empty fl && _); auto. rewrite !map_length. rewrite (long_like H). destruct (negb _); auto.
      apply write_tuple_like; auto.
    - inv A; try contradiction; apply IH; auto. apply ra_none.
    - inv A; try contradiction; [clear -H; induction H; simpl; auto|].
      match goal with X : renamed R (VModel _ _ _) v' |- _ => inv X; [exfalso; eauto|] end.
      + match goal with X : forall c a s, _ <> _ |- _ => eapply X; reflexivity end.
      + apply write_union_like; auto.
    - inv A; try contradiction; auto. unfold write_tagged.
      destruct vs as [|[t0 p0] vs]; [congruence|]. inversion H as [|? b0 ? lb (Hb & Hp & Hd) Hl E1 E2]; subst.
      cbn [snd] in Hp.
      match goal with X : forall t p, In (t, p) _ -> _ |- _ => pose proof (X t0 p0 (or_introl eq_refl)) as G end.
      cbn [snd]. rewrite <- G. destruct (dget disc d) as [tag|] eqn:Gt; auto. destruct (py_truthy tag); auto. destruct tag; auto.
      pose proof (@tagged_get _ _ _ s H) as T.
      destruct (dget s ((t0, p0) :: vs)) as [p|] eqn:Gp, (dget s (b0 :: lb)) as [q|]; try contradiction; auto.
      apply write_proxy_like; auto. right. eauto.
    - unfold write_wrap. destruct (at_none A) as [N L]. unfold len_is_zero. rewrite N, L. rewrite (proj1 HE).
      destruct (is_none v'); auto. destruct (fl_skip_empty fl && _); auto. apply write_path_like. intros c0.
      inv A; try contradiction; apply IH; auto. apply ra_none.
    - inv A; rewrite (proj1 HE); reflexivity.
    - apply write_proxy_like; auto. inv A; try contradiction; auto.
  Qed.

  Lemma to_xml_like : forall n cls v enc v' enc' (encode encode' : val -> val) fl,
    model_type v = Some cls -> encode v = enc -> encode' v' = enc' -> renamed_inst R ev cls v enc v' enc' ->
    to_xml_tree n ev encode v fl = to_xml_tree n ev' encode' v' fl.
  Proof.
    intros n cls v enc v' enc' encode encode' fl T <- <- H. unfold to_xml_tree. rewrite T.
    destruct (inst_model H) as (c & a & s & a' & s' & Ev & Ev'). rewrite Ev' at 1. rewrite Ev in T. cbn [model_type] in *. injection T as ->.
    pose proof (proj2 HE cls) as Hm.
    destruct (en_model ev cls) as [m|] eqn:Em, (en_model ev' (rn_cls R cls)) as [m'|]; try contradiction; auto.
    rewrite (rc_elem Hm), (rc_nsmap Hm), (proj1 HE). rewrite (@write_model_like (write n ev) (write n ev') (write_like n) cls m m' v (encode v) v' (encode' v') Em Hm H).
    reflexivity.
  Qed.
End Rename.
