(** PfSeen.v -- proofs for C88. *)

From Verif Require Import Base Elem Native Errs Names Ser Write Read Api SpecSeen.

Local Ltac inv H := inversion H; subst; clear H.

Section Seen.
  Variable ev : env.
  Variable u : bool.

  Definition wseen (s : ser) (w : writer) : Prop := forall fl e v enc v' enc', fl_exclude_unset fl = u ->
    seen_at ev u s v enc v' enc' -> w fl e v enc = w fl e v' enc'.
  Definition wseen_all (w : ser -> writer) : Prop := forall s, wseen s (w s).

  Lemma inst_seen : forall k v enc v' enc', seen_inst ev u k v enc v' enc' ->
    exists c a s c' a' s', v = VModel c a s /\ v' = VModel c' a' s'.
  Proof. intros k v enc v' enc' H; inv H; eauto 10. Qed.

  Lemma long_seen : forall A B (P : A -> B -> Prop) l l', Forall2 P l l' -> length l = length l'.
  Proof. intros A B P l l' H; induction H; simpl; auto. Qed.

  Lemma seen_none : forall s x y x' y', seen_at ev u s x y x' y' -> is_none x = is_none x' /\ py_len x = py_len x'.
  Proof.
    intros s x y x' y' H; induction H; auto.
    - split; auto. simpl. rewrite !map_length. f_equal. eapply long_seen; eauto.
    - split; auto. simpl. rewrite !map_length. congruence.
    - match goal with X : seen_inst _ _ _ _ _ _ _ |- _ => destruct (inst_seen X) as (? & ? & ? & ? & ? & ? & -> & ->) end. auto.
  Qed.

  Lemma items_seen : forall s w, wseen s w -> forall fl ves ves', fl_exclude_unset fl = u ->
    Forall2 (fun a b => seen_at ev u s (fst a) (snd a) (fst b) (snd b)) ves ves' ->
    forall e, write_items w fl e (map fst ves) (map snd ves) = write_items w fl e (map fst ves') (map snd ves').
  Proof.
    intros s w H fl ves ves' U F. induction F as [|[x y] [x' y'] ves ves' Hx F IH]; intros e; simpl in *; auto.
    rewrite <- (proj1 (seen_none Hx)). destruct (fl_skip_empty fl && is_none x); auto. rewrite (H fl e _ _ _ _ U Hx).
    destruct (w fl e x' y'); simpl; auto.
  Qed.

  Lemma tuple_seen : forall w, wseen_all w -> forall fl, fl_exclude_unset fl = u -> forall ss ves ves', length ves = length ves' ->
    (forall i s a b, nth_error ss i = Some s -> nth_error ves i = Some a -> nth_error ves' i = Some b -> seen_at ev u s (fst a) (snd a) (fst b) (snd b)) ->
    forall e, write_tuple (map w ss) fl e (map fst ves) (map snd ves) = write_tuple (map w ss) fl e (map fst ves') (map snd ves').
  Proof.
    intros w Hw fl U ss. induction ss as [|s ss IH]; intros ves ves' L F e; simpl; auto.
    destruct ves as [|[x y] ves], ves' as [|[x' y'] ves']; try discriminate L; simpl; auto.
    rewrite (Hw s fl e x y x' y' U (F 0 s (x, y) (x', y') eq_refl eq_refl eq_refl)).
    destruct (w s fl e x' y'); simpl; auto. apply IH; auto. intros i t u1 u2; apply (F (S i)).
  Qed.

  Lemma path_seen : forall b mode nsm path k k', (forall e, k e = k' e) -> forall e, write_path b mode nsm path k e = write_path b mode nsm path k' e.
  Proof.
    intros b mode nsm path k k' H. induction path as [|a path IH]; intros e; simpl; auto.
    destruct (find_element_or_create b e a mode nsm) as [[|i|] e']; auto. destruct (nth_error (e_elems e') i); auto. rewrite IH; auto.
  Qed.

  Lemma fields_seen : forall w, wseen_all w -> forall m fl c attrs set c' attrs' set' d d', fl_exclude_unset fl = u ->
    forall fs, (forall name s, In (name, s) fs -> str_in name (md_sexclude m) = false ->
       (u = true -> str_in name set = str_in name set') /\
       ((u = true -> str_in name set = true) ->
          (dget name attrs = None <-> dget name attrs' = None) /\
          (forall f x x', md_cser m name = Some f -> dget name attrs = Some x -> dget name attrs' = Some x' ->
             forall e, f (VModel c attrs set) e x = f (VModel c' attrs' set') e x') /\
          (md_cser m name = None -> (dget name d = None <-> dget name d' = None) /\
             forall x x' y y', dget name attrs = Some x -> dget name attrs' = Some x' -> dget name d = Some y -> dget name d' = Some y' ->
             seen_at ev u s x y x' y'))) ->
    forall e, write_fields w m fs fl e (VModel c attrs set) (VDict d) = write_fields w m fs fl e (VModel c' attrs' set') (VDict d').
  Proof.
    intros w Hw m fl c attrs set c' attrs' set' d d' U fs. induction fs as [|[n s] fs IH]; intros H e; auto. cbn [write_fields].
    assert (H' := fun name s I => H name s (or_intror I)). specialize (IH H').
    destruct (str_in n (md_sexclude m)) eqn:X; auto. destruct (H n s (or_introl eq_refl) X) as [HU HV]. clear H H'.
    assert (HS : (if fl_exclude_unset fl then is_unset (VModel c' attrs' set') n else Ok false) =
                 (if fl_exclude_unset fl then is_unset (VModel c attrs set) n else Ok false)).
    { rewrite U. destruct u; auto. simpl. rewrite HU; auto. }
    rewrite HS. clear HS. rewrite U.
    assert (HU' : (if u then is_unset (VModel c attrs set) n else Ok false) = Ok false \/ (if u then is_unset (VModel c attrs set) n else Ok false) = Ok true).
    { destruct u; simpl; auto. destruct (str_in n set); auto. }
    destruct HU' as [HU'|HU']; rewrite HU'; cbn [obind]; auto.
    assert (HN : u = true -> str_in n set = true).
    { intros ->. simpl in HU'. destruct (str_in n set); auto. discriminate. }
    destruct (HV HN) as (A & B & C). cbn [py_getattr].
    destruct (dget n attrs) as [x|], (dget n attrs') as [x'|]; cbn [obind]; auto.
    2:{ discriminate (proj2 A eq_refl). }
    2:{ discriminate (proj1 A eq_refl). }
    assert (W : (match md_cser m n with Some custom => custom (VModel c attrs set) e x | None => obind (py_getitem (VDict d) n) (fun xe => w s fl e x xe) end) =
                (match md_cser m n with Some custom => custom (VModel c' attrs' set') e x' | None => obind (py_getitem (VDict d') n) (fun xe => w s fl e x' xe) end)).
    { destruct (md_cser m n) as [f|]; [apply B; auto|]. destruct (C eq_refl) as [D E]. cbn [py_getitem].
      destruct (dget n d) as [y|], (dget n d') as [y'|]; cbn [obind]; auto.
      - apply Hw; auto.
      - discriminate (proj2 D eq_refl).
      - discriminate (proj1 D eq_refl). }
    rewrite W. match goal with |- obind ?a _ = obind ?a _ => destruct a end; cbn [obind]; auto.
  Qed.

  Lemma with_skip_unset : forall m fl, fl_exclude_unset (with_skip_empty m fl) = fl_exclude_unset fl.
  Proof. intros m fl. unfold with_skip_empty. destruct (md_skip_empty m); auto. Qed.

  Lemma model_seen : forall w, wseen_all w -> forall k m v enc v' enc', en_model ev k = Some m -> seen_inst ev u k v enc v' enc' ->
    forall fl e, fl_exclude_unset fl = u -> write_model w m fl e v enc = write_model w m fl e v' enc'.
  Proof.
    intros w Hw k m v enc v' enc' Em H fl e U. unfold write_model. inv H.
    - assert (m0 = m) by congruence; subst m0. match goal with X : md_root m = _ |- _ => rewrite X end. cbn [is_none].
      apply fields_seen; auto. rewrite with_skip_unset. auto.
    - assert (m0 = m) by congruence; subst m0. match goal with X : md_root m = _ |- _ => rewrite X end. cbn [is_none].
      match goal with X : md_fields m = _ |- _ => rewrite X end. rewrite U.
      assert (HS : (if u then is_unset (VModel c attrs set) "root" else Ok false) = (if u then is_unset (VModel c' attrs' set') "root" else Ok false)).
      { destruct u; auto. simpl. match goal with X : true = true -> _ |- _ => rewrite X; auto end. }
      rewrite HS. match goal with |- obind ?a _ = obind ?a _ => destruct a as [[]|x|] end; cbn [obind]; auto. cbn [py_getattr].
      destruct (dget "root" attrs) as [x|], (dget "root" attrs') as [x'|]; cbn [obind]; auto.
      + apply Hw; auto. rewrite with_skip_unset. auto.
      + discriminate (proj2 H4 eq_refl).
      + discriminate (proj1 H4 eq_refl).
  Qed.

  Lemma proxy_seen : forall w, wseen_all w -> forall p fl e v enc v' enc', fl_exclude_unset fl = u -> seen_inst ev u (px_model p) v enc v' enc' ->
    write_proxy ev w p fl e v enc = write_proxy ev w p fl e v' enc'.
  Proof.
    intros w Hw p fl e v enc v' enc' U H. unfold write_proxy. destruct (en_model ev (px_model p)) as [m|] eqn:Em; auto.
    assert (N : is_none v = is_none v') by (destruct (inst_seen H) as (? & ? & ? & ? & ? & ? & -> & ->); auto).
    rewrite <- N. destruct (fl_exclude_none fl && is_none v); auto. destruct (px_nillable p && is_none v); auto. destruct (is_none v); auto.
    rewrite (model_seen Hw Em H); auto.
  Qed.

  Lemma union_seen : forall w, wseen_all w -> forall fl e k attrs set enc attrs' set' enc', fl_exclude_unset fl = u -> forall vs,
    (forall p, In p vs -> px_model p = k -> seen_inst ev u k (VModel k attrs set) enc (VModel k attrs' set') enc') ->
    write_union (write_proxy ev w) vs fl e (VModel k attrs set) enc = write_union (write_proxy ev w) vs fl e (VModel k attrs' set') enc'.
  Proof.
    intros w Hw fl e k attrs set enc attrs' set' enc' U vs. induction vs as [|p vs IH]; intros H; cbn [write_union model_type]; auto.
    destruct (String.eqb_spec (px_model p) k) as [E|N].
    - apply proxy_seen; auto. rewrite E. apply (H p); simpl; auto.
    - apply IH. intros q I0 E0. apply (H q); simpl; auto.
  Qed.

  Lemma write_seen : forall n, wseen_all (write n ev).
  Proof.
    induction n as [|n IH]; intros s fl e v enc v' enc' U H; [reflexivity|]. cbn [write].
    inv H; cbn [write_step]; auto.
    - destruct s; try contradiction; cbn [write_step]; unfold write_text, write_attr, write_elem, write_text, write_attrs, write_map_elem, write_attrs;
        repeat match goal with X : is_none v = _ |- _ => rewrite X; clear X | X : py_len v = _ |- _ => rewrite X; clear X end; auto.
    - unfold write_homo. cbn [is_none py_iter obind]. rewrite !map_length, (long_seen H0). destruct (fl_skip_empty fl && _); auto.
      eapply items_seen; eauto.
    - unfold write_hetero. cbn [is_none py_iter obind]. rewrite !map_length, H0. destruct (fl_skip_empty fl && _); auto. destruct (negb _); auto.
      apply tuple_seen; auto.
    - apply IH; auto.
    - unfold write_wrap, len_is_zero. destruct (seen_none H0) as [N L]. rewrite N, L. destruct (is_none v'); auto. destruct (fl_skip_empty fl && _); auto.
      apply path_seen. intros e'. apply IH; auto.
    - apply union_seen; auto.
    - unfold write_tagged. rewrite <- H0. destruct (dget disc d) as [tag|] eqn:G; auto. destruct (py_truthy tag); auto. destruct tag; auto.
      destruct (dget s vs) as [p|] eqn:Gp; auto. apply proxy_seen; eauto.
    - apply proxy_seen; auto.
  Qed.

  Lemma to_xml_seen : forall n cls v v' (encode encode' : val -> val) fl, fl_exclude_unset fl = u ->
    model_type v = Some cls -> model_type v' = Some cls -> seen_inst ev u cls v (encode v) v' (encode' v') ->
    to_xml_tree n ev encode v fl = to_xml_tree n ev encode' v' fl.
  Proof.
    intros n cls v v' encode encode' fl U T T' H. unfold to_xml_tree. rewrite T, T'. destruct (en_model ev cls) as [m|] eqn:Em; auto.
    rewrite (model_seen (write_seen n) Em H); auto.
  Qed.
End Seen.
