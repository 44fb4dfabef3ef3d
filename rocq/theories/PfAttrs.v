(** PfAttrs.v -- two runs of from_xml on documents that differ in attributes no field reads. *)

From Verif Require Import Base Elem Native Errs Names Ser Write Read Api SpecElem SpecRead SpecSim SpecStray SpecText SpecRead2 SpecRound SpecAttrs
  PfElem PfField PfTerm PfWrite2 PfSim PfSim2 PfLayout.

Local Ltac inv H := inversion H; subst; clear H.

Lemma get_kept : forall (P : string -> bool) k (d : dict string), P k = true -> dget k (filter (fun kv => P (fst kv)) d) = dget k d.
Proof.
  intros P k d H; induction d as [|[k' v] d IH]; simpl; auto. destruct (P k') eqn:Q; simpl; rewrite ?IH; auto.
  destruct (String.eqb_spec k k') as [<-|N]; auto. congruence.
Qed.

Lemma del_kept : forall (P : string -> bool) k (d : dict string), P k = true ->
  filter (fun kv => P (fst kv)) (ddel k d) = ddel k (filter (fun kv => P (fst kv)) d).
Proof.
  intros P k d H; induction d as [|[k' v] d IH]; simpl; auto. destruct (String.eqb_spec k k') as [<-|N]; simpl.
  - rewrite H. simpl. rewrite String.eqb_refl; auto.
  - destruct (P k') eqn:Q; simpl; rewrite ?IH; auto. destruct (String.eqb_spec k k'); [congruence|auto].
Qed.

Lemma all_kept : forall (P : string -> bool) (d : dict string), (forall k, P k = true) -> filter (fun kv => P (fst kv)) d = d.
Proof. intros P d H; induction d as [|kv d IH]; simpl; auto. rewrite H, IH; auto. Qed.

Section Attrs.
  Variable A : string -> string -> bool.
  Variable W : string -> bool.
  Notation D := (differ_attrs A W).

  (** inside a raw element, that is *)
  Definition within (r : bool) (e : elem) : bool := r || tag_raw W (e_tag e).

  Lemma d_inv : forall r e e', D r e e' -> e_tag e = e_tag e' /\ e_nsmap e = e_nsmap e' /\ e_text e = e_text e' /\ e_tail e = e_tail e' /\
    option_map (tag_asked A (e_tag e)) (e_attrib e) = option_map (tag_asked A (e_tag e)) (e_attrib e') /\
    (within r e = true -> e_attrib e = e_attrib e') /\
    Forall2 (D (within r e)) (e_elems e) (e_elems e') /\ e_next e = e_next e' /\ e_line e = e_line e'.
  Proof. intros r e e' H; inv H; unfold within; simpl; auto 10. Qed.

  Lemma d_make : forall r e e', e_tag e = e_tag e' -> e_nsmap e = e_nsmap e' -> e_text e = e_text e' -> e_tail e = e_tail e' ->
    option_map (tag_asked A (e_tag e)) (e_attrib e) = option_map (tag_asked A (e_tag e)) (e_attrib e') ->
    (within r e = true -> e_attrib e = e_attrib e') ->
    Forall2 (D (within r e)) (e_elems e) (e_elems e') -> e_next e = e_next e' -> e_line e = e_line e' -> D r e e'.
  Proof. intros r [] []; unfold within; simpl; intros; subst; constructor; auto. Qed.

  Lemma d_find : forall r l l', Forall2 (D r) l l' -> forall i tag, find_from i l tag = find_from i l' tag.
  Proof.
    intros r l l' H; induction H as [|x y l l' Hxy H IH]; intros i tag; simpl; auto. apply d_inv in Hxy.
    destruct Hxy as [-> _]. rewrite IH; auto.
  Qed.

  Ltac parts H := let t := fresh in pose proof H as t; apply d_inv in t;
    let h1 := fresh "Ht" in let h2 := fresh "Hns" in let h3 := fresh "Hx" in let h4 := fresh "Htl" in let h5 := fresh "Hk" in
    let h6 := fresh "Ha" in let h7 := fresh "Hf" in let h8 := fresh "Hn" in let h9 := fresh "Hl" in
    destruct t as (h1 & h2 & h3 & h4 & h5 & h6 & h7 & h8 & h9).

  Lemma d_next : forall r e e' i, D r e e' -> D r (set_next i e) (set_next i e').
  Proof. intros r e e' i H; parts H. apply d_make; simpl; auto. Qed.

  Lemma d_elems : forall r e e' l l', D r e e' -> Forall2 (D (within r e)) l l' -> D r (set_elems l e) (set_elems l' e').
  Proof. intros r e e' l l' H F; parts H. apply d_make; simpl; auto. Qed.

  Lemma d_search : forall r e1 e2, D r e1 e2 -> forall m tag behind step,
    fst (search m e1 tag behind step) = fst (search m e2 tag behind step) /\
    D r (snd (search m e1 tag behind step)) (snd (search m e2 tag behind step)).
  Proof.
    intros r e1 e2 H m tag behind step. parts H.
    assert (FW : fst (forward m e1 tag step) = fst (forward m e2 tag step) /\ D r (snd (forward m e1 tag step)) (snd (forward m e2 tag step))).
    { destruct m; simpl.
      - unfold strict_forward. rewrite <- Hn. pose proof (Forall2_nth Hf (e_next e1)) as Hi.
        destruct (nth_error (e_elems e1) (e_next e1)) as [c1|], (nth_error (e_elems e2) (e_next e1)) as [c2|]; try contradiction; auto.
        apply d_inv in Hi. destruct Hi as [-> _]. destruct (tag_is (e_tag c2) tag); simpl; auto.
        split; auto. destruct step; auto. apply d_next; auto.
      - unfold ordered_forward. rewrite <- Hn. rewrite (d_find (Forall2_skipn Hf (e_next e1))).
        destruct (find_from _ _ _) as [i|]; simpl; auto. split; auto. destruct step; auto. apply d_next; auto.
      - unfold unordered_forward. rewrite <- Hn. rewrite (d_find (Forall2_skipn Hf (e_next e1))).
        destruct (find_from _ _ _) as [i|]; simpl; auto. split; auto.
        assert (D r (set_elems (list_swap (e_next e1) i (e_elems e1)) e1) (set_elems (list_swap (e_next e1) i (e_elems e2)) e2)).
        { apply d_elems; auto. apply Forall2_list_swap; auto. }
        destruct step; auto. apply d_next; auto. }
    unfold search. destruct behind; auto. unfold look_behind. rewrite <- Hn. destruct (e_next e1) as [|i]; auto.
    pose proof (Forall2_nth Hf i) as Hi. destruct (nth_error (e_elems e1) i) as [c1|], (nth_error (e_elems e2) i) as [c2|]; try contradiction; auto.
    apply d_inv in Hi. destruct Hi as [-> _]. destruct (tag_is (e_tag c2) tag); simpl; auto.
  Qed.

  Lemma d_child : forall r e1 e2, D r e1 e2 -> forall i,
    match nth_error (e_elems e1) i, nth_error (e_elems e2) i with
    | Some c1, Some c2 => D (within r e1) c1 c2 | None, None => True | _, _ => False end.
  Proof. intros r e1 e2 H i. parts H. apply Forall2_nth; auto. Qed.

  Lemma d_put : forall r e1 e2 c1 c2 i, D r e1 e2 -> D (within r e1) c1 c2 -> D r (put_child i c1 e1) (put_child i c2 e2).
  Proof. intros r e1 e2 c1 c2 i H Hc. apply d_elems; auto. apply Forall2_list_upd; auto. parts H; auto. Qed.

  Lemma d_text : forall r e1 e2 t, D r e1 e2 -> D r (set_text_o t e1) (set_text_o t e2).
  Proof. intros r e1 e2 t H; parts H. apply d_make; simpl; auto. Qed.

  (** an attribute that is asked for is the same *)
  Definition may_ask (t : xtag) (k : string) : Prop := forall s, t = TName s -> A s k = true.

  Lemma tag_get : forall t k d, may_ask t k -> dget k (tag_asked A t d) = dget k d.
  Proof. intros [s|] k d H; simpl; auto. apply (get_kept (A s)); auto. Qed.

  Lemma tag_del : forall t k d, may_ask t k -> tag_asked A t (ddel k d) = ddel k (tag_asked A t d).
  Proof. intros [s|] k d H; simpl; auto. apply (del_kept (A s)); auto. Qed.

  Lemma d_attr : forall r e1 e2 k, D r e1 e2 -> may_ask (e_tag e1) k -> get_attrib k e1 = get_attrib k e2.
  Proof.
    intros r e1 e2 k H M. parts H. unfold get_attrib.
    destruct (e_attrib e1) as [d1|], (e_attrib e2) as [d2|]; simpl in Hk; try discriminate; auto. injection Hk as Hk.
    rewrite <- (tag_get d1 M), Hk, (tag_get d2 M); auto.
  Qed.

  Lemma d_pop : forall r e1 e2 k, D r e1 e2 -> may_ask (e_tag e1) k -> fst (pop_attrib k e1) = fst (pop_attrib k e2) /\
    D r (snd (pop_attrib k e1)) (snd (pop_attrib k e2)).
  Proof.
    intros r e1 e2 k H M. parts H. unfold pop_attrib.
    destruct (e_attrib e1) as [d1|] eqn:E1, (e_attrib e2) as [d2|] eqn:E2; simpl in Hk; try discriminate; auto. injection Hk as Hk.
    rewrite <- (tag_get d1 M), Hk, (tag_get d2 M). destruct (dget k d2); simpl; auto. split; auto.
    apply d_make; simpl; auto.
    - rewrite (tag_del d1 M), (tag_del d2 M), Hk; auto.
    - intros I. specialize (Ha I). congruence.
  Qed.

  Lemma d_pop_all : forall r e1 e2, D r e1 e2 -> (forall k, may_ask (e_tag e1) k) ->
    fst (pop_attributes e1) = fst (pop_attributes e2) /\ D r (snd (pop_attributes e1)) (snd (pop_attributes e2)).
  Proof.
    intros r e1 e2 H M. parts H. unfold pop_attributes; simpl. split.
    - destruct (e_attrib e1) as [d1|], (e_attrib e2) as [d2|]; simpl in Hk; try discriminate; auto. injection Hk as Hk. f_equal.
      destruct (e_tag e1) as [s|]; simpl in Hk; auto. unfold asked in Hk.
      rewrite !(all_kept (A s)) in Hk by (intros k; apply M; auto). auto.
    - apply d_make; simpl; auto.
  Qed.

  Lemma d_step : forall r e1 e2, D r e1 e2 -> D r (step_forward e1) (step_forward e2).
  Proof. intros r e1 e2 H. parts H. unfold step_forward. rewrite Hn. apply d_next; auto. Qed.

  Lemma d_apply : forall r e1 e2 s1 s2, D r e1 e2 -> D r s1 s2 -> D r (apply_snapshot e1 s1) (apply_snapshot e2 s2).
  Proof. intros r e1 e2 s1 s2 H0 H. parts H0. parts H. apply d_make; unfold within in *; simpl; auto. Qed.

  Lemma d_raw : forall e1 r e2, D r e1 e2 -> within r e1 = true -> e1 = e2.
  Proof.
    intros e1; induction e1 as [tag ns text tail a l next line IH] using elem_ind'; intros r e2 H I; inv H. unfold within in I; simpl in I.
    rewrite I in *. f_equal; auto.
    match goal with F : Forall2 _ l l' |- _ => clear -IH F; induction F as [|x y l l' H F IHF] end; auto. inv IH. f_equal; eauto.
  Qed.

  Lemma d_refl : forall e r, D r e e.
  Proof.
    intros e; induction e as [tag ns text tail a l next line IH] using elem_ind'; intros r. constructor; auto.
    generalize (r || tag_raw W tag); intros q. induction IH; constructor; auto.
  Qed.

  Variable ev : env.
  Hypothesis Hattrs : env_attrs A W ev.
  Hypothesis Hseen : attrs_unseen A W ev.
  Hypothesis Hforbid : forbids_nothing ev.

  (** the two elements are related and have the tag [t]; the lines noted are the same *)
  Definition sr (r : bool) (t : xtag) (s1 s2 : st) : Prop :=
    D r (st_el s1) (st_el s2) /\ e_tag (st_el s1) = t /\ st_sm s1 = st_sm s2.

  Definition sm (B : Type) (r : bool) (t : xtag) (p1 p2 : rres B) : Prop := fst p1 = fst p2 /\ sr r t (snd p1) (snd p2).

  (** the reader does the same on both elements, if they have the tag [t] *)
  Definition rs (t : xtag) (rd : reader) : Prop :=
    forall r eas loc s1 s2, sr r t s1 s2 -> sm r t (rd eas loc s1) (rd eas loc s2).

  Lemma sm_ok : forall B r t (o : out B) s1 s2, sr r t s1 s2 -> sm r t (o, s1) (o, s2).
  Proof. intros; split; simpl; auto. Qed.

  Lemma sr_set : forall r t e1 e2 s1 s2, D r e1 e2 -> e_tag e1 = t -> st_sm s1 = st_sm s2 -> sr r t (set_el e1 s1) (set_el e2 s2).
  Proof. intros; repeat split; auto. Qed.

  Lemma sr_st : forall r t e1 e2 m1 m2, D r e1 e2 -> e_tag e1 = t -> m1 = m2 -> sr r t (St e1 m1) (St e2 m2).
  Proof. intros; repeat split; auto. Qed.

  Lemma sr_note : forall r t loc s1 s2, sr r t s1 s2 -> sr r t (note_line loc s1) (note_line loc s2).
  Proof.
    intros r t loc s1 s2 (H1 & H2 & H3); repeat split; simpl; auto. parts H1. rewrite H3, Hl; auto.
  Qed.

  Hint Resolve sr_note : core.

  Lemma on_child_sm : forall r t u i (f : st -> rres val) s1 s2, sr r t s1 s2 ->
    (forall c, nth_error (e_elems (st_el s1)) i = Some c -> e_tag c = u) ->
    (forall q c1 c2, sr q u c1 c2 -> sm q u (f c1) (f c2)) ->
    sm r t (on_child i f s1) (on_child i f s2).
  Proof.
    intros r t u i f s1 s2 (Sr & St0 & Sm) Hc H; unfold on_child. pose proof (d_child Sr i) as C.
    destruct (nth_error (e_elems (st_el s1)) i) as [c1|] eqn:N1, (nth_error (e_elems (st_el s2)) i) as [c2|]; try contradiction.
    - specialize (H (within r (st_el s1)) (St c1 (st_sm s1)) (St c2 (st_sm s2)) (conj C (conj (Hc c1 eq_refl) Sm))).
      destruct (f (St c1 _)) as [o1 t1], (f (St c2 _)) as [o2 t2]. destruct H as [H1 (H2 & H3 & H4)]; simpl in *. subst o2.
      apply sm_ok. apply sr_st; auto. apply d_put; auto.
    - apply sm_ok. repeat split; auto.
  Qed.

  Lemma search_keeps : forall m e tag behind step, e_tag (snd (search m e tag behind step)) = e_tag e.
  Proof. intros m e tag behind step. destruct (search m e tag behind step) as [o e'] eqn:S. simpl. eapply search_tag; eauto. Qed.

  Lemma with_found_sm : forall r t tag m (f : st -> rres val) s1 s2, sr r t s1 s2 ->
    (forall q c1 c2, sr q (TName tag) c1 c2 -> sm q (TName tag) (f c1) (f c2)) ->
    sm r t (with_found (pop_element (st_el s1) tag m) f s1) (with_found (pop_element (st_el s2) tag m) f s2).
  Proof.
    intros r t tag m f s1 s2 (Sr & St0 & Sm) H. unfold pop_element. destruct (d_search Sr m tag false true) as [R Es].
    pose proof (search_keeps m (st_el s1) tag false true) as K. pose proof (@search_hit m (st_el s1) tag false true) as Hit.
    destruct (search m (st_el s1) tag false true) as [r1 e1], (search m (st_el s2) tag false true) as [r2 e2]. simpl in *. subst r2.
    destruct r1 as [|i|]; simpl.
    - apply sm_ok. apply sr_set; auto. congruence.
    - apply on_child_sm with (u := TName tag); auto; [apply sr_set; auto; congruence|].
      intros c N. simpl in N. destruct (Hit i e1 eq_refl) as (c' & N' & E). congruence.
    - apply sm_ok. apply sr_set; auto. congruence.
  Qed.

  Lemma pop_keeps : forall k e, e_tag (snd (pop_attrib k e)) = e_tag e.
  Proof. intros k e; unfold pop_attrib. destruct (e_attrib e) as [d|]; auto. destruct (dget k d); auto. Qed.

  Lemma nill_keeps : forall e, e_tag (snd (is_element_nill e)) = e_tag e.
  Proof. intros e; unfold is_element_nill. pose proof (pop_keeps xsi_nil e) as P. destruct (pop_attrib xsi_nil e); auto. Qed.

  Lemma nill_d : forall r e1 e2, D r e1 e2 -> may_ask (e_tag e1) xsi_nil -> fst (is_element_nill e1) = fst (is_element_nill e2) /\
    D r (snd (is_element_nill e1)) (snd (is_element_nill e2)).
  Proof.
    intros r e1 e2 H M. destruct (d_pop H M) as [P1 P2]. unfold is_element_nill.
    destruct (pop_attrib xsi_nil e1) as [v1 f1], (pop_attrib xsi_nil e2) as [v2 f2]. simpl in *. subst v2. auto.
  Qed.

  Lemma read_text_sm : forall t c n, (c = false -> n = true -> may_ask t xsi_nil) -> rs t (read_text c n).
  Proof.
    intros t c n Ht r eas loc s1 s2 (Sr & St0 & Sm); unfold read_text. destruct c; [apply sm_ok; repeat split; auto|].
    assert (X : forall e1 e2, D r e1 e2 -> e_tag e1 = t -> sm r t (let (t, e2) := pop_text e1 in (Ok (text_or_default eas t), set_el e2 s1))
                                          (let (t, e2) := pop_text e2 in (Ok (text_or_default eas t), set_el e2 s2))).
    { intros e1 e2 He Ht'. unfold pop_text. pose proof (d_text None He) as Et. parts He. rewrite Hx.
      apply sm_ok. apply sr_set; auto. }
    destruct n; simpl; [|apply X; auto].
    destruct (@nill_d r (st_el s1) (st_el s2) Sr ltac:(rewrite St0; auto)) as [N En]. pose proof (nill_keeps (st_el s1)) as K.
    destruct (is_element_nill (st_el s1)) as [b1 e1], (is_element_nill (st_el s2)) as [b2 e2].
    simpl in *. subst b2. destruct b1; [apply sm_ok; apply sr_set; auto; congruence|apply X; auto; congruence].
  Qed.

  Lemma read_attr_sm : forall t k c, (c = false -> may_ask t k) -> rs t (read_attr k c).
  Proof.
    intros t k c M r eas loc s1 s2 (Sr & St0 & Sm); unfold read_attr. destruct c; [apply sm_ok; repeat split; auto|].
    destruct (@d_pop r (st_el s1) (st_el s2) k Sr ltac:(rewrite St0; auto)) as [P Ep]. pose proof (pop_keeps k (st_el s1)) as K.
    destruct (pop_attrib k (st_el s1)) as [v1 e1], (pop_attrib k (st_el s2)) as [v2 e2].
    simpl in *. subst v2. apply sm_ok. apply sr_set; auto. congruence.
  Qed.

  Lemma read_attrs_sm : forall t a, (as_computed a = false -> forall k, may_ask t k) -> rs t (read_attrs a).
  Proof.
    intros t a M r eas loc s1 s2 (Sr & St0 & Sm); unfold read_attrs. destruct (as_computed a); [apply sm_ok; repeat split; auto|].
    destruct (@d_pop_all r (st_el s1) (st_el s2) Sr ltac:(rewrite St0; auto)) as [P Ep].
    unfold pop_attributes in *. simpl in P, Ep. rewrite <- P.
    destruct (e_attrib (st_el s1)) as [d1|]; apply sm_ok; apply sr_set; auto.
  Qed.

  Lemma read_items_sm : forall t rd, rs t rd -> forall k r title hide eas loc idx res errs s1 s2, sr r t s1 s2 ->
    sm r t (read_items k rd title hide eas loc idx res errs s1) (read_items k rd title hide eas loc idx res errs s2).
  Proof.
    intros t rd Hr k r; induction k as [|k IH]; intros title hide eas loc idx res errs s1 s2 Sr; cbn [read_items].
    - apply sm_ok; auto.
    - specialize (Hr r eas (loc ++ [LIdx idx]) s1 s2 Sr).
      destruct (rd eas (loc ++ [LIdx idx]) s1) as [o t1], (rd eas (loc ++ [LIdx idx]) s2) as [o2 t2].
      destruct Hr as [O Es]; simpl in *. subst o2.
      destruct o as [v|x|]; [destruct v; auto; destruct errs; apply sm_ok; auto|destruct x; auto; apply sm_ok; auto|apply sm_ok; auto].
  Qed.

  Lemma read_tuple_sm : forall t rds, Forall (rs t) rds -> forall r title hide eas loc idx res errs s1 s2, sr r t s1 s2 ->
    sm r t (read_tuple rds title hide eas loc idx res errs s1) (read_tuple rds title hide eas loc idx res errs s2).
  Proof.
    intros t rds H r; induction H as [|rd rds Hr H IH]; intros title hide eas loc idx res errs s1 s2 Sr; cbn [read_tuple].
    - destruct errs; apply sm_ok; auto.
    - specialize (Hr r eas (loc ++ [LIdx idx]) s1 s2 Sr).
      destruct (rd eas (loc ++ [LIdx idx]) s1) as [o t1], (rd eas (loc ++ [LIdx idx]) s2) as [o2 t2].
      destruct Hr as [O Es]; simpl in *. subst o2. destruct o as [v|x|]; auto; [destruct x; auto|]; apply sm_ok; auto.
  Qed.

  Lemma read_variants_sm : forall t rds, Forall (rs t) rds -> forall r title hide eas loc errs s1 s2, sr r t s1 s2 ->
    sm r t (read_variants rds title hide eas loc errs s1) (read_variants rds title hide eas loc errs s2).
  Proof.
    intros t rds H r; induction H as [|rd rds Hr H IH]; intros title hide eas loc errs s1 s2 (Sr & St0 & Sm); cbn [read_variants].
    - destruct errs; apply sm_ok; [repeat split; auto|]. apply sr_set; auto. apply d_step; auto.
    - rewrite !create_snapshot_id.
      specialize (Hr r eas loc (set_el (st_el s1) s1) (set_el (st_el s2) s2) (conj Sr (conj St0 Sm))).
      destruct (rd eas loc (set_el (st_el s1) s1)) as [o t1], (rd eas loc (set_el (st_el s2) s2)) as [o2 t2].
      destruct Hr as [O (Es & Et & Em)]; simpl in *. subst o2.
      assert (K : sr r t (St (st_el s1) (st_sm t1)) (St (st_el s2) (st_sm t2))) by (apply sr_st; auto).
      assert (K' : sr r t (St (apply_snapshot (st_el s1) (st_el t1)) (st_sm t1)) (St (apply_snapshot (st_el s2) (st_el t2)) (st_sm t2)))
        by (apply sr_st; auto; apply d_apply; auto).
      destruct o as [v|x|]; [destruct v; auto; apply sm_ok; auto|destruct x; auto; apply sm_ok; auto|apply sm_ok; auto].
  Qed.

  Lemma read_tagged_sm : forall t rp a vs, (forall tag p, In (tag, p) vs -> A (px_name p) a = true /\ rs t (rp p)) ->
    forall mode r eas loc s1 s2, sr r t s1 s2 ->
    sm r t (read_tagged rp a mode vs eas loc s1) (read_tagged rp a mode vs eas loc s2).
  Proof.
    intros t rp a vs H mode r eas loc; induction vs as [|[tag p] vs IH]; intros s1 s2 (Sr & St0 & Sm); cbn [read_tagged];
      [apply sm_ok; repeat split; auto|].
    assert (IH' : forall s1 s2, sr r t s1 s2 -> sm r t (read_tagged rp a mode vs eas loc s1) (read_tagged rp a mode vs eas loc s2))
      by (apply IH; intros; eapply H; right; eauto).
    destruct (H tag p (or_introl eq_refl)) as [Ask Hrp].
    unfold find_element. destruct (d_search Sr mode (px_name p) false false) as [R Es].
    pose proof (search_keeps mode (st_el s1) (px_name p) false false) as K. pose proof (@search_hit mode (st_el s1) (px_name p) false false) as Hit.
    destruct (search mode (st_el s1) (px_name p) false false) as [q1 e1], (search mode (st_el s2) (px_name p) false false) as [q2 e2].
    simpl in *. subst q2. destruct q1 as [|i|].
    - apply IH'. apply sr_set; auto. congruence.
    - pose proof (d_child Es i) as C. destruct (Hit i e1 eq_refl) as (c & Nc & Tc). rewrite Nc in *.
      destruct (nth_error (e_elems e2) i) as [c2|]; try contradiction.
      rewrite <- (@d_attr _ c c2 a C) by (rewrite Tc; intros s E; injection E as <-; auto).
      pose proof (d_inv C) as (_ & _ & _ & _ & _ & _ & _ & _ & L).
      destruct (match get_attrib a c with Some t => String.eqb t tag | None => false end).
      + apply Hrp. apply sr_st; auto; congruence.
      + apply IH'. apply sr_set; auto. congruence.
    - apply sm_ok. apply sr_set; auto. congruence.
  Qed.

  Lemma on_path_sm : forall u (f : st -> rres val), (forall q c1 c2, sr q u c1 c2 -> sm q u (f c1) (f c2)) ->
    forall path r t s1 s2, sr r t s1 s2 -> (forall d, at_path path (st_el s1) = Some d -> e_tag d = u) ->
    sm r t (on_path path f s1) (on_path path f s2).
  Proof.
    intros u f H path; induction path as [|i path IH]; intros r t s1 s2 (Sr & St0 & Sm) P; cbn [on_path].
    - simpl in P. specialize (P _ eq_refl). rewrite St0 in P. subst u. apply H. repeat split; auto.
    - unfold on_child. pose proof (d_child Sr i) as C. simpl in P.
      destruct (nth_error (e_elems (st_el s1)) i) as [c1|] eqn:N1, (nth_error (e_elems (st_el s2)) i) as [c2|]; try contradiction.
      + specialize (IH (within r (st_el s1)) (e_tag c1) (St c1 (st_sm s1)) (St c2 (st_sm s2)) (conj C (conj eq_refl Sm)) P).
        destruct (on_path path f (St c1 _)) as [o1 t1], (on_path path f (St c2 _)) as [o2 t2].
        destruct IH as [H1 (H2 & H3 & H4)]; simpl in *. subst o2. apply sm_ok. apply sr_st; auto. apply d_put; auto.
      + apply sm_ok. repeat split; auto.
  Qed.

  Lemma find_sub_d : forall path m r e1 e2, D r e1 e2 -> fst (find_sub_element path m e1) = fst (find_sub_element path m e2) /\
    D r (snd (find_sub_element path m e1)) (snd (find_sub_element path m e2)) /\ e_tag (snd (find_sub_element path m e1)) = e_tag e1.
  Proof.
    intros path m; induction path as [|tag rest IH]; intros r e1 e2 H; cbn [find_sub_element]; auto.
    unfold find_element. destruct (d_search H m tag true true) as [R Es]. pose proof (search_keeps m e1 tag true true) as K.
    destruct (search m e1 tag true true) as [q1 t1], (search m e2 tag true true) as [q2 t2]. simpl in *. subst q2.
    destruct q1 as [|i|]; auto. destruct rest as [|x rest']; auto.
    pose proof (d_child Es i) as C. destruct (nth_error (e_elems t1) i) as [c1|], (nth_error (e_elems t2) i) as [c2|]; try contradiction; auto.
    destruct (IH _ c1 c2 C) as (F & Ef & _). destruct (find_sub_element (x :: rest') m c1) as [o1 d1], (find_sub_element (x :: rest') m c2) as [o2 d2].
    simpl in *. subst o2. split; auto. split; auto. apply d_put; auto.
  Qed.

  Lemma read_wrap_sm : forall t path mode c rd, rs (TName (last path "")) rd -> rs t (read_wrap path mode c rd).
  Proof.
    intros t path mode c rd H r eas loc s1 s2 (Sr & St0 & Sm); unfold read_wrap. destruct c; [apply sm_ok; repeat split; auto|].
    destruct (find_sub_d path mode Sr) as (F & Ef & K). pose proof (@find_sub_end path mode (st_el s1)) as Hit.
    destruct (find_sub_element path mode (st_el s1)) as [o1 e1], (find_sub_element path mode (st_el s2)) as [o2 e2]. simpl in *. subst o2.
    assert (Q : sr r t (set_el e1 s1) (set_el e2 s2)) by (apply sr_set; auto; congruence).
    destruct o1 as [idxs|]; [|apply sm_ok; auto].
    destruct (negb (Nat.eqb (length idxs) 0) && Nat.eqb (length idxs) (length path)) eqn:L; [|apply sm_ok; auto].
    apply andb_prop in L. destruct L as [L1 L2]. apply Nat.eqb_eq in L2.
    assert (path <> []) by (intros ->; simpl in L2; rewrite L2 in L1; discriminate).
    apply on_path_sm with (u := TName (last path "")); auto.
    intros d P. eapply Hit; eauto.
  Qed.

  Lemma read_raw_sm : forall t name mode c, W name = true -> rs t (read_raw (en_backend ev) name mode c).
  Proof.
    intros t name mode c Hw r eas loc s1 s2 Sr; unfold read_raw. destruct c; [apply sm_ok; auto|].
    apply with_found_sm; auto. intros q c1 c2 (C & Ct & Cm).
    assert (I : within q (st_el c1) = true) by (unfold within; rewrite Ct; simpl; rewrite Hw; apply orb_true_r).
    rewrite <- (d_raw C I), <- Cm.
    assert (K : e_tag (snd (extract (st_el c1))) = TName name) by exact Ct.
    destruct (extract (st_el c1)) as [f1 d1]. apply sm_ok. apply sr_st; auto. apply d_refl.
  Qed.

  Lemma validate_sm : forall cls m, en_model ev cls = Some m -> forall i r t s1 s2, sr r t s1 s2 ->
    validate_result m i s1 = validate_result m i s2.
  Proof.
    intros cls m Em i r t s1 s2 (Sr & St0 & Sm); unfold validate_result. rewrite (Hforbid cls Em), Sm; auto.
  Qed.

  (** the field may be read from an element with the tag [t] *)
  Definition suits (t : xtag) (s : ser) : Prop := attrs_in A W ev s /\ (forall k, own_attr k s -> may_ask t k).

  Lemma read_fields_sm : forall n t cls m, en_model ev cls = Some m ->
    (forall s, suits t s -> rs t (read n ev s)) ->
    forall fs, Forall (fun nf => suits t (snd nf)) fs -> forall r eas res errs s1 s2, sr r t s1 s2 ->
    sm r t (read_fields (read n ev) m fs eas res errs s1) (read_fields (read n ev) m fs eas res errs s2).
  Proof.
    intros n t cls m Em Hr fs Hf r eas; induction Hf as [|[name s] fs Hs Hf IH]; intros res errs s1 s2 Sr; cbn [read_fields].
    - apply sm_ok; auto.
    - assert (X : sm r t (match md_cval m name with
                       | Some custom => run_custom custom (note_line [LKey name] s1)
                       | None => read n ev s eas [LKey name] (note_line [LKey name] s1) end)
                      (match md_cval m name with
                       | Some custom => run_custom custom (note_line [LKey name] s2)
                       | None => read n ev s eas [LKey name] (note_line [LKey name] s2) end)).
      { clear IH. destruct (md_cval m name) as [f|] eqn:Cv.
        - apply (sr_note [LKey name]) in Sr. destruct Sr as (Sr & St0 & Sm). destruct (Hseen cls name Em Cv Sr) as (C1 & C2 & C3).
          unfold run_custom. destruct (f (st_el (note_line [LKey name] s1))) as [o1 e1], (f (st_el (note_line [LKey name] s2))) as [o2 e2].
          cbn [fst snd] in *. subst o2. apply sm_ok. apply sr_set; auto. congruence.
        - apply Hr; auto. }
      destruct (match md_cval m name with Some _ => run_custom _ (note_line _ s1) | None => _ end) as [o1 t1].
      destruct (match md_cval m name with Some _ => run_custom _ (note_line _ s2) | None => _ end) as [o2 t2].
      destruct X as [O Es]; simpl in *. subst o2.
      destruct o1 as [v|x|]; [destruct v; auto|destruct x; auto; apply sm_ok; auto|apply sm_ok; auto].
  Qed.

  Lemma read_model_sm : forall n t cls m, en_model ev cls = Some m -> (forall k, takes_attr m k -> may_ask t k) ->
    (forall s, suits t s -> rs t (read n ev s)) -> rs t (read_model (read n ev) m).
  Proof.
    intros n t cls m Em Ht Hr r eas loc s1 s2 Sr.
    assert (Hf : Forall (fun nf => suits t (snd nf)) (md_fields m)).
    { pose proof (Hattrs cls Em) as F. unfold takes_attr in Ht. rewrite Forall_forall in *. intros nf Hin. split; auto.
      intros k O. apply Ht. apply Exists_exists. eauto. }
    unfold read_model. destruct (md_root m) eqn:R.
    - unfold read_root_model. destruct (md_fields m) as [|[nm s] fs]; [apply sm_ok; auto|].
      inv Hf. specialize (Hr s ltac:(auto) r eas loc s1 s2 Sr). destruct (read n ev s eas loc s1) as [o1 t1], (read n ev s eas loc s2) as [o2 t2].
      destruct Hr as [O Es]; simpl in *. subst o2.
      destruct o1 as [v|x|]; [|destruct x; apply sm_ok; auto|apply sm_ok; auto].
      rewrite (@validate_sm cls m Em _ r t t1 t2 Es). apply sm_ok; auto.
    - unfold read_plain_model.
      pose proof (@read_fields_sm n t cls m Em Hr _ Hf r eas [] [] s1 s2 Sr) as F.
      destruct (read_fields (read n ev) m (md_fields m) eas [] [] s1) as [o1 t1].
      destruct (read_fields (read n ev) m (md_fields m) eas [] [] s2) as [o2 t2].
      destruct F as [O Es]; simpl in *. subst o2. destruct o1 as [[v x]|x|]; try (apply sm_ok; auto; fail).
      destruct x; [rewrite (@validate_sm cls m Em _ r t t1 t2 Es)|]; apply sm_ok; auto.
  Qed.

  Lemma read_proxy_sm : forall n, (forall t s, suits t s -> rs t (read n ev s)) ->
    forall t p, proxy_attrs A ev p -> rs t (read_proxy ev (read n ev) p).
  Proof.
    intros n Hr t p [Hnil Hp] r eas loc s1 s2 Sr; unfold read_proxy. destruct (en_model ev (px_model p)) as [m|] eqn:Em; [|apply sm_ok; auto].
    destruct (px_computed p); [apply sm_ok; auto|]. apply with_found_sm; auto. intros q c1 c2 C. apply (sr_note loc) in C.
    cbv zeta. set (d1 := note_line loc c1) in *. set (d2 := note_line loc c2) in *. clearbody d1 d2. destruct C as (C & Ct & Cm).
    destruct (@nill_d q (st_el d1) (st_el d2) C) as [N En]; [rewrite Ct; intros s E; injection E as <-; auto|].
    pose proof (nill_keeps (st_el d1)) as K.
    destruct (is_element_nill (st_el d1)) as [b1 e1], (is_element_nill (st_el d2)) as [b2 e2]. simpl in *. subst b2.
    assert (X : sr q (TName (px_name p)) (set_el e1 d1) (set_el e2 d2)) by (apply sr_set; auto; congruence).
    destruct b1; [apply sm_ok; apply X|]. eapply read_model_sm; [exact Em| | |apply X]; auto.
    intros k Tk s E. injection E as <-. eauto.
  Qed.

  Lemma Forall_map_self : forall X Y (R : Y -> Prop) (f : X -> Y) (P : X -> Prop) l, Forall P l -> (forall x, P x -> R (f x)) ->
    Forall R (map f l).
  Proof. intros X Y R f P l H Hf; induction H; simpl; constructor; auto. Qed.

  Lemma read_sm : forall n t s, suits t s -> rs t (read n ev s).
  Proof.
    intros n; induction n as [|n IH]; intros t s [Hs Ho] r eas loc s1 s2 Sr; [apply sm_ok; auto|]. cbn [read]. inv Hs; cbn [read_step].
    - apply read_text_sm; auto. intros -> ->. apply Ho. constructor; auto.
    - apply read_attr_sm; auto. intros ->. apply Ho. constructor.
    - unfold read_elem. destruct c; [apply sm_ok; auto|]. apply with_found_sm; auto.
      intros q c1 c2 C. apply read_text_sm; auto. intros _ N s E. injection E as <-. auto.
    - apply read_attrs_sm; auto. intros Q k. apply Ho. constructor; auto.
    - unfold read_map_elem. destruct (as_computed a) eqn:Ca; [apply sm_ok; auto|]. apply with_found_sm; auto.
      intros q c1 c2 C. apply read_attrs_sm; auto. intros _ k s E. injection E as <-. auto.
    - unfold read_homo. destruct c; [apply sm_ok; auto|]. apply read_items_sm; auto. apply IH. split; auto.
      intros k O. apply Ho. constructor; auto.
    - unfold read_hetero. destruct c; [apply sm_ok; auto|]. apply read_tuple_sm; auto.
      apply Forall_map_self with (P := suits t); auto. rewrite Forall_forall in *. intros x Hx. split; auto.
      intros k O. apply Ho. constructor. apply Exists_exists; eauto.
    - unfold read_union_prim. destruct c; [apply sm_ok; auto|]. apply IH; auto. split; auto. intros k O. apply Ho. constructor; auto.
    - unfold read_union_model. destruct c; [apply sm_ok; auto|]. apply read_variants_sm; auto.
      apply Forall_map_self with (P := proxy_attrs A ev); auto. intros p Hp. apply read_proxy_sm; auto.
    - destruct c; [apply sm_ok; auto|]. apply read_tagged_sm; auto. intros tag p Hin.
      match goal with H : Forall _ vs |- _ => rewrite Forall_forall in H; destruct (H (tag, p) Hin) as [H1 H2] end.
      split; auto. apply read_proxy_sm; auto.
    - apply read_wrap_sm; auto. apply IH. split; auto. intros k O s9 E. injection E as <-. auto.
    - apply read_raw_sm; auto.
    - apply read_proxy_sm; auto.
  Qed.

  Lemma attrs_from : forall n1 b r n2, same_but_attrs A W n1 n2 -> r = false -> D r (from_native b n1) (from_native b n2).
  Proof.
    intros n1 b; induction n1 as [tag ns text tail a cs line IH| |] using native_ind'; intros r n2 H ->; inv H; try apply d_refl; simpl.
    match goal with X : W tag = false |- _ => rename X into Hw end.
    constructor; simpl; rewrite ?Hw; try discriminate.
    - f_equal; auto.
    - match goal with F : Forall2 _ cs _ |- _ => clear -IH F; induction F as [|x y l l' H F IHF] end; simpl; auto.
      inv IH. assert (is_xml_comment x = is_xml_comment y) as <- by (inv H; auto).
      apply Forall2_app; auto. destruct (is_xml_comment x); auto.
  Qed.

  Lemma attrs_run : forall n cls m root1 root2 eas, en_model ev cls = Some m ->
    (forall k, takes_attr m k -> A (md_elem_name m) k = true) -> same_but_attrs A W root1 root2 ->
    from_xml_tree n ev cls root1 eas = from_xml_tree n ev cls root2 eas.
  Proof.
    intros n cls m root1 root2 eas Em Ht H; unfold from_xml_tree. rewrite Em.
    assert (Tg : native_tag root1 = native_tag root2) by (inv H; auto). rewrite <- Tg.
    destruct (tag_is (native_tag root1) (md_elem_name m)) eqn:Q; auto. apply tag_is_eq in Q.
    pose proof (attrs_from (en_backend ev) H eq_refl) as Hd.
    assert (Et : e_tag (from_native (en_backend ev) root1) = TName (md_elem_name m)) by (destruct root1; simpl in *; congruence).
    refine (proj1 (@read_model_sm n (TName (md_elem_name m)) cls m Em _ (@read_sm n _) false eas []
      (St (from_native (en_backend ev) root1) []) (St (from_native (en_backend ev) root2) []) (conj Hd (conj Et eq_refl)))).
    intros k Tk s E. injection E as <-. auto.
  Qed.
End Attrs.
