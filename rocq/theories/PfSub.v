(** PfSub.v -- reading does not depend on the place recorded for errors, nor on the names of the
    classes' own elements. *)

From Verif Require Import Base Elem Native Errs Names Ser Read Api SpecRead SpecSub.
From Verif Require Import PfElem PfField.

Local Ltac inv H := inversion H; subst; clear H.

Section Alike.
  Variables ev ev' : env.
  Hypothesis B : en_backend ev = en_backend ev'.

  (** the same class but for its own element name *)
  Definition renamed (m m' : mdef) : Prop := exists t, m' = tagged_class t m.

  Hypothesis M : forall c, match en_model ev c, en_model ev' c with
                           | Some m, Some m' => renamed m m' | None, None => True | _, _ => False end.

  Definition same_kind (o o' : out val) : Prop :=
    match o, o' with
    | Raise (XValidation a), Raise (XValidation b) => ve_title a = ve_title b
    | _, _ => o = o'
    end.

  Definition alike (p q : rres val) : Prop := same_kind (fst p) (fst q) /\ st_el (snd p) = st_el (snd q).
  Definition both (f f' : st -> rres val) : Prop := forall s s', st_el s = st_el s' -> alike (f s) (f' s').
  Definition rboth (r r' : reader) : Prop := forall eas loc loc', both (r eas loc) (r' eas loc').

  Lemma same_kind_refl : forall o, same_kind o o.
  Proof. intros [v|[]|]; simpl; auto. Qed.

  Lemma alike_out : forall o s s', st_el s = st_el s' -> alike (o, s) (o, s').
  Proof. intros; split; auto. apply same_kind_refl. Qed.

  Hint Resolve alike_out : core.

  Lemma on_child_both : forall i f f', both f f' -> both (on_child i f) (on_child i f').
  Proof.
    intros i f f' H s s' E. unfold on_child. rewrite <- E. destruct (nth_error (e_elems (st_el s)) i) as [c|]; auto.
    specialize (H (St c (st_sm s)) (St c (st_sm s')) eq_refl). destruct (f _) as [o s1], (f' _) as [o' s1']. destruct H as [H1 H2].
    split; auto. simpl in *. congruence.
  Qed.

  Lemma with_found_both : forall m tag f f', both f f' -> both (fun s => with_found (pop_element (st_el s) tag m) f s)
                                                              (fun s => with_found (pop_element (st_el s) tag m) f' s).
  Proof.
    intros m tag f f' H s s' E. rewrite <- E. destruct (pop_element (st_el s) tag m) as [[|i|] e']; simpl; auto.
    apply on_child_both; auto.
  Qed.

  Lemma text_both : forall c n, rboth (read_text c n) (read_text c n).
  Proof.
    intros c n eas loc loc' s s' E. unfold read_text. rewrite <- E. destruct c; auto.
    destruct (if n then _ else _) as [nil e1]. destruct nil; auto. destruct (pop_text e1) as [t e2]; auto.
  Qed.

  Lemma attrs_both : forall a, rboth (read_attrs a) (read_attrs a).
  Proof.
    intros a eas loc loc' s s' E. unfold read_attrs. rewrite <- E. destruct (as_computed a); auto.
    destruct (pop_attributes (st_el s)) as [[d|] e1]; auto.
  Qed.

  Lemma note_el : forall loc s, st_el (note_line loc s) = st_el s.
  Proof. auto. Qed.

  Lemma items_both : forall r r', rboth r r' -> forall k t h eas loc loc' i vs es es' s s', st_el s = st_el s' -> length es = length es' ->
    alike (read_items k r t h eas loc i vs es s) (read_items k r' t h eas loc' i vs es' s').
  Proof.
    intros r r' H k; induction k as [|k IH]; intros t h eas loc loc' i vs es es' s s' E X; cbn [read_items]; auto.
    specialize (H eas (loc ++ [LIdx i]) (loc' ++ [LIdx i]) s s' E).
    destruct (r eas (loc ++ [LIdx i]) s) as [o s1], (r' eas (loc' ++ [LIdx i]) s') as [o' s1']. destruct H as [H Q]; simpl in H, Q.
    destruct o as [v|x|].
    - simpl in H; subst o'. assert (Y : alike (read_items k r t h eas loc (S i) (vs ++ [v]) es s1) (read_items k r' t h eas loc' (S i) (vs ++ [v]) es' s1')) by (apply IH; auto).
      destruct v; auto. destruct es, es'; try discriminate; auto. split; simpl; auto.
    - destruct x; simpl in H; subst; auto. destruct o' as [|[]|]; try discriminate. apply IH; auto. rewrite !app_length; simpl; congruence.
    - simpl in H; subst; auto.
  Qed.

  Lemma tuple_both : forall rs rs', Forall2 rboth rs rs' -> forall t h eas loc loc' i vs es es' s s', st_el s = st_el s' -> length es = length es' ->
    alike (read_tuple rs t h eas loc i vs es s) (read_tuple rs' t h eas loc' i vs es' s').
  Proof.
    intros rs rs' F; induction F as [|r r' rs rs' H F IH]; intros t h eas loc loc' i vs es es' s s' E X; cbn [read_tuple].
    - destruct es, es'; try discriminate; auto. split; simpl; auto.
    - specialize (H eas (loc ++ [LIdx i]) (loc' ++ [LIdx i]) s s' E).
      destruct (r eas (loc ++ [LIdx i]) s) as [o s1], (r' eas (loc' ++ [LIdx i]) s') as [o' s1']. destruct H as [H Q]; simpl in H, Q.
      destruct o as [v|x|].
      + simpl in H; subst o'. apply IH; auto.
      + destruct x; simpl in H; subst; auto. destruct o' as [|[]|]; try discriminate. apply IH; auto. rewrite !app_length; simpl; congruence.
      + simpl in H; subst; auto.
  Qed.

  Lemma dset_keys : forall k (a b : verr) d d', map fst d = map fst d' -> map fst (dset k a d) = map fst (dset k b d').
  Proof.
    intros k a b d; induction d as [|[x y] d IH]; intros [|[x' y'] d'] H; simpl in *; try discriminate; auto.
    injection H as -> H. destruct (String.eqb k x'); simpl; f_equal; auto.
  Qed.

  Lemma variants_both : forall rs rs', Forall2 rboth rs rs' -> forall t h eas loc loc' es es' s s', st_el s = st_el s' -> map fst es = map fst es' ->
    alike (read_variants rs t h eas loc es s) (read_variants rs' t h eas loc' es' s').
  Proof.
    intros rs rs' F; induction F as [|r r' rs rs' H F IH]; intros t h eas loc loc' es es' s s' E X; cbn [read_variants].
    - destruct es, es'; try discriminate; auto. split; simpl; auto. congruence.
    - specialize (H eas loc loc' (set_el (create_snapshot (st_el s)) s) (set_el (create_snapshot (st_el s')) s') (f_equal create_snapshot E)).
      destruct (r eas loc _) as [o s1], (r' eas loc' _) as [o' s1']. destruct H as [H Q]; simpl in H, Q.
      destruct o as [v|x|].
      + simpl in H; subst o'.
        assert (Y : alike (Ok v, St (apply_snapshot (st_el s) (st_el s1)) (st_sm s1)) (Ok v, St (apply_snapshot (st_el s') (st_el s1')) (st_sm s1'))).
        { apply alike_out; simpl; congruence. }
        destruct v; auto.
      + destruct x; simpl in H; subst; auto. destruct o' as [|[]|]; try discriminate. rewrite H. apply IH; auto. apply dset_keys; auto.
      + simpl in H; subst; auto.
  Qed.

  Lemma tagged_both : forall rp rp', (forall p, rboth (rp p) (rp' p)) -> forall a m vs, rboth (read_tagged rp a m vs) (read_tagged rp' a m vs).
  Proof.
    intros rp rp' H a m vs eas loc loc'; induction vs as [|[t p] vs IH]; intros s s' E; cbn [read_tagged]; auto.
    rewrite <- E. destruct (find_element (st_el s) (px_name p) m false false) as [[|i|] e']; auto.
    destruct (nth_error (e_elems e') i) as [c|]; auto.
    destruct (match get_attrib a c with Some t0 => _ | None => _ end); [apply H; auto|apply IH; auto].
  Qed.

  Lemma on_path_both : forall path f f', both f f' -> both (on_path path f) (on_path path f').
  Proof. intros path f f' H; induction path as [|i path IH]; simpl; auto. apply on_child_both; auto. Qed.

  Lemma wrap_both : forall path m c r r', rboth r r' -> rboth (read_wrap path m c r) (read_wrap path m c r').
  Proof.
    intros path m c r r' H eas loc loc' s s' E. unfold read_wrap. rewrite <- E. destruct c; auto.
    destruct (find_sub_element path m (st_el s)) as [[idxs|] e']; auto. destruct (_ && _); auto.
    apply (@on_path_both idxs (fun c => r eas loc (note_line loc c)) (fun c => r' eas loc' (note_line loc' c))); auto.
    intros x x' Ex. apply H; auto.
  Qed.

  Lemma raw_both : forall b n m c, rboth (read_raw b n m c) (read_raw b n m c).
  Proof.
    intros b n m c eas loc loc' s s' E. unfold read_raw. destruct c; auto.
    apply (@with_found_both m n
      (fun c => let (fresh, c') := extract (st_el c) in
         (match to_native b fresh with Some n => Ok (VRaw n) | None => Raise XTypeError end, St c' (sset loc (e_line (st_el c)) (st_sm c))))
      (fun c => let (fresh, c') := extract (st_el c) in
         (match to_native b fresh with Some n => Ok (VRaw n) | None => Raise XTypeError end, St c' (sset loc' (e_line (st_el c)) (st_sm c))))); auto.
    intros x x' Ex. rewrite <- Ex. destruct (extract (st_el x)) as [fr c']. auto.
  Qed.

  Lemma validate_both : forall m i s s', st_el s = st_el s' -> same_kind (validate_result m i s) (validate_result m i s').
  Proof.
    intros m i s s' E. unfold validate_result. rewrite <- E. destruct (if md_forbid m then _ else _); simpl; auto.
    destruct (md_validate m i); simpl; auto.
  Qed.

  Lemma fields_both : forall r r', (forall s, rboth (r s) (r' s)) -> forall m m', md_cval m = md_cval m' -> md_valias m = md_valias m' ->
    forall fs eas res es es' s s',
    st_el s = st_el s' -> map fst es = map fst es' ->
    st_el (snd (read_fields r m fs eas res es s)) = st_el (snd (read_fields r' m' fs eas res es' s')) /\
    match fst (read_fields r m fs eas res es s), fst (read_fields r' m' fs eas res es' s') with
    | Ok (vs, xs), Ok (vs', xs') => vs = vs' /\ map fst xs = map fst xs'
    | Raise x, Raise x' => x = x'
    | Fuel, Fuel => True
    | _, _ => False
    end.
  Proof.
    intros r r' H m m' Ec Ea fs; induction fs as [|[name fser] fs IH]; intros eas res es es' s s' E X; cbn [read_fields]; [simpl; auto|].
    rewrite <- Ec, <- Ea.
    assert (Y : alike (match md_cval m name with Some custom => run_custom custom (note_line [LKey name] s) | None => r fser eas [LKey name] (note_line [LKey name] s) end)
                      (match md_cval m name with Some custom => run_custom custom (note_line [LKey name] s') | None => r' fser eas [LKey name] (note_line [LKey name] s') end)).
    { destruct (md_cval m name) as [f|]; [|apply H; auto]. unfold run_custom. rewrite !note_el, <- E. destruct (f (st_el s)) as [o e]. auto. }
    destruct (match md_cval m name with Some custom => run_custom custom (note_line [LKey name] s) | None => _ end) as [o s1].
    destruct (match md_cval m name with Some custom => run_custom custom (note_line [LKey name] s') | None => _ end) as [o' s1'].
    destruct Y as [Y Q]; simpl in Y, Q. destruct o as [v|x|].
    - simpl in Y; subst o'. destruct v; apply IH; auto.
    - destruct x; simpl in Y; subst; try (simpl; auto; fail). destruct o' as [|[]|]; try discriminate. apply IH; auto. apply dset_keys; auto.
    - simpl in Y; subst; simpl; auto.
  Qed.

  Lemma model_both : forall r r', (forall s, rboth (r s) (r' s)) -> forall m m', renamed m m' -> rboth (read_model r m) (read_model r' m').
  Proof.
    intros r r' H m m' [t ->] eas loc loc' s s' E. unfold read_model. cbn [tagged_class md_root]. destruct (md_root m).
    - unfold read_root_model. cbn [tagged_class md_fields]. destruct (md_fields m) as [|[nm rs] fs]; auto.
      specialize (H rs eas loc loc' s s' E). destruct (r rs eas loc s) as [o s1], (r' rs eas loc' s') as [o' s1']. destruct H as [H Q]; simpl in H, Q.
      destruct o as [v|x|].
      + simpl in H; subst o'. split; auto. simpl fst. apply (@validate_both m); auto.
      + destruct x; simpl in H; subst; auto. destruct o' as [|[]|]; try discriminate. split; simpl; auto.
      + simpl in H; subst; auto.
    - unfold read_plain_model. cbn [tagged_class md_fields].
      destruct (@fields_both r r' H m (tagged_class t m) eq_refl eq_refl (md_fields m) eas [] [] [] s s' E eq_refl) as [Q X].
      destruct (read_fields r m (md_fields m) eas [] [] s) as [o s1].
      destruct (read_fields r' (tagged_class t m) (md_fields m) eas [] [] s') as [o' s1']. simpl in Q, X.
      destruct o as [[vs xs]|x|], o' as [[vs' xs']|x'|]; try contradiction; auto.
      + destruct X as [<- X]. destruct xs, xs'; try discriminate; split; simpl; auto. apply (@validate_both m); auto.
      + subst; auto.
  Qed.

  Lemma proxy_both : forall r r', (forall s, rboth (r s) (r' s)) -> forall p, rboth (read_proxy ev r p) (read_proxy ev' r' p).
  Proof.
    intros r r' H p eas loc loc' s s' E. unfold read_proxy. specialize (M (px_model p)).
    destruct (en_model ev (px_model p)) as [m|], (en_model ev' (px_model p)) as [m'|]; try contradiction; auto.
    destruct (px_computed p); auto.
    apply (@with_found_both (px_mode p) (px_name p)
      (fun c => let c1 := note_line loc c in let (nil, e1) := is_element_nill (st_el c1) in
         if nil then (Ok VNone, set_el e1 c1) else read_model r m eas loc (set_el e1 c1))
      (fun c => let c1 := note_line loc' c in let (nil, e1) := is_element_nill (st_el c1) in
         if nil then (Ok VNone, set_el e1 c1) else read_model r' m' eas loc' (set_el e1 c1))); auto.
    intros x x' Ex. cbn zeta. rewrite !note_el, <- Ex. destruct (is_element_nill (st_el x)) as [nil e1]. destruct nil; auto.
    apply model_both; auto.
  Qed.

  Lemma F2_map : forall A (f g : A -> reader) l, (forall x, rboth (f x) (g x)) -> Forall2 rboth (map f l) (map g l).
  Proof. intros; induction l; simpl; constructor; auto. Qed.

  Lemma read_both : forall n s, rboth (read n ev s) (read n ev' s).
  Proof.
    intros n; induction n as [|n IH]; intros s eas loc loc' s1 s2 E; [simpl; auto|]. cbn [read]. destruct s; cbn [read_step].
    - apply text_both; auto.
    - unfold read_attr. destruct computed; auto. rewrite <- E. destruct (pop_attrib name (st_el s1)) as [o e]; auto.
    - unfold read_elem. destruct computed; auto.
      apply (@with_found_both mode name (fun c => read_text false nillable eas loc (note_line loc c)) (fun c => read_text false nillable eas loc' (note_line loc' c))); auto.
      intros x x' Ex. apply text_both; auto.
    - apply attrs_both; auto.
    - unfold read_map_elem. destruct (as_computed a); auto.
      apply (@with_found_both mode name (fun c => read_attrs a eas loc (note_line loc c)) (fun c => read_attrs a eas loc' (note_line loc' c))); auto.
      intros x x' Ex. apply attrs_both; auto.
    - unfold read_homo. destruct computed; auto. apply items_both; auto.
    - unfold read_hetero. destruct computed; auto. apply tuple_both; auto. apply F2_map; auto.
    - unfold read_union_prim. destruct computed; auto. apply IH; auto.
    - unfold read_union_model. destruct computed; auto. apply variants_both; auto. apply F2_map. intros p; apply proxy_both; auto.
    - destruct computed; auto. apply tagged_both; auto. intros p; apply proxy_both; auto.
    - apply wrap_both; auto.
    - rewrite <- B. apply raw_both; auto.
    - apply proxy_both; auto.
  Qed.
End Alike.
