(** PfRename.v -- proofs for C87: reading. *)

From Verif Require Import Base Elem Native Errs Names Ser Write Read Api SpecSim SpecRename.

Local Ltac inv H := inversion H; subst; clear H.

Section Rename.
  Variable R : renaming.
  Hypothesis HR : one_to_one R.

  Local Notation ro := (renamed_out R).

  (** results with the same element; the source maps may differ *)
  Definition like (a b : rres val) : Prop := ro (fst a) (fst b) /\ st_el (snd a) = st_el (snd b).
  Definition rlike (r r' : reader) : Prop := forall eas loc loc' s s', st_el s = st_el s' -> like (r eas loc s) (r' eas loc' s').

  Lemma renamed_none : forall v w, renamed R v w -> is_none v = is_none w.
  Proof. intros v w H; inv H; reflexivity. Qed.

  Lemma ro_same : forall v, (forall c a s, v <> VModel c a s) -> (forall l, v <> VList l) -> ro (Ok v) (Ok v).
  Proof. intros; simpl; constructor; auto. Qed.

  Lemma ro_none : ro (Ok VNone) (Ok VNone).
  Proof. apply ro_same; discriminate. Qed.

  Lemma ro_raise : forall x, (forall e, x <> XValidation e) -> ro (Raise x) (Raise x).
  Proof. intros [] N; simpl; auto. exfalso; eapply N; eauto. Qed.

  Lemma st_eq : forall s s', st_el s = st_el s' -> forall z, st_el (St (st_el s) z) = st_el s'.
  Proof. auto. Qed.

  Lemma on_child_like : forall i (f f' : st -> rres val) s s', st_el s = st_el s' ->
    (forall c c', st_el c = st_el c' -> like (f c) (f' c')) -> like (on_child i f s) (on_child i f' s').
  Proof.
    intros i f f' s s' E H. unfold on_child. rewrite <- E. destruct (nth_error _ i) as [c|]; [|split; simpl; auto].
    destruct (H (St c (st_sm s)) (St c (st_sm s')) eq_refl) as [A B].
    destruct (f _) as [r t], (f' _) as [r' t']. simpl in *. split; simpl; auto. rewrite B. reflexivity.
  Qed.

  Lemma with_found_like : forall x (f f' : st -> rres val) s s', st_el s = st_el s' ->
    (forall c c', st_el c = st_el c' -> like (f c) (f' c')) -> like (with_found x f s) (with_found x f' s').
  Proof.
    intros [[|i|] e] f f' s s' E H; simpl; try (split; simpl; auto; constructor; discriminate).
    apply on_child_like; auto.
  Qed.

  Lemma text_val : forall eas o, ro (Ok (text_or_default eas o)) (Ok (text_or_default eas o)).
  Proof. intros eas o; unfold text_or_default. destruct (str_truthy o), o, eas; apply rn_same; discriminate. Qed.

  Lemma read_text_like : forall c n, rlike (read_text c n) (read_text c n).
  Proof.
    intros c n eas loc loc' s s' E. unfold read_text. destruct c; [split; simpl; auto; constructor; discriminate|]. rewrite <- E.
    destruct (if n then is_element_nill (st_el s) else (false, st_el s)) as [[] e1]; [split; simpl; auto; constructor; discriminate|].
    destruct (pop_text e1) as [t e2]. split; [apply text_val|reflexivity].
  Qed.

  Lemma read_attrs_like : forall a, rlike (read_attrs a) (read_attrs a).
  Proof.
    intros a eas loc loc' s s' E. unfold read_attrs. destruct (as_computed a); [split; simpl; auto; constructor; discriminate|]. rewrite <- E.
    destruct (pop_attributes (st_el s)) as [[d|] e]; split; simpl; auto; constructor; discriminate.
  Qed.

  Lemma errors_lines : forall title title' hide hide' (es es' : list (option locitem * verr)), title' = rn_cls R title ->
    Forall2 (fun a b => match fst a, fst b with Some i, Some j => renamed_item R i j | None, None => True | _, _ => False end /\
                        renamed_verr R (snd a) (snd b)) es es' ->
    renamed_verr R (into_validation_error title es hide) (into_validation_error title' es' hide').
  Proof.
    intros title title' hide hide' es es' T H. split; simpl; auto.
    induction H as [|[k e] [k' e'] es es' [Hk [_ He]] H IH]; simpl in *; auto.
    apply Forall2_app; auto. clear -Hk He. induction He as [|l l' ls ls' Hl He IHe]; simpl; constructor; auto.
    destruct Hl as (A & B & C). repeat split; simpl; auto. destruct k, k'; simpl; try contradiction; auto.
  Qed.

  Lemma no_errors : forall A B (P : A -> B -> Prop) es es', Forall2 P es es' -> (es = [] /\ es' = []) \/ (exists a l b l', es = a :: l /\ es' = b :: l').
  Proof. intros A B P es es' H; destruct H; [left; auto|right; eauto 6]. Qed.

  Definition idx_err (a b : option locitem * verr) : Prop :=
    match fst a, fst b with Some i, Some j => renamed_item R i j | None, None => True | _, _ => False end /\ renamed_verr R (snd a) (snd b).

  Lemma read_items_like : forall r r', rlike r r' -> forall k title title' hide hide' eas loc loc' idx res res' es es' s s',
    title' = rn_cls R title -> Forall2 (renamed R) res res' -> Forall2 idx_err es es' -> st_el s = st_el s' ->
    like (read_items k r title hide eas loc idx res es s) (read_items k r' title' hide' eas loc' idx res' es' s').
  Proof.
    intros r r' H. induction k as [|k IH]; intros title title' hide hide' eas loc loc' idx res res' es es' s s' T Hr He E; simpl; [split; simpl; auto|].
    destruct (H eas (loc ++ [LIdx idx]) (loc' ++ [LIdx idx]) s s' E) as [A B].
    destruct (r eas _ s) as [o t], (r' eas _ s') as [o' t']. cbn [fst snd] in A, B.
    destruct o as [v|x|], o' as [v'|x'|]; simpl in A; try contradiction; try (destruct x; contradiction).
    - assert (N := renamed_none A). destruct (is_none v) eqn:Nv.
      + destruct v; try discriminate. destruct v'; try discriminate.
        destruct (no_errors He) as [[-> ->]|(a & l & b & l' & -> & ->)].
        * split; simpl; auto. destruct (no_errors Hr) as [[-> ->]|(a & l & b & l' & -> & ->)]; constructor; auto; discriminate.
        * split; auto. apply errors_lines; auto.
      + assert (X : like (read_items k r title hide eas loc (S idx) (res ++ [v]) es t) (read_items k r' title' hide' eas loc' (S idx) (res' ++ [v']) es' t'))
          by (apply IH; auto; apply Forall2_app; auto).
        destruct v, v'; try discriminate; exact X.
    - destruct x, x'; try contradiction; try discriminate; try (split; simpl; auto; fail).
      apply IH; auto. apply Forall2_app; auto. constructor; auto. split; simpl; auto.
    - split; simpl; auto.
  Qed.

  Lemma all_none : forall l l', Forall2 (renamed R) l l' -> forallb is_none l = forallb is_none l'.
  Proof. intros l l' H; induction H; simpl; auto. rewrite (renamed_none H), IHForall2; auto. Qed.

  Lemma read_tuple_like : forall rs rs', Forall2 rlike rs rs' -> forall title title' hide hide' eas loc loc' idx res res' es es' s s',
    title' = rn_cls R title -> Forall2 (renamed R) res res' -> Forall2 idx_err es es' -> st_el s = st_el s' ->
    like (read_tuple rs title hide eas loc idx res es s) (read_tuple rs' title' hide' eas loc' idx res' es' s').
  Proof.
    intros rs rs' H. induction H as [|r r' rs rs' Hr0 H IH]; intros title title' hide hide' eas loc loc' idx res res' es es' s s' T Hr He E; simpl.
    - destruct (no_errors He) as [[-> ->]|(a & l & b & l' & -> & ->)].
      + split; simpl; auto. rewrite <- (all_none Hr). destruct (forallb is_none res); constructor; auto; discriminate.
      + split; auto. apply errors_lines; auto.
    - destruct (Hr0 eas (loc ++ [LIdx idx]) (loc' ++ [LIdx idx]) s s' E) as [A B].
      destruct (r eas _ s) as [o t], (r' eas _ s') as [o' t']. cbn [fst snd] in A, B.
      destruct o as [v|x|], o' as [v'|x'|]; simpl in A; try contradiction; try (destruct x; contradiction).
      + apply IH; auto. apply Forall2_app; auto.
      + destruct x, x'; try contradiction; try discriminate; try (split; simpl; auto; fail).
        apply IH; auto. apply Forall2_app; auto. constructor; auto. split; simpl; auto.
      + split; simpl; auto.
  Qed.

  (** dicts of errors by name *)
  Definition key_err (f : string -> string) (a b : string * verr) : Prop := fst b = f (fst a) /\ renamed_verr R (snd a) (snd b).

  Lemma dset_like : forall A (P : A -> A -> Prop) (f : string -> string), (forall a b, f a = f b -> a = b) -> forall d d' k x x',
    Forall2 (fun a b => fst b = f (fst a) /\ P (snd a) (snd b)) d d' -> P x x' ->
    Forall2 (fun a b => fst b = f (fst a) /\ P (snd a) (snd b)) (dset k x d) (dset (f k) x' d').
  Proof.
    intros A P f I d d' k x x' H Hx. induction H as [|[a y] [b y'] d d' [E Hy] H IH]; simpl in *; [constructor; auto|]. subst b.
    destruct (String.eqb_spec k a) as [->|N].
    - rewrite String.eqb_refl. constructor; auto.
    - destruct (String.eqb_spec (f k) (f a)) as [Q|_]; [apply I in Q; contradiction|]. constructor; auto.
  Qed.

  Lemma keyed_errors : forall f es es', (forall s, renamed_item R (LKey s) (LKey (f s))) -> Forall2 (key_err f) es es' ->
    Forall2 idx_err (map (fun kv => (Some (LKey (fst kv)), snd kv)) es) (map (fun kv => (Some (LKey (fst kv)), snd kv)) es').
  Proof.
    intros f es es' I H. induction H as [|[k e] [k' e'] es es' [E He] H IH]; simpl in *; constructor; auto.
    subst. split; cbn [fst snd]; auto. apply I.
  Qed.

  Lemma read_variants_like : forall rs rs', Forall2 rlike rs rs' -> forall title title' hide hide' eas loc loc' es es' s s',
    title' = rn_cls R title -> Forall2 (key_err (rn_cls R)) es es' -> st_el s = st_el s' ->
    like (read_variants rs title hide eas loc es s) (read_variants rs' title' hide' eas loc' es' s').
  Proof.
    intros rs rs' H. induction H as [|r r' rs rs' Hr0 H IH]; intros title title' hide hide' eas loc loc' es es' s s' T He E; simpl.
    - pose proof (@keyed_errors (rn_cls R) es es' ltac:(simpl; auto) He) as Q.
      destruct (no_errors He) as [[-> ->]|(a & l & b & l' & -> & ->)].
      + split; simpl; auto. constructor; discriminate.
      + split; [apply errors_lines; auto|]. simpl. rewrite E. reflexivity.
    - destruct (Hr0 eas loc loc' (set_el (create_snapshot (st_el s)) s) (set_el (create_snapshot (st_el s')) s')) as [A B]; [simpl; rewrite E; auto|].
      destruct (r eas _ _) as [o t], (r' eas _ _) as [o' t']. cbn [fst snd] in A, B.
      destruct o as [v|x|], o' as [v'|x'|]; simpl in A; try contradiction; try (destruct x; contradiction).
      + assert (N := renamed_none A). destruct (is_none v) eqn:Nv.
        * destruct v; try discriminate. destruct v'; try discriminate. apply IH; auto.
        * assert (X : like (Ok v, St (apply_snapshot (st_el s) (st_el t)) (st_sm t)) (Ok v', St (apply_snapshot (st_el s') (st_el t')) (st_sm t')))
            by (split; auto; simpl; rewrite E, B; reflexivity).
          destruct v, v'; try discriminate; exact X.
      + destruct x, x'; try contradiction; try discriminate; try (split; simpl; auto; fail).
        apply IH; auto. destruct A as [A1 A2]. rewrite A1. apply dset_like; auto; [apply HR|split; auto].
      + split; simpl; auto.
  Qed.

  Lemma read_tagged_like : forall rp rp', (forall p q, renamed_proxy R p q -> rlike (rp p) (rp' q)) -> forall attr mode vs vs',
    forall (Q : string * proxy -> string * proxy -> Prop),
    Forall2 (fun a b : string * proxy => fst a = fst b /\ renamed_proxy R (snd a) (snd b) /\ Q a b) vs vs' ->
    forall eas loc loc' s s', st_el s = st_el s' ->
    like (read_tagged rp attr mode vs eas loc s) (read_tagged rp' attr mode vs' eas loc' s').
  Proof.
    intros rp rp' Hp attr mode vs vs' Q H. induction H as [|[t p] [t' q] vs vs' (Et & Hq & _) H IH]; intros eas loc loc' s s' E; cbn [read_tagged].
    - split; simpl; auto. constructor; discriminate.
    - simpl in Et, Hq. subst t'. assert (En : px_name q = px_name p) by (destruct Hq as (_ & X & _); auto). rewrite En, <- E.
      destruct (find_element (st_el s) (px_name p) mode false false) as [[|i|] e]; [apply IH; auto| |split; simpl; auto].
      destruct (nth_error (e_elems e) i) as [c|]; [|split; simpl; auto].
      destruct (match get_attrib attr c with Some t0 => (t0 =? t)%string | None => false end); [apply Hp; auto|apply IH; auto].
  Qed.

  Lemma on_path_like : forall path (f f' : st -> rres val), (forall c c', st_el c = st_el c' -> like (f c) (f' c')) ->
    forall s s', st_el s = st_el s' -> like (on_path path f s) (on_path path f' s').
  Proof. induction path as [|i path IH]; intros f f' H s s' E; simpl; auto. apply on_child_like; auto. Qed.

  Lemma read_wrap_like : forall path mode c r r', rlike r r' -> rlike (read_wrap path mode c r) (read_wrap path mode c r').
  Proof.
    intros path mode c r r' H eas loc loc' s s' E. unfold read_wrap. destruct c; [split; simpl; auto; constructor; discriminate|]. rewrite <- E.
    destruct (find_sub_element path mode (st_el s)) as [[idxs|] e]; [|split; simpl; auto].
    destruct (negb _ && _); [|split; simpl; auto; constructor; discriminate].
    apply on_path_like; auto.
  Qed.

  Lemma read_raw_like : forall b name mode c, rlike (read_raw b name mode c) (read_raw b name mode c).
  Proof.
    intros b name mode c eas loc loc' s s' E. unfold read_raw. destruct c; [split; simpl; auto; constructor; discriminate|]. rewrite <- E.
    apply with_found_like; auto. intros c c' Ec. rewrite <- Ec. destruct (extract (st_el c)) as [x e].
    split; [|reflexivity]. simpl. destruct (to_native b x); simpl; auto. constructor; discriminate.
  Qed.

  Section Envs.
    Variables ev ev' : env.
    Hypothesis HE : renamed_env R ev ev'.

    (** the data collected so far *)
    Definition datum (G : string -> string) (a b : string * val) : Prop := fst b = G (fst a) /\ renamed R (snd a) (snd b).

    Lemma read_fields_like : forall r r' c m m' G, renamed_class R c m m' -> (forall s s', renamed_ser R s s' -> rlike (r s) (r' s')) ->
      (forall a b : string, G a = G b -> a = b) ->
      forall fs fs', Forall2 (fun a b => fst b = rn_field R c (fst a) /\ renamed_ser R (snd a) (snd b)) fs fs' ->
      (forall name, In name (map fst fs) -> data_key m' (rn_field R c name) = G (data_key m name)) ->
      forall eas d d' es es' s s', Forall2 (datum G) d d' -> Forall2 (key_err (rn_field R c)) es es' -> st_el s = st_el s' ->
      match read_fields r m fs eas d es s, read_fields r' m' fs' eas d' es' s' with
      | (Ok (x, y), t), (Ok (x', y'), t') => Forall2 (datum G) x x' /\ Forall2 (key_err (rn_field R c)) y y' /\ st_el t = st_el t'
      | (Raise x, t), (Raise x', t') => x = x' /\ (forall e, x <> XValidation e) /\ st_el t = st_el t'
      | (Fuel, t), (Fuel, t') => st_el t = st_el t'
      | _, _ => False
      end.
    Proof.
      intros r r' c m m' G Hc Hr IG fs fs' H. induction H as [|[n s0] [n' s0'] fs fs' [En Hs] H IH]; intros Hk eas d d' es es' s s' Hd He E; simpl; auto.
      simpl in En, Hs. subst n'.
      assert (Hk' : forall name, In name (map fst fs) -> data_key m' (rn_field R c name) = G (data_key m name)) by (intros; apply Hk; simpl; auto).
      specialize (IH Hk').
      assert (X : like (match md_cval m n with Some custom => run_custom custom (note_line [LKey n] s) | None => r s0 eas [LKey n] (note_line [LKey n] s) end)
                       (match md_cval m' (rn_field R c n) with Some custom => run_custom custom (note_line [LKey (rn_field R c n)] s')
                        | None => r' s0' eas [LKey (rn_field R c n)] (note_line [LKey (rn_field R c n)] s') end)).
      { pose proof (rc_cval Hc n) as C. destruct (md_cval m n) as [f|], (md_cval m' (rn_field R c n)) as [f'|]; try contradiction.
        - unfold run_custom; simpl. rewrite <- E. destruct (C (st_el s)) as [C1 C2]. destruct (f _), (f' _); simpl in *. split; simpl; auto.
        - apply Hr; auto. }
      destruct (match md_cval m n with Some _ => _ | None => _ end) as [o t].
      destruct (match md_cval m' (rn_field R c n) with Some _ => _ | None => _ end) as [o' t'].
      destruct X as [A B]. cbn [fst snd] in A, B.
      destruct o as [v|x|], o' as [v'|x'|]; simpl in A; try contradiction; try (destruct x; contradiction).
      - assert (N := renamed_none A). destruct (is_none v) eqn:Nv.
        + destruct v; try discriminate. destruct v'; try discriminate. apply IH; auto.
        + pose proof (Hk n (or_introl eq_refl)) as K1. unfold data_key in K1.
          pose proof (IH eas (dset (match dget n (md_valias m) with Some a => a | None => n end) v d)
            (dset (match dget (rn_field R c n) (md_valias m') with Some a => a | None => rn_field R c n end) v' d') es es' t t') as Y.
          rewrite K1 in Y. rewrite K1.
          assert (Z := Y (@dset_like _ (renamed R) G IG d d' _ v v' Hd A) He B).
          destruct v, v'; try discriminate; exact Z.
      - destruct x, x'; try contradiction; try discriminate A; try (simpl; split; [exact A|split; [discriminate|exact B]]).
        apply IH; auto. apply dset_like; auto. apply HR.
      - exact B.
    Qed.

    Lemma extra_like : forall m m' c e, renamed_class R c m m' ->
      match check_extra (md_name m) e (md_hide m), check_extra (md_name m') e (md_hide m') with
      | Some x, Some y => renamed_verr R x y
      | None, None => True
      | _, _ => False
      end.
    Proof.
      intros m m' c e Hc. unfold check_extra. destruct (get_unbound [] e) as [|u us] eqn:U; auto.
      split; simpl; [apply Hc|].
      assert (L : forall l, Forall2 (renamed_item R) l l) by (induction l as [|[] l IH]; constructor; simpl; auto).
      assert (M : forall x, same_msg x x) by (induction x; constructor; auto).
      constructor; [repeat split; auto|]. clear U. induction us; simpl; constructor; auto. repeat split; auto.
    Qed.

    Lemma lines_like : forall e e' sm sm' h h', renamed_verr R e e' ->
      renamed_verr R (set_validation_error_sourceline e sm h) (set_validation_error_sourceline e' sm' h').
    Proof.
      intros e e' sm sm' h h' [T H]. split; simpl; auto. induction H as [|l l' ls ls' (A & B & C) H IH]; simpl; constructor; auto.
      repeat split; simpl; auto. constructor; auto.
    Qed.

    Lemma validate_like : forall c m m' i i' s s', renamed_class R c m m' -> st_el s = st_el s' ->
      renamed_verdict R (md_validate m i) (md_validate m' i') -> ro (validate_result m i s) (validate_result m' i' s').
    Proof.
      intros c m m' i i' s s' Hc E V. unfold validate_result. rewrite (rc_forbid Hc), <- E.
      pose proof (extra_like (st_el s) Hc) as X.
      assert (Y : ro match md_validate m i with Valid v => Ok v | Invalid err => Raise (XValidation (set_validation_error_sourceline err (st_sm s) (md_hide m))) | Crashed what => Raise (XUser what) end
                     match md_validate m' i' with Valid v => Ok v | Invalid err => Raise (XValidation (set_validation_error_sourceline err (st_sm s') (md_hide m'))) | Crashed what => Raise (XUser what) end).
      { destruct (md_validate m i), (md_validate m' i'); simpl in V; try contradiction; simpl; auto; [apply lines_like; auto|congruence]. }
      destruct (md_forbid m); [|exact Y].
      destruct (check_extra _ _ (md_hide m)), (check_extra _ _ (md_hide m')); try contradiction; auto.
    Qed.

    Lemma read_model_like : forall c m m' r r', renamed_class R c m m' -> (forall s s', renamed_ser R s s' -> rlike (r s) (r' s')) ->
      rlike (read_model r m) (read_model r' m').
    Proof.
      intros c m m' r r' Hc Hr eas loc loc' s s' E. unfold read_model. rewrite (rc_root Hc).
      destruct (rc_validate Hc) as (G & IG & Hk & V1 & V2). destruct (md_root m) eqn:Rt.
      - unfold read_root_model. pose proof (rc_fields Hc) as Hf. destruct Hf as [|[n s0] [n' s0'] fs fs' [En Hs] Hf]; [split; simpl; auto|].
        simpl in En, Hs. destruct (Hr _ _ Hs eas loc loc' s s' E) as [A B]. destruct (V2 eq_refl) as [V3 V4].
        destruct (r s0 eas loc s) as [o t], (r' s0' eas loc' s') as [o' t']. cbn [fst snd] in A, B.
        destruct o as [v|x|], o' as [v'|x'|]; simpl in A; try contradiction; try (destruct x; contradiction).
        + split; auto. simpl. rewrite <- (renamed_none A). destruct (is_none v); eapply validate_like; eauto.
        + destruct x, x'; try contradiction; try discriminate; try (split; simpl; auto; fail).
          split; auto. apply errors_lines; [apply Hc|]. constructor; auto. split; simpl; auto.
        + split; simpl; auto.
      - unfold read_plain_model. pose proof (@read_fields_like r r' c m m' G Hc Hr IG _ _ (rc_fields Hc) Hk eas [] [] [] [] s s'
          (Forall2_nil _) (Forall2_nil _) E) as X.
        destruct (read_fields r m _ eas [] [] s) as [[[x y]|x|] t], (read_fields r' m' _ eas [] [] s') as [[[x' y']|x'|] t']; try contradiction.
        + destruct X as (X & Y & Z). pose proof (@keyed_errors (rn_field R c) y y' ltac:(simpl; eauto) Y) as Q.
          destruct (no_errors Y) as [[-> ->]|(a & l & b & l' & -> & ->)].
          * split; auto. eapply validate_like; eauto.
          * split; auto. apply errors_lines; auto. apply Hc.
        + destruct X as (-> & N & Z). split; simpl; auto. destruct x'; auto. exfalso; eapply N; eauto.
        + split; simpl; auto.
    Qed.

    Lemma read_proxy_like : forall r r', (forall s s', renamed_ser R s s' -> rlike (r s) (r' s')) -> forall p q, renamed_proxy R p q ->
      rlike (read_proxy ev r p) (read_proxy ev' r' q).
    Proof.
      intros r r' Hr p q (P1 & P2 & P3 & P4 & P5 & P6) eas loc loc' s s' E. unfold read_proxy. rewrite P1, P2, P4, P5.
      destruct HE as [_ Hm]. specialize (Hm (px_model p)).
      destruct (en_model ev (px_model p)) as [m|], (en_model ev' (rn_cls R (px_model p))) as [m'|]; try contradiction; [|split; simpl; auto].
      destruct (px_computed p); [split; simpl; auto; constructor; discriminate|]. rewrite <- E.
      apply with_found_like; auto. intros c c' Ec. unfold note_line; cbn [st_el]. rewrite <- Ec.
      destruct (is_element_nill (st_el c)) as [[] e1]; [split; simpl; auto; constructor; discriminate|].
      eapply read_model_like; eauto.
    Qed.

    Lemma read_like : forall n s s', renamed_ser R s s' -> rlike (read n ev s) (read n ev' s').
    Proof.
      induction n as [|n IH]; intros s s' H; [intros ? ? ? ? ? E; split; simpl; auto|]. simpl.
      destruct H; simpl.
      - apply read_text_like.
      - intros eas loc loc' t t' E. unfold read_attr. destruct c; [split; simpl; auto; constructor; discriminate|]. rewrite <- E.
        destruct (pop_attrib name (st_el t)) as [o e]. split; simpl; auto. destruct o; constructor; discriminate.
      - intros eas loc loc' t t' E. unfold read_elem. destruct c; [split; simpl; auto; constructor; discriminate|]. rewrite <- E.
        apply with_found_like; auto. intros c c' Ec. apply read_text_like. exact Ec.
      - apply read_attrs_like.
      - intros eas loc loc' t t' E. unfold read_map_elem. destruct (as_computed a); [split; simpl; auto; constructor; discriminate|]. rewrite <- E.
        apply with_found_like; auto. intros c c' Ec. apply read_attrs_like. exact Ec.
      - intros eas loc loc' u u' E. unfold read_homo. destruct c; [split; simpl; auto; constructor; discriminate|]. apply read_items_like; auto.
      - intros eas loc loc' u u' E. unfold read_hetero. destruct c; [split; simpl; auto; constructor; discriminate|]. apply read_tuple_like; auto.
        induction H; simpl; constructor; auto.
      - intros eas loc loc' u u' E. unfold read_union_prim. destruct c; [split; simpl; auto; constructor; discriminate|]. apply IH; auto.
      - intros eas loc loc' u u' E. unfold read_union_model. destruct c; [split; simpl; auto; constructor; discriminate|]. apply read_variants_like; auto.
        induction H; simpl; constructor; auto. apply read_proxy_like; auto.
      - intros eas loc loc' u u' E. destruct c; [split; simpl; auto; constructor; discriminate|]. eapply (@read_tagged_like (read_proxy ev (read n ev)) (read_proxy ev' (read n ev'))) with (Q := fun a b => rn_field R (px_model (snd a)) disc = disc'); auto.
        intros; apply read_proxy_like; auto.
      - apply read_wrap_like; auto.
      - destruct HE as [-> _]. apply read_raw_like.
      - apply read_proxy_like; auto.
    Qed.

    Lemma from_xml_like : forall n cls root eas, ro (from_xml_tree n ev cls root eas) (from_xml_tree n ev' (rn_cls R cls) root eas).
    Proof.
      intros n cls root eas. unfold from_xml_tree. destruct HE as [Hb Hm]. specialize (Hm cls). rewrite Hb.
      destruct (en_model ev cls) as [m|], (en_model ev' (rn_cls R cls)) as [m'|]; try contradiction; simpl; auto.
      rewrite (rc_elem Hm). destruct (tag_is _ _); simpl; auto.
      eapply (@read_model_like cls m m' (read n ev) (read n ev') Hm); auto. apply read_like.
    Qed.
  End Envs.
End Rename.
