(** PfNest2.v -- proofs for C82: reading. *)

From Verif Require Import Base Elem Native Errs Names Fields Ser Build Write Read Api SpecElem SpecSim SpecNest
  PfElem PfRead2 PfRound6 PfSim2 PfNest.

Local Ltac inv H := inversion H; subst; clear H.

(** agreement of two reads when both come to an end: the same element is left, the outcomes differ at
    most in line numbers; the source maps may differ *)
Inductive pag {A : Type} (R : A -> A -> Prop) : rres A -> rres A -> Prop :=
| pag_l : forall s y, pag R (Fuel, s) y
| pag_r : forall s x, pag R x (Fuel, s)
| pag_ok : forall a b s s', R a b -> st_el s = st_el s' -> pag R (Ok a, s) (Ok b, s')
| pag_err : forall e f s s', same_verr e f -> st_el s = st_el s' -> pag R (Raise (XValidation e), s) (Raise (XValidation f), s')
| pag_raise : forall x s s', (forall e, x <> XValidation e) -> st_el s = st_el s' -> pag R (Raise x, s) (Raise x, s').

Definition rag (r r' : reader) : Prop := forall eas loc s s', st_el s = st_el s' -> pag eq (r eas loc s) (r' eas loc s').
Definition cag (f f' : st -> rres val) : Prop := forall s s', st_el s = st_el s' -> pag eq (f s) (f' s').

Local Hint Constructors pag : core.

Local Ltac nover := match goal with X : forall e, XValidation _ <> XValidation e |- _ => destruct (X _ eq_refl) end.

Lemma child_ag : forall i f f', cag f f' -> cag (on_child i f) (on_child i f').
Proof.
  intros i f f' H s s' E. unfold on_child. rewrite <- E.
  destruct (nth_error (e_elems (st_el s)) i) as [c|]; [|constructor; auto; discriminate].
  pose proof (H (St c (st_sm s)) (St c (st_sm s')) eq_refl) as P.
  inv P; repeat match goal with X : _ = f _ |- _ => rewrite <- X | X : _ = f' _ |- _ => rewrite <- X end;
    try (constructor; simpl; congruence).
Qed.

Lemma found_ag : forall r f f', cag f f' -> cag (with_found r f) (with_found r f').
Proof.
  intros [g e] f f' H s s' E. unfold with_found. destruct g; try (constructor; simpl; auto; discriminate).
  apply child_ag; auto.
Qed.

Lemma onpath_ag : forall l f f', cag f f' -> cag (on_path l f) (on_path l f').
Proof.
  induction l as [|i l IH]; simpl; intros f f' H; auto. intros s s' E. apply child_ag; auto.
Qed.

Lemma note_el : forall loc s s', st_el s = st_el s' -> st_el (note_line loc s) = st_el (note_line loc s').
Proof. intros; simpl; auto. Qed.

Lemma text_ag : forall c ni, rag (read_text c ni) (read_text c ni).
Proof.
  intros c ni eas loc s s' E. unfold read_text. rewrite <- E. destruct c; [constructor; auto|].
  destruct (if ni then is_element_nill (st_el s) else (false, st_el s)) as [nil e1]. destruct nil; [constructor; auto|].
  destruct (pop_text e1). constructor; auto.
Qed.

Lemma rattr_ag : forall n c, rag (read_attr n c) (read_attr n c).
Proof.
  intros n c eas loc s s' E. unfold read_attr. rewrite <- E. destruct c; [constructor; auto|].
  destruct (pop_attrib n (st_el s)). constructor; auto.
Qed.

Lemma relem_ag : forall n m c ni, rag (read_elem n m c ni) (read_elem n m c ni).
Proof.
  intros n m c ni eas loc s s' E. unfold read_elem. destruct c; [constructor; auto|]. rewrite <- E.
  apply found_ag; auto. intros t t' F. apply text_ag. auto using note_el.
Qed.

Lemma rattrs_ag : forall a, rag (read_attrs a) (read_attrs a).
Proof.
  intros a eas loc s s' E. unfold read_attrs. destruct (as_computed a); [constructor; auto|]. rewrite <- E.
  destruct (pop_attributes (st_el s)) as [[d|] e]; constructor; auto.
Qed.

Lemma rmap_ag : forall n m a, rag (read_map_elem n m a) (read_map_elem n m a).
Proof.
  intros n m a eas loc s s' E. unfold read_map_elem. destruct (as_computed a); [constructor; auto|]. rewrite <- E.
  apply found_ag; auto. intros t t' F. apply rattrs_ag. auto using note_el.
Qed.

Lemma rraw_ag : forall b n m c, rag (read_raw b n m c) (read_raw b n m c).
Proof.
  intros b n m c eas loc s s' E. unfold read_raw. destruct c; [constructor; auto|]. rewrite <- E.
  apply found_ag; auto. intros t t' F. rewrite <- F. destruct (extract (st_el t)) as [fresh c'].
  destruct (to_native b fresh); constructor; auto; discriminate.
Qed.

Definition errs_ag (l l' : list (option locitem * verr)) : Prop :=
  Forall2 (fun a b : option locitem * verr => fst a = fst b /\ same_verr (snd a) (snd b)) l l'.

Lemma items_ag : forall r r', rag r r' -> forall k k' t h eas loc i res es es' s s', errs_ag es es' -> st_el s = st_el s' ->
  pag eq (read_items k r t h eas loc i res es s) (read_items k' r' t h eas loc i res es' s').
Proof.
  intros r r' H; induction k as [|k IH]; intros k' t h eas loc i res es es' s s' F E; [constructor|].
  destruct k' as [|k']; [constructor|]. cbn [read_items].
  pose proof (H eas (loc ++ [LIdx i]) s s' E) as P. inv P; try (constructor; fail).
  - destruct b; try (apply IH; auto). inv F; [constructor; auto|]. constructor; auto.
    apply same_verr_into. constructor; auto.
  - apply IH; auto. apply Forall2_app; auto.
  - destruct x; try (constructor; auto; fail). nover.
Qed.

Lemma tuple_ag : forall rs rs', Forall2 rag rs rs' -> forall t h eas loc i res es es' s s', errs_ag es es' -> st_el s = st_el s' ->
  pag eq (read_tuple rs t h eas loc i res es s) (read_tuple rs' t h eas loc i res es' s').
Proof.
  intros rs rs' HH; induction HH as [|r r' rs rs' H HH IH]; intros t h eas loc i res es es' s s' F E; cbn [read_tuple].
  - inv F; [constructor; auto|]. constructor; auto. apply same_verr_into. constructor; auto.
  - pose proof (H eas (loc ++ [LIdx i]) s s' E) as P. inv P; try (constructor; fail).
    + apply IH; auto.
    + apply IH; auto. apply Forall2_app; auto.
    + destruct x; try (constructor; auto; fail). nover.
Qed.

Lemma dset_ag : forall k e f (d d' : dict verr), same_verr e f ->
  Forall2 (fun a b : string * verr => fst a = fst b /\ same_verr (snd a) (snd b)) d d' ->
  Forall2 (fun a b : string * verr => fst a = fst b /\ same_verr (snd a) (snd b)) (dset k e d) (dset k f d').
Proof.
  intros k e f d d' He H; induction H as [|[a x] [b y] d d' [A B] H IH]; simpl in *; [constructor; auto|].
  subst b. destruct (String.eqb k a); constructor; auto.
Qed.

Lemma keyed_ag : forall (d d' : dict verr),
  Forall2 (fun a b : string * verr => fst a = fst b /\ same_verr (snd a) (snd b)) d d' ->
  errs_ag (map (fun kv => (Some (LKey (fst kv)), snd kv)) d) (map (fun kv => (Some (LKey (fst kv)), snd kv)) d').
Proof. intros d d' H; induction H as [|[a x] [b y] d d' [A B] H IH]; simpl in *; constructor; auto. simpl. subst; auto. Qed.

Lemma variants_ag : forall rs rs', Forall2 rag rs rs' -> forall t h eas loc es es' s s',
  Forall2 (fun a b : string * verr => fst a = fst b /\ same_verr (snd a) (snd b)) es es' -> st_el s = st_el s' ->
  pag eq (read_variants rs t h eas loc es s) (read_variants rs' t h eas loc es' s').
Proof.
  intros rs rs' HH; induction HH as [|r r' rs rs' H HH IH]; intros t h eas loc es es' s s' F E; cbn [read_variants].
  - pose proof (keyed_ag F) as K. inv F; [constructor; auto|]. constructor; [|simpl; congruence]. apply same_verr_into; auto.
  - rewrite <- E.
    pose proof (H eas loc (set_el (create_snapshot (st_el s)) s) (set_el (create_snapshot (st_el s)) s') eq_refl) as P.
    inv P; try (constructor; fail).
    + destruct b; try (constructor; simpl; congruence). apply IH; auto.
    + apply IH; auto. destruct H2 as (T & L & Hd). rewrite <- T. apply dset_ag; auto. split; auto.
    + destruct x; try (constructor; simpl; auto; fail). nover.
Qed.

Lemma rwrap_ag : forall p md c r r', rag r r' -> rag (read_wrap p md c r) (read_wrap p md c r').
Proof.
  intros p md c r r' H eas loc s s' E. unfold read_wrap. destruct c; [constructor; auto|]. rewrite <- E.
  destruct (find_sub_element p md (st_el s)) as [[l|] e']; [|constructor; auto; discriminate].
  destruct (negb (Nat.eqb (length l) 0) && Nat.eqb (length l) (length p)); [|constructor; auto].
  apply onpath_ag; auto. intros t t' F. apply H. auto using note_el.
Qed.

Lemma wrap_one : forall a md r eas loc s,
  read_wrap [a] md false r eas loc s =
  with_found (find_element (st_el s) a md true true) (fun c => r eas loc (note_line loc c)) s.
Proof.
  intros. unfold read_wrap. cbn [find_sub_element].
  destruct (find_element (st_el s) a md true true) as [[|i|] e']; reflexivity.
Qed.

Lemma wrap_cons : forall a rest md r eas loc s, rest <> [] ->
  read_wrap (a :: rest) md false r eas loc s =
  with_found (find_element (st_el s) a md true true) (read_wrap rest md false r eas loc) s.
Proof.
  intros a rest md r eas loc s N. unfold read_wrap at 1. cbn [find_sub_element].
  destruct (find_element (st_el s) a md true true) as [[|i|] e'] eqn:F; try reflexivity.
  destruct rest as [|b rest]; [congruence|].
  destruct (search_range _ _ _ _ _ F) as [c C]. rewrite C.
  assert (I : i < length (e_elems e')) by (apply nth_error_Some; congruence).
  cbn [with_found]. unfold on_child. cbn [set_el st_el]. rewrite C. unfold read_wrap. cbn [st_el st_sm].
  destruct (find_sub_element (b :: rest) md c) as [[l|] c'] eqn:G; [|reflexivity].
  cbn [length Nat.eqb negb andb].
  destruct (Nat.eqb (length l) (S (length rest))) eqn:L.
  - apply Nat.eqb_eq in L. rewrite L. cbn [Nat.eqb negb andb on_path]. unfold on_child. cbn [set_el st_el st_sm].
    rewrite put_nth by auto. unfold set_el. cbn [st_sm st_el].
    destruct (on_path l _ _) as [x t]. rewrite put_put. reflexivity.
  - rewrite andb_false_r. reflexivity.
Qed.

Lemma wrap_split : forall p q md c w r, p <> [] -> q <> [] -> rag w (read_wrap q md c r) ->
  rag (read_wrap p md c w) (read_wrap (p ++ q) md c r).
Proof.
  intros p q md c w r Np Nq H. destruct c; [intros eas loc s s' E; unfold read_wrap; constructor; auto|].
  revert Np. induction p as [|a p IH]; intros Np; [congruence|]. intros eas loc s s' E.
  destruct p as [|b p].
  - change ([a] ++ q) with (a :: q). rewrite wrap_one, (wrap_cons a) by exact Nq. rewrite <- E. apply found_ag; auto.
    intros t t' T. apply H; auto.
  - change ((a :: b :: p) ++ q) with (a :: ((b :: p) ++ q)). rewrite wrap_cons by discriminate.
    rewrite wrap_cons by discriminate. rewrite <- E. apply found_ag; auto.
    intros t t' T. apply IH; auto. discriminate.
Qed.

Lemma same_verr_sym : forall e f, same_verr e f -> same_verr f e.
Proof.
  intros e f (A & B & C). repeat split; auto. induction B as [|x y l l' (P & Q & R & S0) B IH]; constructor; auto.
  repeat split; auto. clear -Q. induction Q; constructor; auto.
Qed.

Lemma pag_sym : forall (x y : rres val), pag eq x y -> pag eq y x.
Proof.
  intros x y H; destruct H; try (constructor; auto; fail).
  constructor; auto using same_verr_sym.
Qed.

Lemma rag_sym : forall r r', rag r r' -> rag r' r.
Proof. intros r r' H eas loc s s' E. apply pag_sym, H; auto. Qed.

Section Read.
  Variables ev ev' : env.
  Hypothesis Env : same_env ev ev'.
  Variables r r' : ser -> reader.
  Hypothesis Rec : forall s s', nest s = nest s' -> rag (r s) (r' s').

  Lemma validate_ag : forall m m' i s s', same_model m m' -> st_el s = st_el s' ->
    pag eq (validate_result m i s, s) (validate_result m' i s', s').
  Proof.
    intros m m' i s s' M E. unfold validate_result. rewrite <- E, <- (sd_forbid M), <- (sd_name M), <- (sd_hide M), <- (sd_validate M).
    destruct (if md_forbid m then check_extra (md_name m) (st_el s) (md_hide m) else None).
    - apply pag_err; auto using same_verr_refl.
    - destruct (md_validate m i); constructor; auto; try discriminate. apply same_verr_lines.
  Qed.

  Lemma rfields_ag : forall m m', same_model m m' -> forall fs fs',
    Forall2 (fun a b : string * ser => fst a = fst b /\ nest (snd a) = nest (snd b)) fs fs' ->
    forall eas res es es' s s',
    Forall2 (fun a b : string * verr => fst a = fst b /\ same_verr (snd a) (snd b)) es es' -> st_el s = st_el s' ->
    pag (fun a b : list (string * val) * dict verr => fst a = fst b /\
           Forall2 (fun a b : string * verr => fst a = fst b /\ same_verr (snd a) (snd b)) (snd a) (snd b))
      (read_fields r m fs eas res es s) (read_fields r' m' fs' eas res es' s').
  Proof.
    intros m m' M fs fs' HH; induction HH as [|[k x] [k' x'] fs fs' [A B] HH IH]; intros eas res es es' s s' F E; cbn [read_fields].
    - constructor; auto.
    - simpl in A, B. subst k'. rewrite <- (sd_cval M), <- (sd_valias M).
      assert (P : pag eq
        match md_cval m k with Some custom => run_custom custom (note_line [LKey k] s) | None => r x eas [LKey k] (note_line [LKey k] s) end
        match md_cval m k with Some custom => run_custom custom (note_line [LKey k] s') | None => r' x' eas [LKey k] (note_line [LKey k] s') end).
      { destruct (md_cval m k) as [f|].
        - unfold run_custom. cbn [note_line st_el]. rewrite <- E. destruct (f (st_el s)) as [[v|y|] e0]; try (constructor; auto; fail).
          destruct y; try (constructor; auto; discriminate). apply pag_err; auto using same_verr_refl.
        - apply Rec; auto using note_el. }
      inv P; try (constructor; fail).
      + destruct b; apply IH; auto.
      + apply IH; auto. apply dset_ag; auto.
      + destruct x0; try (constructor; auto; fail). nover.
  Qed.

  Lemma rmodel_ag : forall m m', same_model m m' -> rag (read_model r m) (read_model r' m').
  Proof.
    intros m m' M eas loc s s' E. unfold read_model. rewrite <- (sd_root M). destruct (md_root m).
    - unfold read_root_model. pose proof (sd_fields M) as F. inv F; [constructor; auto; discriminate|].
      destruct x as [k x], y as [k' x']. destruct H1 as [_ B]. simpl in B.
      pose proof (Rec _ _ B eas loc _ _ E) as P. inv P; try (constructor; fail).
      + apply validate_ag; auto.
      + constructor; auto. rewrite <- (sd_name M), <- (sd_hide M). apply same_verr_into. constructor; auto.
      + destruct x0; try (constructor; auto; fail). nover.
    - unfold read_plain_model.
      assert (P := @rfields_ag m m' M _ _ (sd_fields M) eas [] [] [] s s' (Forall2_nil _) E). inv P; try (constructor; fail).
      + destruct a as [res es], b as [res' es']. destruct H1 as [A B]. simpl in A, B. subst res'.
        pose proof (keyed_ag B) as K. inv B; [apply validate_ag; auto|].
        constructor; auto. rewrite <- (sd_name M), <- (sd_hide M). apply same_verr_into; auto.
      + apply pag_err; auto.
      + apply pag_raise; auto.
  Qed.

  Lemma rproxy_ag : forall p, rag (read_proxy ev r p) (read_proxy ev' r' p).
  Proof.
    intros p eas loc s s' E. unfold read_proxy. pose proof (same_env_model Env (px_model p)) as M.
    destruct (en_model ev (px_model p)), (en_model ev' (px_model p)); try contradiction; [|constructor; auto; discriminate].
    destruct (px_computed p); [constructor; auto|]. rewrite <- E. apply found_ag; auto.
    intros t t' T. cbn [note_line st_el]. rewrite <- T. destruct (is_element_nill (st_el t)) as [nil e1].
    destruct nil; [constructor; auto|]. apply rmodel_ag; auto.
  Qed.

  Lemma rtagged_ag : forall a md vs eas loc s s', st_el s = st_el s' ->
    pag eq (read_tagged (read_proxy ev r) a md vs eas loc s) (read_tagged (read_proxy ev' r') a md vs eas loc s').
  Proof.
    intros a md; induction vs as [|[t p] vs IH]; intros eas loc s s' E; cbn [read_tagged]; [constructor; auto|].
    rewrite <- E. destruct (find_element (st_el s) (px_name p) md false false) as [[|i|] e'].
    - apply IH; auto.
    - destruct (nth_error (e_elems e') i); [|constructor; auto; discriminate].
      destruct (match get_attrib a e with Some t0 => String.eqb t0 t | None => false end); [apply rproxy_ag; auto|apply IH; auto].
    - constructor; auto; discriminate.
  Qed.
End Read.

Theorem read_ag : forall k n n', n + n' <= k -> forall ev ev', same_env ev ev' -> forall s s', nest s = nest s' ->
  rag (read n ev s) (read n' ev' s').
Proof.
  induction k as [|k IH]; intros n n' L ev ev' Env s s' H.
  - destruct n; [|lia]. intros eas loc st0 st1 E. constructor.
  - destruct n as [|n]; [intros eas loc st0 st1 E; constructor|]. destruct n' as [|n']; [intros eas loc st0 st1 E; constructor|].
    assert (Rec : forall s s', nest s = nest s' -> rag (read n ev s) (read n' ev' s')) by (intros; apply IH; auto; lia).
    apply nest_shape in H. destruct H.
    + cbn [read]. unfold read_step. rewrite (proj1 Env).
      destruct s; try contradiction; auto using text_ag, rattr_ag, relem_ag, rattrs_ag, rmap_ag, rraw_ag.
      * intros eas loc st0 st1 E. unfold read_union_model. destruct computed; [constructor; auto|].
        apply variants_ag; auto. clear H. induction variants; simpl; constructor; auto. apply rproxy_ag; auto.
      * intros eas loc st0 st1 E. destruct computed; [constructor; auto|]. apply rtagged_ag; auto.
      * apply rproxy_ag; auto.
    + cbn [read read_step]. intros eas loc st0 st1 E. unfold read_homo. destruct c; [constructor; auto|].
      apply items_ag; auto. constructor.
    + cbn [read read_step]. intros eas loc st0 st1 E. unfold read_hetero. destruct c; [constructor; auto|].
      apply tuple_ag; auto; [|constructor]. apply map_nest_ag in H. induction H; simpl; constructor; auto.
    + cbn [read read_step]. intros eas loc st0 st1 E. unfold read_union_prim. destruct c; [constructor; auto|].
      apply Rec; auto.
    + cbn [read read_step]. apply rwrap_ag; auto.
    + cbn [read read_step]. apply wrap_split; auto.
      apply (IH n (S n') ltac:(lia) ev ev' Env i (SWrap q m md c i') H1).
    + cbn [read read_step]. apply rag_sym, wrap_split; auto. apply rag_sym.
      apply (IH (S n) n' ltac:(lia) ev ev' Env (SWrap q m md c i) i' H1).
Qed.

Lemma pag_out : forall x y : rres val, pag eq x y -> fst x <> Fuel -> fst y <> Fuel -> same_out (fst x) (fst y).
Proof.
  intros x y H N N'; destruct H; simpl in *; try congruence; auto.
  destruct x; auto. apply same_verr_refl.
Qed.

Theorem from_xml_ag : forall ev ev' n n' cls doc eas, same_env ev ev' ->
  from_xml_tree n ev cls doc eas <> Fuel -> from_xml_tree n' ev' cls doc eas <> Fuel ->
  same_out (from_xml_tree n ev cls doc eas) (from_xml_tree n' ev' cls doc eas).
Proof.
  intros ev ev' n n' cls doc eas Env. unfold from_xml_tree. pose proof (same_env_model Env cls) as M.
  destruct (en_model ev cls), (en_model ev' cls); try contradiction; [|intros; simpl; auto].
  rewrite (sd_elem M), (proj1 Env). destruct (tag_is (native_tag doc) (md_elem_name m0)); [|intros; simpl; auto].
  apply pag_out. eapply rmodel_ag; eauto. intros; eapply read_ag; eauto.
Qed.
