(** PfMoved3.v -- proofs for C89: two versions of the classes side by side. *)

From Verif Require Import Base Elem Native Errs Names Ser Write Read Api SpecElem SpecRead SpecSim SpecMoved PfSim2 PfRead3 PfFuel PfMoved PfMoved2.

Local Ltac inv H := inversion H; subst; clear H.

(** the same outcome up to order and, unless reading stops, the same element; the fuel may run out in the first run only *)
Definition same_end (a b : rres val) : Prop :=
  match fst a, fst b with
  | Ok v, Ok w => moved_val v w /\ st_el (snd a) = st_el (snd b)
  | Raise (XValidation e), Raise (XValidation f) => moved_error e f /\ st_el (snd a) = st_el (snd b)
  | Raise x, Raise y => x = y
  | _, _ => False
  end.
Definition mlike (a b : rres val) : Prop := fst a = Fuel \/ same_end a b.
Definition rmlike (r r' : reader) : Prop := forall eas loc s s', st_el s = st_el s' -> mlike (r eas loc s) (r' eas loc s').

Lemma moved_none : forall v w, moved_val v w -> is_none v = is_none w.
Proof. intros v w H; inv H; reflexivity. Qed.

Lemma ml_ok : forall v w s s', moved_val v w -> st_el s = st_el s' -> mlike (Ok v, s) (Ok w, s').
Proof. intros; right; split; auto. Qed.

Lemma ml_same : forall v s s', st_el s = st_el s' -> mlike (Ok v, s) (Ok v, s').
Proof. intros; apply ml_ok; auto. constructor. Qed.

Lemma ml_exn : forall x s s', (forall e, x <> XValidation e) -> mlike (Raise x, s) (Raise x, s').
Proof. intros x s s' N. right. destruct x; try reflexivity. exfalso; eapply N; eauto. Qed.

Lemma ml_err : forall e f s s', moved_error e f -> st_el s = st_el s' -> mlike (Raise (XValidation e), s) (Raise (XValidation f), s').
Proof. intros; right; split; auto. Qed.

(** the cases of a pair of outcomes *)
Lemma ml_cases : forall a b, mlike a b ->
  (fst a = Fuel) \/
  (exists v w s s', a = (Ok v, s) /\ b = (Ok w, s') /\ moved_val v w /\ st_el s = st_el s') \/
  (exists e f s s', a = (Raise (XValidation e), s) /\ b = (Raise (XValidation f), s') /\ moved_error e f /\ st_el s = st_el s') \/
  (exists x s s', a = (Raise x, s) /\ b = (Raise x, s') /\ forall e, x <> XValidation e).
Proof.
  intros [o s] [o' s'] [H|H]; [left; auto|right]. unfold same_end in H; cbn [fst snd] in H. destruct o as [v|x|], o' as [w|y|]; try contradiction; try (destruct x; contradiction).
  - left. exists v, w, s, s'. destruct H; auto.
  - right. destruct x, y; try contradiction; try discriminate H;
      try (right; eexists; exists s, s'; rewrite <- ?H; repeat split; discriminate).
    + left. exists e, e0, s, s'. destruct H; auto.
Qed.

Ltac cases H := destruct (ml_cases H) as [?F|[(?v & ?w & ?t & ?t' & ?A & ?B & ?M & ?E)|[(?e & ?f & ?t & ?t' & ?A & ?B & ?M & ?E)|(?x & ?t & ?t' & ?A & ?B & ?M)]]].

Lemma on_child_moved : forall i (f f' : st -> rres val) s s', st_el s = st_el s' ->
  (forall c c', st_el c = st_el c' -> mlike (f c) (f' c')) -> mlike (on_child i f s) (on_child i f' s').
Proof.
  intros i f f' s s' E H. unfold on_child. rewrite <- E. destruct (nth_error _ i) as [c|]; [|apply ml_exn; discriminate].
  pose proof (H (St c (st_sm s)) (St c (st_sm s')) eq_refl) as X. cases X.
  - destruct (f _) as [o t]. simpl in F. subst o. left; auto.
  - rewrite A, B. apply ml_ok; auto. simpl. rewrite E0. auto.
  - rewrite A, B. apply ml_err; auto. simpl. rewrite E0. auto.
  - rewrite A, B. apply ml_exn; auto.
Qed.

Lemma found_moved : forall x (f f' : st -> rres val) s s', st_el s = st_el s' ->
  (forall c c', st_el c = st_el c' -> mlike (f c) (f' c')) -> mlike (with_found x f s) (with_found x f' s').
Proof.
  intros [[|i|] e] f f' s s' E H; simpl; [apply ml_same; auto| |apply ml_exn; discriminate]. apply on_child_moved; auto.
Qed.

Lemma text_moved : forall c n, rmlike (read_text c n) (read_text c n).
Proof.
  intros c n eas loc s s' E. unfold read_text. destruct c; [apply ml_same; auto|]. rewrite <- E.
  destruct (if n then is_element_nill (st_el s) else (false, st_el s)) as [[] e1]; apply ml_same; auto.
Qed.

Lemma attrs_moved : forall a, rmlike (read_attrs a) (read_attrs a).
Proof.
  intros a eas loc s s' E. unfold read_attrs. destruct (as_computed a); [apply ml_same; auto|]. rewrite <- E.
  destruct (pop_attributes (st_el s)) as [[d|] e]; apply ml_same; auto.
Qed.

Definition errs_moved (es es' : list (option locitem * verr)) : Prop := Forall2 (fun a b => fst a = fst b /\ moved_error (snd a) (snd b)) es es'.

Lemma errs_into : forall title hide es es', errs_moved es es' -> moved_error (into_validation_error title es hide) (into_validation_error title es' hide).
Proof. intros. eapply errors_moved; eauto. Qed.

Lemma items_read_moved : forall r r', rmlike r r' -> forall k k' title hide eas loc idx res res' es es' s s', k <= k' ->
  Forall2 moved_val res res' -> errs_moved es es' -> st_el s = st_el s' ->
  mlike (read_items k r title hide eas loc idx res es s) (read_items k' r' title hide eas loc idx res' es' s').
Proof.
  intros r r' H. induction k as [|k IH]; intros k' title hide eas loc idx res res' es es' s s' L Hr He E; cbn [read_items]; [left; auto|].
  destruct k' as [|k']; [lia|]. assert (L' : k <= k') by lia. cbn [read_items].
  pose proof (H eas (loc ++ [LIdx idx]) s s' E) as X. cases X.
  - destruct (r eas _ s) as [o t]. simpl in F. subst o. left; auto.
  - rewrite A, B. assert (N := moved_none M). destruct (is_none v) eqn:Nv.
    + destruct v; try discriminate. destruct w; try discriminate. destruct He as [|a b es es' Ha He].
      * apply ml_ok; auto. destruct Hr; constructor. constructor; auto.
      * apply ml_err; auto. apply errs_into. constructor; auto.
    + assert (X0 : mlike (read_items k r title hide eas loc (S idx) (res ++ [v]) es t) (read_items k' r' title hide eas loc (S idx) (res' ++ [w]) es' t'))
        by (apply IH; auto; apply Forall2_app; auto).
      destruct v, w; try discriminate; exact X0.
  - rewrite A, B. apply IH; auto. apply Forall2_app; auto; try (constructor; auto).
  - rewrite A, B. destruct x; try (apply ml_exn; discriminate). exfalso; eapply M; eauto.
Qed.

Lemma all_none_moved : forall l l', Forall2 moved_val l l' -> forallb is_none l = forallb is_none l'.
Proof. intros l l' H; induction H; simpl; auto. rewrite (moved_none H), IHForall2; auto. Qed.

Lemma tuple_read_moved : forall rs rs', Forall2 rmlike rs rs' -> forall title hide eas loc idx res res' es es' s s',
  Forall2 moved_val res res' -> errs_moved es es' -> st_el s = st_el s' ->
  mlike (read_tuple rs title hide eas loc idx res es s) (read_tuple rs' title hide eas loc idx res' es' s').
Proof.
  intros rs rs' H. induction H as [|r r' rs rs' Hr0 H IH]; intros title hide eas loc idx res res' es es' s s' Hr He E; cbn [read_tuple].
  - destruct He as [|a b es es' Ha He].
    + rewrite <- (all_none_moved Hr). apply ml_ok; auto. destruct (forallb is_none res); constructor; auto.
    + apply ml_err; auto. apply errs_into. constructor; auto.
  - pose proof (Hr0 eas (loc ++ [LIdx idx]) s s' E) as X. cases X.
    + destruct (r eas _ s) as [o t]. simpl in F. subst o. left; auto.
    + rewrite A, B. apply IH; auto. apply Forall2_app; auto.
    + rewrite A, B. apply IH; auto. apply Forall2_app; auto; try (constructor; auto).
    + rewrite A, B. destruct x; try (apply ml_exn; discriminate). exfalso; eapply M; eauto.
Qed.

Definition keyed_moved (es es' : dict verr) : Prop := Forall2 (fun a b : string * verr => fst a = fst b /\ moved_error (snd a) (snd b)) es es'.

Lemma keyed_set : forall k e e' es es', keyed_moved es es' -> moved_error e e' -> keyed_moved (dset k e es) (dset k e' es').
Proof.
  intros k e e' es es' H M. induction H as [|[a x] [b y] es es' [Ek Hx] H IH]; simpl in *; [constructor; auto; constructor|]. subst b.
  destruct (String.eqb k a); constructor; auto.
Qed.

Lemma keyed_errs : forall es es', keyed_moved es es' -> errs_moved (map (fun kv => (Some (LKey (fst kv)), snd kv)) es) (map (fun kv => (Some (LKey (fst kv)), snd kv)) es').
Proof. intros es es' H. induction H as [|[k e] [k' e'] es es' [E He] H IH]; simpl in *; constructor; auto. simpl; split; congruence. Qed.

Lemma variants_read_moved : forall rs rs', Forall2 rmlike rs rs' -> forall title hide eas loc es es' s s',
  keyed_moved es es' -> st_el s = st_el s' ->
  mlike (read_variants rs title hide eas loc es s) (read_variants rs' title hide eas loc es' s').
Proof.
  intros rs rs' H. induction H as [|r r' rs rs' Hr0 H IH]; intros title hide eas loc es es' s s' He E; cbn [read_variants].
  - pose proof (keyed_errs He) as Q. destruct He as [|a b es es' Ha He].
    + apply ml_same; auto.
    + apply ml_err; [apply errs_into; auto|]. simpl. rewrite E. auto.
  - pose proof (Hr0 eas loc (set_el (create_snapshot (st_el s)) s) (set_el (create_snapshot (st_el s')) s')) as X.
    assert (X' := X ltac:(simpl; rewrite E; auto)). clear X. cases X'.
    + destruct (r eas _ _) as [o t]. simpl in F. subst o. left; auto.
    + rewrite A, B. assert (N := moved_none M). destruct (is_none v) eqn:Nv.
      * destruct v; try discriminate. destruct w; try discriminate. apply IH; auto.
      * assert (X0 : mlike (Ok v, St (apply_snapshot (st_el s) (st_el t)) (st_sm t)) (Ok w, St (apply_snapshot (st_el s') (st_el t')) (st_sm t')))
          by (apply ml_ok; auto; simpl; rewrite E, E0; auto).
        destruct v, w; try discriminate; exact X0.
    + rewrite A, B. apply IH; auto. rewrite (proj1 M). apply keyed_set; auto.
    + rewrite A, B. destruct x; try (apply ml_exn; discriminate). exfalso; eapply M; eauto.
Qed.

Lemma tagged_read_moved : forall rp rp', (forall p, rmlike (rp p) (rp' p)) -> forall attr mode vs, rmlike (read_tagged rp attr mode vs) (read_tagged rp' attr mode vs).
Proof.
  intros rp rp' Hp attr mode vs. induction vs as [|[t p] vs IH]; intros eas loc s s' E; cbn [read_tagged]; [apply ml_same; auto|]. rewrite <- E.
  destruct (find_element (st_el s) (px_name p) mode false false) as [[|i|] e]; [apply IH; auto| |apply ml_exn; discriminate].
  destruct (nth_error (e_elems e) i) as [c|]; [|apply ml_exn; discriminate].
  destruct (match get_attrib attr c with Some t0 => (t0 =? t)%string | None => false end); [apply Hp; auto|apply IH; auto].
Qed.

Lemma on_path_moved : forall path (f f' : st -> rres val), (forall c c', st_el c = st_el c' -> mlike (f c) (f' c')) ->
  forall s s', st_el s = st_el s' -> mlike (on_path path f s) (on_path path f' s').
Proof. induction path as [|i path IH]; intros f f' H s s' E; simpl; auto. apply on_child_moved; auto. Qed.

Lemma wrap_read_moved : forall path mode c r r', rmlike r r' -> rmlike (read_wrap path mode c r) (read_wrap path mode c r').
Proof.
  intros path mode c r r' H eas loc s s' E. unfold read_wrap. destruct c; [apply ml_same; auto|]. rewrite <- E.
  destruct (find_sub_element path mode (st_el s)) as [[idxs|] e]; [|apply ml_exn; discriminate].
  destruct (negb _ && _); [|apply ml_same; auto]. apply on_path_moved; auto.
Qed.

Lemma raw_read_moved : forall b name mode c, rmlike (read_raw b name mode c) (read_raw b name mode c).
Proof.
  intros b name mode c eas loc s s' E. unfold read_raw. destruct c; [apply ml_same; auto|]. rewrite <- E.
  apply found_moved; auto. intros c c' Ec. rewrite <- Ec. destruct (extract (st_el c)) as [x e].
  destruct (to_native b x); [apply ml_same; auto|apply ml_exn; discriminate].
Qed.

Section Envs.
  Variables ev ev' : env.
  Hypothesis HE : moved_env ev ev'.

  Definition readers (n : nat) : Prop := forall s, rmlike (read n ev s) (read (S n) ev' s).

  Lemma run_moved : forall n m m' eas, moved_class m m' -> readers n -> forall fs s s', st_el s = st_el s' ->
    match run (read n ev) m eas fs s, run (read (S n) ev') m' eas fs s' with
    | (Ok t, s1), (Ok t', s1') => Forall2 moved_res t t' /\ st_el s1 = st_el s1'
    | (Raise x, _), (Raise y, _) => x = y /\ forall e, x <> XValidation e
    | (Fuel, _), _ => True
    | _, _ => False
    end.
  Proof.
    intros n m m' eas Hm Hr fs. induction fs as [|f fs IH]; intros s s' E; [split; auto|]. cbn [run].
    assert (X : mlike (one (read n ev) m eas f s) (one (read (S n) ev') m' eas f s')).
    { unfold one. rewrite (mc_cval Hm). destruct (md_cval m (fst f)) as [g|]; [|apply Hr; auto].
      unfold run_custom, note_line; cbn [st_el]. rewrite <- E. destruct (g (st_el s)) as [[v|x|] e1]; [apply ml_same; auto| |left; auto].
      destruct x; try (apply ml_exn; discriminate). apply ml_err; auto. split; auto. eexists; split; [apply Permutation_refl|].
      induction (ve_lines e); constructor; auto. repeat split; auto. apply same_msg_refl. }
    cases X.
    - destruct (one _ _ _ _ s) as [o t]. simpl in F. subst o. auto.
    - rewrite A, B. specialize (IH t t' E0). destruct (run (read n ev) m eas fs t) as [[l|x|] s1], (run (read (S n) ev') m' eas fs t') as [[l'|x'|] s1']; cbn [obind]; auto.
      destruct IH as [F E1]. split; auto. constructor; auto. split; auto.
    - rewrite A, B. specialize (IH t t' E0). destruct (run (read n ev) m eas fs t) as [[l|x|] s1], (run (read (S n) ev') m' eas fs t') as [[l'|x'|] s1']; cbn [obind]; auto.
      destruct IH as [F E1]. split; auto. constructor; auto. split; auto.
    - rewrite A, B. destruct x; try (split; [reflexivity|discriminate]). exfalso; eapply M; eauto.
  Qed.

  Lemma rearranged_perm : forall fs fs', rearranged fs fs' -> Permutation fs fs'.
  Proof.
    assert (K : forall fs : list (string * ser), (forall f, In f fs -> on_own (snd f) = true \/ on_children (snd f) = true) -> Permutation fs (owns fs ++ kids fs)).
    { induction fs as [|f fs IH]; intros H; [constructor|]. unfold owns, kids in *. cbn [filter]. assert (H' := fun g I => H g (or_intror I)). specialize (IH H').
      destruct (H f (or_introl eq_refl)) as [C|C].
      - rewrite C, (@own_not_child _ C). simpl. constructor; auto.
      - assert (C' : on_own (snd f) = false) by (destruct (on_own (snd f)) eqn:Q; auto; apply own_not_child in Q; congruence).
        rewrite C, C'. apply Permutation_cons_app; auto. }
    intros fs fs' (C & O & Q). eapply Permutation_trans; [apply K; auto|]. eapply Permutation_trans; [|apply Permutation_sym, K; auto].
    unfold owns, kids. rewrite O, Q. apply Permutation_refl.
  Qed.

  (** the fields of the two versions of a class *)
  Lemma class_run : forall n m m' eas, moved_class m m' -> md_root m = false -> readers n -> forall s s', st_el s = st_el s' ->
    match run (read n ev) m eas (md_fields m) s, run (read (S n) ev') m' eas (md_fields m') s' with
    | (Ok t, s1), (Ok t', s1') => moved_trace t t' /\ st_el s1 = st_el s1'
    | (Raise x, _), (Raise y, _) => x = y /\ forall e, x <> XValidation e
    | (Fuel, _), _ => True
    | _, _ => False
    end.
  Proof.
    intros n m m' eas Hm Rt Hr s s' E. destruct (mc_fields Hm) as [Q|(_ & Q & U)].
    - rewrite Q. pose proof (@run_moved n m m' eas Hm Hr (md_fields m) s s' E) as X.
      destruct (run (read n ev) m eas (md_fields m) s) as [[t|x|] s1], (run (read (S n) ev') m' eas (md_fields m) s') as [[t'|x'|] s1']; auto.
      destruct X as [X Y]. split; auto. exists t. auto.
    - assert (T : tidy_fields m (md_fields m)).
      { intros f I. split; [apply (proj1 Q); auto|]. apply U. apply in_map; auto. }
      assert (T' : tidy_fields m' (md_fields m')).
      { intros f I. split; [apply (proj1 Q); auto|]. rewrite (mc_cval Hm). apply U. apply in_map. eapply cser_in; eauto. }
      destruct n as [|n].
      { destruct (md_fields m) as [|f fs] eqn:Ef.
        - pose proof (rearranged_perm Q) as P. apply Permutation_nil in P. rewrite P. simpl. split; auto. exists []. split; constructor.
        - cbn [run]. unfold one. destruct (T f (or_introl eq_refl)) as [_ ->]. simpl. auto. }
      pose proof (@run_apart (S n) ev m eas (md_fields m) T s s s) as X.
      assert (A : agree s s s) by (unfold agree; rewrite put_own_own; auto). specialize (X A).
      pose proof (@run_together (S (S n)) ev' m' eas ltac:(lia) (md_fields m') T' s' s' s') as Y.
      assert (A' : agree s' s' s') by (unfold agree; rewrite put_own_own; auto). specialize (Y A').
      assert (Ko : owns (md_fields m') = owns (md_fields m)) by (symmetry; apply Q). assert (Kk : kids (md_fields m') = kids (md_fields m)) by (symmetry; apply Q).
      rewrite Ko, Kk in Y.
      pose proof (@run_moved (S n) m m' eas Hm Hr (owns (md_fields m)) s s' E) as XO.
      pose proof (@run_moved (S n) m m' eas Hm Hr (kids (md_fields m)) s s' E) as XK.
      destruct (run (read (S n) ev) m eas (md_fields m) s) as [[t|x|] s1]; auto.
      + destruct X as (to & a1 & tc & b1 & E1 & E2 & M & G). rewrite E1 in XO. rewrite E2 in XK.
        destruct (run (read (S (S n)) ev') m' eas (kids (md_fields m)) s') as [[tc'|x'|] b1']; try contradiction.
        destruct Y as (to' & a1' & t' & s1' & F1 & F2 & M' & G'). rewrite F1 in XO. rewrite F2. destruct XO as [XO EO], XK as [XK EK].
        split; [eapply merged_moved; eauto|]. rewrite G, G', EO, EK. auto.
      + destruct X as [[b1 E2] N]. rewrite E2 in XK. destruct (run (read (S (S n)) ev') m' eas (kids (md_fields m)) s') as [[tc'|x'|] b1']; try contradiction.
        destruct XK as [<- _]. destruct Y as [s1' F2]. rewrite F2. auto.
  Qed.

  Lemma lines_moved : forall e e' sm sm' h h', moved_error e e' -> moved_error (set_validation_error_sourceline e sm h) (set_validation_error_sourceline e' sm' h').
  Proof.
    intros e e' sm sm' h h' (T & l & P & F). split; auto. unfold set_validation_error_sourceline. cbn [ve_lines].
    eexists. split; [apply Permutation_map; exact P|]. clear P. induction F as [|x y l l' (A & B & C) F IH]; simpl; constructor; auto.
    repeat split; simpl; auto. constructor; auto.
  Qed.

  Lemma error_refl : forall e, moved_error e e.
  Proof.
    intros e. split; auto. eexists; split; [apply Permutation_refl|]. induction (ve_lines e); constructor; auto. repeat split; auto. apply same_msg_refl.
  Qed.

  Lemma extra_moved : forall title e h h', match check_extra title e h, check_extra title e h' with
    | Some x, Some y => moved_error x y | None, None => True | _, _ => False end.
  Proof.
    intros title e h h'. unfold check_extra. destruct (get_unbound [] e) as [|u us]; auto. split; auto. cbn [ve_lines].
    eexists; split; [apply Permutation_refl|]. induction (map extra_error (u :: us)); constructor; auto. repeat split; auto. apply same_msg_refl.
  Qed.

  Lemma validate_moved : forall m m' i i' s s', moved_class m m' -> st_el s = st_el s' -> moved_verdict (md_validate m i) (md_validate m' i') ->
    mlike (validate_result m i s, s) (validate_result m' i' s', s').
  Proof.
    intros m m' i i' s s' Hm E V. unfold validate_result. rewrite (mc_forbid Hm), (mc_name Hm), <- E.
    pose proof (extra_moved (md_name m) (st_el s) (md_hide m) (md_hide m')) as X.
    assert (Y : mlike (match md_validate m i with Valid v => Ok v | Invalid err => Raise (XValidation (set_validation_error_sourceline err (st_sm s) (md_hide m))) | Crashed what => Raise (XUser what) end, s)
                      (match md_validate m' i' with Valid v => Ok v | Invalid err => Raise (XValidation (set_validation_error_sourceline err (st_sm s') (md_hide m'))) | Crashed what => Raise (XUser what) end, s')).
    { destruct (md_validate m i), (md_validate m' i'); simpl in V; try contradiction; [apply ml_ok; auto|apply ml_err; auto; apply lines_moved; auto|].
      subst. apply ml_exn. discriminate. }
    destruct (md_forbid m); [|exact Y].
    destruct (check_extra (md_name m) (st_el s) (md_hide m)), (check_extra (md_name m) (st_el s) (md_hide m')); try contradiction; auto. apply ml_err; auto.
  Qed.

  Lemma keys_moved : forall m m', moved_class m m' -> md_root m = false ->
    NoDup (map (fun f => key_of m' (fst f)) (md_fields m')) /\ NoDup (map fst (md_fields m)) /\ NoDup (map fst (md_fields m')).
  Proof.
    intros m m' Hm Rt. pose proof (mc_keys Hm Rt) as K.
    assert (K' : NoDup (map (fun f => key_of m' (fst f)) (md_fields m'))).
    { assert (Ek : forall f : string * ser, key_of m' (fst f) = key_of m (fst f)) by (intros f; unfold key_of; rewrite (mc_alias Hm); auto).
      rewrite (map_ext _ _ Ek). destruct (mc_fields Hm) as [Q|(_ & Q & U)]; [rewrite Q; auto|].
      eapply Permutation_NoDup; [|exact K]. apply Permutation_map. apply rearranged_perm; auto. }
    split; auto. split.
    - rewrite <- (map_map fst (key_of m)) in K. eapply NoDup_map_inv; eauto.
    - rewrite <- (map_map fst (key_of m')) in K'. eapply NoDup_map_inv; eauto.
  Qed.

  Lemma read_model_moved : forall n m m', moved_class m m' -> readers n -> rmlike (read_model (read n ev) m) (read_model (read (S n) ev') m').
  Proof.
    intros n m m' Hm Hr eas loc s s' E. unfold read_model. rewrite (mc_root Hm). destruct (md_root m) eqn:Rt.
    - unfold read_root_model. destruct (mc_fields Hm) as [Q|(Q & _)]; [|congruence]. rewrite Q. destruct (md_fields m) as [|[k f] fs]; [apply ml_exn; discriminate|].
      destruct (mc_validate_root Hm Rt) as [V1 V2]. pose proof (Hr f eas loc s s' E) as X. cases X.
      + destruct (read n ev f eas loc s) as [o t]. simpl in F. subst o. left; auto.
      + rewrite A, B. rewrite <- (moved_none M). destruct (is_none v); apply validate_moved; auto.
      + rewrite A, B. rewrite (mc_name Hm). apply ml_err; auto. eapply errors_moved; [apply Permutation_refl|]. constructor; auto.
      + rewrite A, B. destruct x; try (apply ml_exn; discriminate). exfalso; eapply M; eauto.
    - unfold read_plain_model. destruct (keys_moved Hm Rt) as (K' & N & N').
      rewrite (@read_fields_run (read n ev) m eas (md_fields m) [] [] s (mc_keys Hm Rt) N), (@read_fields_run (read (S n) ev') m' eas (md_fields m') [] [] s' K' N').
      pose proof (@class_run n m m' eas Hm Rt Hr s s' E) as X.
      destruct (run (read n ev) m eas (md_fields m) s) as [[t|x|] s1], (run (read (S n) ev') m' eas (md_fields m') s') as [[t'|x'|] s1']; try contradiction; cbn [fst snd obind app].
      + destruct X as [T E1]. destruct (@moved_errs t t' (md_name m) (md_hide m) (md_hide m') T) as [Q M]. rewrite (mc_name Hm).
        destruct (errs t) as [|a l] eqn:Et, (errs t') as [|a' l'] eqn:Et'.
        * apply validate_moved; auto. apply (mc_validate Hm Rt).
          assert (Ek : vals m' t' = vals m t').
          { unfold vals. apply flat_map_ext. intros [k [v|x]]; auto. unfold key_of. rewrite (mc_alias Hm). auto. }
          rewrite Ek. apply moved_vals; auto.
        * discriminate (proj1 Q eq_refl).
        * discriminate (proj2 Q eq_refl).
        * apply ml_err; auto.
      + destruct X as [<- X]. destruct x; try (apply ml_exn; discriminate). exfalso; eapply X; eauto.
      + left; auto. + left; auto. + left; auto.
  Qed.

  Lemma proxy_read_moved : forall n, readers n -> forall p, rmlike (read_proxy ev (read n ev) p) (read_proxy ev' (read (S n) ev') p).
  Proof.
    intros n Hr p eas loc s s' E. unfold read_proxy. destruct HE as [_ Hm]. specialize (Hm (px_model p)).
    destruct (en_model ev (px_model p)) as [m|], (en_model ev' (px_model p)) as [m'|]; try contradiction; [|apply ml_exn; discriminate].
    destruct (px_computed p); [apply ml_same; auto|]. rewrite <- E. apply found_moved; auto. intros c c' Ec. unfold note_line; cbn [st_el]. rewrite <- Ec.
    destruct (is_element_nill (st_el c)) as [[] e1]; [apply ml_same; auto|]. apply read_model_moved; auto.
  Qed.

  Lemma read_moved : forall n, readers n.
  Proof.
    induction n as [|n IH]; intros s eas loc t t' E; [left; auto|].
    change (read (S n) ev s) with (read_step ev n (read n ev) s). change (read (S (S n)) ev' s) with (read_step ev' (S n) (read (S n) ev') s).
    destruct s; cbn [read_step].
    - apply text_moved; auto.
    - unfold read_attr. destruct computed; [apply ml_same; auto|]. rewrite <- E. destruct (pop_attrib name (st_el t)) as [o e]. apply ml_same; auto.
    - unfold read_elem. destruct computed; [apply ml_same; auto|]. rewrite <- E. apply found_moved; auto. intros c c' Ec. apply text_moved. exact Ec.
    - apply attrs_moved; auto.
    - unfold read_map_elem. destruct (as_computed a); [apply ml_same; auto|]. rewrite <- E. apply found_moved; auto. intros c c' Ec. apply attrs_moved. exact Ec.
    - unfold read_homo. destruct computed; [apply ml_same; auto|]. apply items_read_moved; auto. constructor.
    - unfold read_hetero. destruct computed; [apply ml_same; auto|]. apply tuple_read_moved; auto; [|constructor]. induction inners; cbn [map]; constructor; auto.
    - unfold read_union_prim. destruct computed; [apply ml_same; auto|]. apply IH; auto.
    - unfold read_union_model. destruct computed; [apply ml_same; auto|]. apply variants_read_moved; auto; [|constructor].
      induction variants; cbn [map]; constructor; auto. apply proxy_read_moved; auto.
    - destruct computed; [apply ml_same; auto|]. apply tagged_read_moved; auto. intros; apply proxy_read_moved; auto.
    - apply wrap_read_moved; auto.
    - destruct HE as [-> _]. apply raw_read_moved; auto.
    - apply proxy_read_moved; auto.
  Qed.

  Lemma from_xml_moved : forall n cls root eas, from_xml_tree n ev cls root eas <> Fuel -> from_xml_tree n ev' cls root eas <> Fuel ->
    moved_out (from_xml_tree n ev cls root eas) (from_xml_tree n ev' cls root eas).
  Proof.
    intros n cls root eas N N'. rewrite <- (@from_xml_stable ev' n (S n) cls root eas); auto. clear N'. unfold from_xml_tree in *. destruct HE as [Hb Hm]. specialize (Hm cls). rewrite Hb.
    destruct (en_model ev cls) as [m|], (en_model ev' cls) as [m'|]; try contradiction; [|reflexivity].
    rewrite (mc_elem Hm). destruct (tag_is _ _); [|reflexivity].
    pose proof (@read_model_moved n m m' Hm (@read_moved n) eas [] (St (from_native (en_backend ev) root) []) (St (from_native (en_backend ev) root) []) eq_refl) as X.
    cases X.
    - contradiction.
    - rewrite A, B. exact M.
    - rewrite A, B. exact M.
    - rewrite A, B. simpl. destruct x; auto. exfalso; eapply M; eauto.
  Qed.
End Envs.
