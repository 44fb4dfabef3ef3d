(** PfPage2.v -- what the readers do follows the rules. *)

From Verif Require Import Base Elem Native Errs Names Ser Read Api PfElem SpecSim SpecOut SpecSub PfSub2 PfOut5 SpecPage PfPage.

Local Ltac inv H := inversion H; subst; clear H.

Section Follow.
  Variables (ev : env) (eas : bool).
  Hypothesis HP : plain_classes ev.
  Notation b := (en_backend ev).

  (** the outcome of a reader as an answer *)
  Definition ans (o : out val) : option answer :=
    match o with
    | Ok v => Some (Got v)
    | Raise (XValidation e) => Some (Refused (ve_title e) (map remark_of (ve_lines e)))
    | Raise (XUser w) => Some (Stopped w)
    | _ => None
    end.

  Definition sim (d : native) (res : rres val) (R : answer -> page -> Prop) : Prop :=
    match ans (fst res) with
    | Some a => exists p', R a p' /\ shows b d p' (st_el (snd res))
    | None => True
    end.

  Definition follows (r : reader) (R : page -> answer -> page -> Prop) : Prop :=
    forall loc d p s, shows b d p (st_el s) -> sim d (r eas loc s) (R p).

  Lemma sim_impl : forall d res (R R' : answer -> page -> Prop), sim d res R -> (forall a p, R a p -> R' a p) -> sim d res R'.
  Proof.
    intros d [o s] R R' H Q. unfold sim in *; simpl in *. destruct (ans o); auto. destruct H as (p & H1 & H2); eauto.
  Qed.

  (** errors that have been collected, as remarks *)
  Definition noted (errors : list (option locitem * verr)) : list remark :=
    flat_map (fun kv => map remark_of (map (fun l => LErr (le_type l) (le_msg l) (prefix_loc (fst kv) (le_loc l)) (le_input l)) (ve_lines (snd kv)))) errors.
  Definition rdict (errors : dict verr) : dict (list remark) := map (fun kv => (fst kv, map remark_of (ve_lines (snd kv)))) errors.

  Lemma into_remarks : forall title errors hide, map remark_of (ve_lines (into_validation_error title errors hide)) = noted errors.
  Proof. intros. unfold into_validation_error, noted. simpl. apply map_flat_map. Qed.

  Lemma prefixed : forall k ls, map remark_of (map (fun l => LErr (le_type l) (le_msg l) (prefix_loc (Some k) (le_loc l)) (le_input l)) ls) = map (under k) (map remark_of ls).
  Proof. intros. rewrite !map_map. apply map_ext. intros [t m lo i]. reflexivity. Qed.

  Lemma noted_snoc : forall errors k e, noted (errors ++ [(Some k, e)]) = noted errors ++ map (under k) (map remark_of (ve_lines e)).
  Proof. intros. unfold noted. rewrite flat_map_app. simpl. rewrite app_nil_r. f_equal. apply prefixed. Qed.

  Lemma noted_names : forall errors, noted (map (fun kv => (Some (LKey (fst kv)), snd kv)) errors) = under_names (rdict errors).
  Proof.
    intros errors. unfold noted, under_names, rdict. rewrite !flat_map_map. apply flat_map_ext. intros [k e]. simpl. apply prefixed.
  Qed.

  Lemma noted_root : forall e, noted [(None, e)] = map remark_of (ve_lines e).
  Proof. intros e. unfold noted. simpl. rewrite app_nil_r, map_map. apply map_ext. intros [t m lo i]. reflexivity. Qed.

  Lemma rdict_dset : forall k e errors, rdict (dset k e errors) = dset k (map remark_of (ve_lines e)) (rdict errors).
  Proof.
    intros k e errors. induction errors as [|[k0 e0] errors IH]; simpl; auto. destruct (String.eqb k k0); simpl; auto. congruence.
  Qed.

  Lemma rdict_nil : forall errors, rdict errors = [] <-> errors = [].
  Proof. intros [|kv errors]; split; auto; discriminate. Qed.

  (** answers that go on are all values, or some are refused *)
  Lemma either : forall l, Forall goes_on l -> (exists vs, l = map Got vs) \/ Exists refused l.
  Proof.
    intros l F; induction F as [|a l G F IH]; [left; exists []; auto|]. destruct a as [v|t rs|w]; [|right; left; exact I|destruct G].
    destruct IH as [(vs & ->)|IH]; [left; exists (v :: vs); auto|right; right; auto].
  Qed.

  Lemma got_go : forall vs, Forall goes_on (map Got vs).
  Proof. intros vs; induction vs; simpl; constructor; simpl; auto. Qed.

  Lemma got_not_refused : forall vs, ~ Exists refused (map Got vs).
  Proof. intros vs; induction vs; simpl; intros H; inv H; auto. Qed.

  Lemma got_numbered : forall vs i, numbered i (map Got vs) = [].
  Proof. intros vs; induction vs; simpl; auto. Qed.

  Lemma got_refusals : forall vs names, refusals (combine names (map Got vs)) = [].
  Proof. intros vs; induction vs; intros [|n names]; simpl; auto. Qed.

  Lemma refused_refusals : forall l names, length names = length l -> Exists refused l -> refusals (combine names l) <> [].
  Proof.
    intros l; induction l as [|a l IH]; intros [|n names] L H; try discriminate; inv H.
    - destruct a; try contradiction. discriminate.
    - intros Q. simpl in Q. apply app_eq_nil in Q. apply (IH names); auto. tauto.
  Qed.

  Lemma sim_ok : forall d v s (R : answer -> page -> Prop) p, R (Got v) p -> shows b d p (st_el s) -> sim d (Ok v, s) R.
  Proof. intros; exists p; auto. Qed.

  Lemma sim_user : forall d w s (R : answer -> page -> Prop) p, R (Stopped w) p -> shows b d p (st_el s) -> sim d (Raise (XUser w), s) R.
  Proof. intros; exists p; auto. Qed.

  Lemma sim_bad : forall d e s (R : answer -> page -> Prop) p, R (Refused (ve_title e) (map remark_of (ve_lines e))) p -> shows b d p (st_el s) -> sim d (Raise (XValidation e), s) R.
  Proof. intros; exists p; auto. Qed.

  Lemma with_found_sim : forall d p tag mode f s (R : answer -> page -> Prop), shows b d p (st_el s) ->
    (missing mode tag (pg_ahead p) -> R (Got VNone) p) ->
    (forall sk c rest, seeks mode tag (pg_ahead p) sk c rest -> exists Rc : answer -> page -> Prop,
        (forall cs, st_el cs = from_native b c -> sim c (f cs) Rc) /\ forall a l, Rc a l -> R a (pass p sk c l rest)) ->
    sim d (with_found (pop_element (st_el s) tag mode) f s) R.
  Proof.
    intros d p tag mode f s R Sh HN HF. unfold pop_element, search. pose proof (@forward_step b d p (st_el s) mode tag Sh) as X.
    destruct (seek mode tag (pg_ahead p)) as [[[sk c] rest]|] eqn:E.
    - destruct X as (i & e' & -> & En & Put). simpl. unfold on_child. cbn [set_el st_el st_sm]. rewrite En.
      apply seek_some in E. destruct (HF _ _ _ E) as (Rc & H1 & H2).
      specialize (H1 (St (from_native b c) (st_sm s)) eq_refl).
      destruct (f (St (from_native b c) (st_sm s))) as [o cs]. unfold sim in *; simpl in *.
      destruct (ans o); auto. destruct H1 as (l & Q1 & Q2). eauto.
    - rewrite X. simpl. apply sim_ok with p; auto. apply HN, seek_none, E.
  Qed.

  Lemma text_or_default_eq : forall t, text_or_default eas t = text_value eas t.
  Proof. intros [[|c t]|]; auto. Qed.

  Lemma text_sim : forall nillable, follows (read_text false nillable) (fun p a p' => exists v, a = Got v /\ reads_text eas nillable p v p').
  Proof.
    intros nillable loc d p s Sh. unfold read_text. destruct nillable.
    - destruct (@nil_shows b d p (st_el s) Sh) as [S1 E1]. destruct (is_element_nill (st_el s)) as [nil e1]; simpl in *. destruct nil.
      + apply sim_ok with (drop_attribute nil_attribute p); auto. eexists; split; eauto. constructor. apply E1; auto.
      + destruct (pop_text_shows S1) as [S2 E2]. unfold pop_text in *. simpl in *.
        apply sim_ok with (drop_text (drop_attribute nil_attribute p)); auto. eexists; split; eauto.
        rewrite text_or_default_eq, E2. constructor. intros Q. apply E1 in Q. discriminate.
    - destruct (pop_text_shows Sh) as [S2 E2]. unfold pop_text in *. simpl in *.
      apply sim_ok with (drop_text p); auto. eexists; split; eauto. rewrite text_or_default_eq, E2. constructor.
  Qed.

  Lemma attrs_sim : forall x, as_computed x = false ->
    follows (read_attrs x) (fun p a p' => exists v, a = Got v /\ reads_attrs x p v /\ p' = drop_attributes p).
  Proof.
    intros x Ex loc d p s Sh. unfold read_attrs. rewrite Ex. destruct (pop_attributes_shows Sh) as [S1 E1].
    destruct (pop_attributes (st_el s)) as [a e]; simpl in *. destruct a as [a|].
    - apply sim_ok with (drop_attributes p); auto. eexists; split; eauto. split; auto. apply (ra_mapping x p (eq_sym E1)).
    - apply sim_ok with (drop_attributes p); auto. eexists; split; eauto. split; auto. constructor; auto.
  Qed.

  (** ---- lists and tuples ---- *)
  Lemma map_got_snoc : forall vs v, map Got (vs ++ [v]) = map Got vs ++ [Got v].
  Proof. intros. rewrite map_app. auto. Qed.

  Lemma items_sim : forall r s0, follows r (reads ev eas s0) -> forall title hide loc d k idx result errors p s,
    shows b d p (st_el s) ->
    sim d (read_items k r title hide eas loc idx result errors s)
      (fun a p' => exists l, reads_items ev eas s0 p l p' /\
         match a with
         | Got v => errors = [] /\ exists vs, l = map Got vs /\ v = as_list (result ++ vs)
         | Refused t rs => t = title /\ rs = noted errors ++ numbered idx l /\ Forall goes_on l /\ (errors <> [] \/ Exists refused l)
         | Stopped w => In (Stopped w) l
         end).
  Proof.
    intros r s0 Hr title hide loc d k; induction k as [|k IH]; intros idx result errors p s Sh; cbn [read_items].
    - exact I.
    - pose proof (Hr (loc ++ [LIdx idx]) d p s Sh) as X. unfold sim in X. destruct (r eas (loc ++ [LIdx idx]) s) as [o s1]; simpl in X.
      destruct o as [v|x|]; [|destruct x; try exact I|exact I]; destruct X as (p1 & X1 & X2).
      + assert (More : v <> VNone -> sim d (read_items k r title hide eas loc (S idx) (result ++ [v]) errors s1)
                  (fun a0 p' => exists l, reads_items ev eas s0 p l p' /\
                     match a0 with
                     | Got v => errors = [] /\ exists vs, l = map Got vs /\ v = as_list (result ++ vs)
                     | Refused t rs => t = title /\ rs = noted errors ++ numbered idx l /\ Forall goes_on l /\ (errors <> [] \/ Exists refused l)
                     | Stopped w => In (Stopped w) l
                     end)).
        { intros Nv. eapply sim_impl; [apply (IH (S idx) (result ++ [v]) errors p1 s1 X2)|].
          intros a0 p' (l & L1 & L2). exists (Got v :: l). split; [eapply ri_item; eauto; [congruence|exact I]|]. destruct a0 as [v0|t rs|w].
          - destruct L2 as (-> & vs & -> & ->). split; auto. exists (v :: vs). split; auto. rewrite <- app_assoc. auto.
          - destruct L2 as (-> & -> & G & Q). split; auto. split; auto. split; [constructor; simpl; auto|]. destruct Q; auto.
          - right. auto. }
        destruct v; try (apply More; discriminate).
        destruct errors as [|er ers].
        * apply sim_ok with p1; auto. exists []. split; [econstructor; eauto|]. split; auto. exists []. split; auto. rewrite app_nil_r. destruct result; auto.
        * apply sim_bad with p1; auto. exists []. split; [econstructor; eauto|]. rewrite into_remarks. split; auto. simpl. rewrite app_nil_r. split; auto. split; auto. left; discriminate.
      + eapply sim_impl; [apply (IH (S idx) result (errors ++ [(Some (LIdx idx), e)]) p1 s1 X2)|].
        intros a0 p' (l & L1 & L2). eexists (_ :: l). split; [eapply ri_item; eauto; [discriminate|exact I]|]. destruct a0 as [v0|t rs|w].
        * destruct L2 as (L2 & _). destruct errors; discriminate.
        * destruct L2 as (-> & -> & G & Q). split; auto. split; [rewrite noted_snoc, <- app_assoc; auto|]. split; [constructor; simpl; auto|]. right. left. exact I.
        * right. auto.
      + apply sim_user with p1; auto. eexists. split; [apply ri_stop; eauto|]. left; auto.
  Qed.

  Lemma tuple_sim : forall rs ss, Forall2 (fun r s0 => follows r (reads ev eas s0)) rs ss -> forall title hide loc d idx result errors p s,
    shows b d p (st_el s) ->
    sim d (read_tuple rs title hide eas loc idx result errors s)
      (fun a p' => exists l, reads_each ev eas ss p l p' /\
         match a with
         | Got v => errors = [] /\ exists vs, l = map Got vs /\ as_tuple (result ++ vs) v
         | Refused t rs => t = title /\ rs = noted errors ++ numbered idx l /\ Forall goes_on l /\ (errors <> [] \/ Exists refused l)
         | Stopped w => In (Stopped w) l
         end).
  Proof.
    intros rs ss F; induction F as [|r s0 rs ss Hr F IH]; intros title hide loc d idx result errors p s Sh; cbn [read_tuple].
    - destruct errors as [|er ers].
      + apply sim_ok with p; auto. exists []. split; [constructor|]. split; auto. exists []. split; auto. rewrite app_nil_r.
        destruct (forallb is_none result) eqn:E.
        * constructor. rewrite forallb_forall in E. apply Forall_forall. intros v Hv. specialize (E v Hv). destruct v; try discriminate; auto.
        * constructor. apply not_true_iff_false in E. rewrite forallb_forall in E.
          clear - E. induction result as [|v l IH]; [destruct E; intros ? []|].
          destruct v; try (left; discriminate). right. apply IH. intros Q. apply E. intros x [<- |Hx]; auto.
      + apply sim_bad with p; auto. exists []. split; [constructor|]. rewrite into_remarks. split; auto. simpl. rewrite app_nil_r. split; auto. split; auto. left; discriminate.
    - pose proof (Hr (loc ++ [LIdx idx]) d p s Sh) as X. unfold sim in X. destruct (r eas (loc ++ [LIdx idx]) s) as [o s1]; simpl in X.
      destruct o as [v|x|]; [|destruct x; try exact I|exact I]; destruct X as (p1 & X1 & X2).
      + eapply sim_impl; [apply IH; exact X2|].
        intros a0 p' (l & L1 & L2). exists (Got v :: l). split; [econstructor; eauto; exact I|]. destruct a0 as [v0|t rs0|w].
        * destruct L2 as (-> & vs & -> & T). split; auto. exists (v :: vs). split; auto. rewrite <- app_assoc in T. auto.
        * destruct L2 as (-> & -> & G & Q). split; auto. split; auto. split; [constructor; simpl; auto|]. destruct Q; auto.
        * right. auto.
      + eapply sim_impl; [apply IH; exact X2|].
        intros a0 p' (l & L1 & L2). eexists (_ :: l). split; [eapply re_member; eauto; exact I|]. destruct a0 as [v0|t rs0|w].
        * destruct L2 as (L2 & _). destruct errors; discriminate.
        * destruct L2 as (-> & -> & G & Q). split; auto. split; [rewrite noted_snoc, <- app_assoc; auto|]. split; [constructor; simpl; auto|]. right. left. exact I.
        * right. auto.
      + apply sim_user with p1; auto. eexists. split; [apply re_stop; eauto|]. left; auto.
  Qed.

  (** ---- unions ---- *)
  Lemma seeks_ahead : forall mode tag l sk c r, seeks mode tag l sk c r -> l <> [].
  Proof. intros mode tag l sk c r H; inv H; try discriminate. destruct sk; discriminate. Qed.

  Lemma refused_ahead : forall q p t rs p', reads_sub ev eas q p (Refused t rs) p' -> pg_ahead p <> [].
  Proof. intros q p t rs p' H; inv H. eapply seeks_ahead; eauto. Qed.

  Lemma step_shows : forall d p e c rest, shows b d p e -> pg_ahead p = c :: rest ->
    shows b d (pass p [] c (unopened c) rest) (step_forward e).
  Proof.
    intros d p e c rest H E. inv H. rewrite E in H5. apply shows_intro with (front := front ++ [from_native b c]); simpl; auto.
    - apply Forall2_app; auto. constructor; auto. apply shows_new.
    - rewrite H5, <- app_assoc. auto.
    - rewrite H6, app_length. simpl. lia.
  Qed.

  Lemma apply_shows : forall d p e e', shows b d p e' -> shows b d p (apply_snapshot e e').
  Proof. intros d p e e' H. inv H. apply shows_intro with (front := front); auto. Qed.

  Lemma dset_some : forall A k (x : A) d, dset k x d <> [].
  Proof. intros A k x d. destruct d as [|[k' y] d]; simpl; [discriminate|]. destruct (String.eqb k k'); discriminate. Qed.

  Lemma tries_sim : forall rs qs, Forall2 (fun r q => follows r (reads_sub ev eas q)) rs qs -> forall title hide loc d errors p s,
    shows b d p (st_el s) -> (errors <> [] -> pg_ahead p <> []) ->
    sim d (read_variants rs title hide eas loc errors s) (tries ev eas title qs p (rdict errors)).
  Proof.
    intros rs qs F; induction F as [|r q rs qs Hr F IH]; intros title hide loc d errors p s Sh Ha; cbn [read_variants].
    - destruct errors as [|er ers].
      + apply sim_ok with p; auto. constructor.
      + destruct (pg_ahead p) as [|c rest] eqn:Ea; [destruct Ha; auto; discriminate|].
        apply sim_bad with (pass p [] c (unopened c) rest).
        * rewrite into_remarks, noted_names. cbn [into_validation_error ve_title]. constructor; auto. discriminate.
        * apply step_shows; auto.
    - rewrite create_snapshot_id. assert (Sh' : shows b d p (st_el (set_el (st_el s) s))) by auto.
      pose proof (Hr loc d p _ Sh') as X. unfold sim in X. destruct (r eas loc (set_el (st_el s) s)) as [o s1]; simpl in X.
      destruct o as [v|x|]; [|destruct x; try exact I|exact I]; destruct X as (p1 & X1 & X2).
      + destruct v; try (apply sim_ok with p1; [econstructor; eauto; discriminate|apply apply_shows; exact X2]).
        eapply sim_impl; [apply (IH title hide loc d errors p (St (st_el s) (st_sm s1))); auto|].
        intros a p' T. eapply tr_nothing; eauto.
      + eapply sim_impl; [apply (IH title hide loc d (dset (ve_title e) e errors) p (St (st_el s) (st_sm s1))); auto|].
        * intros _. eapply refused_ahead; eauto.
        * intros a p' T. rewrite rdict_dset in T. eapply tr_bad; eauto.
      + apply sim_user with p; auto. eapply tr_stop; eauto.
  Qed.

  Lemma from_attr : forall tag c name, named tag c -> get_attrib name (from_native b c) = dget name (own_attributes c).
  Proof. intros tag c name N. destruct c; simpl in N; try contradiction. auto. Qed.

  Lemma picks_sim : forall (rp : proxy -> reader), (forall q, follows (rp q) (reads_sub ev eas q)) -> forall attr mode loc d qs p s,
    shows b d p (st_el s) -> sim d (read_tagged rp attr mode qs eas loc s) (picks ev eas attr mode qs p).
  Proof.
    intros rp Hr attr mode loc d qs; induction qs as [|[tag q] qs IH]; intros p s Sh; cbn [read_tagged].
    - apply sim_ok with p; auto. constructor.
    - unfold find_element, search. pose proof (@forward_peek b d p (st_el s) mode (px_name q) Sh) as X.
      destruct (seek mode (px_name q) (pg_ahead p)) as [[[sk c] rest]|] eqn:E.
      + pose proof (seek_found _ _ _ E) as Nc. apply seek_some in E. destruct X as (i & e' & -> & En & Pk). cbn beta iota. rewrite En.
        rewrite (@from_attr _ _ attr Nc). destruct (dget attr (own_attributes c)) as [t|] eqn:Ed.
        * destruct (String.eqb t tag) eqn:Et.
          -- apply String.eqb_eq in Et; subst t. eapply sim_impl; [apply Hr; exact Pk|]. intros a p' R. eapply pk_match; eauto.
          -- eapply sim_impl; [apply IH; exact Pk|]. intros a p' R. eapply pk_other; eauto. rewrite Ed. intros Q; inv Q. rewrite String.eqb_refl in Et. discriminate.
        * eapply sim_impl; [apply IH; exact Pk|]. intros a p' R. eapply pk_other; eauto. congruence.
      + rewrite X. cbn beta iota. eapply sim_impl; [apply IH; exact Sh|]. intros a p' R. eapply pk_missing; eauto. apply seek_none, E.
  Qed.

  (** ---- wrappers ---- *)
  Lemma upd_upd : forall A i (x y : A) l, list_upd i x (list_upd i y l) = list_upd i x l.
  Proof. intros A i; induction i; intros x y [|z l]; simpl; auto. rewrite IHi; auto. Qed.

  (** the wrappers on the path are opened first, then [f] reads inside *)
  Lemma path_sim : forall (f : st -> rres val) s0 mode, (forall d p s, shows b d p (st_el s) -> sim d (f s) (reads ev eas s0 p)) ->
    forall path, path <> [] -> forall d p e sm, shows b d p e ->
    sim d (match find_sub_element path mode e with
           | (None, e') => (Raise XIndexError, St e' sm)
           | (Some idxs, e') =>
               if negb (Nat.eqb (length idxs) 0) && Nat.eqb (length idxs) (length path)
               then on_path idxs f (St e' sm) else (Ok VNone, St e' sm)
           end) (reads_in ev eas mode s0 path p).
  Proof.
    intros f s0 mode Hf path; induction path as [|tag path IH]; intros Np d p e sm Sh; [congruence|]. clear Np.
    assert (Enter : forall (i : nat) e1 c inner x, nth_error (e_elems e1) i = Some x -> shows b c inner x ->
        forall (R : answer -> page -> Prop) (back : page -> page),
        (forall rem x', shows b c rem x' -> shows b d (back rem) (put_child i x' e1)) ->
        (forall a rem, reads_in ev eas mode s0 path inner a rem -> R a (back rem)) ->
        sim d (match match path with
                     | [] => (Some [i], e1)
                     | _ :: _ => match nth_error (e_elems e1) i with
                                 | None => (Some [], e1)
                                 | Some c => let (r, c') := find_sub_element path mode c in
                                             (match r with Some is' => Some (i :: is') | None => None end, put_child i c' e1)
                                 end
                     end with
               | (None, e') => (Raise XIndexError, St e' sm)
               | (Some idxs, e') =>
                   if negb (Nat.eqb (length idxs) 0) && Nat.eqb (length idxs) (length (tag :: path))
                   then on_path idxs f (St e' sm) else (Ok VNone, St e' sm)
               end) R).
    { intros i e1 c inner x En Sx R back Put HR. destruct path as [|t2 path].
      - simpl. unfold on_child. simpl. rewrite En. specialize (Hf c inner (St x sm) Sx).
        destruct (f (St x sm)) as [o s1]. unfold sim in *; simpl in *. destruct (ans o); auto.
        destruct Hf as (l & Q1 & Q2). exists (back l). split; auto. apply HR. constructor; auto.
      - rewrite En. specialize (IH ltac:(discriminate) c inner x sm Sx).
        destruct (find_sub_element (t2 :: path) mode x) as [[idxs|] x1]; [|exact I].
        assert (Ei : i < length (e_elems e1)) by (apply nth_error_Some; congruence).
        assert (En1 : nth_error (list_upd i x1 (e_elems e1)) i = Some x1) by (apply nth_error_list_upd_same; auto).
        replace (negb (Nat.eqb (length (i :: idxs)) 0) && Nat.eqb (length (i :: idxs)) (length (tag :: t2 :: path)))
          with (negb (Nat.eqb (length idxs) 0) && Nat.eqb (length idxs) (length (t2 :: path))).
        2:{ destruct idxs; auto. }
        destruct (negb (Nat.eqb (length idxs) 0) && Nat.eqb (length idxs) (length (t2 :: path))).
        + cbn [on_path]. unfold on_child at 1. cbn [st_el st_sm]. unfold put_child at 1. cbn [set_elems e_elems]. rewrite En1.
          destruct (on_path idxs f (St x1 sm)) as [o s1].
          unfold sim in *; simpl in *. assert (Z : forall y, put_child i y (put_child i x1 e1) = put_child i y e1).
          { intros y. unfold put_child. simpl. unfold set_elems. simpl. rewrite upd_upd. auto. }
          destruct (ans o); auto. destruct IH as (l & Q1 & Q2). exists (back l). split; auto. cbn [snd st_el]. rewrite Z. auto.
        + unfold sim in *; simpl in *. destruct IH as (l & Q1 & Q2). exists (back l). split; auto. }
    cbn [find_sub_element]. unfold find_element, search. pose proof (@behind_shows b d p e tag Sh) as X.
    destruct (ends_with p tag) as [[[front c] rem]|] eqn:Ew.
    - destruct X as (i & x & -> & En & Sx & Put). apply ends_with_some in Ew. destruct Ew as [Ew Nc].
      apply (Enter i e c rem x En Sx _ (reopen p front c) Put). intros a l R. econstructor; eauto.
    - rewrite X. pose proof (proj1 (ends_with_none p tag) Ew) as Nl. pose proof (@forward_step b d p e mode tag Sh) as Y.
      destruct (seek mode tag (pg_ahead p)) as [[[sk c] rest]|] eqn:E.
      + destruct Y as (i & e' & -> & En & Put). apply seek_some in E.
        apply (Enter i e' c (unopened c) _ En (shows_new b c) _ (fun l => pass p sk c l rest) Put).
        intros a l R. eapply in_next; eauto.
      + rewrite Y. simpl. apply sim_ok with p; auto. apply in_missing; auto. apply seek_none, E.
  Qed.

  (** ---- classes ---- *)
  Lemma extra_iff : forall d p e title hide, shows b d p e -> check_extra title e hide = None <-> used_up p.
  Proof.
    intros d p e title hide Sh. rewrite <- (@unbound_used b (S (psize p)) p (Nat.lt_succ_diag_r _) d e [] Sh). unfold check_extra.
    destruct (get_unbound [] e); split; congruence.
  Qed.

  Lemma extra_remarks : forall d p e title hide er, shows b d p e -> check_extra title e hide = Some er ->
    ve_title er = title /\ map remark_of (ve_lines er) = left_over [] p.
  Proof.
    intros d p e title hide er Sh. pose proof (@unbound_left b (S (psize p)) p (Nat.lt_succ_diag_r _) d e [] Sh) as X. change (map key []) with (@nil locitem) in X. rewrite <- X. unfold check_extra.
    destruct (get_unbound [] e) as [|u us]; [discriminate|]. intros E. injection E as <-. split; auto. unfold extra_remark. simpl. f_equal. apply map_map.
  Qed.

  Lemma line_remarks : forall err sm hide, map remark_of (ve_lines (set_validation_error_sourceline err sm hide)) = map remark_of (ve_lines err).
  Proof. intros. simpl. rewrite map_map. apply map_ext. intros [t m lo i]. reflexivity. Qed.

  Lemma judged_sim : forall m d p input s, shows b d p (st_el s) ->
    match ans (validate_result m input s) with Some a => judged m p input a | None => True end.
  Proof.
    intros m d p input s Sh. unfold validate_result. pose proof (@extra_iff d p (st_el s) (md_name m) (md_hide m) Sh) as X.
    pose proof (fun er => @extra_remarks d p (st_el s) (md_name m) (md_hide m) er Sh) as Y.
    assert (J : (md_forbid m = true -> used_up p) ->
      match ans (match md_validate m input with
                 | Valid v => Ok v
                 | Invalid err => Raise (XValidation (set_validation_error_sourceline err (st_sm s) (md_hide m)))
                 | Crashed what => Raise (XUser what)
                 end) with Some a => judged m p input a | None => True end).
    { intros U. destruct (md_validate m input) eqn:Ev; cbn [ans].
      - apply jg_valid; auto.
      - rewrite line_remarks. cbn [set_validation_error_sourceline ve_title]. apply jg_invalid; auto.
      - apply jg_crashed; auto. }
    destruct (md_forbid m) eqn:Ef; [|apply J; congruence].
    destruct (check_extra (md_name m) (st_el s) (md_hide m)) as [er|]; [|apply J; intros _; apply X; auto].
    cbn [ans]. destruct (Y er eq_refl) as [-> ->]. constructor; auto. intros U. apply X in U. discriminate.
  Qed.

  Definition fsim (d : native) (res : rres (list (string * val) * dict verr)) (R : (dict val * dict (list remark)) + string -> page -> Prop) : Prop :=
    match fst res with
    | Ok (vs, es) => exists p', R (inl (vs, rdict es)) p' /\ shows b d p' (st_el (snd res))
    | Raise (XUser w) => exists p', R (inr w) p' /\ shows b d p' (st_el (snd res))
    | Raise (XValidation _) => False
    | _ => True
    end.

  Lemma fsim_impl : forall d res (R R' : _ -> page -> Prop), fsim d res R -> (forall a p, R a p -> R' a p) -> fsim d res R'.
  Proof.
    intros d [o s] R R' H Q. unfold fsim in *; simpl in *. destruct o as [[vs es]|x|]; auto.
    - destruct H as (p & H1 & H2); eauto.
    - destruct x; auto. destruct H as (p & H1 & H2); eauto.
  Qed.

  Lemma fields_sim : forall (r : ser -> reader) m, (forall name, md_cval m name = None) ->
    forall fs, (forall name s0, In (name, s0) fs -> follows (r s0) (reads ev eas s0)) ->
    forall d p s found errors, shows b d p (st_el s) ->
    fsim d (read_fields r m fs eas (given m found) errors s)
      (fun o p' => exists l, reads_fields ev eas fs p l p' /\
         match o with
         | inl (vs, es) => Forall goes_on l /\ length l = length fs /\ es = dupdate (rdict errors) (refusals (combine (map fst fs) l)) /\
             forall xs, l = map Got xs -> vs = given m (found ++ combine (map fst fs) xs)
         | inr w => In (Stopped w) l
         end).
  Proof.
    intros r m Hc fs; induction fs as [|[name s0] fs IH]; intros Hr d p s found errors Sh; cbn [read_fields].
    - unfold fsim; simpl. exists p. split; auto. exists []. split; [constructor|]. split; [constructor|]. split; auto. split; auto.
      intros [|x xs] E; [|discriminate]. rewrite app_nil_r. auto.
    - rewrite Hc. assert (Sh' : shows b d p (st_el (note_line [LKey name] s))) by auto.
      pose proof (Hr name s0 (or_introl eq_refl) [LKey name] d p _ Sh') as X. unfold sim in X.
      assert (Hr' : forall name s0, In (name, s0) fs -> follows (r s0) (reads ev eas s0)) by (intros; eapply Hr; right; eauto).
      cbn zeta. destruct (r s0 eas [LKey name] (note_line [LKey name] s)) as [o s1]; simpl in X.
      destruct o as [v|x|]; [|destruct x; try exact I|exact I]; destruct X as (p1 & X1 & X2).
      + assert (Ev : given m (found ++ [(name, v)]) = match v with VNone => given m found | _ => dset (input_key m name) v (given m found) end).
        { destruct v; try (apply given_snoc; discriminate). apply given_none. }
        assert (More : fsim d (read_fields r m fs eas (given m (found ++ [(name, v)])) errors s1)
           (fun o p' => exists l, reads_fields ev eas ((name, s0) :: fs) p l p' /\
             match o with
             | inl (vs, es) => Forall goes_on l /\ length l = length ((name, s0) :: fs) /\ es = dupdate (rdict errors) (refusals (combine (map fst ((name, s0) :: fs)) l)) /\
                 forall xs, l = map Got xs -> vs = given m (found ++ combine (map fst ((name, s0) :: fs)) xs)
             | inr w => In (Stopped w) l
             end)).
        { eapply fsim_impl; [apply (IH Hr' d p1 s1 (found ++ [(name, v)]) errors X2)|]. intros o p' (l & L1 & L2).
          exists (Got v :: l). split; [econstructor; eauto; exact I|]. destruct o as [[vs es]|w]; [|right; auto].
          destruct L2 as (L2 & L3 & -> & L4). split; [constructor; simpl; auto|]. split; [simpl; lia|]. split; auto.
          intros [|x xs] E; [discriminate|]. simpl in E. injection E as -> E. rewrite (L4 xs E), <- app_assoc. auto. }
        rewrite Ev in More. unfold input_key in More. destruct v; exact More.
      + eapply fsim_impl; [apply (IH Hr' d p1 s1 found (dset name e errors) X2)|]. intros o p' (l & L1 & L2).
        eexists (_ :: l). split; [eapply rf_field; eauto; exact I|]. destruct o as [[vs es]|w]; [|right; auto].
        destruct L2 as (L2 & L3 & -> & L4). split; [constructor; simpl; auto|]. split; [simpl; lia|]. split; [rewrite rdict_dset; auto|].
        intros [|x xs] E; discriminate.
      + exists p1. split; auto. eexists. split; [apply rf_stop; eauto|]. left; auto.
  Qed.

  Lemma dupdate_some : forall A (l : list (string * A)) d, l <> [] -> dupdate d l <> [].
  Proof.
    intros A l; induction l as [|kv l IH]; intros d H; [congruence|]. unfold dupdate. simpl. destruct l as [|kv' l]; [apply dset_some|apply IH; discriminate].
  Qed.

  Lemma model_sim : forall (r : ser -> reader) cls m, en_model ev cls = Some m -> (forall s0, has_paths s0 -> follows (r s0) (reads ev eas s0)) ->
    follows (read_model r m) (reads_model ev eas m).
  Proof.
    intros r cls m Em Hr loc d p s Sh. destruct (@HP cls m Em) as [Hc Hs]. unfold read_model. destruct (md_root m) eqn:Er.
    - unfold read_root_model. destruct (md_fields m) as [|[name s0] rest] eqn:Ef; [exact I|].
      pose proof (Hr s0 (Hs name s0 (or_introl eq_refl)) loc d p s Sh) as X. unfold sim in X.
      destruct (r s0 eas loc s) as [o s1]; simpl in X. destruct o as [v|x|]; [|destruct x; try exact I|exact I]; destruct X as (p1 & X1 & X2).
      + assert (Ei : (if is_none v then None else Some v) = match v with VNone => None | _ => Some v end) by (destruct v; auto).
        rewrite Ei. pose proof (@judged_sim m d p1 (match v with VNone => None | _ => Some v end) s1 X2) as J. unfold sim. simpl.
        destruct (ans (validate_result m _ s1)) as [a|]; auto. exists p1. split; auto. eapply rm_root; eauto.
      + apply sim_bad with p1; auto. rewrite into_remarks, noted_root. eapply rm_bad_root; eauto.
      + apply sim_user with p1; auto. eapply rm_stop_root; eauto.
    - unfold read_plain_model. pose proof (@fields_sim r m Hc (md_fields m)) as X. specialize (X (fun name s0 I => Hr s0 (Hs name s0 I)) d p s [] [] Sh).
      change (given m []) with (@nil (string * val)) in X. unfold fsim in X.
      destruct (read_fields r m (md_fields m) eas [] [] s) as [[[vs es]|x|] s1]; simpl in X; [|destruct x; try exact I; try contradiction|exact I];
        destruct X as (p1 & (l & L1 & L2) & S1).
      + destruct L2 as (G & L & E & V). change (dupdate (rdict []) ?z) with (dict_of z) in E.
        destruct (either G) as [(xs & ->)|Ex].
        * rewrite got_refusals in E. apply rdict_nil in E. subst es. rewrite (V xs eq_refl). simpl.
          pose proof (@judged_sim m d p1 (Some (VDict (given m (combine (map fst (md_fields m)) xs)))) s1 S1) as J.
          unfold sim. simpl. destruct (ans (validate_result m _ s1)) as [a|]; auto. exists p1. split; auto. eapply rm_fields; eauto.
        * destruct es as [|er ers].
          -- destruct (@dupdate_some _ (refusals (combine (map fst (md_fields m)) l)) []); [apply refused_refusals; auto; rewrite map_length; auto|]. symmetry. exact E.
          -- apply sim_bad with p1; auto. rewrite into_remarks, noted_names, E. eapply rm_bad_field; eauto. constructor; auto.
      + apply sim_user with p1; auto. eapply rm_bad_field; eauto. constructor; auto.
  Qed.

  Lemma sub_sim : forall (r : ser -> reader) q, (forall s0, has_paths s0 -> follows (r s0) (reads ev eas s0)) ->
    follows (read_proxy ev r q) (reads_sub ev eas q).
  Proof.
    intros r q Hr loc d p s Sh. unfold read_proxy. destruct (en_model ev (px_model q)) as [m|] eqn:Em; [|exact I].
    destruct (px_computed q) eqn:Ec; [apply sim_ok with p; auto; econstructor; eauto|].
    apply with_found_sim with (p := p); auto.
    - intros M. eapply rs_missing; eauto.
    - intros sk c rest Sk. exists (fun a l => reads_sub ev eas q p a (pass p sk c l rest)). split; auto.
      intros cs Sc. cbn zeta. assert (Sc' : shows b c (unopened c) (st_el (note_line loc cs))) by (simpl; rewrite Sc; apply shows_new).
      destruct (nil_shows Sc') as [S1 E1]. destruct (is_element_nill (st_el (note_line loc cs))) as [nil e1]; simpl in S1, E1. destruct nil.
      + apply sim_ok with (drop_attribute nil_attribute (unopened c)); auto. eapply rs_nil; eauto. apply E1; auto.
      + eapply sim_impl; [eapply model_sim; eauto|]. intros a l R. eapply rs_model; eauto. intros Q. apply E1 in Q. discriminate.
  Qed.

  Theorem read_follows : forall n s0, has_paths s0 -> follows (read n ev s0) (reads ev eas s0).
  Proof.
    intros n; induction n as [|n IH]; intros s0 Hs loc d p s Sh; [exact I|]. cbn [read].
    destruct s0 as [c ni|name c|name ns mode c ni|x|name mode x|title c s0 hide|title c ss hide|c s0|title c qs hide|c disc attr qs mode|path ns mode c s0|name mode c|q];
      cbn [read_step]; simpl in Hs.
    - destruct c; [apply sim_ok with p; auto; apply rd_computed; constructor|].
      eapply sim_impl; [apply text_sim; eauto|]. intros a p' (v & -> & R). apply rd_text; auto.
    - unfold read_attr. destruct c; [apply sim_ok with p; auto; apply rd_computed; constructor|].
      destruct (@pop_attrib_shows b d p (st_el s) name Sh) as [S1 E1]. destruct (pop_attrib name (st_el s)) as [v e1]; simpl in *.
      apply sim_ok with (drop_attribute name p); auto. rewrite E1. apply rd_attr.
    - unfold read_elem. destruct c; [apply sim_ok with p; auto; apply rd_computed; constructor|].
      apply with_found_sim with (p := p); auto; [intros M; apply rd_no_elem; auto|].
      intros sk c rest Sk. eexists. split; [intros cs Sc; apply text_sim; simpl; rewrite Sc; apply shows_new|]. intros a l (v & -> & R). eapply rd_elem; eauto.
    - destruct (as_computed x) eqn:Ec; [unfold read_attrs; rewrite Ec; apply sim_ok with p; auto; apply rd_computed; constructor; auto|].
      eapply sim_impl; [apply attrs_sim; eauto|]. intros a p' (v & -> & R & ->). apply rd_attrs; auto.
    - unfold read_map_elem. destruct (as_computed x) eqn:Ec; [apply sim_ok with p; auto; apply rd_computed; constructor; auto|].
      apply with_found_sim with (p := p); auto; [intros M; apply rd_no_map; auto|].
      intros sk c rest Sk. eexists. split; [intros cs Sc; apply attrs_sim; [exact Ec|simpl; rewrite Sc; apply shows_new]|]. intros a l (v & -> & R & ->). eapply rd_map; eauto.
    - unfold read_homo. destruct c; [apply sim_ok with p; auto; apply rd_computed; constructor|].
      eapply sim_impl; [eapply items_sim; eauto|]. intros a p' (l & R & Q). destruct a as [v|t rs|w].
      + destruct Q as (_ & vs & -> & ->). eapply rd_list; eauto.
      + destruct Q as (-> & -> & G & [Q|Q]); [congruence|]. eapply rd_bad_list; eauto. constructor; auto.
      + eapply rd_bad_list; eauto. constructor; auto.
    - unfold read_hetero. destruct c; [apply sim_ok with p; auto; apply rd_computed; constructor|].
      eapply sim_impl; [apply (@tuple_sim (map (read n ev) ss) ss); eauto|].
      + clear - IH Hs. induction ss as [|s0 ss IHs]; simpl in *; constructor; [apply IH|apply IHs]; tauto.
      + intros a p' (l & R & Q). destruct a as [v|t rs|w].
        * destruct Q as (_ & vs & -> & T). eapply rd_tuple; eauto.
        * destruct Q as (-> & -> & G & [Q|Q]); [congruence|]. eapply rd_bad_tuple; eauto. constructor; auto.
        * eapply rd_bad_tuple; eauto. constructor; auto.
    - unfold read_union_prim. destruct c; [apply sim_ok with p; auto; apply rd_computed; constructor|].
      eapply sim_impl; [apply IH; eauto|]. intros; apply rd_prim; auto.
    - unfold read_union_model. destruct c; [apply sim_ok with p; auto; apply rd_computed; constructor|].
      eapply sim_impl; [eapply (@tries_sim (map (read_proxy ev (read n ev)) qs) qs) with (errors := []); eauto|].
      + induction qs as [|q qs IHs]; simpl; constructor; auto. apply sub_sim; auto.
      + intros; apply rd_union; auto.
    - destruct c; [apply sim_ok with p; auto; apply rd_computed; constructor|].
      eapply sim_impl; [apply picks_sim; eauto|]. + intros q. apply sub_sim; auto. + intros; apply rd_tagged; auto.
    - unfold read_wrap. destruct c; [apply sim_ok with p; auto; apply rd_computed; constructor|]. destruct Hs as [Np Hs].
      eapply sim_impl; [|intros a p' R; eapply rd_wrap; eauto].
      apply (@path_sim (fun c => read n ev s0 eas loc (note_line loc c)) s0 mode); auto.
      intros d' p1 s1 S1. apply IH; auto.
    - unfold read_raw. destruct c; [apply sim_ok with p; auto; apply rd_computed; constructor|].
      apply with_found_sim with (p := p); auto; [intros M; apply rd_no_raw; auto|].
      intros sk c rest Sk. exists (fun a l => exists x, a = Got (VRaw x) /\ copied b c x /\ l = Page None None None [] []).
      assert (Nc : is_xml_comment c = false) by (inv Sk; destruct c; simpl in *; auto; contradiction).
      split.
      + intros cs Sc. rewrite Sc. assert (Ex : extract (from_native b c) = (from_native b c, Elem (native_tag c) None None None None [] 0 (e_line (from_native b c)))) by (destruct c; auto).
        rewrite Ex. destruct (to_native b (from_native b c)) as [x|] eqn:Et; [|exact I].
        apply sim_ok with (Page None None None [] []).
        * exists x. split; auto. split; auto. apply copied_iff; auto.
        * apply shows_intro with (front := []); simpl; auto.
      + intros a l (x & -> & C & ->). eapply rd_raw; eauto.
    - eapply sim_impl; [apply sub_sim; eauto|]. intros; apply rd_model; auto.
  Qed.
End Follow.
