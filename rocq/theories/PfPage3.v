(** PfPage3.v -- the rules are followed by the readers. *)

From Verif Require Import Base Elem Native Errs Names Ser Read Api PfElem SpecSim SpecOut SpecSub PfSub2 PfOut5 SpecPage PfPage PfPage2.

Local Ltac inv H := inversion H; subst; clear H.

Scheme reads_mut := Induction for reads Sort Prop
  with items_mut := Induction for reads_items Sort Prop
  with each_mut := Induction for reads_each Sort Prop
  with tries_mut := Induction for tries Sort Prop
  with picks_mut := Induction for picks Sort Prop
  with in_mut := Induction for reads_in Sort Prop
  with sub_mut := Induction for reads_sub Sort Prop
  with fields_mut := Induction for reads_fields Sort Prop
  with model_mut := Induction for reads_model Sort Prop.
Combined Scheme rules_ind from reads_mut, items_mut, each_mut, tries_mut, picks_mut, in_mut, sub_mut, fields_mut, model_mut.

Section Obey.
  Variables (ev : env) (eas : bool).
  Hypothesis HP : plain_classes ev.
  Notation b := (en_backend ev).

  Definition gives (o : out val) (a : answer) : Prop := ans o = Some a.
  Local Hint Extern 1 (gives _ _) => reflexivity : core.

  Lemma gives_got : forall o v, gives o (Got v) -> o = Ok v.
  Proof. intros [w|x|] v H; unfold gives in H; simpl in H; try discriminate; [congruence|]. destruct x; discriminate. Qed.
  Lemma gives_refused : forall o t rs, gives o (Refused t rs) -> exists e, o = Raise (XValidation e) /\ ve_title e = t /\ map remark_of (ve_lines e) = rs.
  Proof. intros [w|x|] t rs H; unfold gives in H; simpl in H; try discriminate. destruct x; try discriminate. injection H as <- <-. eauto. Qed.
  Lemma gives_stopped : forall o w, gives o (Stopped w) -> o = Raise (XUser w).
  Proof. intros [v|x|] w H; unfold gives in H; simpl in H; try discriminate. destruct x; try discriminate. congruence. Qed.

  Definition ends (d : native) (res : rres val) (a : answer) (p' : page) : Prop :=
    gives (fst res) a /\ shows b d p' (st_el (snd res)).

  Lemma with_found_some : forall d p tag mode f s sk c rest a l, shows b d p (st_el s) ->
    seeks mode tag (pg_ahead p) sk c rest -> (forall cs, st_el cs = from_native b c -> ends c (f cs) a l) ->
    ends d (with_found (pop_element (st_el s) tag mode) f s) a (pass p sk c l rest).
  Proof.
    intros d p tag mode f s sk c rest a l Sh Sk Hf. unfold pop_element, search. pose proof (@forward_step b d p (st_el s) mode tag Sh) as X.
    apply seek_some in Sk. rewrite Sk in X. destruct X as (i & e' & -> & En & Put). simpl. unfold on_child. cbn [set_el st_el st_sm]. rewrite En.
    destruct (Hf (St (from_native b c) (st_sm s)) eq_refl) as [H1 H2]. destruct (f (St (from_native b c) (st_sm s))) as [o cs].
    split; simpl in *; auto.
  Qed.

  Lemma with_found_none : forall d p tag mode f s, shows b d p (st_el s) -> missing mode tag (pg_ahead p) ->
    ends d (with_found (pop_element (st_el s) tag mode) f s) (Got VNone) p.
  Proof.
    intros d p tag mode f s Sh M. unfold pop_element, search. pose proof (@forward_step b d p (st_el s) mode tag Sh) as X.
    apply seek_none in M. rewrite M in X. rewrite X. split; simpl; auto.
  Qed.

  Lemma text_ends : forall nillable p v p', reads_text eas nillable p v p' -> forall loc d s, shows b d p (st_el s) ->
    ends d (read_text false nillable eas loc s) (Got v) p'.
  Proof.
    intros nillable p v p' R loc d s Sh. unfold read_text. inv R.
    - destruct (pop_text_shows Sh) as [S2 E2]. unfold pop_text in *. split; simpl in *; auto. rewrite text_or_default_eq, E2. auto.
    - destruct (@nil_shows b d p (st_el s) Sh) as [S1 E1]. destruct (is_element_nill (st_el s)) as [nil e1]; simpl in *.
      replace nil with true by (symmetry; apply E1; auto). split; simpl; auto.
    - destruct (@nil_shows b d p (st_el s) Sh) as [S1 E1]. destruct (is_element_nill (st_el s)) as [nil e1]; simpl in *.
      assert (nil = false) by (destruct nil; auto; destruct H; apply E1; auto). subst nil.
      destruct (pop_text_shows S1) as [S2 E2]. unfold pop_text in *. split; simpl in *; auto. rewrite text_or_default_eq, E2. auto.
  Qed.

  Lemma attrs_ends : forall x p v, as_computed x = false -> reads_attrs x p v -> forall loc d s, shows b d p (st_el s) ->
    ends d (read_attrs x eas loc s) (Got v) (drop_attributes p).
  Proof.
    intros x p v Ex R loc d s Sh. unfold read_attrs. rewrite Ex. destruct (pop_attributes_shows Sh) as [S1 E1].
    destruct (pop_attributes (st_el s)) as [a e]; simpl in *. inv R.
    - rewrite H. split; simpl; auto.
    - rewrite H. split; simpl; auto.
  Qed.

  (** ---- what is shown by induction on the rules ---- *)
  Definition P_reads s0 p a p' : Prop := exists N, forall n, N <= n -> forall loc d s, shows b d p (st_el s) ->
    ends d (read n ev s0 eas loc s) a p'.

  Definition P_items s0 p l p' : Prop := exists N, forall n k, N <= n -> N <= k ->
    forall title hide loc d idx result errors s, shows b d p (st_el s) ->
    let res := read_items k (read n ev s0) title hide eas loc idx result errors s in
    shows b d p' (st_el (snd res)) /\
    (forall vs, l = map Got vs -> errors = [] -> gives (fst res) (Got (as_list (result ++ vs)))) /\
    (Forall goes_on l -> errors <> [] \/ Exists refused l -> gives (fst res) (Refused title (noted errors ++ numbered idx l))) /\
    (forall w, In (Stopped w) l -> gives (fst res) (Stopped w)).

  Definition P_each ss p l p' : Prop := exists N, forall n, N <= n ->
    forall title hide loc d idx result errors s, shows b d p (st_el s) ->
    let res := read_tuple (map (read n ev) ss) title hide eas loc idx result errors s in
    shows b d p' (st_el (snd res)) /\
    (forall vs v, l = map Got vs -> errors = [] -> as_tuple (result ++ vs) v -> gives (fst res) (Got v)) /\
    (Forall goes_on l -> errors <> [] \/ Exists refused l -> gives (fst res) (Refused title (noted errors ++ numbered idx l))) /\
    (forall w, In (Stopped w) l -> gives (fst res) (Stopped w)).

  Definition P_tries title qs p noted a p' : Prop := exists N, forall n, N <= n ->
    forall hide loc d errors s, shows b d p (st_el s) -> noted = rdict errors ->
    ends d (read_variants (map (read_proxy ev (read n ev)) qs) title hide eas loc errors s) a p'.

  Definition P_picks attr mode qs p a p' : Prop := exists N, forall n, N <= n ->
    forall loc d s, shows b d p (st_el s) -> ends d (read_tagged (read_proxy ev (read n ev)) attr mode qs eas loc s) a p'.

  Definition P_in mode s0 path p a p' : Prop := exists N, forall n, N <= n -> forall loc d e sm, shows b d p e ->
    let f := fun c => read n ev s0 eas loc (note_line loc c) in
    match path with
    | [] => ends d (f (St e sm)) a p'
    | _ :: _ =>
        ends d (match find_sub_element path mode e with
                | (None, e') => (Raise XIndexError, St e' sm)
                | (Some idxs, e') =>
                    if negb (Nat.eqb (length idxs) 0) && Nat.eqb (length idxs) (length path)
                    then on_path idxs f (St e' sm) else (Ok VNone, St e' sm)
                end) a p'
    end.

  Definition P_sub q p a p' : Prop := exists N, forall n, N <= n -> forall loc d s, shows b d p (st_el s) ->
    ends d (read_proxy ev (read n ev) q eas loc s) a p'.

  Definition P_fields fs p l p' : Prop := exists N, forall n, N <= n -> forall m, (forall name, md_cval m name = None) ->
    forall d found errors s, shows b d p (st_el s) ->
    exists o s', read_fields (read n ev) m fs eas (given m found) errors s = (o, s') /\ shows b d p' (st_el s') /\
      (Forall goes_on l -> length l = length fs /\ exists vs es, o = Ok (vs, es) /\ rdict es = dupdate (rdict errors) (refusals (combine (map fst fs) l)) /\
         forall xs, l = map Got xs -> vs = given m (found ++ combine (map fst fs) xs)) /\
      (forall w, In (Stopped w) l -> o = Raise (XUser w)).

  Definition P_model m p a p' : Prop := (forall name, md_cval m name = None) -> exists N, forall n, N <= n ->
    forall loc d s, shows b d p (st_el s) -> ends d (read_model (read n ev) m eas loc s) a p'.

  Lemma judged_ends : forall m d p input s a, shows b d p (st_el s) -> judged m p input a -> gives (validate_result m input s) a.
  Proof.
    intros m d p input s a Sh J. unfold validate_result. pose proof (@extra_iff ev d p (st_el s) (md_name m) (md_hide m) Sh) as X.
    assert (U : (md_forbid m = true -> used_up p) -> (if md_forbid m then check_extra (md_name m) (st_el s) (md_hide m) else None) = None).
    { intros U. destruct (md_forbid m); auto. apply X; auto. }
    unfold gives. inv J.
    - rewrite H. destruct (check_extra (md_name m) (st_el s) (md_hide m)) as [er|] eqn:Ee.
      + cbn [ans]. destruct (@extra_remarks ev d p (st_el s) (md_name m) (md_hide m) er Sh Ee) as [-> ->]. auto.
      + destruct H0. apply X; auto.
    - rewrite U; auto. rewrite H0. simpl; auto.
    - rewrite U; auto. rewrite H0. cbn [ans]. rewrite line_remarks. auto.
    - rewrite U; auto. rewrite H0. simpl; auto.
  Qed.

  Ltac up n := match goal with Q : ?N <= n |- _ => destruct n as [|n]; [exfalso; lia|] end.

  Lemma computed_ends : forall s0 p, computed ev s0 -> P_reads s0 p (Got VNone) p.
  Proof.
    intros s0 p C. exists 1. intros n L loc d s Sh. up n. cbn [read]. inv C; cbn [read_step];
      try (split; simpl; auto; fail).
    - unfold read_attrs. rewrite H. split; simpl; auto.
    - unfold read_map_elem. rewrite H. split; simpl; auto.
    - unfold read_proxy. destruct (en_model ev (px_model p0)) eqn:E; [|destruct H0; congruence]. rewrite H. split; simpl; auto.
  Qed.

  Lemma no_variants : forall title p, P_tries title [] p [] (Got VNone) p.
  Proof.
    intros title p. exists 0. intros n L hide loc d errors s Sh Eb. destruct errors; [split; simpl; auto; reflexivity|discriminate].
  Qed.

  (** one wrapper further in *)
  Lemma enter_ends : forall n s0 loc sm mode path tag d (i : nat) e1 c inner x a l (back : page -> page),
    let f := fun c => read n ev s0 eas loc (note_line loc c) in
    nth_error (e_elems e1) i = Some x ->
    (forall rem x', shows b c rem x' -> shows b d (back rem) (put_child i x' e1)) ->
    shows b c inner x ->
    match path with
    | [] => ends c (f (St x sm)) a l
    | _ :: _ =>
        ends c (match find_sub_element path mode x with
                | (None, e') => (Raise XIndexError, St e' sm)
                | (Some idxs, e') =>
                    if negb (Nat.eqb (length idxs) 0) && Nat.eqb (length idxs) (length path)
                    then on_path idxs f (St e' sm) else (Ok VNone, St e' sm)
                end) a l
    end ->
    ends d (match match path with
                  | [] => (Some [i], e1)
                  | _ :: _ => match nth_error (e_elems e1) i with
                              | None => (Some [], e1)
                              | Some c => let (r, c') := find_sub_element path mode c in
                                          (match r with Some is' => Some (i :: is') | None => None end, put_child i c' e1)
                              end
                  end with
            | (None, e') => (Raise XIndexError, St e' sm)
            | (Some idxs, e') =>
                if negb (Nat.eqb (length idxs) 0) && Nat.eqb (length idxs) (length (tag :: path : list string))
                then on_path idxs f (St e' sm) else (Ok VNone, St e' sm)
            end) a (back l).
  Proof.
    intros n s0 loc sm mode path tag d i e1 c inner x a l back f En Put Sx H. destruct path as [|t2 path].
    - simpl. unfold on_child. simpl. rewrite En. destruct H as [H1 H2]. destruct (f (St x sm)) as [o s1]. split; simpl in *; auto.
    - rewrite En. destruct (find_sub_element (t2 :: path) mode x) as [[idxs|] x1].
      2:{ destruct H as [H1 H2]. discriminate. }
      assert (Ei : i < length (e_elems e1)) by (apply nth_error_Some; congruence).
      assert (En1 : nth_error (list_upd i x1 (e_elems e1)) i = Some x1) by (apply nth_error_list_upd_same; auto).
      replace (negb (Nat.eqb (length (i :: idxs)) 0) && Nat.eqb (length (i :: idxs)) (length (tag :: t2 :: path)))
        with (negb (Nat.eqb (length idxs) 0) && Nat.eqb (length idxs) (length (t2 :: path))).
      2:{ destruct idxs; auto. }
      destruct (negb (Nat.eqb (length idxs) 0) && Nat.eqb (length idxs) (length (t2 :: path))).
      + cbn [on_path]. unfold on_child at 1. cbn [st_el st_sm]. unfold put_child at 1. cbn [set_elems e_elems]. rewrite En1.
        destruct H as [H1 H2]. destruct (on_path idxs f (St x1 sm)) as [o s1]. split; auto. cbn [snd st_el].
        assert (Z : forall y, put_child i y (put_child i x1 e1) = put_child i y e1).
        { intros y. unfold put_child. simpl. unfold set_elems. simpl. rewrite upd_upd. auto. }
        rewrite Z. auto.
      + destruct H as [H1 H2]. split; simpl in *; auto.
  Qed.

  Theorem obeyed :
    (forall s0 p a p', reads ev eas s0 p a p' -> P_reads s0 p a p') /\
    (forall s0 p l p', reads_items ev eas s0 p l p' -> P_items s0 p l p') /\
    (forall ss p l p', reads_each ev eas ss p l p' -> P_each ss p l p') /\
    (forall title qs p noted a p', tries ev eas title qs p noted a p' -> P_tries title qs p noted a p') /\
    (forall attr mode qs p a p', picks ev eas attr mode qs p a p' -> P_picks attr mode qs p a p') /\
    (forall mode s0 path p a p', reads_in ev eas mode s0 path p a p' -> P_in mode s0 path p a p') /\
    (forall q p a p', reads_sub ev eas q p a p' -> P_sub q p a p') /\
    (forall fs p l p', reads_fields ev eas fs p l p' -> P_fields fs p l p') /\
    (forall m p a p', reads_model ev eas m p a p' -> P_model m p a p').
  Proof.
    apply rules_ind; intros.
    - apply computed_ends; auto.
    - exists 1. intros fu L loc d st0 Sh. up fu. eapply text_ends; eauto.
    - exists 1. intros fu L loc d st0 Sh. up fu. cbn [read read_step]. unfold read_attr.
      destruct (@pop_attrib_shows b d p (st_el st0) name Sh) as [S1 E1]. destruct (pop_attrib name (st_el st0)) as [v e1]; simpl in *.
      subst v. split; simpl; auto.
    - exists 1. intros fu L loc d st0 Sh. up fu. cbn [read read_step]. unfold read_elem. apply with_found_none; auto.
    - exists 1. intros fu L loc d st0 Sh. up fu. cbn [read read_step]. unfold read_elem. eapply with_found_some; eauto.
      intros cs Ec. eapply text_ends; eauto. simpl. rewrite Ec. apply shows_new.
    - exists 1. intros fu L loc d st0 Sh. up fu. eapply attrs_ends; eauto.
    - exists 1. intros fu L loc d st0 Sh. up fu. cbn [read read_step]. unfold read_map_elem. rewrite e. apply with_found_none; auto.
    - exists 1. intros fu L loc d st0 Sh. up fu. cbn [read read_step]. unfold read_map_elem. rewrite e. eapply with_found_some; eauto.
      intros cs Ec. eapply attrs_ends; eauto. simpl. rewrite Ec. apply shows_new.
    - (* list *) destruct H as [N H]. exists (S N). intros fu L loc d st0 Sh. up fu. cbn [read read_step]. unfold read_homo.
      destruct (H fu fu ltac:(lia) ltac:(lia) title hide loc d 0 [] [] st0 Sh) as (A1 & A2 & A3 & A4). split; auto.
      apply (A2 vs); auto.
    - destruct H as [N H]. exists (S N). intros fu L loc d st0 Sh. up fu. cbn [read read_step]. unfold read_homo.
      destruct (H fu fu ltac:(lia) ltac:(lia) title hide loc d 0 [] [] st0 Sh) as (A1 & A2 & A3 & A4). split; auto.
      inv f; [apply A3; auto|apply A4; auto].
    - destruct H as [N H]. exists (S N). intros fu L loc d st0 Sh. up fu. cbn [read read_step]. unfold read_hetero.
      destruct (H fu ltac:(lia) title hide loc d 0 [] [] st0 Sh) as (A1 & A2 & A3 & A4). split; auto. apply (A2 vs v); auto.
    - destruct H as [N H]. exists (S N). intros fu L loc d st0 Sh. up fu. cbn [read read_step]. unfold read_hetero.
      destruct (H fu ltac:(lia) title hide loc d 0 [] [] st0 Sh) as (A1 & A2 & A3 & A4). split; auto.
      inv f; [apply A3; auto|apply A4; auto].
    - destruct H as [N H]. exists (S N). intros fu L loc d st0 Sh. up fu. cbn [read read_step]. unfold read_union_prim. apply H; auto; lia.
    - destruct H as [N H]. exists (S N). intros fu L loc d st0 Sh. up fu. cbn [read read_step]. unfold read_union_model. apply H; auto; lia.
    - destruct H as [N H]. exists (S N). intros fu L loc d st0 Sh. up fu. cbn [read read_step]. apply H; auto; lia.
    - (* wrapper *) destruct H as [N H]. exists (S N). intros fu L loc d st0 Sh. up fu. cbn [read read_step]. unfold read_wrap.
      specialize (H fu ltac:(lia) loc d (st_el st0) (st_sm st0) Sh). destruct path as [|t path]; [congruence|]. exact H.
    - exists 1. intros fu L loc d st0 Sh. up fu. cbn [read read_step]. unfold read_raw. apply with_found_none; auto.
    - exists 1. intros fu L loc d st0 Sh. up fu. cbn [read read_step]. unfold read_raw. eapply with_found_some; eauto.
      intros cs Ec. rewrite Ec. assert (Nc : is_xml_comment c = false) by (inv s; destruct c; simpl in *; auto; contradiction).
      assert (Ex : extract (from_native b c) = (from_native b c, Elem (native_tag c) None None None None [] 0 (e_line (from_native b c)))) by (destruct c; auto).
      rewrite Ex. replace (to_native b (from_native b c)) with (Some x) by (symmetry; apply copied_iff; auto).
      split; [reflexivity|]. simpl. apply shows_intro with (front := []); simpl; auto.
    - destruct H as [N H]. exists (S N). intros fu L loc d st0 Sh. up fu. cbn [read read_step]. apply H; auto; lia.
    - (* items *) destruct H as [N H]. exists (S N). intros fu k L1 L2 title hide loc d idx result errors st0 Sh. up k. cbn [read_items].
      destruct (H fu ltac:(lia) (loc ++ [LIdx idx]) d st0 Sh) as [G1 G2]. destruct (read fu ev s eas (loc ++ [LIdx idx]) st0) as [o s1]; simpl in G1, G2.
      apply gives_got in G1. subst o. destruct errors as [|er ers]; cbn zeta.
      + split; auto. split; [intros vs Ev _; destruct vs; [|discriminate]; rewrite app_nil_r; destruct result; reflexivity|]. split; [intros _ [Q|Q]; [congruence|inv Q]|]. intros w [].
      + split; auto. split; [discriminate|]. split; [|intros w []]. intros _ _. unfold gives. cbn [fst ans]. rewrite into_remarks. simpl. rewrite app_nil_r. auto.
    - destruct H as [N1 H1]. destruct H0 as [N2 H2]. exists (S (N1 + N2)). intros fu k L1 L2 title hide loc d idx result errors st0 Sh. up k. cbn [read_items].
      destruct (H1 fu ltac:(lia) (loc ++ [LIdx idx]) d st0 Sh) as [G1 G2]. destruct (read fu ev s eas (loc ++ [LIdx idx]) st0) as [o s1]; simpl in G1, G2.
      destruct a as [v|t rs|w]; [| |destruct g].
      + apply gives_got in G1. subst o. specialize (H2 fu k ltac:(lia) ltac:(lia) title hide loc d (S idx) (result ++ [v]) errors s1 G2). cbn zeta in *.
        match type of H2 with shows _ _ _ (st_el (snd ?z)) /\ _ => set (res := z) in *;
        assert (Y : shows b d p' (st_el (snd res)) /\
          (forall vs, Got v :: l = map Got vs -> errors = [] -> gives (fst res) (Got (as_list (result ++ vs)))) /\
          (Forall goes_on (Got v :: l) -> errors <> [] \/ Exists refused (Got v :: l) -> gives (fst res) (Refused title (noted errors ++ numbered idx (Got v :: l)))) /\
          (forall w, In (Stopped w) (Got v :: l) -> gives (fst res) (Stopped w))) end.
        { destruct H2 as (A1 & A2 & A3 & A4). split; auto. split; [|split].
          - intros [|w vs] Ev Ee; [discriminate|]. simpl in Ev. inv Ev. specialize (A2 vs eq_refl eq_refl). rewrite <- app_assoc in A2. auto.
          - intros G Q. inv G. apply A3; auto. destruct Q as [Q|Q]; auto. inv Q; auto; try contradiction.
          - intros w [Q|Q]; [discriminate|auto]. }
        destruct v; try exact Y. congruence.
      + apply gives_refused in G1. destruct G1 as (err & -> & <- & <-). specialize (H2 fu k ltac:(lia) ltac:(lia) title hide loc d (S idx) result (errors ++ [(Some (LIdx idx), err)]) s1 G2). cbn zeta in *.
        destruct H2 as (A1 & A2 & A3 & A4). split; auto. split; [|split].
        * intros [|w vs] Ev; discriminate.
        * intros G _. inv G. rewrite noted_snoc, <- app_assoc in A3. apply A3; auto. left. destruct errors; discriminate.
        * intros w [Q|Q]; [discriminate|auto].
    - destruct H as [N H]. exists (S N). intros fu k L1 L2 title hide loc d idx result errors st0 Sh. up k. cbn [read_items].
      destruct (H fu ltac:(lia) (loc ++ [LIdx idx]) d st0 Sh) as [G1 G2]. destruct (read fu ev s eas (loc ++ [LIdx idx]) st0) as [o s1]; simpl in G1, G2.
      apply gives_stopped in G1. subst o. cbn zeta. split; auto. split; [intros [|v vs] Q; discriminate|]. split; [intros G; inv G; contradiction|].
      intros w0 [Q|[]]. inv Q. reflexivity.
    - (* tuples *) exists 0. intros fu L title hide loc d idx result errors st0 Sh. cbn [map read_tuple]. destruct errors as [|er ers]; cbn zeta.
      + split; auto. split; [|split; [intros _ [Q|Q]; [congruence|inv Q]|intros w []]]. intros vs v Ev _ T. destruct vs; [|discriminate]. rewrite app_nil_r in T. unfold gives. simpl. do 2 f_equal.
        inv T.
        * replace (forallb is_none result) with true; auto. symmetry. apply forallb_forall. rewrite Forall_forall in H. intros x Hx. rewrite (H x Hx). auto.
        * replace (forallb is_none result) with false; auto. symmetry. apply not_true_iff_false. rewrite forallb_forall. intros Q.
          apply Exists_exists in H. destruct H as (x & Hx & Nx). specialize (Q x Hx). destruct x; try discriminate; congruence.
      + split; auto. split; [discriminate|]. split; [|intros w []]. intros _ _. unfold gives. cbn [fst ans]. rewrite into_remarks. simpl. rewrite app_nil_r. auto.
    - destruct H as [N1 H1]. destruct H0 as [N2 H2]. exists (N1 + N2). intros fu L title hide loc d idx result errors st0 Sh. cbn [map read_tuple].
      destruct (H1 fu ltac:(lia) (loc ++ [LIdx idx]) d st0 Sh) as [G1 G2]. destruct (read fu ev s eas (loc ++ [LIdx idx]) st0) as [o s1]; simpl in G1, G2.
      destruct a as [v|t rs|w]; [| |destruct g].
      + apply gives_got in G1. subst o. specialize (H2 fu ltac:(lia) title hide loc d (S idx) (result ++ [v]) errors s1 G2). cbn zeta in *.
        destruct H2 as (A1 & A2 & A3 & A4). split; auto. split; [|split].
        * intros [|w vs] u Ev Ee T; [discriminate|]. simpl in Ev. inv Ev. apply (A2 vs); auto. rewrite <- app_assoc. auto.
        * intros G Q. inv G. apply A3; auto. destruct Q as [Q|Q]; auto. inv Q; auto; try contradiction.
        * intros w [Q|Q]; [discriminate|auto].
      + apply gives_refused in G1. destruct G1 as (err & -> & <- & <-). specialize (H2 fu ltac:(lia) title hide loc d (S idx) result (errors ++ [(Some (LIdx idx), err)]) s1 G2). cbn zeta in *.
        destruct H2 as (A1 & A2 & A3 & A4). split; auto. split; [|split].
        * intros [|w vs] u Ev; discriminate.
        * intros G _. inv G. rewrite noted_snoc, <- app_assoc in A3. apply A3; auto. left. destruct errors; discriminate.
        * intros w [Q|Q]; [discriminate|auto].
    - destruct H as [N H]. exists N. intros fu L title hide loc d idx result errors st0 Sh. cbn [map read_tuple].
      destruct (H fu ltac:(lia) (loc ++ [LIdx idx]) d st0 Sh) as [G1 G2]. destruct (read fu ev s eas (loc ++ [LIdx idx]) st0) as [o s1]; simpl in G1, G2.
      apply gives_stopped in G1. subst o. cbn zeta. split; auto. split; [intros [|v vs] u Q; discriminate|]. split; [intros G; inv G; contradiction|].
      intros w0 [Q|[]]. inv Q. reflexivity.
    - (* unions *) apply no_variants.
    - exists 0. intros fu L hide loc d errors st0 Sh Eb. cbn [map read_variants]. destruct errors as [|er ers]; [unfold rdict in Eb; simpl in Eb; congruence|].
      split; [|apply step_shows; auto]. unfold gives. cbn [fst ans]. rewrite into_remarks, noted_names, <- Eb. auto.
    - destruct H as [N H]. exists N. intros fu L hide loc d errors st0 Sh Eb. cbn [map read_variants]. rewrite create_snapshot_id.
      destruct (H fu L loc d (set_el (st_el st0) st0) Sh) as [G1 G2]. destruct (read_proxy ev (read fu ev) q eas loc (set_el (st_el st0) st0)) as [o s1]; simpl in G1, G2.
      apply gives_got in G1. subst o. destruct v; try congruence; (split; [reflexivity|apply apply_shows; exact G2]).
    - destruct H as [N1 H1]. destruct H0 as [N2 H2]. exists (N1 + N2). intros fu L hide loc d errors st0 Sh Eb. cbn [map read_variants]. rewrite create_snapshot_id.
      destruct (H1 fu ltac:(lia) loc d (set_el (st_el st0) st0) Sh) as [G1 G2]. destruct (read_proxy ev (read fu ev) q eas loc (set_el (st_el st0) st0)) as [o s1]; simpl in G1, G2.
      apply gives_got in G1. subst o. apply H2; auto. lia.
    - destruct H as [N1 H1]. destruct H0 as [N2 H2]. exists (N1 + N2). intros fu L hide loc d errors st0 Sh Eb. cbn [map read_variants]. rewrite create_snapshot_id.
      destruct (H1 fu ltac:(lia) loc d (set_el (st_el st0) st0) Sh) as [G1 G2]. destruct (read_proxy ev (read fu ev) q eas loc (set_el (st_el st0) st0)) as [o s1]; simpl in G1, G2.
      apply gives_refused in G1. destruct G1 as (err & -> & <- & <-). apply H2; auto; [lia|]. rewrite rdict_dset, Eb. auto.
    - destruct H as [N H]. exists N. intros fu L hide loc d errors st0 Sh Eb. cbn [map read_variants]. rewrite create_snapshot_id.
      destruct (H fu L loc d (set_el (st_el st0) st0) Sh) as [G1 G2]. destruct (read_proxy ev (read fu ev) q eas loc (set_el (st_el st0) st0)) as [o s1]; simpl in G1, G2.
      apply gives_stopped in G1. subst o. split; [reflexivity|exact Sh].
    - (* discriminated unions *) exists 0. intros fu L loc d st0 Sh. split; simpl; auto.
    - destruct H as [N H]. exists N. intros fu L loc d st0 Sh. cbn [read_tagged]. unfold find_element, search.
      pose proof (@forward_peek b d p (st_el st0) mode (px_name q) Sh) as X. apply seek_none in m. rewrite m in X. rewrite X. cbn beta iota. apply H; auto.
    - destruct H as [N H]. exists N. intros fu L loc d s0 Sh. cbn [read_tagged]. unfold find_element, search.
      pose proof (@forward_peek b d p (st_el s0) mode (px_name q) Sh) as X. apply seek_some in s. rewrite s in X. destruct X as (i & e' & -> & En & Pk).
      cbn beta iota. rewrite En. rewrite (@from_attr ev _ _ attr (seek_found _ _ _ s)).
      replace (match dget attr (own_attributes c) with Some t => String.eqb t tag | None => false end) with false; [apply H; auto|].
      destruct (dget attr (own_attributes c)) as [t|]; auto. symmetry. apply String.eqb_neq. congruence.
    - destruct H as [N H]. exists N. intros fu L loc d s0 Sh. cbn [read_tagged]. unfold find_element, search.
      pose proof (@forward_peek b d p (st_el s0) mode (px_name q) Sh) as X. apply seek_some in s. rewrite s in X. destruct X as (i & e' & -> & En & Pk).
      cbn beta iota. rewrite En. rewrite (@from_attr ev _ _ attr (seek_found _ _ _ s)), e, String.eqb_refl. apply H; auto.
    - (* paths *) destruct H as [N H]. exists N. intros fu L loc d e sm Sh f. apply H; auto.
    - destruct H as [N H]. exists N. intros fu L loc d e sm Sh f. cbn [find_sub_element]. unfold find_element, search.
      pose proof (@behind_shows b d p e tag Sh) as X. rewrite (proj2 (ends_with_some p tag front c left) (conj l n)) in X.
      destruct X as (i & x & -> & En & Sx & Put). cbn beta iota. apply (@enter_ends fu s loc sm mode path tag d i e c left x a left' (reopen p front c)); auto.
      apply (H fu L loc c x sm Sx).
    - exists 0. intros fu L loc d e sm Sh f. cbn [find_sub_element]. unfold find_element, search. pose proof (@behind_shows b d p e tag Sh) as X.
      rewrite (proj2 (ends_with_none p tag) n) in X. rewrite X. pose proof (@forward_step b d p e mode tag Sh) as Y.
      apply seek_none in m. rewrite m in Y. rewrite Y. split; simpl; auto.
    - destruct H as [N H]. exists N. intros fu L loc d e sm Sh f. cbn [find_sub_element]. unfold find_element, search. pose proof (@behind_shows b d p e tag Sh) as X.
      rewrite (proj2 (ends_with_none p tag) n) in X. rewrite X. pose proof (@forward_step b d p e mode tag Sh) as Y.
      apply seek_some in s0. rewrite s0 in Y. destruct Y as (i & e' & -> & En & Put). cbn beta iota.
      apply (@enter_ends fu s loc sm mode path tag d i e' c (unopened c) (from_native b c) a left (fun l => pass p skipped c l rest)); auto.
      + apply shows_new.
      + apply (H fu L loc c _ sm (shows_new b c)).
    - (* sub-models *) exists 0. intros fu L loc d st0 Sh. unfold read_proxy. rewrite e, e0. split; simpl; auto.
    - exists 0. intros fu L loc d st0 Sh. unfold read_proxy. rewrite e, e0. apply with_found_none; auto.
    - exists 0. intros fu L loc d s0 Sh. unfold read_proxy. rewrite e, e0. eapply with_found_some; eauto. intros cs Ec. cbn zeta.
      assert (Sc : shows b c (unopened c) (st_el (note_line loc cs))) by (simpl; rewrite Ec; apply shows_new).
      destruct (nil_shows Sc) as [S1 E1]. destruct (is_element_nill (st_el (note_line loc cs))) as [nil e2]; simpl in S1, E1.
      replace nil with true by (symmetry; apply E1; auto). split; simpl; auto.
    - destruct H as [N H]; [eapply HP; eauto|]. exists N. intros fu L loc d s0 Sh. unfold read_proxy. rewrite e, e0. eapply with_found_some; eauto. intros cs Ec. cbn zeta.
      assert (Sc : shows b c (unopened c) (st_el (note_line loc cs))) by (simpl; rewrite Ec; apply shows_new).
      destruct (nil_shows Sc) as [S1 E1]. destruct (is_element_nill (st_el (note_line loc cs))) as [nil e2]; simpl in S1, E1.
      assert (nil = false) by (destruct nil; auto; destruct n; apply E1; auto). subst nil. apply H; auto.
    - (* fields *) exists 0. intros fu L m Hc d found errors st0 Sh. cbn [read_fields]. eexists _, _. split; [reflexivity|]. split; auto. split; [|intros w []].
      intros _. split; auto. eexists _, _. split; [reflexivity|]. split; auto. intros [|x xs] Ex; [|discriminate]. rewrite app_nil_r. auto.
    - destruct H as [N1 H1]. destruct H0 as [N2 H2]. exists (N1 + N2). intros fu L m Hc d found errors s0 Sh. cbn [read_fields]. rewrite Hc. cbn zeta.
      destruct (H1 fu ltac:(lia) [LKey name] d (note_line [LKey name] s0) Sh) as [G1 G2].
      destruct (read fu ev s eas [LKey name] (note_line [LKey name] s0)) as [o s1]; simpl in G1, G2.
      destruct a as [v|t rs|w]; [| |destruct g].
      + apply gives_got in G1. subst o. destruct (H2 fu ltac:(lia) m Hc d (found ++ [(name, v)]) errors s1 G2) as (o & s' & E & S' & A1 & A2).
        assert (Ev : given m (found ++ [(name, v)]) = match v with VNone => given m found | _ => dset (input_key m name) v (given m found) end).
        { destruct v; try (apply given_snoc; discriminate). apply given_none. }
        rewrite Ev in E. unfold input_key in E.
        exists o, s'. split; [destruct v; exact E|]. split; auto. split.
        * intros G. apply Forall_inv_tail in G. destruct (A1 G) as (Ln & vs & es & -> & Ees & Evs). split; [simpl; lia|]. exists vs, es. split; auto. split; auto.
          intros [|x xs] Ex; [discriminate|]. simpl in Ex. inv Ex. rewrite (Evs xs eq_refl), <- app_assoc. auto.
        * intros w [Q|Q]; [discriminate|auto].
      + apply gives_refused in G1. destruct G1 as (err & -> & <- & <-). destruct (H2 fu ltac:(lia) m Hc d found (dset name err errors) s1 G2) as (o & s' & E & S' & A1 & A2).
        exists o, s'. split; auto. split; auto. split.
        * intros G. apply Forall_inv_tail in G. destruct (A1 G) as (Ln & vs & es & -> & Ees & Evs). split; [simpl; lia|]. exists vs, es. split; auto. split; [rewrite Ees, rdict_dset; auto|].
          intros [|x xs] Ex; discriminate.
        * intros w [Q|Q]; [discriminate|auto].
    - destruct H as [N H]. exists N. intros fu L m Hc d found errors s0 Sh. cbn [read_fields]. rewrite Hc. cbn zeta.
      destruct (H fu ltac:(lia) [LKey name] d (note_line [LKey name] s0) Sh) as [G1 G2].
      destruct (read fu ev s eas [LKey name] (note_line [LKey name] s0)) as [o s1]; simpl in G1, G2. apply gives_stopped in G1. subst o.
      eexists _, _. split; [reflexivity|]. split; auto. split; [intros G; inv G; contradiction|]. intros w0 [Q|[]]. congruence.
    - (* classes *) intros Hc. destruct H as [N H]. exists N. intros fu L loc d st0 Sh. unfold read_model. rewrite e. unfold read_plain_model.
      destruct (H fu L m Hc d [] [] st0 Sh) as (o & st0' & E & S' & A1 & A2). change (given m []) with (@nil (string * val)) in E. rewrite E.
      destruct (A1 (got_go vs)) as (Ln & vs' & es & -> & Ees & Evs). rewrite got_refusals in Ees. apply rdict_nil in Ees. subst es.
      rewrite (Evs vs eq_refl). split; simpl; auto. eapply judged_ends; eauto.
    - intros Hc. destruct H as [N H]. exists N. intros fu L loc d st0 Sh. unfold read_model. rewrite e. unfold read_plain_model.
      destruct (H fu L m Hc d [] [] st0 Sh) as (o & st0' & E & S' & A1 & A2). change (given m []) with (@nil (string * val)) in E. rewrite E. inv f.
      + destruct (A1 H1) as (Ln & vs' & es & -> & Ees & Evs). change (dupdate (rdict []) ?z) with (dict_of z) in Ees. destruct es as [|er ers].
        * destruct (@dupdate_some _ (refusals (combine (map fst (md_fields m)) answers)) []); [apply refused_refusals; auto; rewrite map_length; auto|]. symmetry. exact Ees.
        * split; auto. unfold gives. cbn [fst ans]. rewrite into_remarks, noted_names, Ees. auto.
      + rewrite (A2 w); auto. split; [reflexivity|exact S'].
    - intros Hc. destruct H as [N H]. exists N. intros fu L loc d s0 Sh. unfold read_model. rewrite e. unfold read_root_model. rewrite e0.
      destruct (H fu L loc d s0 Sh) as [G1 G2]. destruct (read fu ev s eas loc s0) as [o s1]; simpl in G1, G2. apply gives_got in G1. subst o. split; simpl; auto.
      assert (Ei : (if is_none v then None else Some v) = match v with VNone => None | _ => Some v end) by (destruct v; auto).
      rewrite Ei. eapply judged_ends; eauto.
    - intros Hc. destruct H as [N H]. exists N. intros fu L loc d s0 Sh. unfold read_model. rewrite e. unfold read_root_model. rewrite e0.
      destruct (H fu L loc d s0 Sh) as [G1 G2]. destruct (read fu ev s eas loc s0) as [o s1]; simpl in G1, G2. apply gives_refused in G1. destruct G1 as (err & -> & <- & <-).
      split; auto. unfold gives. cbn [fst ans]. rewrite into_remarks, noted_root. auto.
    - intros Hc. destruct H as [N H]. exists N. intros fu L loc d s0 Sh. unfold read_model. rewrite e. unfold read_root_model. rewrite e0.
      destruct (H fu L loc d s0 Sh) as [G1 G2]. destruct (read fu ev s eas loc s0) as [o s1]; simpl in G1, G2. apply gives_stopped in G1. subst o. split; auto; try reflexivity.
  Qed.
End Obey.
