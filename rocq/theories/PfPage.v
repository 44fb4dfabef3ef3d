(** PfPage.v -- elements as pages: the searches. *)

From Verif Require Import Base Elem Native Errs Names Ser Read Api PfElem SpecSim SpecOut SpecSub SpecPage.

Local Ltac inv H := inversion H; subst; clear H.

(** the element [e], made from [d], is what the page [p] says *)
Inductive shows (b : backend) : native -> page -> elem -> Prop :=
| shows_intro : forall d p e front,
    e_tag e = native_tag d -> e_text e = pg_text p -> e_tail e = pg_tail p -> e_attrib e = pg_attrs p ->
    Forall2 (fun cp c => shows b (fst cp) (snd cp) c) (pg_passed p) front ->
    e_elems e = front ++ map (from_native b) (pg_ahead p) -> e_next e = length front -> shows b d p e.

Lemma kids_map : forall b l, flat_map (fun c => if is_xml_comment c then [] else [from_native b c]) l = map (from_native b) (no_comments l).
Proof. intros b l; induction l as [|c l IH]; auto. unfold no_comments in *; simpl. destruct (is_xml_comment c); simpl; rewrite IH; auto. Qed.

Lemma shows_new : forall b d, shows b d (unopened d) (from_native b d).
Proof.
  intros b d. apply shows_intro with (front := []); destruct d; simpl; auto. apply kids_map.
Qed.

(** ---- the searches as functions ---- *)
Definition is_named (tag : string) (d : native) : bool := tag_is (native_tag d) tag.

Lemma is_named_iff : forall tag d, is_named tag d = true <-> named tag d.
Proof. intros tag d; destruct d; simpl; unfold is_named; simpl; [apply String.eqb_eq|split; [discriminate|tauto]..]. Qed.

Lemma is_named_not : forall tag d, is_named tag d = false <-> ~ named tag d.
Proof. intros tag d. rewrite <- is_named_iff. destruct (is_named tag d); split; congruence. Qed.

Lemma from_tag : forall b d, e_tag (from_native b d) = native_tag d.
Proof. intros b d; destruct d; auto. Qed.

Fixpoint first (tag : string) (l : list native) : option (list native * native * list native) :=
  match l with
  | [] => None
  | c :: l' =>
      if is_named tag c then Some ([], c, l')
      else match first tag l' with Some (pre, k, post) => Some (c :: pre, k, post) | None => None end
  end.

Lemma first_none : forall tag l, first tag l = None <-> Forall (fun k => ~ named tag k) l.
Proof.
  intros tag l; induction l as [|c l IH]; simpl; [split; auto|].
  destruct (is_named tag c) eqn:E.
  - split; [discriminate|]. intros F; inv F. apply is_named_iff in E; tauto.
  - destruct (first tag l) as [[[? ?] ?]|].
    + split; [discriminate|]. intros F; inv F. destruct IH as [_ IH]. discriminate (IH H2).
    + split; auto. intros _. constructor; [apply is_named_not, E|apply IH; auto].
Qed.

Lemma first_some : forall tag l pre c post, first tag l = Some (pre, c, post) <->
  l = pre ++ c :: post /\ named tag c /\ Forall (fun k => ~ named tag k) pre.
Proof.
  intros tag l; induction l as [|x l IH]; intros pre c post; simpl.
  - split; [discriminate|]. intros (E & _). destruct pre; discriminate.
  - destruct (is_named tag x) eqn:E.
    + split.
      * intros H; inv H. split; auto. split; [apply is_named_iff, E|constructor].
      * intros (E1 & N & F). destruct pre as [|y pre]; simpl in E1; inv E1; auto. inv F.
        apply is_named_iff in E. contradiction.
    + destruct (first tag l) as [[[pre' c'] post']|] eqn:E1.
      * split.
        -- intros H; inv H. destruct (proj1 (IH pre' c post) eq_refl) as (E2 & N & F). subst l.
           split; auto. split; auto. constructor; auto. apply is_named_not, E.
        -- intros (E2 & N & F). destruct pre as [|y pre]; simpl in E2; inv E2.
           ++ apply is_named_iff in N. congruence.
           ++ inv F. assert (X : Some (pre', c', post') = Some (pre, c, post)) by (apply IH; auto). inv X. auto.
      * split; [discriminate|]. intros (E2 & N & F). destruct pre as [|y pre]; simpl in E2; inv E2.
        -- apply is_named_iff in N. congruence.
        -- inv F. assert (X : None = Some (pre, c, post)) by (apply IH; auto). discriminate.
Qed.

Definition seek (mode : smode) (tag : string) (l : list native) : option (list native * native * list native) :=
  match mode with
  | Strict => match l with c :: r => if is_named tag c then Some ([], c, r) else None | [] => None end
  | Ordered => first tag l
  | Unordered =>
      match first tag l with
      | Some ([], c, r) => Some ([], c, r)
      | Some (k :: pre, c, r) => Some ([], c, pre ++ k :: r)
      | None => None
      end
  end.

Lemma seek_none : forall mode tag l, seek mode tag l = None <-> missing mode tag l.
Proof.
  intros [| |] tag l; simpl.
  - destruct l as [|c l]; [split; auto|]. rewrite <- is_named_not. destruct (is_named tag c); split; congruence.
  - apply first_none.
  - rewrite <- first_none. destruct (first tag l) as [[[[|k pre] c] r]|]; split; congruence.
Qed.

Lemma seek_some : forall mode tag l sk c r, seek mode tag l = Some (sk, c, r) <-> seeks mode tag l sk c r.
Proof.
  intros [| |] tag l sk c r; simpl.
  - destruct l as [|x l]; [split; [discriminate|intros H; inv H]|]. destruct (is_named tag x) eqn:E.
    + split; intros H; inv H; auto. constructor. apply is_named_iff, E.
    + split; [discriminate|]. intros H; inv H. apply is_named_not in E. contradiction.
  - rewrite first_some. split.
    + intros (-> & N & F). constructor; auto.
    + intros H; inv H; auto.
  - split.
    + destruct (first tag l) as [[[pre c'] r']|] eqn:E; [|discriminate]. apply first_some in E. destruct E as (-> & N & F).
      destruct pre as [|k pre]; intros H; inv H; simpl; [constructor; auto|]. inv F. constructor; auto.
    + intros H; inv H.
      * replace (first tag (c :: r)) with (Some (@nil native, c, r)); auto. symmetry. apply first_some; auto.
      * match goal with |- match ?x with _ => _ end = _ => replace x with (Some (k :: between, c, rest)) end; auto.
        symmetry. apply first_some. split; auto.
Qed.

Lemma seek_found : forall mode tag l sk c r, seek mode tag l = Some (sk, c, r) -> named tag c.
Proof. intros mode tag l sk c r H. apply seek_some in H. inv H; auto. Qed.

(** ---- on elements ---- *)
Lemma find_from_first : forall b tag l i,
  find_from i (map (from_native b) l) tag = match first tag l with Some (pre, _, _) => Some (i + length pre) | None => None end.
Proof.
  intros b tag l; induction l as [|c l IH]; intros i; simpl; auto. rewrite from_tag. unfold is_named.
  destruct (tag_is (native_tag c) tag); simpl; [f_equal; lia|]. rewrite IH. unfold is_named in *.
  destruct (first tag l) as [[[pre k] post]|]; simpl; try (f_equal; lia); auto.
Qed.

Lemma swap_split : forall A (f pre post : list A) k c,
  list_swap (length f) (length f + S (length pre)) (f ++ k :: pre ++ c :: post) = f ++ c :: pre ++ k :: post.
Proof.
  intros A f pre post k c. unfold list_swap.
  rewrite nth_error_app2, Nat.sub_diag by lia. simpl.
  rewrite nth_error_app2 by lia. replace (length f + S (length pre) - length f) with (S (length pre)) by lia. simpl.
  rewrite nth_error_app2, Nat.sub_diag by lia. simpl.
  replace (f ++ k :: pre ++ c :: post) with ((f ++ k :: pre) ++ c :: post) by (rewrite <- app_assoc; auto).
  replace (length f + S (length pre)) with (length (f ++ k :: pre)) by (rewrite app_length; simpl; auto).
  rewrite list_upd_split. rewrite <- app_assoc. simpl. rewrite list_upd_split. auto.
Qed.

Section Show.
  Variable b : backend.

  Lemma nth_app_here : forall A (f : list A) x r, nth_error (f ++ x :: r) (length f) = Some x.
  Proof. intros. rewrite nth_error_app2, Nat.sub_diag by lia. auto. Qed.

  Lemma shown_skipped : forall sk, Forall2 (fun cp c => shows b (fst cp) (snd cp) c)
    (map (fun k => (k, unopened k)) sk) (map (from_native b) sk).
  Proof. intros sk; induction sk; simpl; constructor; auto. apply shows_new. Qed.

  (** a search that takes the child *)
  Lemma forward_step : forall d p e mode tag, shows b d p e ->
    match seek mode tag (pg_ahead p) with
    | None => forward mode e tag true = (NotFound, e)
    | Some (sk, c, rest) =>
        exists i e', forward mode e tag true = (Found i, e') /\ nth_error (e_elems e') i = Some (from_native b c) /\
          forall rem c', shows b c rem c' -> shows b d (pass p sk c rem rest) (put_child i c' e')
    end.
  Proof.
    intros d p e mode tag H. inv H.
    assert (Sk : skipn (e_next e) (e_elems e) = map (from_native b) (pg_ahead p)).
    { rewrite H5, H6. rewrite skipn_app, skipn_all, Nat.sub_diag. auto. }
    destruct mode; simpl.
    - unfold strict_forward. destruct (pg_ahead p) as [|c rest] eqn:Ea; simpl in H5.
      + rewrite H5, H6, app_nil_r. destruct (nth_error front (length front)) eqn:En; auto.
        assert (nth_error front (length front) = None) by (apply nth_error_None; auto). congruence.
      + assert (En : nth_error (e_elems e) (e_next e) = Some (from_native b c)) by (rewrite H5, H6; apply nth_app_here).
        rewrite En, from_tag. unfold is_named. destruct (tag_is (native_tag c) tag); auto.
        eexists _, _. split; [reflexivity|]. simpl. split; [exact En|].
        intros rem c' Sc. apply shows_intro with (front := front ++ [c']); simpl; auto.
        * apply Forall2_app; auto.
        * rewrite H5, H6, list_upd_split, <- app_assoc. auto.
        * rewrite H6, app_length. simpl. lia.
    - unfold ordered_forward. rewrite Sk, find_from_first.
      destruct (first tag (pg_ahead p)) as [[[sk c] rest]|] eqn:Ef; auto.
      apply first_some in Ef. destruct Ef as (Ea & Nc & Fs).
      assert (Ee : e_elems e = (front ++ map (from_native b) sk) ++ from_native b c :: map (from_native b) rest).
      { rewrite H5, Ea, map_app, <- app_assoc. auto. }
      assert (El : e_next e + length sk = length (front ++ map (from_native b) sk)) by (rewrite app_length, map_length; lia).
      eexists _, _. split; [reflexivity|]. simpl. rewrite El, Ee. split; [apply nth_app_here|].
      intros rem c' Sc. apply shows_intro with (front := (front ++ map (from_native b) sk) ++ [c']); simpl; auto.
      + rewrite app_assoc. apply Forall2_app; auto. apply Forall2_app; auto. apply shown_skipped.
      + rewrite Ee, list_upd_split, <- !app_assoc. auto.
      + rewrite (app_length _ [c']). simpl. lia.
    - unfold unordered_forward. rewrite Sk, find_from_first.
      destruct (first tag (pg_ahead p)) as [[[sk c] rest]|] eqn:Ef; auto.
      apply first_some in Ef. destruct Ef as (Ea & Nc & Fs).
      destruct sk as [|k sk]; simpl in Ea.
      + assert (Ee : list_swap (e_next e) (e_next e + length (@nil native)) (e_elems e) = front ++ from_native b c :: map (from_native b) rest).
        { simpl. rewrite Nat.add_0_r, H6, H5, Ea. simpl. unfold list_swap. rewrite nth_app_here, !list_upd_split. auto. }
        rewrite Ee. eexists _, _. split; [reflexivity|]. simpl. rewrite H6. split; [apply nth_app_here|].
        intros rem c' Sc. apply shows_intro with (front := front ++ [c']); simpl; auto.
        * apply Forall2_app; auto.
        * rewrite list_upd_split, <- app_assoc. auto.
        * rewrite app_length. simpl. lia.
      + assert (Ee : list_swap (e_next e) (e_next e + length (k :: sk)) (e_elems e)
                     = front ++ from_native b c :: map (from_native b) (sk ++ k :: rest)).
        { rewrite H5, H6, Ea. simpl. rewrite !map_app. simpl. rewrite <- (map_length (from_native b) sk). apply swap_split. }
        rewrite Ee. eexists _, _. split; [reflexivity|]. simpl. rewrite H6. split; [apply nth_app_here|].
        intros rem c' Sc. apply shows_intro with (front := front ++ [c']); simpl; auto.
        * apply Forall2_app; auto.
        * rewrite list_upd_split, <- app_assoc. auto.
        * rewrite app_length. simpl. lia.
  Qed.

  (** a search that looks at the child only *)
  Lemma forward_peek : forall d p e mode tag, shows b d p e ->
    match seek mode tag (pg_ahead p) with
    | None => forward mode e tag false = (NotFound, e)
    | Some (sk, c, rest) =>
        exists i e', forward mode e tag false = (Found i, e') /\ nth_error (e_elems e') i = Some (from_native b c) /\
          shows b d (peek mode p c rest) e'
    end.
  Proof.
    intros d p e mode tag H. inversion H; subst.
    assert (Sk : skipn (e_next e) (e_elems e) = map (from_native b) (pg_ahead p)).
    { rewrite H5, H6. rewrite skipn_app, skipn_all, Nat.sub_diag. auto. }
    destruct mode; simpl.
    - unfold strict_forward. destruct (pg_ahead p) as [|c rest] eqn:Ea; simpl in H5.
      + rewrite H5, H6, app_nil_r. destruct (nth_error front (length front)) eqn:En; auto.
        assert (nth_error front (length front) = None) by (apply nth_error_None; auto). congruence.
      + assert (En : nth_error (e_elems e) (e_next e) = Some (from_native b c)) by (rewrite H5, H6; apply nth_app_here).
        rewrite En, from_tag. unfold is_named. destruct (tag_is (native_tag c) tag); auto.
        eexists _, _. split; [reflexivity|]. auto.
    - unfold ordered_forward. rewrite Sk, find_from_first.
      destruct (first tag (pg_ahead p)) as [[[sk c] rest]|] eqn:Ef; auto.
      apply first_some in Ef. destruct Ef as (Ea & Nc & Fs).
      assert (Ee : e_elems e = (front ++ map (from_native b) sk) ++ from_native b c :: map (from_native b) rest).
      { rewrite H5, Ea, map_app, <- app_assoc. auto. }
      assert (El : e_next e + length sk = length (front ++ map (from_native b) sk)) by (rewrite app_length, map_length; lia).
      eexists _, _. split; [reflexivity|]. split; auto. rewrite El, Ee. apply nth_app_here.
    - unfold unordered_forward. rewrite Sk, find_from_first.
      destruct (first tag (pg_ahead p)) as [[[sk c] rest]|] eqn:Ef; auto.
      apply first_some in Ef. destruct Ef as (Ea & Nc & Fs).
      destruct sk as [|k sk]; simpl in Ea.
      + assert (Ee : list_swap (e_next e) (e_next e + length (@nil native)) (e_elems e) = front ++ from_native b c :: map (from_native b) rest).
        { simpl. rewrite Nat.add_0_r, H6, H5, Ea. simpl. unfold list_swap. rewrite nth_app_here, !list_upd_split. auto. }
        rewrite Ee. eexists _, _. split; [reflexivity|]. simpl. rewrite H6. split; [apply nth_app_here|].
        apply shows_intro with (front := front); simpl; auto.
      + assert (Ee : list_swap (e_next e) (e_next e + length (k :: sk)) (e_elems e)
                     = front ++ from_native b c :: map (from_native b) (sk ++ k :: rest)).
        { rewrite H5, H6, Ea. simpl. rewrite !map_app. simpl. rewrite <- (map_length (from_native b) sk). apply swap_split. }
        rewrite Ee. eexists _, _. split; [reflexivity|]. simpl. rewrite H6. split; [apply nth_app_here|].
        apply shows_intro with (front := front); simpl; auto.
  Qed.

  (** the child before *)
  Definition ends_with (p : page) (tag : string) : option (list (native * page) * native * page) :=
    match rev (pg_passed p) with
    | (c, rem) :: r => if is_named tag c then Some (rev r, c, rem) else None
    | [] => None
    end.

  Lemma ends_with_some : forall p tag front c rem, ends_with p tag = Some (front, c, rem) <-> last_passed p front c rem /\ named tag c.
  Proof.
    intros p tag front c rem. unfold ends_with, last_passed. destruct (rev (pg_passed p)) as [|[k l] r] eqn:E.
    - split; [discriminate|]. intros [Q _]. rewrite Q, rev_app_distr in E. discriminate.
    - assert (Ep : pg_passed p = rev r ++ [(k, l)]) by (rewrite <- (rev_involutive (pg_passed p)), E; auto).
      destruct (is_named tag k) eqn:En.
      + split.
        * intros H; inv H. split; auto. apply is_named_iff, En.
        * intros [Q N]. rewrite Ep in Q. apply app_inj_tail in Q. destruct Q as [Q1 Q]; subst; inv Q. auto.
      + split; [discriminate|]. intros [Q N]. rewrite Ep in Q. apply app_inj_tail in Q. destruct Q as [Q1 Q]; subst; inv Q.
        apply is_named_iff in N. congruence.
  Qed.

  Lemma ends_with_none : forall p tag, ends_with p tag = None <-> forall front c rem, last_passed p front c rem -> ~ named tag c.
  Proof.
    intros p tag. split.
    - intros E front c rem L N. assert (X : ends_with p tag = Some (front, c, rem)) by (apply ends_with_some; auto). congruence.
    - intros H. destruct (ends_with p tag) as [[[front c] rem]|] eqn:E; auto. apply ends_with_some in E. destruct E as [L N].
      destruct (H _ _ _ L N).
  Qed.

  Lemma behind_shows : forall d p e tag, shows b d p e ->
    match ends_with p tag with
    | None => look_behind e tag = NotFound
    | Some (front, c, rem) =>
        exists i x, look_behind e tag = Found i /\ nth_error (e_elems e) i = Some x /\ shows b c rem x /\
          forall rem' x', shows b c rem' x' -> shows b d (reopen p front c rem') (put_child i x' e)
    end.
  Proof.
    intros d p e tag H. inv H. unfold ends_with, look_behind.
    destruct (rev (pg_passed p)) as [|[c rem] r] eqn:E.
    - assert (Ep : pg_passed p = []) by (rewrite <- (rev_involutive (pg_passed p)), E; auto).
      rewrite Ep in H4. inv H4. rewrite H6. auto.
    - assert (Ep : pg_passed p = rev r ++ [(c, rem)]) by (rewrite <- (rev_involutive (pg_passed p)), E; auto).
      rewrite Ep in H4. apply Forall2_app_inv_l in H4. destruct H4 as (f1 & f2 & F1 & F2 & ->). inversion F2 as [|cp x l' r' H7 F3 Q1 Q2]; subst; clear F2. inv F3.
      simpl in H7. rewrite H6, app_length. simpl. rewrite Nat.add_1_r.
      assert (En : nth_error (e_elems e) (length f1) = Some x) by (rewrite H5, <- app_assoc; apply nth_app_here).
      rewrite En. assert (Et : e_tag x = native_tag c) by (inv H7; auto). rewrite Et. unfold is_named.
      destruct (tag_is (native_tag c) tag); auto.
      exists (length f1), x. split; auto. split; auto. split; auto. intros rem' x' Sx.
      apply shows_intro with (front := f1 ++ [x']); simpl; auto.
      + apply Forall2_app; auto.
      + rewrite H5, <- !app_assoc. simpl. rewrite list_upd_split. auto.
      + rewrite H6, !app_length. auto.
  Qed.

  (** ---- text and attributes ---- *)
  Lemma ddel_gone : forall (d : dict string) k, dget k d = None -> ddel k d = d.
  Proof. intros d k; induction d as [|[x v] d IH]; simpl; auto. destruct (String.eqb k x); [discriminate|]. intros H; rewrite IH; auto. Qed.

  Lemma pop_text_shows : forall d p e, shows b d p e -> shows b d (drop_text p) (snd (pop_text e)) /\ fst (pop_text e) = pg_text p.
  Proof. intros d p e H. inv H. split; auto. apply shows_intro with (front := front); auto. Qed.

  Lemma pop_attrib_shows : forall d p e name, shows b d p e ->
    shows b d (drop_attribute name p) (snd (pop_attrib name e)) /\ fst (pop_attrib name e) = attribute name p.
  Proof.
    intros d p e name H. inv H. unfold pop_attrib, attribute. rewrite H3. destruct (pg_attrs p) as [a|] eqn:Ea.
    - destruct (dget name a) as [v|] eqn:Eg; split; auto; apply shows_intro with (front := front); simpl; auto; rewrite Ea; auto.
      rewrite ddel_gone; auto.
    - split; auto. apply shows_intro with (front := front); simpl; auto. rewrite Ea; auto.
  Qed.

  Lemma pop_attributes_shows : forall d p e, shows b d p e ->
    shows b d (drop_attributes p) (snd (pop_attributes e)) /\ fst (pop_attributes e) = pg_attrs p.
  Proof. intros d p e H. inv H. split; auto. apply shows_intro with (front := front); auto. Qed.

  Lemma nil_shows : forall d p e, shows b d p e ->
    shows b d (drop_attribute nil_attribute p) (snd (is_element_nill e)) /\
    (fst (is_element_nill e) = true <-> attribute nil_attribute p = Some "true").
  Proof.
    intros d p e H. unfold is_element_nill. destruct (@pop_attrib_shows d p e xsi_nil H) as [S1 E1].
    destruct (pop_attrib xsi_nil e) as [v e1]; simpl in *. split; auto. change nil_attribute with xsi_nil. rewrite <- E1.
    destruct v as [v|]; [|split; discriminate]. rewrite String.eqb_eq. split; congruence.
  Qed.

  (** ---- what is rem ---- *)
  Lemma nonblank_iff : forall t, nonblank t = None <-> no_words t.
  Proof.
    intros [t|]; simpl; [|tauto]. destruct (String.eqb (py_strip t) "") eqn:E.
    - apply String.eqb_eq in E. tauto.
    - split; [discriminate|]. intros Q. rewrite Q in E. discriminate.
  Qed.

  Lemma flat_nil : forall A B (f : A -> list B) l, flat_map f l = [] <-> Forall (fun x => f x = []) l.
  Proof.
    intros A B f l; induction l as [|x l IH]; simpl; [split; auto|]. split.
    - intros H. apply app_eq_nil in H. constructor; [|apply IH]; tauto.
    - intros H; inv H. rewrite H2. apply IH; auto.
  Qed.

  Lemma unbound_nil : forall e path, get_unbound path e = [] <->
    no_words (e_text e) /\ no_words (e_tail e) /\ (e_attrib e = None \/ e_attrib e = Some []) /\
    Forall (fun c => get_unbound (path ++ [e_tag c]) c = []) (e_elems e).
  Proof.
    intros [tag ns text tail a cs next line] path. cbn [get_unbound e_text e_tail e_attrib e_elems].
    rewrite <- !nonblank_iff, <- flat_nil. split.
    - intros H. apply app_eq_nil in H. destruct H as [H1 H]. apply app_eq_nil in H. destruct H as [H2 H]. apply app_eq_nil in H. destruct H as [H3 H4].
      split; [destruct (nonblank text); [discriminate|auto]|]. split; [destruct (nonblank tail); [discriminate|auto]|]. split; auto.
      destruct a as [[|]|]; auto. discriminate.
    - intros (-> & -> & H & ->). simpl. destruct H as [-> | ->]; auto.
  Qed.

  Lemma unbound_bare : forall d path, get_unbound path (from_native b d) = [] <-> bare d.
  Proof.
    intros d; induction d as [tag ns text tail a cs line IH|text tail|text tail a line] using native_ind'; intros path; rewrite unbound_nil; simpl.
    - rewrite kids_map, Forall_map. assert (IH' : Forall (fun c => forall path, get_unbound path (from_native b c) = [] <-> bare c) (no_comments cs)).
      { unfold no_comments. rewrite Forall_forall in *. intros x Hx. apply filter_In in Hx. apply IH, Hx. } clear IH.
      assert (X : Forall (fun x => get_unbound (path ++ [e_tag (from_native b x)]) (from_native b x) = []) (no_comments cs) <-> Forall bare (no_comments cs)).
      { rewrite !Forall_forall in *. split; intros H x Hx; eapply IH'; eauto. }
      rewrite X. split.
      + intros (A1 & A2 & A3 & A4). constructor; simpl; auto. destruct A3 as [A3|A3]; [discriminate|congruence].
      + intros H; inv H. simpl in *. subst a. auto.
    - split.
      + intros (A1 & A2 & A3 & A4). constructor; simpl; auto.
      + intros H; inv H; simpl in *. auto.
    - split.
      + intros (A1 & A2 & A3 & A4). constructor; simpl; auto. destruct A3 as [A3|A3]; [discriminate|congruence].
      + intros H; inv H; simpl in *. subst a. auto.
  Qed.

  Fixpoint psize (p : page) : nat := S (fold_right (fun cp n => psize (snd cp) + n) 0 (pg_passed p)).

  Lemma unbound_used : forall n p, psize p < n -> forall d e path, shows b d p e -> get_unbound path e = [] <-> used_up p.
  Proof.
    intros n; induction n as [|n IH]; intros p L d e path H; [lia|]. inv H. rewrite unbound_nil, H1, H2, H3, H5, Forall_app, Forall_map.
    assert (X : Forall (fun x => get_unbound (path ++ [e_tag (from_native b x)]) (from_native b x) = []) (pg_ahead p) <-> Forall bare (pg_ahead p)).
    { rewrite !Forall_forall. split; intros Q x Hx; eapply unbound_bare; eauto. }
    assert (Y : Forall (fun c => get_unbound (path ++ [e_tag c]) c = []) front <-> Forall (fun c => used_up (snd c)) (pg_passed p)).
    { assert (L' : fold_right (fun cp n => psize (snd cp) + n) 0 (pg_passed p) < n) by (destruct p; simpl in *; lia).
      clear - H4 L' IH. revert L'. induction H4 as [|cp c l front S1 F IH2]; intros L'; [split; constructor|].
      simpl in L'. assert (E1 : get_unbound (path ++ [e_tag c]) c = [] <-> used_up (snd cp)) by (eapply IH; [|exact S1]; lia).
      assert (E2 := IH2 ltac:(lia)). split; intros Q; inv Q; constructor; tauto. }
    rewrite X, Y. split.
    - intros (A1 & A2 & A3 & A4 & A5). constructor; auto.
    - intros Q; inv Q. auto.
  Qed.

  (** ---- what is left, remark by remark ---- *)
  Definition key (t : xtag) : locitem := match t with TName s => LKey s | TSpecial => LKey "?" end.
  Definition extra_remark (u : unbound) : remark := remark_of (extra_error u).

  Lemma key_name : forall d, key (native_tag d) = step_name d.
  Proof. intros d; destruct d; auto. Qed.

  Lemma own_strays : forall path text tail attrs line,
    map extra_remark (map (fun t => Unbound path None t line) (opt_list (nonblank text)) ++
      map (fun t => Unbound path None t line) (opt_list (nonblank tail)) ++ map (fun kv => Unbound path (Some (fst kv)) (snd kv) line) attrs) =
    strays (map key path) text tail attrs.
  Proof.
    intros path text tail attrs line. unfold strays. rewrite !map_app, !map_map. f_equal; [|f_equal].
    - unfold words, nonblank. destruct text as [t|]; auto. simpl. destruct (String.eqb (py_strip t) ""); simpl; auto.
      unfold extra_remark, extra_error, remark_of, unbound_loc, extra. simpl. rewrite app_nil_r. auto.
    - unfold words, nonblank. destruct tail as [t|]; auto. simpl. destruct (String.eqb (py_strip t) ""); simpl; auto.
      unfold extra_remark, extra_error, remark_of, unbound_loc, extra. simpl. rewrite app_nil_r. auto.
  Qed.

  Lemma flat_map_map : forall A B C (f : B -> list C) (g : A -> B) l, flat_map f (map g l) = flat_map (fun x => f (g x)) l.
  Proof. intros A B C f g l; induction l; simpl; congruence. Qed.

  Lemma map_flat_map : forall A B C (f : B -> C) (g : A -> list B) l, map f (flat_map g l) = flat_map (fun x => map f (g x)) l.
  Proof. intros A B C f g l; induction l; simpl; auto. rewrite map_app. congruence. Qed.

  Lemma unbound_eq : forall e path, map extra_remark (get_unbound path e) =
    strays (map key path) (e_text e) (e_tail e) (match e_attrib e with Some d => d | None => [] end) ++
    flat_map (fun c => map extra_remark (get_unbound (path ++ [e_tag c]) c)) (e_elems e).
  Proof.
    intros [tag ns text tail a cs next line] path. cbn [get_unbound e_text e_tail e_attrib e_elems].
    rewrite <- (own_strays path text tail _ line), <- map_flat_map, <- map_app, <- !app_assoc. auto.
  Qed.

  Lemma unbound_untouched : forall d path, map extra_remark (get_unbound path (from_native b d)) = untouched (map key path) d.
  Proof.
    intros d; induction d as [tag ns text tail a cs line IH|text tail|text tail a line] using native_ind'; intros path; rewrite unbound_eq; simpl; auto.
    f_equal. rewrite kids_map, flat_map_map. unfold no_comments. induction IH as [|c cs Hc IH IH2]; auto. simpl.
    destruct (is_xml_comment c); simpl; auto. rewrite IH2, Hc, map_app, from_tag. simpl. rewrite key_name. auto.
  Qed.

  Lemma unbound_left : forall n p, psize p < n -> forall d e path, shows b d p e -> map extra_remark (get_unbound path e) = left_over (map key path) p.
  Proof.
    intros n; induction n as [|n IH]; intros p L d e path H; [lia|]. inv H. rewrite unbound_eq, H1, H2, H3, H5, flat_map_app, flat_map_map.
    destruct p as [text tail a passed ahead]. simpl in *. f_equal. f_equal.
    - assert (L' : fold_right (fun cp n => psize (snd cp) + n) 0 passed < n) by lia.
      clear - H4 L' IH. revert L'. induction H4 as [|cp c l front S1 F IH2]; intros L'; auto. simpl in *.
      rewrite IH2 by lia. f_equal. rewrite (IH (snd cp) ltac:(lia) (fst cp) c _ S1), map_app. inv S1. rewrite H. simpl. rewrite key_name. auto.
    - apply flat_map_ext. intros c. rewrite unbound_untouched, map_app, from_tag. simpl. rewrite key_name. auto.
  Qed.
End Show.
