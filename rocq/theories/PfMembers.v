(** PfMembers.v -- the members of unions in another order. *)

From Verif Require Import Base Elem Native Errs Names Ser Read Write Api SpecMembers PfElem PfLayout PfHeap4 PfWrite3.

Local Ltac inv H := inversion H; subst; clear H.

(** readers that do the same *)
Definition eqr (r r' : reader) : Prop := forall eas loc s, r eas loc s = r' eas loc s.

Lemma eqr_refl : forall r, eqr r r.
Proof. intros r eas loc s. reflexivity. Qed.

Lemma items_eq : forall r r', eqr r r' -> forall k title hide eas loc idx result errors s,
  read_items k r title hide eas loc idx result errors s = read_items k r' title hide eas loc idx result errors s.
Proof.
  intros r r' E. induction k; intros; simpl; auto. rewrite (E eas _ s). destruct (r' eas (loc ++ [LIdx idx]) s) as [[v|x|] s']; auto.
  - destruct v; auto.
  - destruct x; auto.
Qed.

Lemma tuple_eq : forall rs rs', Forall2 eqr rs rs' -> forall title hide eas loc idx result errors s,
  read_tuple rs title hide eas loc idx result errors s = read_tuple rs' title hide eas loc idx result errors s.
Proof.
  induction 1 as [|r r' rs rs' E F IH]; intros; simpl; auto. rewrite (E eas _ s). destruct (r' eas (loc ++ [LIdx idx]) s) as [[v|x|] s']; auto.
  destruct x; auto.
Qed.

Lemma variants_eq : forall rs rs', Forall2 eqr rs rs' -> forall title hide eas loc errors s,
  read_variants rs title hide eas loc errors s = read_variants rs' title hide eas loc errors s.
Proof.
  induction 1 as [|r r' rs rs' E F IH]; intros; simpl; auto. rewrite (E eas loc _).
  destruct (r' eas loc _) as [[v|x|] s']; auto; [destruct v; auto|destruct x; auto].
Qed.

Lemma tagged_eq : forall rp rp' : proxy -> reader, (forall q, eqr (rp q) (rp' q)) -> forall attr mode vs eas loc s,
  read_tagged rp attr mode vs eas loc s = read_tagged rp' attr mode vs eas loc s.
Proof.
  intros rp rp' E attr mode vs eas loc. induction vs as [|[tag q] vs IH]; intros s; cbn [read_tagged]; auto.
  destruct (find_element (st_el s) (px_name q) mode false false) as [[|i|] e']; auto.
  destruct (nth_error (e_elems e') i); auto. destruct (match get_attrib attr e with Some t => String.eqb t tag | None => false end); auto.
  apply E.
Qed.

Lemma on_child_eq : forall A i (f f' : st -> rres A), (forall c, f c = f' c) -> forall s, on_child i f s = on_child i f' s.
Proof. intros A i f f' E s. unfold on_child. destruct (nth_error (e_elems (st_el s)) i); auto. rewrite E. auto. Qed.

Lemma on_path_eq : forall A path (f f' : st -> rres A), (forall c, f c = f' c) -> forall s, on_path path f s = on_path path f' s.
Proof. intros A path f f' E. induction path; intros s; simpl; auto. apply on_child_eq; auto. Qed.

Lemma with_found_eq : forall r (f f' : st -> rres val), (forall c, f c = f' c) -> forall s, with_found r f s = with_found r f' s.
Proof. intros [[|i|] e] f f' E s; simpl; auto. apply on_child_eq; auto. Qed.

Section Fields.
  Variables (U : list proxy -> Prop) (T : smode -> list (string * proxy) -> Prop).
  Variables r r' : ser -> reader.
  Hypothesis R : forall s s', shuffled U T s s' -> eqr (r s) (r' s').

  Lemma fields_eq : forall m m', md_cval m' = md_cval m -> md_valias m' = md_valias m ->
    forall fs fs', Forall2 (fun f f' => fst f = fst f' /\ shuffled U T (snd f) (snd f')) fs fs' -> forall eas result errors s,
    read_fields r m fs eas result errors s = read_fields r' m' fs' eas result errors s.
  Proof.
    intros m m' Cv Va fs fs'. induction 1 as [|[n f] [n' f'] fs fs' [En S] F IH]; intros; simpl in *; auto. subst n'. rewrite Cv, Va.
    destruct (md_cval m n) as [custom|].
    - destruct (run_custom custom (note_line [LKey n] s)) as [[v|x|] s']; auto; [destruct v; auto|destruct x; auto].
    - rewrite (R S eas [LKey n] _). destruct (r' f' eas [LKey n] _) as [[v|x|] s']; auto; [destruct v; auto|destruct x; auto].
  Qed.

  Lemma model_eq : forall m m', shuffled_class U T m m' -> eqr (read_model r m) (read_model r' m').
  Proof.
    intros m m' C eas loc s. inv C. unfold read_model; cbn [md_root]. destruct root.
    - unfold read_root_model; cbn [md_fields]. destruct H as [|[n f] [n' f'] fs fs' [En S] F]; auto. cbn [snd] in S. rewrite (R S eas loc s).
      destruct (r' f' eas loc s) as [[v|x|] s']; auto.
    - unfold read_plain_model; cbn [md_fields].
      rewrite (@fields_eq (MDef name false tag ns fs alias excl hide forbid skip cser cval validate)
        (MDef name false tag ns fs' alias excl hide forbid skip cser cval validate) eq_refl eq_refl _ _ H).
      cbn [md_fields]. destruct (read_fields r' _ fs' eas [] [] s) as [[[res errs]|x|] s']; auto.
  Qed.

  Lemma proxy_eq : forall ev ev', shuffled_env U T ev ev' -> forall q, eqr (read_proxy ev r q) (read_proxy ev' r' q).
  Proof.
    intros ev ev' [Eb Em] q eas loc s. unfold read_proxy. specialize (Em (px_model q)).
    destruct (en_model ev (px_model q)) as [m|], (en_model ev' (px_model q)) as [m'|]; try tauto.
    destruct (px_computed q); auto. apply with_found_eq. intros c. destruct (is_element_nill (st_el (note_line loc c))) as [[|] e]; auto.
    apply model_eq; auto.
  Qed.
End Fields.

(** ---- one union ---- *)

(** a variant whose element is not next does nothing *)
Lemma idle : forall ev r q m eas loc s, en_model ev (px_model q) = Some m -> px_mode q = Strict ->
  (forall c, nth_error (e_elems (st_el s)) (e_next (st_el s)) = Some c -> tag_is (e_tag c) (px_name q) = false) ->
  read_proxy ev r q eas loc s = (Ok VNone, s).
Proof.
  intros ev r q m eas loc [e sm] Em Ms N. unfold read_proxy. rewrite Em. destruct (px_computed q); auto. rewrite Ms. unfold pop_element, search, forward, strict_forward.
  cbn [st_el] in *. destruct (nth_error (e_elems e) (e_next e)) as [c|] eqn:E; [rewrite (N c eq_refl)|]; reflexivity.
Qed.

Lemma tag_is_one : forall t a b, tag_is t a = true -> a <> b -> tag_is t b = false.
Proof.
  intros t a b H N. destruct t; simpl in *; try discriminate. apply String.eqb_eq in H. apply String.eqb_neq. congruence.
Qed.

Section Union.
  Variables (ev : env) (r : ser -> reader) (title : string) (hide eas : bool) (loc : location).
  Let rv l := read_variants (map (read_proxy ev r) l) title hide eas loc.

  Lemma skip_idle : forall q l errors s, (forall sm, read_proxy ev r q eas loc (St (create_snapshot (st_el s)) sm) = (Ok VNone, St (create_snapshot (st_el s)) sm)) ->
    rv (q :: l) errors s = rv l errors s.
  Proof. intros q l errors s I. unfold rv. cbn [map read_variants]. unfold set_el. rewrite I. destruct s as [e sm]. reflexivity. Qed.

  Lemma swap_variants : forall q1 q2 l errors s,
    ((forall sm, read_proxy ev r q1 eas loc (St (create_snapshot (st_el s)) sm) = (Ok VNone, St (create_snapshot (st_el s)) sm))) ->
    rv (q1 :: q2 :: l) errors s = rv (q2 :: q1 :: l) errors s.
  Proof.
    intros q1 q2 l errors s I. rewrite skip_idle by auto. unfold rv. cbn [map read_variants].
    destruct (read_proxy ev r q2 eas loc (set_el (create_snapshot (st_el s)) s)) as [[v|x|] s']; auto.
    - destruct v; auto. unfold set_el at 1. cbn [st_el st_sm]. rewrite I. reflexivity.
    - destruct x; auto. unfold set_el at 1. cbn [st_el st_sm]. rewrite I. reflexivity.
  Qed.

  Lemma perm_variants : forall l l', Permutation l l' -> names_differ ev l -> forall errors s, rv l errors s = rv l' errors s.
  Proof.
    induction 1 as [|q l l' P IH|q1 q2 l|l l' l'' P IH P' IH']; intros [Nd F] errors s; auto.
    - simpl in Nd. inv Nd. inv F. unfold rv. cbn [map read_variants].
      assert (X : forall errors s, rv l errors s = rv l' errors s) by (apply IH; split; auto). unfold rv in X.
      destruct (read_proxy ev r q eas loc (set_el (create_snapshot (st_el s)) s)) as [[v|x|] s']; auto; [destruct v; auto|destruct x; auto].
    - inv F. inv H2. destruct H1 as [M1 D1]. destruct H3 as [M2 D2].
      destruct (en_model ev (px_model q1)) as [m1|] eqn:E1; [|congruence]. destruct (en_model ev (px_model q2)) as [m2|] eqn:E2; [|congruence].
      assert (Ne : px_name q1 <> px_name q2) by (simpl in Nd; inv Nd; simpl in *; intuition congruence).
      destruct (nth_error (e_elems (create_snapshot (st_el s))) (e_next (create_snapshot (st_el s)))) as [c|] eqn:Ec.
      + destruct (tag_is (e_tag c) (px_name q1)) eqn:Tc.
        * apply swap_variants. intros sm. eapply idle; eauto. cbn [st_el]. intros c' Ec'. rewrite Ec in Ec'. inv Ec'. eapply tag_is_one; eauto.
        * symmetry. apply swap_variants. intros sm. eapply idle; eauto. cbn [st_el]. intros c' Ec'. rewrite Ec in Ec'. inv Ec'. auto.
      + apply swap_variants. intros sm. eapply idle; eauto. cbn [st_el]. intros c' Ec'. congruence.
    - rewrite IH by (split; auto). apply IH'. split.
      + eapply Permutation_NoDup; [apply Permutation_map; eassumption|auto].
      + eapply Permutation_Forall; eauto.
  Qed.
End Union.

(** ---- one discriminated union ---- *)
Section Tagged.
  Variables (rp : proxy -> reader) (attr : string) (mode : smode) (eas : bool) (loc : location).
  Let rt l := read_tagged rp attr mode l eas loc.

  (** what the variant [tq] does to the state: the new state if it is not the one, the answer if it is *)
  Definition tag_step (tq : string * proxy) (s : st) : rres val + st :=
    match find_element (st_el s) (px_name (snd tq)) mode false false with
    | (NotFound, e') => inr (set_el e' s)
    | (IndexErr, e') => inl (Raise XIndexError, set_el e' s)
    | (Found i, e') =>
        match nth_error (e_elems e') i with
        | None => inl (Raise XIndexError, set_el e' s)
        | Some c =>
            if match get_attrib attr c with Some t => String.eqb t (fst tq) | None => false end
            then inl (rp (snd tq) eas loc (St e' (sset loc (e_line c) (st_sm s))))
            else inr (set_el e' s)
        end
    end.

  Lemma rt_step : forall tq l s, rt (tq :: l) s = match tag_step tq s with inl x => x | inr s' => rt l s' end.
  Proof.
    intros [t q] l s. unfold rt, tag_step. cbn [read_tagged fst snd].
    destruct (find_element (st_el s) (px_name q) mode false false) as [[|i|] e']; auto. destruct (nth_error (e_elems e') i); auto.
    destruct (match get_attrib attr e with Some t0 => String.eqb t0 t | None => false end); auto.
  Qed.

  (** the three ways the second of two neighbours can follow the first *)
  Lemma swap_tagged : forall a b l s,
    (forall sa, tag_step a s = inr sa -> tag_step b sa = match tag_step b s with inl x => inl x | inr sb => inr sa end) ->
    (forall sb, tag_step b s = inr sb -> tag_step a sb = match tag_step a s with inl x => inl x | inr sa => inr sa end) ->
    (forall sa sb, tag_step a s = inr sa -> tag_step b s = inr sb -> sa = sb) ->
    (forall x y, tag_step a s = inl x -> tag_step b s = inl y -> x = y) ->
    rt (a :: b :: l) s = rt (b :: a :: l) s.
  Proof.
    intros a b l s Ha Hb Hs Hx. rewrite (rt_step a), (rt_step b). destruct (tag_step a s) as [x|sa] eqn:Ea, (tag_step b s) as [y|sb] eqn:Eb.
    - eauto.
    - rewrite rt_step, (Hb sb eq_refl). auto.
    - rewrite rt_step, (Ha sa eq_refl). auto.
    - rewrite (rt_step b), (Ha sa eq_refl), (rt_step a), (Hb sb eq_refl). auto.
  Qed.

  (** in strict mode nothing moves *)
  Lemma strict_step : mode = Strict -> forall tq s s', tag_step tq s = inr s' -> s' = s.
  Proof.
    intros Ms tq [e sm] s'. unfold tag_step, find_element, search, forward, strict_forward. rewrite Ms. cbn [st_el].
    destruct (nth_error (e_elems e) (e_next e)) as [c|] eqn:Ec.
    - destruct (tag_is (e_tag c) (px_name (snd tq))).
      + rewrite Ec. destruct (match get_attrib attr c with Some t => String.eqb t (fst tq) | None => false end); intros X; inv X; reflexivity.
      + intros X; inv X; reflexivity.
    - intros X; inv X; reflexivity.
  Qed.

  Lemma strict_inl : mode = Strict -> forall tq s x, tag_step tq s = inl x ->
    exists c, nth_error (e_elems (st_el s)) (e_next (st_el s)) = Some c /\ get_attrib attr c = Some (fst tq).
  Proof.
    intros Ms tq [e sm] x. unfold tag_step, find_element, search, forward, strict_forward. rewrite Ms. cbn [st_el].
    destruct (nth_error (e_elems e) (e_next e)) as [c|] eqn:Ec; [|discriminate].
    destruct (tag_is (e_tag c) (px_name (snd tq))); [|discriminate]. rewrite Ec.
    destruct (get_attrib attr c) as [t|] eqn:Eg; [|discriminate]. destruct (String.eqb_spec t (fst tq)); [|discriminate].
    intros _. exists c. subst. auto.
  Qed.

  (** a second search for the same name finds the same and moves nothing *)
  Lemma search_again : forall e tag f e', find_element e tag mode false false = (f, e') -> find_element e' tag mode false false = (f, e').
  Proof.
    intros e tag f e'. unfold find_element, search, forward. destruct mode.
    - unfold strict_forward. destruct (nth_error (e_elems e) (e_next e)) as [c|] eqn:Ec.
      + destruct (tag_is (e_tag c) tag) eqn:Et; intros X; inv X; rewrite Ec, Et; reflexivity.
      + intros X; inv X. rewrite Ec. reflexivity.
    - unfold ordered_forward. destruct (find_from (e_next e) (skipn (e_next e) (e_elems e)) tag) as [i|] eqn:Ef; intros X; inv X; rewrite Ef; reflexivity.
    - unfold unordered_forward. destruct (find_from (e_next e) (skipn (e_next e) (e_elems e)) tag) as [i|] eqn:Ef; intros X; inv X; [|rewrite Ef; reflexivity].
      destruct (find_from_hit _ _ _ Ef) as (L & c & Ec & Et). rewrite nth_error_skipn in Ec.
      replace (e_next e + (i - e_next e)) with i in Ec by lia. pose proof (list_swap_at _ Ec L) as Ea.
      unfold set_elems; cbn [e_next e_elems]. set (l := list_swap (e_next e) i (e_elems e)) in *. clearbody l.
      assert (Ef' : find_from (e_next e) (skipn (e_next e) l) tag = Some (e_next e)).
      { assert (Ln : e_next e < length l) by (apply nth_error_Some; congruence). destruct (skipn_nth _ Ln) as (x & Nx & ->).
        rewrite Ea in Nx. inv Nx. cbn [find_from]. rewrite Et. unfold tag_is. rewrite String.eqb_refl. reflexivity. }
      rewrite Ef', list_swap_same. reflexivity.
  Qed.

  Lemma swap_same_name : forall a b l s, px_name (snd a) = px_name (snd b) -> fst a <> fst b -> rt (a :: b :: l) s = rt (b :: a :: l) s.
  Proof.
    intros a b l s En Nt. destruct (find_element (st_el s) (px_name (snd a)) mode false false) as [f e'] eqn:Ef.
    pose proof (search_again _ _ Ef) as Ef'. pose proof Ef as Eg. pose proof Ef' as Eg'. rewrite En in Eg, Eg'.
    apply swap_tagged; intros *; unfold tag_step; rewrite ?Ef, ?Eg; destruct f as [|i|];
      try destruct (nth_error (e_elems e') i) as [c|] eqn:Ec; try discriminate; try congruence.
    - intros X; inv X. cbn [st_el set_el]. rewrite Eg'. reflexivity.
    - destruct (get_attrib attr c) as [t|] eqn:Ea; [destruct (String.eqb t (fst a)); [discriminate|]|]; intros X; inv X; cbn [st_el set_el]; rewrite Eg', Ec, Ea;
        try destruct (String.eqb t (fst b)); reflexivity.
    - intros X; inv X. cbn [st_el set_el]. rewrite Ef'. reflexivity.
    - destruct (get_attrib attr c) as [t|] eqn:Ea; [destruct (String.eqb t (fst b)); [discriminate|]|]; intros X; inv X; cbn [st_el set_el]; rewrite Ef', Ec, Ea;
        try destruct (String.eqb t (fst a)); reflexivity.
    - destruct (get_attrib attr c) as [t|] eqn:Ea; [destruct (String.eqb t (fst a)), (String.eqb t (fst b))|]; congruence.
    - destruct (get_attrib attr c) as [t|] eqn:Ea; [destruct (String.eqb_spec t (fst a)), (String.eqb_spec t (fst b))|]; congruence.
  Qed.

  Lemma swap_strict : forall a b l s, mode = Strict -> fst a <> fst b -> rt (a :: b :: l) s = rt (b :: a :: l) s.
  Proof.
    intros a b l s Ms Nt. apply swap_tagged.
    - intros sa Ea. rewrite (strict_step Ms _ _ Ea). destruct (tag_step b s) eqn:Eb; auto. rewrite (strict_step Ms _ _ Eb). reflexivity.
    - intros sb Eb. rewrite (strict_step Ms _ _ Eb). destruct (tag_step a s) eqn:Ea; auto.
    - intros sa sb Ea Eb. rewrite (strict_step Ms _ _ Ea), (strict_step Ms _ _ Eb). reflexivity.
    - intros x y Ea Eb. destruct (strict_inl Ms _ _ Ea) as (c & E1 & E2). destruct (strict_inl Ms _ _ Eb) as (c' & E1' & E2'). congruence.
  Qed.

  Lemma perm_tagged : forall l l', Permutation l l' -> tags_differ mode l -> forall s, rt l s = rt l' s.
  Proof.
    induction 1 as [|q l l' P IH|q1 q2 l|l l' l'' P IH P' IH']; intros [Nd C] s; auto.
    - rewrite !rt_step. destruct (tag_step q s); auto. apply IH. simpl in Nd. inv Nd. split; auto. destruct C as [C|C]; auto. right. simpl in C. auto.
    - assert (Ne : fst q2 <> fst q1) by (simpl in Nd; inv Nd; simpl in *; intuition congruence). destruct C as [C|C]; [apply swap_strict; auto|].
      apply swap_same_name; auto. apply C; simpl; auto.
    - rewrite IH by (split; auto). apply IH'. split.
      + eapply Permutation_NoDup; [apply Permutation_map; eassumption|auto].
      + destruct C as [C|C]; auto. right. intros a b Ia Ib. apply C; eapply Permutation_in; try eassumption; apply Permutation_sym; auto.
  Qed.
End Tagged.

(** ---- whole programs ---- *)
Lemma read_shuffled : forall ev ev', shuffled_env (names_differ ev) tags_differ ev ev' -> forall n s s',
  shuffled (names_differ ev) tags_differ s s' -> eqr (read n ev s) (read n ev' s').
Proof.
  intros ev ev' E. induction n as [|n IH]; intros s s' S; [apply eqr_refl|]. cbn [read].
  assert (Px : forall q, eqr (read_proxy ev (read n ev) q) (read_proxy ev' (read n ev') q)) by (intros q; eapply proxy_eq; eauto).
  assert (Pl : forall l, Forall2 eqr (map (read_proxy ev (read n ev)) l) (map (read_proxy ev' (read n ev')) l)) by (induction l; simpl; auto).
  assert (Same : forall s, eqr (read n ev s) (read n ev' s)) by (intros x; apply IH; apply sf_same).
  destruct S; intros eas loc st; cbn [read_step].
  - destruct s; cbn [read_step]; auto.
    + unfold read_homo. destruct computed; auto. apply items_eq; auto.
    + unfold read_hetero. destruct computed; auto. apply tuple_eq. clear - Same. induction inners; simpl; auto.
    + unfold read_union_prim. destruct computed; auto. apply Same.
    + unfold read_union_model. destruct computed; auto. apply variants_eq; auto.
    + destruct computed; auto. apply tagged_eq; auto.
    + unfold read_wrap. destruct computed; auto. destruct (find_sub_element path mode (st_el st)) as [[idxs|] e']; auto.
      destruct (_ && _); auto. apply on_path_eq. intros c. apply Same.
    + destruct E as [-> _]. reflexivity.
    + apply Px.
  - unfold read_homo. destruct computed; auto. apply items_eq; auto.
  - unfold read_hetero. destruct computed; auto. apply tuple_eq. clear - IH H. induction H; simpl; auto.
  - unfold read_union_prim. destruct computed; auto. apply IH; auto.
  - unfold read_wrap. destruct computed; auto. destruct (find_sub_element path mode (st_el st)) as [[idxs|] e']; auto.
    destruct (_ && _); auto. apply on_path_eq. intros c. apply IH; auto.
  - unfold read_union_model. destruct computed; auto. rewrite (perm_variants (read n ev) title hide eas loc H0 H). apply variants_eq; auto.
  - destruct computed; auto. rewrite (perm_tagged (read_proxy ev (read n ev)) attr eas loc H0 H). apply tagged_eq; auto.
Qed.

Lemma from_xml_shuffled : forall ev ev', shuffled_env (names_differ ev) tags_differ ev ev' -> forall n cls root eas,
  from_xml_tree n ev cls root eas = from_xml_tree n ev' cls root eas.
Proof.
  intros ev ev' E n cls root eas. unfold from_xml_tree. pose proof E as [Eb Em]. specialize (Em cls).
  destruct (en_model ev cls) as [m|], (en_model ev' cls) as [m'|]; try tauto. assert (En : md_elem_name m' = md_elem_name m) by (inv Em; auto).
  rewrite En, Eb. destruct (tag_is (native_tag root) (md_elem_name m)); auto.
  rewrite (@model_eq (names_differ ev) tags_differ (read n ev) (read n ev') (@read_shuffled ev ev' E n) m m' Em). reflexivity.
Qed.

(** ---- writing ---- *)
Definition eqw (w w' : writer) : Prop := forall fl e v enc, w fl e v enc = w' fl e v enc.

Section Write.
  Variables (U : list proxy -> Prop) (T : smode -> list (string * proxy) -> Prop).

  Lemma w_items_eq : forall w w', eqw w w' -> forall fl vs encs e, write_items w fl e vs encs = write_items w' fl e vs encs.
  Proof.
    intros w w' E fl. induction vs; intros [|enc encs] e; simpl; auto. rewrite (E fl e a enc). destruct (_ && _); auto.
    destruct (w' fl e a enc); simpl; auto.
  Qed.

  Lemma w_tuple_eq : forall ws ws', Forall2 eqw ws ws' -> forall fl vs encs e, write_tuple ws fl e vs encs = write_tuple ws' fl e vs encs.
  Proof.
    induction 1 as [|w w' ws ws' E F IH]; intros fl [|v vs] [|enc encs] e; simpl; auto. rewrite (E fl e v enc). destruct (w' fl e v enc); simpl; auto.
  Qed.

  Lemma w_homo_eq : forall w w', eqw w w' -> eqw (write_homo w) (write_homo w').
  Proof.
    intros w w' E fl e v enc. unfold write_homo. destruct (is_none v); auto. destruct (py_iter v); simpl; auto. destruct (_ && _); auto.
    destruct (py_iter enc); simpl; auto. apply w_items_eq; auto.
  Qed.

  Lemma w_hetero_eq : forall ws ws', Forall2 eqw ws ws' -> eqw (write_hetero ws) (write_hetero ws').
  Proof.
    intros ws ws' E fl e v enc. unfold write_hetero. assert (L : length ws = length ws') by (induction E; simpl; auto). rewrite L.
    destruct (is_none v); auto. destruct (py_iter v); simpl; auto. destruct (_ && _); auto. destruct (negb _); auto.
    destruct (py_iter enc); simpl; auto. apply w_tuple_eq; auto.
  Qed.

  Lemma w_union_eq : forall (wp wp' : proxy -> writer), (forall q, eqw (wp q) (wp' q)) -> forall l, eqw (write_union wp l) (write_union wp' l).
  Proof. intros wp wp' E l fl e v enc. induction l; simpl; auto. destruct (match model_type v with Some c => String.eqb (px_model a) c | None => false end); auto. apply E. Qed.

  Lemma w_tagged_eq : forall (wp wp' : proxy -> writer), (forall q, eqw (wp q) (wp' q)) -> forall disc l, eqw (write_tagged wp disc l) (write_tagged wp' disc l).
  Proof.
    intros wp wp' E disc l fl e v enc. unfold write_tagged. destruct enc; auto. destruct (dget disc d) as [t|]; auto. destruct (py_truthy t); auto.
    destruct t; auto. destruct (dget s l); auto. apply E.
  Qed.

  Lemma w_wrap_eq : forall b path ns mode w w', eqw w w' -> eqw (write_wrap b path ns mode w) (write_wrap b path ns mode w').
  Proof.
    intros b path ns mode w w' E fl e v enc. unfold write_wrap. destruct (is_none v); auto. destruct (_ && _); auto. apply write_path_ext. intros c. apply E.
  Qed.

  Section Fields.
    Variables w w' : ser -> writer.
    Hypothesis W : forall s s', shuffled U T s s' -> eqw (w s) (w' s').

    Lemma w_fields_eq : forall m m', md_cser m' = md_cser m -> md_sexclude m' = md_sexclude m ->
      forall fs fs', Forall2 (fun f f' => fst f = fst f' /\ shuffled U T (snd f) (snd f')) fs fs' -> forall fl v enc e,
      write_fields w m fs fl e v enc = write_fields w' m' fs' fl e v enc.
    Proof.
      intros m m' Cs Ex fs fs'. induction 1 as [|[n f] [n' f'] fs fs' [En S] F IH]; intros; simpl in *; auto. subst n'. rewrite Cs, Ex.
      destruct (str_in n (md_sexclude m)); auto. destruct (if fl_exclude_unset fl then is_unset v n else Ok false) as [[|]|x|]; simpl; auto.
      destruct (py_getattr v n); simpl; auto. destruct (md_cser m n) as [custom|].
      - destruct (custom v e a); simpl; auto.
      - destruct (py_getitem enc n) as [xe|x|]; simpl; auto. rewrite (W S fl e a xe). destruct (w' f' fl e a xe); simpl; auto.
    Qed.

    Lemma w_model_eq : forall m m', shuffled_class U T m m' -> eqw (write_model w m) (write_model w' m').
    Proof.
      intros m m' C fl e v enc. inv C. unfold write_model; cbn [md_root md_fields]. destruct (is_none v); auto. destruct root.
      - destruct (if fl_exclude_unset fl then is_unset v "root" else Ok false) as [[|]|x|]; simpl; auto.
        destruct H as [|[n f] [n' f'] fs fs' [En S] F]; auto. cbn [snd] in S. destruct (py_getattr v "root"); simpl; auto. rewrite (W S). reflexivity.
      - apply w_fields_eq; auto.
    Qed.

    Lemma w_proxy_eq : forall ev ev', shuffled_env U T ev ev' -> forall q, eqw (write_proxy ev w q) (write_proxy ev' w' q).
    Proof.
      intros ev ev' [Eb Em] q fl e v enc. unfold write_proxy. specialize (Em (px_model q)).
      destruct (en_model ev (px_model q)) as [m|], (en_model ev' (px_model q)) as [m'|]; try tauto. rewrite Eb.
      destruct (_ && _); auto. destruct (_ && _); auto. destruct (is_none v); auto. rewrite (w_model_eq Em). reflexivity.
    Qed.
  End Fields.
End Write.

Lemma perm_union : forall (wp : proxy -> writer) l l', Permutation l l' -> classes_differ l -> eqw (write_union wp l) (write_union wp l').
Proof.
  intros wp. induction 1 as [|q l l' P IH|q1 q2 l|l l' l'' P IH P' IH']; intros Nd fl e v enc; auto.
  - unfold classes_differ in Nd. simpl in Nd. inv Nd. simpl. destruct (match model_type v with Some c => String.eqb (px_model q) c | None => false end); auto. apply IH; auto.
  - assert (Ne : px_model q2 <> px_model q1) by (unfold classes_differ in Nd; simpl in Nd; inv Nd; simpl in *; intuition congruence). simpl.
    destruct (model_type v) as [c|]; auto. destruct (String.eqb_spec (px_model q1) c), (String.eqb_spec (px_model q2) c); auto. congruence.
  - rewrite (IH Nd). apply IH'. unfold classes_differ. eapply Permutation_NoDup; [apply Permutation_map; eassumption|auto].
Qed.

Lemma perm_dget : forall A (l l' : list (string * A)), Permutation l l' -> NoDup (map fst l) -> forall k, dget k l = dget k l'.
Proof.
  intros A. induction 1 as [|[k0 x] l l' P IH|[k1 x] [k2 y] l|l l' l'' P IH P' IH']; intros Nd k; auto.
  - simpl in *. inv Nd. rewrite IH; auto.
  - simpl in *. assert (k1 <> k2) by (inv Nd; simpl in *; intuition congruence).
    destruct (String.eqb_spec k k1), (String.eqb_spec k k2); congruence.
  - rewrite IH by auto. apply IH'. eapply Permutation_NoDup; [apply Permutation_map; eassumption|auto].
Qed.

Lemma write_shuffled : forall ev ev', shuffled_env classes_differ one_each ev ev' -> forall n s s',
  shuffled classes_differ one_each s s' -> eqw (write n ev s) (write n ev' s').
Proof.
  intros ev ev' E. induction n as [|n IH]; intros s s' S; [intros fl e v enc; reflexivity|]. cbn [write].
  assert (Px : forall q, eqw (write_proxy ev (write n ev) q) (write_proxy ev' (write n ev') q)) by (intros q; eapply w_proxy_eq; eauto).
  assert (Same : forall s, eqw (write n ev s) (write n ev' s)) by (intros x; apply IH; apply sf_same).
  pose proof E as [Eb _].
  destruct S; intros fl e v enc; cbn [write_step]; rewrite ?Eb.
  - destruct s; cbn [write_step]; rewrite ?Eb; auto.
    + apply w_homo_eq; auto.
    + apply w_hetero_eq. clear - Same. induction inners; simpl; auto.
    + apply Same.
    + apply w_union_eq; auto.
    + apply w_tagged_eq; auto.
    + apply w_wrap_eq; auto.
    + apply Px.
  - apply w_homo_eq; auto.
  - apply w_hetero_eq. clear - IH H. induction H; simpl; auto.
  - apply IH; auto.
  - apply w_wrap_eq; auto.
  - rewrite (perm_union _ H0 H). apply w_union_eq; auto.
  - etransitivity; [|apply w_tagged_eq; exact Px]. unfold write_tagged. destruct enc; auto. destruct (dget disc d) as [t|]; auto. destruct (py_truthy t); auto.
    destruct t; auto. rewrite (perm_dget H0 H). reflexivity.
Qed.

Lemma to_xml_shuffled : forall ev ev', shuffled_env classes_differ one_each ev ev' -> forall n encode v fl,
  to_xml_tree n ev encode v fl = to_xml_tree n ev' encode v fl.
Proof.
  intros ev ev' E n encode v fl. unfold to_xml_tree. destruct (model_type v) as [cls|]; auto. pose proof E as [Eb Em]. specialize (Em cls).
  destruct (en_model ev cls) as [m|], (en_model ev' cls) as [m'|]; try tauto.
  assert (En : md_elem_name m' = md_elem_name m /\ md_nsmap m' = md_nsmap m) by (inv Em; auto). destruct En as [-> ->]. rewrite Eb.
  rewrite (@w_model_eq classes_differ one_each (write n ev) (write n ev') (@write_shuffled ev ev' E n) m m' Em). reflexivity.
Qed.
