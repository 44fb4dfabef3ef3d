(** PfRename3.v -- proofs for C87: building the serializers of renamed classes. *)

From Verif Require Import Base Elem Native Errs Names Fields Ser Build SpecSim SpecRename PfRename PfRename2.

Ltac inv H := inversion H; subst; clear H.

(** the induction principle of [renamed_schema] is not needed: the proofs are by fuel *)

Lemma rn_bind : forall A B C D (Q : A -> B -> Prop) (Q' : C -> D -> Prop) a b f g,
  rn_out Q a b -> (forall x y, Q x y -> rn_out Q' (f x) (g y)) -> rn_out Q' (obind a f) (obind b g).
Proof. intros A B C D Q Q' [x|x|] [y|y|] f g H H'; simpl in *; auto; contradiction. Qed.

Lemma rn_refl : forall A (a : out A), rn_out eq a a.
Proof. intros A [x|x|]; simpl; auto. Qed.

Section Declared.
  Variable R : renaming.
  Hypothesis HR : one_to_one R.
  Variable P : string -> string.
  Hypothesis HP : forall a b, P a = P b -> a = b.
  Variables cl cl' : classes.
  Hypothesis HC : renamed_infos R cl cl'.
  Variables ev ev' : env.
  Hypothesis HE : renamed_env R ev ev'.

  Definition drel (Q : cschema -> cschema -> Prop) (d d' : dict cschema) : Prop :=
    Forall2 (fun a b => fst b = P (fst a) /\ Q (snd a) (snd b)) d d'.

  Lemma drel_fold : forall Q l l', drel Q l l' -> forall d d', drel Q d d' ->
    drel Q (fold_left (fun d kv => dset (fst kv) (snd kv) d) l d) (fold_left (fun d kv => dset (fst kv) (snd kv) d) l' d').
  Proof.
    intros Q l l' H. induction H as [|[a x] [b y] l l' [E Hx] H IH]; simpl in *; intros d d' Hd; auto. subst b.
    apply IH. apply (@dset_like _ Q P HP); auto.
  Qed.

  Lemma drel_dict_of : forall Q l l', drel Q l l' -> drel Q (dict_of l) (dict_of l').
  Proof. intros. apply drel_fold; auto. constructor. Qed.

  (** the contexts of a field and of the renamed field *)
  Record crel (Q : cschema -> cschema -> Prop) (c c' : ctx) : Prop := CRel {
    cr_model : cx_model c' = rn_cls R (cx_model c);
    cr_alias : cx_alias c' = cx_alias c;
    cr_computed : cx_computed c' = cx_computed c;
    cr_info : cx_info c' = cx_info c;
    cr_nsattrs : cx_ns_attrs c' = cx_ns_attrs c;
    cr_mode : cx_mode c' = cx_mode c;
    cr_hide : cx_hide c' = cx_hide c;
    cr_ns : parent_ns c' = parent_ns c;
    cr_nsmap : parent_nsmap c' = parent_nsmap c;
    cr_defs : drel Q (cx_defs c) (cx_defs c')
  }.

  Definition keeps (c c1 : ctx) : Prop := cx_field c1 = cx_field c /\ cx_alias c1 = cx_alias c /\ cx_info c1 = cx_info c.

  Definition settled (c c' : ctx) (s : cschema) : Prop :=
    cx_field c' = cx_field c \/ name_free cl (cx_info c) (cx_alias c) s.

  Definition pre_rel (Q : cschema -> cschema -> Prop) c c' (x y : cschema * ctx) : Prop :=
    Q (fst x) (fst y) /\ crel Q (snd x) (snd y) /\ keeps c (snd x) /\ keeps c' (snd y).

  Lemma keeps_refl : forall c, keeps c c.
  Proof. intros c; repeat split. Qed.

  Lemma keeps_trans : forall a b c, keeps a b -> keeps b c -> keeps a c.
  Proof. intros a b c (A & B & C) (D & E & F); repeat split; congruence. Qed.

  Lemma pre_ok : forall (Q : cschema -> cschema -> Prop) c c' s s', Q s s' -> crel Q c c' -> pre_rel Q c c' (s, c) (s', c').
  Proof. intros. split; [|split; [|split]]; simpl; auto using keeps_refl. Qed.

  Lemma drel_dget : forall Q d d' r, drel Q d d' ->
    match dget r d, dget (P r) d' with Some s, Some s' => Q s s' | None, None => True | _, _ => False end.
  Proof.
    intros Q d d' r H.
    generalize (@dget_like _ _ (fun a b => fst b = P (fst a) /\ Q (snd a) (snd b)) P HP (fun a b H => proj1 H) d d' r H).
    destruct (dget r d), (dget (P r) d'); auto. intros (a & b & [_ X] & <- & <-); auto.
  Qed.

  Lemma pre_rel_keeps : forall Q c c' d d' a b, keeps c d -> keeps c' d' -> rn_out (pre_rel Q d d') a b -> rn_out (pre_rel Q c c') a b.
  Proof.
    intros Q c c' d d' [x|x|] [y|y|] K K'; simpl; auto. intros (A & B & C & D).
    repeat split; auto; try apply B; destruct K as (? & ? & ?), K' as (? & ? & ?), C as (? & ? & ?), D as (? & ? & ?); congruence.
  Qed.

  Lemma crel_default : forall Q c c', crel Q c c' -> crel Q (replace_default c) (replace_default c').
  Proof. intros Q c c' H. destruct H. constructor; auto; destruct c, c'; simpl in *; auto. Qed.

  Lemma crel_optional : forall Q c c', crel Q c c' -> crel Q (replace_optional c) (replace_optional c').
  Proof. intros Q c c' H. destruct H. constructor; auto; destruct c, c'; simpl in *; auto. Qed.

  Lemma crel_defs : forall Q c c' d d', crel Q c c' -> drel Q d d' -> crel Q (replace_defs c (dict_of d)) (replace_defs c' (dict_of d')).
  Proof.
    intros Q c c' d d' H D. destruct H. constructor; auto; try (destruct c, c'; simpl in *; auto; fail).
    simpl. unfold dupdate. apply drel_fold; auto. apply drel_dict_of; auto.
  Qed.

  (** finding the schema a name stands for *)
  Lemma preprocess_like : forall n s s' c c', crel (renamed_schema R P) c c' -> renamed_schema R P s s' ->
    rn_out (pre_rel (renamed_schema R P) c c') (preprocess n s c) (preprocess n s' c').
  Proof.
    induction n as [|n IH]; intros s s' c c' Hc Hs; [exact I|].
    assert (K := keeps_refl c). assert (K' := keeps_refl c').
    inversion Hs; subst; cbn [preprocess family_of]; auto; try (apply pre_ok; auto; fail); try reflexivity.
    - destruct (str_in ty prim_types); cbn [rn_out]; auto. apply pre_ok; auto.
    - eapply pre_rel_keeps; [| |apply IH; auto]; destruct k; auto; try (repeat split; fail); auto using crel_default, crel_optional.
    - eapply pre_rel_keeps; [| |apply IH; auto]; try (repeat split; fail). apply crel_defs; auto.
    - assert (D := @drel_dget _ _ _ r (cr_defs Hc)). destruct (dget r (cx_defs c)), (dget (P r) (cx_defs c')); try contradiction; simpl; auto.
  Qed.

  Lemma preprocess_keeps : forall n s c s1 c1, preprocess n s c = Ok (s1, c1) -> keeps c c1.
  Proof.
    induction n as [|n IH]; intros s c s1 c1 E; cbn [preprocess] in E; [discriminate|].
    destruct s; cbn [family_of] in E; try (injection E as <- <-; apply keeps_refl); try discriminate;
      try (apply IH in E; try (destruct k); exact E).
    - destruct (str_in ty prim_types); [injection E as <- <-; apply keeps_refl|discriminate].
    - destruct ser; [|discriminate]. eapply IH; eauto.
    - destruct (dget ref (cx_defs c)); [|discriminate]. eapply IH; eauto.
  Qed.

  Lemma preprocess_tagged : forall n s c s1 c1, preprocess n s c = Ok (s1, c1) -> only_tagged cl s -> only_tagged cl s1.
  Proof.
    induction n as [|n IH]; intros s c s1 c1 E T; cbn [preprocess] in E; [discriminate|].
    inversion T; subst; cbn [family_of] in E; try (injection E as <- <-; auto; fail); eauto.
  Qed.

  (** ---- the serializers ---- *)

  Lemma crel_more : forall Q c c', crel Q c c' ->
    cx_location c' = cx_location c /\ cx_path c' = cx_path c /\ cx_ns c' = cx_ns c /\ cx_nsmap c' = cx_nsmap c /\
    cx_nillable c' = cx_nillable c /\ cx_wrapped c' = cx_wrapped c /\ entity_ns c' = entity_ns c /\ entity_nsmap c' = entity_nsmap c /\
    attrs_of c' = attrs_of c.
  Proof.
    intros Q c c' H. destruct H. unfold attrs_of, entity_ns, entity_nsmap, cx_location, cx_path, cx_ns, cx_nsmap, cx_nillable, cx_wrapped.
    repeat split; congruence.
  Qed.

  Lemma settled_name : forall Q c c' s, crel Q c c' -> settled c c' s -> cx_location c <> Some LocWrapped ->
    cx_field c' = cx_field c \/ str_truthy (cx_alias c) = true \/ str_truthy (cx_path c) = true \/ only_tagged cl s.
  Proof.
    intros Q c c' s H [E|[E|[(i & E & T)|E]]] W; auto. right; right; left. unfold cx_path, cx_location in *. rewrite E in *. simpl in *.
    destruct i as [[[]|] path ns m nil w]; simpl in *; auto.
  Qed.

  Lemma entity_name_like : forall Q c c' s, crel Q c c' -> settled c c' s -> cx_location c <> Some LocWrapped -> ~ only_tagged cl s ->
    entity_name c' = entity_name c.
  Proof.
    intros Q c c' s H S W N. destruct (crel_more H) as (_ & EP & _). unfold entity_name. rewrite EP, (cr_alias H).
    destruct (settled_name H S W) as [E|[E|[E|E]]]; try contradiction; try congruence; unfold str_or; rewrite ?E; auto.
    destruct (str_truthy (cx_path c)) eqn:X; rewrite ?X, ?E; auto.
  Qed.

  Definition ser_rel := rn_out (renamed_ser R).

  Ltac eqs H := let A := fresh in assert (A := crel_more H); destruct A as (?EL & ?EP & ?EN & ?EM & ?EI & ?EW & ?ENS & ?ENM & ?EA).

  Lemma attr_like : forall Q c c' s, crel Q c c' -> settled c c' s -> cx_location c <> Some LocWrapped -> ~ only_tagged cl s ->
    ser_rel (build_attr c) (build_attr c').
  Proof.
    intros Q c c' s H S W N. eqs H. unfold build_attr. rewrite EN, (cr_nsattrs H), (cr_ns H), (entity_name_like H S W N), ENM, (cr_computed H).
    destruct (match _ with Some s0 => _ | None => _ end); simpl; auto. destruct (entity_name c); simpl; auto.
    destruct (uri_of _ _ _ _); simpl; auto. constructor.
  Qed.

  Lemma elem_like : forall Q c c' s, crel Q c c' -> settled c c' s -> cx_location c <> Some LocWrapped -> ~ only_tagged cl s ->
    ser_rel (build_elem c) (build_elem c').
  Proof.
    intros Q c c' s H S W N. eqs H. unfold build_elem. rewrite (entity_name_like H S W N), ENS, ENM, (cr_computed H), (cr_mode H), EI.
    destruct (entity_name c); simpl; auto. destruct (uri_of _ _ _ _); simpl; auto. constructor.
  Qed.

  Lemma prim_like : forall Q c c' s, crel Q c c' -> settled c c' s -> ~ only_tagged cl s -> ser_rel (build_prim c) (build_prim c').
  Proof.
    intros Q c c' s H S N. eqs H. unfold build_prim. rewrite EL. destruct (cx_location c) as [[]|] eqn:L; simpl; auto.
    - eapply elem_like; eauto. congruence.
    - eapply attr_like; eauto. congruence.
    - rewrite (cr_computed H), EI. constructor.
  Qed.

  Lemma mapping_at_like : forall Q c c' s, crel Q c c' -> settled c c' s -> ~ only_tagged cl s -> ser_rel (build_mapping_at c) (build_mapping_at c').
  Proof.
    intros Q c c' s H S N. eqs H. unfold build_mapping_at. rewrite EL. destruct (cx_location c) as [[]|] eqn:L; simpl; auto.
    - unfold build_map_elem. assert (W : cx_location c <> Some LocWrapped) by congruence.
      rewrite (entity_name_like H S W N), ENS, ENM, EA, (cr_mode H).
      destruct (entity_name c); simpl; auto. destruct (uri_of _ _ _ _); simpl; auto. constructor.
    - rewrite EA. constructor.
  Qed.

  Lemma raw_like : forall Q c c' s, crel Q c c' -> settled c c' s -> ~ only_tagged cl s -> ser_rel (build_raw c) (build_raw c').
  Proof.
    intros Q c c' s H S N. eqs H. unfold build_raw. rewrite EL.
    assert (D : cx_location c <> Some LocWrapped -> ser_rel (build_raw_elem c) (build_raw_elem c')).
    { intros W. unfold build_raw_elem. rewrite (entity_name_like H S W N), ENS, ENM, (cr_mode H), (cr_computed H).
      destruct (entity_name c); simpl; auto. destruct (uri_of _ _ _ _); simpl; auto. constructor. }
    destruct (cx_location c) as [[]|] eqn:L; simpl; auto; apply D; congruence.
  Qed.

  Lemma family_like : forall s s', renamed_schema R P s s' -> family_of s' = family_of s.
  Proof. intros s s' H. inversion H; subst; auto. Qed.

  Lemma is_family_like : forall f s s', renamed_schema R P s s' -> is_family f s' = is_family f s.
  Proof. intros. unfold is_family. erewrite family_like; eauto. Qed.

  Lemma in_families_like : forall l s s', renamed_schema R P s s' -> in_families s' l = in_families s l.
  Proof. intros. unfold in_families. induction l; simpl; auto. erewrite is_family_like, IHl; eauto. Qed.

  Lemma mapping_like : forall n k k' v v' c c', crel (renamed_schema R P) c c' -> settled c c' (CDict k v) ->
    renamed_schema R P k k' -> renamed_schema R P v v' -> ser_rel (build_mapping n k v c) (build_mapping n k' v' c').
  Proof.
    intros n k k' v v' c c' H S Hk Hv. unfold build_mapping, ser_rel. eapply rn_bind; [apply preprocess_like; eauto|].
    intros [k1 c1] [k1' c1'] (A & _). eapply rn_bind; [apply preprocess_like; eauto|].
    intros [v1 c2] [v1' c2'] (B & _). simpl in A, B. rewrite (is_family_like FPrim A), (is_family_like FPrim B).
    destruct (is_family FPrim k1), (is_family FPrim v1); simpl; auto. eapply mapping_at_like; eauto. intros T; inversion T.
  Qed.

  Lemma all_prim_like : forall n l l' c c', crel (renamed_schema R P) c c' -> Forall2 (renamed_schema R P) l l' ->
    rn_out eq (all_prim n l c) (all_prim n l' c').
  Proof.
    intros n l l' c c' H F. induction F as [|s s' l l' Hs F IH]; simpl; auto. eapply rn_bind; [apply preprocess_like; eauto|].
    intros [v1 c2] [v1' c2'] (B & _). simpl in B. rewrite (is_family_like FPrim B). destruct (is_family FPrim v1); simpl; auto.
  Qed.

  Lemma proxy_like : forall Q cls root body c c', crel Q c c' -> settled c c' (CModel cls root body) -> cx_location c <> Some LocWrapped ->
    ser_rel (build_proxy cl cls c) (build_proxy cl' (rn_cls R cls) c').
  Proof.
    intros Q cls root body c c' H S W. eqs H. unfold build_proxy. assert (I := HC cls).
    destruct (cl cls) as [i|] eqn:E, (cl' (rn_cls R cls)) as [i'|]; try contradiction; simpl; auto.
    destruct I. rewrite ri_params, EP, EN, EM, (cr_ns H), (cr_nsmap H), (cr_alias H), (cr_mode H), (cr_computed H), EI.
    match goal with |- context [uri_of (default (ci_name i') ?x) ?a ?b ?d] =>
      match goal with |- context [uri_of (default (ci_name i) ?y) a b d] => assert (X : default (ci_name i') x = default (ci_name i) y) end end.
    { assert (N := settled_name H S W). unfold str_or.
      destruct (str_truthy (cx_path c)) eqn:B1; simpl; [rewrite ?B1; simpl; rewrite ?B1; destruct (cx_path c); auto; discriminate|].
      destruct (str_truthy (c_tag (ci_params i))) eqn:B2; [rewrite ?B2; simpl; rewrite ?B2; destruct (c_tag _); auto; discriminate|].
      destruct ri_tag as [T|T]; [|congruence].
      destruct (str_truthy (cx_alias c)) eqn:B3; [rewrite ?B3; destruct (cx_alias c); auto; discriminate|].
      destruct N as [N|[N|[N|N]]]; try congruence.
      - rewrite N, T. reflexivity.
      - inversion N; subst. congruence. }
    rewrite X. destruct (uri_of _ _ _ _); simpl; auto. constructor. repeat split.
  Qed.

  Lemma kind_like : forall s s', renamed_ser R s s' -> kind s' = kind s.
  Proof. intros s s' H. inversion H; auto. Qed.

  Lemma as_proxy_like : forall s s', renamed_ser R s s' -> rn_out (renamed_proxy R) (as_proxy s) (as_proxy s').
  Proof. intros s s' H. inversion H; subst; simpl; auto. Qed.

  Lemma omap_like : forall A A' B B' (S : A -> A' -> Prop) (Q : B -> B' -> Prop) f f', (forall x y, S x y -> rn_out Q (f x) (f' y)) ->
    forall l l', Forall2 S l l' -> rn_out (Forall2 Q) (omap f l) (omap f' l').
  Proof.
    intros A A' B B' S Q f f' H l l' F. induction F as [|x y l l' Hx F IH]; simpl; [constructor|].
    eapply rn_bind; [apply H; eauto|]. intros a b Ha. eapply rn_bind; [apply IH|]. intros; simpl. constructor; auto.
  Qed.

  Section Select.
    Variables par par' : cschema -> ctx -> out ser.
    Hypothesis Hpar : forall s s' c c', crel (renamed_schema R P) c c' -> renamed_schema R P s s' -> settled c c' s ->
      ser_rel (par s c) (par' s' c').
    Variable n : nat.

    Lemma settled_keeps : forall c c' d d' s, keeps c d -> keeps c' d' -> settled c c' s -> settled d d' s.
    Proof.
      intros c c' d d' s (A & B & C) (D & E & F) [S|S]; [left; congruence|right]. unfold name_free in *. rewrite B, C. auto.
    Qed.

    Lemma settled_sub : forall c c' s s1, (only_tagged cl s -> only_tagged cl s1) -> settled c c' s -> settled c c' s1.
    Proof. intros c c' s s1 H [S|[S|[S|S]]]; unfold settled, name_free; auto. Qed.

    Lemma wrap_like : forall s s' c c', crel (renamed_schema R P) c c' -> renamed_schema R P s s' -> settled c c' s ->
      cx_location c = Some LocWrapped -> ser_rel (build_wrap par s c) (build_wrap par' s' c').
    Proof.
      intros s s' c c' H Hs S L. eqs H. unfold build_wrap. rewrite EP. destruct (cx_path c) as [path|]; simpl; auto.
      eapply rn_bind.
      - apply Hpar; eauto.
        + destruct H. constructor; auto; simpl; rewrite ?cr_model0; auto; try congruence.
        + destruct S as [S|[S|[(i & S & T)|S]]]; [left; simpl; auto|right; left; simpl; auto| |right; right; right; auto].
          right; right; left. simpl. unfold cx_location, cx_wrapped in *. rewrite S in *. simpl in *.
          destruct i as [[[]|] p ns m nil [w|]]; simpl in *; try discriminate. eauto.
      - intros x y Hx. rewrite ENS, ENM, (cr_mode H), (cr_computed H). destruct (omap _ _); simpl; auto. constructor; auto.
    Qed.

    Lemma homo_like : forall s s' c c', crel (renamed_schema R P) c c' -> renamed_schema R P s s' -> settled c c' s ->
      ser_rel (build_homo par n s c) (build_homo par' n s' c').
    Proof.
      intros s s' c c' H Hs S. unfold build_homo, ser_rel. eapply rn_bind; [apply preprocess_like; eauto|].
      intros [s1 c1] [s1' c1'] (A & B & K & K'). simpl in A, B, K, K'. rewrite !(in_families_like _ A). eqs B. rewrite EL.
      destruct (negb _); simpl; auto. destruct (negb _ && _); simpl; auto.
      assert (D : rn_out (renamed_ser R) (obind (par s c1) (fun inner => Ok (SHomo (cx_model c1) (cx_computed c1) inner (cx_hide c1))))
                         (obind (par' s' c1') (fun inner => Ok (SHomo (cx_model c1') (cx_computed c1') inner (cx_hide c1'))))).
      { eapply rn_bind; [apply Hpar; eauto; eapply settled_keeps; eauto|]. intros x y Hx. simpl.
        rewrite (cr_model B), (cr_computed B). constructor; auto. }
      destruct (cx_location c1) as [[]|]; simpl; auto.
    Qed.

    Lemma check_items_like : forall l l' c c', crel (renamed_schema R P) c c' -> Forall2 (renamed_schema R P) l l' ->
      rn_out (fun x y => crel (renamed_schema R P) x y /\ keeps c x /\ keeps c' y) (check_items n l c) (check_items n l' c').
    Proof.
      intros l l' c c' H F. revert c c' H. induction F as [|s s' l l' Hs F IH]; intros c c' H; cbn [check_items].
      - simpl; auto using keeps_refl.
      - eapply rn_bind; [apply preprocess_like; eauto|]. intros [s1 c1] [s1' c1'] (A & B & K & K'). simpl in A, B, K, K'.
        rewrite !(in_families_like _ A). eqs B. rewrite EL. destruct (negb _); simpl; auto. destruct (negb _ && _); simpl; auto.
        generalize (IH _ _ B). destruct (check_items n l c1), (check_items n l' c1'); simpl; auto.
        intros (X & Y & Z). repeat split; try apply X; eapply keeps_trans; eauto.
    Qed.

    Lemma Forall2_Forall : forall A B (S : A -> B -> Prop) (T : A -> Prop) l l', Forall2 S l l' -> (forall x, In x l -> T x) ->
      Forall2 (fun x y => S x y /\ T x) l l'.
    Proof. intros A B S T l l' F. induction F; intros G; constructor; simpl in *; auto. Qed.

    Lemma hetero_like : forall l l' c c' s, crel (renamed_schema R P) c c' -> Forall2 (renamed_schema R P) l l' ->
      (only_tagged cl s -> Forall (only_tagged cl) l) -> settled c c' s ->
      ser_rel (build_hetero par n l c) (build_hetero par' n l' c').
    Proof.
      intros l l' c c' s H F T S. unfold build_hetero, ser_rel. eapply rn_bind; [apply check_items_like; eauto|].
      intros c1 c1' (B & K & K'). eqs B. rewrite EL.
      assert (D : rn_out (renamed_ser R) (obind (omap (fun item => par item c1) l) (fun inners => Ok (SHetero (cx_model c1) (cx_computed c1) inners (cx_hide c1))))
                         (obind (omap (fun item => par' item c1') l') (fun inners => Ok (SHetero (cx_model c1') (cx_computed c1') inners (cx_hide c1'))))).
      { eapply rn_bind.
        - eapply (@omap_like _ _ _ _ (fun x y => renamed_schema R P x y /\ settled c1 c1' x)).
          + intros x y (X & Y). apply Hpar; eauto.
          + apply Forall2_Forall; auto. intros x Hx. eapply settled_keeps; eauto. eapply settled_sub; [|eassumption].
            intros Y. apply T in Y. rewrite Forall_forall in Y. auto.
        - intros x y Hx. simpl. rewrite (cr_model B), (cr_computed B). constructor; auto. }
      destruct (cx_location c1) as [[]|]; simpl; auto.
    Qed.

    Lemma choice_families_like : forall l l' c c', crel (renamed_schema R P) c c' -> Forall2 (renamed_schema R P) l l' ->
      rn_out (fun x y => fst x = fst y /\ crel (renamed_schema R P) (snd x) (snd y) /\ keeps c (snd x) /\ keeps c' (snd y))
             (choice_families n l c) (choice_families n l' c').
    Proof.
      intros l l' c c' H F. revert c c' H. induction F as [|s s' l l' Hs F IH]; intros c c' H; simpl.
      - repeat split; auto; apply H.
      - eapply rn_bind; [apply preprocess_like; eauto|]. intros [s1 c1] [s1' c1'] (A & B & K & K'). simpl in A, B, K, K'.
        rewrite (family_like A). destruct (family_of s1) as [[]|]; simpl; auto;
        (eapply rn_bind; [apply IH; eauto|]; intros [f1 c2] [f1' c2'] (X & Y & Z & Z'); simpl in *; subst; do 3 (split; auto); eapply keeps_trans; eauto).
    Qed.

    Lemma union_like : forall l l' c c', crel (renamed_schema R P) c c' -> Forall2 (renamed_schema R P) l l' ->
      settled c c' (CUnion l) -> ser_rel (build_union par n l c) (build_union par' n l' c').
    Proof.
      intros l l' c c' H F S. unfold build_union, ser_rel. eapply rn_bind; [apply choice_families_like; eauto|].
      intros [fs c1] [fs' c1'] (E & B & K & K'). simpl in E, B, K, K'. subst fs'. cbv zeta.
      assert (G : Forall2 (fun x y => renamed_schema R P x y /\ settled c1 c1' x) l l').
      { apply Forall2_Forall; auto. intros x Hx. eapply settled_keeps; eauto. eapply settled_sub; [|eassumption].
        intros Y. inversion Y; subst. rewrite Forall_forall in *. auto. }
      destruct fs as [|f fs]; [reflexivity|]. destruct ((_ || _) && _); [reflexivity|]. destruct (existsb (family_eqb FModel) _).
      - unfold build_union_model. eapply rn_bind.
        + eapply omap_like; [|exact G]. intros x y (X & Y). eapply rn_bind; [apply Hpar; eauto|]. intros. apply as_proxy_like; auto.
        + intros x y Hx. inversion Hx; subst; simpl; auto. rewrite (cr_model B), (cr_computed B). constructor; auto.
      - destruct (existsb (family_eqb FPrim) _); [|reflexivity]. unfold build_union_prim. eapply rn_bind.
        + eapply (@omap_like _ _ _ _ _ (renamed_ser R)); [|exact G]. intros x y (X & Y). apply Hpar; eauto.
        + intros x y Hx. inversion Hx as [|a b x1 y1 Ha Hl]; subst; simpl; auto. rewrite (kind_like Ha).
          replace (forallb (fun s => Nat.eqb (kind s) (kind a)) y1) with (forallb (fun s => Nat.eqb (kind s) (kind a)) x1).
          2:{ clear -Hl. induction Hl as [|u v x1 y1 Hu Hl IH]; simpl; auto. rewrite IH, (kind_like Hu); auto. }
          destruct (forallb _ _); simpl; auto. rewrite (cr_computed B). constructor; auto.
    Qed.

    Lemma check_tagged_like : forall l l' c c', crel (renamed_schema R P) c c' ->
      Forall2 (fun a b => fst a = fst b /\ renamed_schema R P (snd a) (snd b)) l l' ->
      rn_out (fun x y => crel (renamed_schema R P) x y /\ keeps c x /\ keeps c' y) (check_tagged n l c) (check_tagged n l' c').
    Proof.
      intros l l' c c' H F. revert c c' H. induction F as [|[t s] [t' s'] l l' [_ Hs] F IH]; intros c c' H; simpl in *.
      - auto using keeps_refl.
      - eapply rn_bind; [apply preprocess_like; eauto|]. intros [s1 c1] [s1' c1'] (A & B & K & K'). simpl in A, B, K, K'.
        inversion A; subst; simpl; auto. destruct root; simpl; auto.
        generalize (IH _ _ B). destruct (check_tagged n l c1), (check_tagged n l' c1'); simpl; auto.
        intros (X & Y & Z). repeat split; try apply X; eapply keeps_trans; eauto.
    Qed.

    Definition variants_rel d d' (x y : option string * dict proxy) : Prop :=
      fst y = fst x /\
      Forall2 (fun a b => fst a = fst b /\ renamed_proxy R (snd a) (snd b) /\ rn_field R (px_model (snd a)) d = d') (snd x) (snd y) /\
      (fst x <> None -> snd x <> []).

    Lemma dset_same : forall A B (Q : A -> B -> Prop) l l' k x x', Forall2 (fun a b => fst a = fst b /\ Q (snd a) (snd b)) l l' -> Q x x' ->
      Forall2 (fun a b => fst a = fst b /\ Q (snd a) (snd b)) (dset k x l) (dset k x' l').
    Proof.
      intros A B Q l l' k x x' F Hx. induction F as [|[a y] [b y'] l l' [E Hy] F IH]; simpl in *; [constructor; auto|]. subst b.
      destruct (String.eqb k a); constructor; auto.
    Qed.

    Lemma dset_not_nil : forall A k (x : A) l, dset k x l <> [].
    Proof. intros A k x [|[a y] l]; simpl; [discriminate|]. destruct (String.eqb k a); discriminate. Qed.

    Lemma variants_like : forall d d' c c', (forall cls, rn_field R cls d = d') -> crel (renamed_schema R P) c c' -> forall l l',
      Forall2 (fun a b => (fst a = fst b /\ renamed_schema R P (snd a) (snd b)) /\ settled c c' (snd a)) l l' -> forall attr acc acc',
      variants_rel d d' (attr, acc) (attr, acc') ->
      rn_out (variants_rel d d') (build_variants ev par d l c attr acc) (build_variants ev' par' d' l' c' attr acc').
    Proof.
      intros d d' c c' HD H l l' F. induction F as [|[t s] [t' s'] l l' [[E Hs] Y] F IH]; intros attr acc acc' V; simpl in *; auto. subst t'.
      destruct t as [t|]; simpl; auto. eapply rn_bind; [apply Hpar; eauto|]. intros x x' Hx. eapply rn_bind; [apply as_proxy_like; eauto|].
      intros p p' Hp. assert (Ep : px_model p' = rn_cls R (px_model p)) by apply Hp. rewrite Ep.
      destruct HE as [_ HM]. specialize (HM (px_model p)).
      destruct (en_model ev (px_model p)) as [m|], (en_model ev' (rn_cls R (px_model p))) as [m'|]; try contradiction; simpl; auto.
      rewrite (rc_root HM). destruct (md_root m); simpl; auto.
      assert (G := @dget_like _ _ _ (rn_field R (px_model p)) (fun a b => proj2 HR (px_model p) a b) (fun a b H => proj1 H) _ _ d (rc_fields HM)).
      rewrite (HD (px_model p)) in G. destruct (dget d (md_fields m)) as [f|], (dget d' (md_fields m')) as [f'|]; try contradiction; simpl; auto.
      destruct G as ([a1 a2] & [b1 b2] & [_ Hf] & <- & <-). simpl in *.
      assert (N : forall a, variants_rel d d' (Some a, dset t p acc) (Some a, dset t p' acc')).
      { intros a. destruct V as (_ & V & _). split; [reflexivity|]. simpl in *. split; [|intros _; apply dset_not_nil].
        apply (@dset_same _ _ (fun p q => renamed_proxy R p q /\ rn_field R (px_model p) d = d')); auto. }
      inversion Hf; subst; simpl; auto. destruct attr as [b|]; auto. destruct (String.eqb name b); simpl; auto.
    Qed.

    Lemma tagged_like : forall d d' l l' c c', crel (renamed_schema R P) c c' ->
      Forall2 (fun a b => fst a = fst b /\ renamed_schema R P (snd a) (snd b)) l l' ->
      match d, d' with Some x, Some y => forall cls, rn_field R cls x = y | None, None => True | _, _ => False end ->
      settled c c' (CTagged d l) -> ser_rel (build_tagged ev par n d l c) (build_tagged ev' par' n d' l' c').
    Proof.
      intros d d' l l' c c' H F HD S. unfold build_tagged, ser_rel. eapply rn_bind; [apply check_tagged_like; eauto|].
      intros c1 c1' (B & K & K'). destruct d as [d|], d' as [d'|]; try contradiction; simpl; auto.
      eapply rn_bind; [apply (@variants_like d d' c1 c1'); auto|].
      - apply (@Forall2_Forall _ _ _ (fun a => settled c1 c1' (snd a))); auto. intros [t x] Hx. eapply settled_keeps; eauto. eapply settled_sub; [|eassumption].
        intros Y. inversion Y; subst. rewrite Forall_forall in *. apply (H1 (t, x)); auto.
      - split; [reflexivity|]. simpl. split; [constructor|congruence].
      - intros [attr vs] [attr' vs'] (E & V & N). simpl in E, V, N. subst attr'. destruct attr as [attr|]; simpl in *; auto.
        rewrite (cr_computed B), (cr_mode B). constructor; auto. apply N. discriminate.
    Qed.

    Lemma select_like : forall s s' c c', crel (renamed_schema R P) c c' -> renamed_schema R P s s' -> settled c c' s ->
      ser_rel (select cl ev par n s c) (select cl' ev' par' n s' c').
    Proof.
      intros s s' c c' H Hs S. unfold select. rewrite (family_like Hs). destruct (family_of s); simpl; auto. eqs H. rewrite EL.
      destruct (cx_location c) as [[]|] eqn:L; try (apply wrap_like; auto; fail).
      all: assert (W : cx_location c <> Some LocWrapped) by congruence.
      all: inversion Hs; subst; simpl; auto.
      all: try (eapply prim_like; eauto; intros T; inversion T; fail).
      all: try (unfold build_is_instance; destruct raw; [eapply raw_like|eapply prim_like]; eauto; intros T; inversion T; fail).
      all: try (unfold build_submodel; rewrite EL, L; simpl; auto; eapply proxy_like; eauto; fail).
      all: try (apply homo_like; auto; eapply settled_sub; [|eassumption]; intros T; inversion T; auto; fail).
      all: try (unfold build_tuple; match goal with v : option nat |- _ => destruct v as [[|k]|] end; simpl; auto;
        [match goal with F : Forall2 _ _ _ |- _ => inversion F as [|x y l1 l1' Hx F1]; subst; simpl; auto; inversion F1; subst; simpl; auto end;
         apply homo_like; auto; eapply settled_sub; [|eassumption]; intros T; inversion T; subst;
         match goal with A : Forall _ _ |- _ => inversion A; auto end
        |eapply hetero_like; eauto; intros T; inversion T; auto]; fail).
      all: try (apply mapping_like; auto; fail).
      all: try (unfold build_typed_mapping; eapply rn_bind; [apply all_prim_like; eauto|]; intros _ _ _; eapply mapping_at_like; eauto; intros T; inversion T; fail).
      all: try (apply union_like; auto; fail).
      all: try (apply tagged_like; auto; fail).
      all: try (unfold build_call; match goal with t : bool |- _ => destruct t end; simpl; auto; eapply hetero_like; eauto; intros T; inversion T; auto; fail).
    Qed.
  End Select.

  Lemma parse_like : forall n s s' c c', crel (renamed_schema R P) c c' -> renamed_schema R P s s' -> settled c c' s ->
    ser_rel (parse cl ev n s c) (parse cl' ev' n s' c').
  Proof.
    induction n as [|n IH]; intros s s' c c' H Hs S; simpl; auto.
    assert (Hq := @preprocess_like n s s' c c' H Hs).
    destruct (preprocess n s c) as [[s1 c1]|x|] eqn:E, (preprocess n s' c') as [[s1' c1']|x'|]; simpl in Hq; try contradiction; simpl; auto.
    destruct Hq as (A & B & K & K'). apply select_like; auto. eapply settled_keeps; eauto. eapply settled_sub; [|eassumption].
    eapply preprocess_tagged; eauto.
  Qed.

  (** ---- classes ---- *)

  Lemma top_schema : forall n s s' c c' , crel (renamed_top R P cl) c c' -> renamed_top R P cl s s' ->
    rn_out (pre_rel (renamed_top R P cl) c c') (preprocess n s c) (preprocess n s' c').
  Proof.
    induction n as [|n IH]; intros s s' c c' Hc Hs; [exact I|].
    assert (K := keeps_refl c). assert (K' := keeps_refl c').
    inversion Hs; subst; cbn [preprocess family_of]; auto; try (apply pre_ok; auto; fail); try reflexivity.
    - eapply pre_rel_keeps; [| |apply IH; auto]; destruct k; auto; try (repeat split; fail); auto using crel_default, crel_optional.
    - eapply pre_rel_keeps; [| |apply IH; auto]; try (repeat split; fail). apply crel_defs; auto.
    - assert (D := @drel_dget _ _ _ r (cr_defs Hc)). destruct (dget r (cx_defs c)), (dget (P r) (cx_defs c')); try contradiction; simpl; auto.
    - inversion H0; subst; try contradiction; cbn [preprocess family_of]; try (apply pre_ok; auto; fail).
      destruct (str_in ty prim_types); cbn [rn_out]; auto. apply pre_ok; auto.
  Qed.

  Lemma top_is_schema : forall s s', renamed_top R P cl s s' -> renamed_schema R P s s'.
  Proof.
    fix IH 3. intros s s' H. destruct H; try (constructor; auto; fail); auto.
    constructor; auto. induction H as [|a b ds ds' [E H] F IHF]; constructor; auto.
  Qed.

  Lemma crel_schema : forall c c', crel (renamed_top R P cl) c c' -> crel (renamed_schema R P) c c'.
  Proof.
    intros c c' H. destruct H. constructor; auto. clear -cr_defs0. unfold drel in *. induction cr_defs0 as [|a b d d' [E H] F IH]; constructor; auto.
    split; auto. apply top_is_schema; auto.
  Qed.

  Definition fields_rel c (x y : dict ser * dict string * list string) : Prop :=
    Forall2 (fun a b => fst b = rn_field R c (fst a) /\ renamed_ser R (snd a) (snd b)) (fst (fst x)) (fst (fst y)) /\
    (forall f, dget (rn_field R c f) (snd (fst y)) = dget f (snd (fst x))) /\
    (forall f, str_in (rn_field R c f) (snd y) = str_in f (snd x)).

  Lemma child_crel : forall Q c c' f f' al comp info hide, crel Q c c' ->
    crel Q (child_field c f al comp info hide) (child_field c' f' al comp info hide).
  Proof. intros Q c c' f f' al comp info hide H. eqs H. destruct H. constructor; simpl; auto; congruence. Qed.

  Lemma dget_dset_map : forall A (g : string -> string), (forall a b, g a = g b -> a = b) -> forall (d d' : dict A) k x,
    (forall f, dget (g f) d' = dget f d) -> forall f, dget (g f) (dset (g k) x d') = dget f (dset k x d).
  Proof.
    intros A g I d d' k x H f. destruct (String.eqb_spec f k) as [->|N].
    - rewrite !dget_dset_same; auto.
    - rewrite !dget_dset_other; auto; intros E; apply I in E; auto.
  Qed.

  Lemma fields_like : forall n c i i' hide, renamed_info R c i i' -> forall fs fs',
    Forall2 (fun a b => fst b = rn_field R c (fst a) /\
      match snd a, snd b with
      | CField ex sa va s, CField ex' sa' va' s' => ex' = ex /\ sa' = sa /\ va' = va /\ renamed_schema R P s s' /\
          (fst b = fst a \/ name_free cl (extract_info (ci_meta i (fst a))) sa s)
      end) fs fs' -> forall x x' k k' sers sers' va va' ex ex', crel (renamed_schema R P) k k' -> x = (sers, va, ex) -> x' = (sers', va', ex') ->
    fields_rel c x x' ->
    rn_out (fields_rel c) (build_fields cl ev n i hide fs k sers va ex) (build_fields cl' ev' n i' hide fs' k' sers' va' ex').
  Proof.
    intros n c i i' hide HI fs fs' F.
    induction F as [|[f [e sa v s]] [f' [e' sa' v' s']] fs fs' [E Hf] F IH]; intros x x' k k' sers sers' va va' ex ex' Hk -> -> Hx; simpl in *; auto.
    subst f'. destruct Hf as (-> & -> & -> & Hs & HN). destruct (ri_meta HI f) as [M1 M2]. rewrite M1, M2.
    destruct (existsb is_noxml (ci_meta i f)); [eapply IH; eauto|]. rewrite (cr_computed Hk).
    eapply rn_bind.
    - apply parse_like; [apply child_crel; eauto|eauto|]. destruct HN as [HN|HN]; [left; simpl; congruence|right; auto].
    - intros y y' Hy. eapply IH; eauto. destruct Hx as (X & Y & Z). simpl in X, Y, Z. split; [|split]; simpl.
      + apply (@dset_like _ (renamed_ser R)); auto. apply HR.
      + destruct v as [a|]; auto. apply dget_dset_map; auto. apply HR.
      + destruct e; auto. intros g. simpl. rewrite Z. destruct (String.eqb_spec g f) as [->|N]; [rewrite String.eqb_refl; auto|].
        destruct (String.eqb_spec (rn_field R c g) (rn_field R c f)) as [Q|_]; auto. apply HR in Q. contradiction.
  Qed.

  Lemma computed_like : forall n c i i' hide, renamed_info R c i i' -> forall cs cs',
    Forall2 (fun a b => fst b = rn_field R c (fst a) /\ fst (snd b) = fst (snd a) /\ renamed_schema R P (snd (snd a)) (snd (snd b)) /\
      (fst b = fst a \/ name_free cl (ci_computed i (fst a)) (fst (snd a)) (snd (snd a)))) cs cs' -> forall k k' sers sers',
    crel (renamed_schema R P) k k' ->
    Forall2 (fun a b => fst b = rn_field R c (fst a) /\ renamed_ser R (snd a) (snd b)) sers sers' ->
    rn_out (Forall2 (fun a b => fst b = rn_field R c (fst a) /\ renamed_ser R (snd a) (snd b)))
      (build_computed cl ev n i hide cs k sers) (build_computed cl' ev' n i' hide cs' k' sers').
  Proof.
    intros n c i i' hide HI cs cs' F.
    induction F as [|[f [sa s]] [f' [sa' s']] fs fs' [E Hf] F IH]; intros k k' sers sers' Hk Hx; simpl in *; auto.
    subst f'. destruct Hf as (-> & Hs & HN). rewrite (ri_computed HI f).
    eapply rn_bind.
    - apply parse_like; [apply child_crel; eauto|eauto|]. destruct HN as [HN|HN]; [left; simpl; congruence|right; auto].
    - intros y y' Hy. eapply IH; eauto. apply (@dset_like _ (renamed_ser R)); auto. apply HR.
  Qed.

  Lemma elem_name_like : forall c i i', renamed_info R c i i' -> class_elem_name i' = class_elem_name i.
  Proof.
    intros c i i' H. destruct H. unfold class_elem_name. rewrite ri_params. destruct ri_tag as [T|T]; rewrite T; auto.
    destruct (c_tag (ci_params i)); [reflexivity|discriminate].
  Qed.

  Lemma skip_body : forall c i b b', renamed_body R P cl c i b b' -> renamed_body R P cl c i (skip_before b) (skip_before b').
  Proof. intros c i b b' H. induction H; simpl; auto. constructor; auto. Qed.

  Lemma skip_done : forall c i b b', renamed_body R P cl c i b b' -> exists fs cs fs' cs', skip_before b = CFields fs cs /\ skip_before b' = CFields fs' cs'.
  Proof. intros c i b b' H. induction H; simpl; eauto 6. Qed.

  Definition built (b b' : bmodel) : Prop := exists c, renamed_bmodel R c b b'.

  Lemma build_class_like : forall n c i i' s s', cl c = Some i -> renamed_info R c i i' -> renamed_top R P cl s s' ->
    rn_out built (build_class cl ev n i s) (build_class cl' ev' n i' s').
  Proof.
    intros n c i i' s s' Hi HI Hs. unfold build_class.
    assert (H0 : crel (renamed_top R P cl) (class_ctx i) (class_ctx i')).
    { destruct HI. unfold class_ctx. rewrite ri_params. constructor; simpl; auto. constructor. }
    assert (S0 := @top_schema n s s' _ _ H0 Hs).
    destruct (preprocess n s (class_ctx i)) as [[s1 c1]|x|], (preprocess n s' (class_ctx i')) as [[s1' c1']|x'|]; simpl in S0; try contradiction; simpl; auto.
    destruct S0 as (A & B & K & K'). simpl in A, B, K, K'. assert (B' := crel_schema B).
    inversion A; subst; simpl; auto.
    - unfold build_model. match goal with X : cl ?d = Some ?j |- _ => assert (HJ := HC d); rewrite X in *; rename d into d0; rename j into j0 end.
      destruct (cl' (rn_cls R d0)) as [j'|]; try contradiction.
      match goal with X : renamed_body _ _ _ _ _ ?u ?v |- _ => destruct (skip_done X) as (fs & cs & fs' & cs' & E1 & E2);
        apply skip_body in X; rewrite E1, E2 in *; inversion X; subst end.
      rewrite (ri_hide HJ), (cr_hide B'). eapply rn_bind.
      + eapply fields_like; eauto. split; [constructor|split; reflexivity].
      + intros [[sers va] ex] [[sers' va'] ex'] (X & Y & Z). simpl in X, Y, Z. eapply rn_bind; [eapply computed_like; eauto|].
        intros z z' Hz. rewrite (elem_name_like HJ). destruct (class_elem_name j0); simpl; auto. exists d0. rewrite (ri_params HJ). constructor; simpl; auto.
    - unfold build_root_model. assert (HJ := HC c0). destruct (cl c0) as [j|], (cl' (rn_cls R c0)) as [j'|]; try contradiction; simpl; auto.
      destruct (ri_meta HJ "root") as [_ M]. rewrite H in M. rewrite M, (ri_hide HJ), (cr_hide B'), (cr_alias B'), (cr_computed B').
      eapply rn_bind.
      + apply parse_like; [apply child_crel; eauto|eauto|]. left. reflexivity.
      + intros z z' Hz. rewrite (elem_name_like HJ). destruct (class_elem_name j); simpl; auto. exists c0. rewrite (ri_params HJ). constructor; simpl; auto.
    - match goal with X : no_class _, Y : renamed_schema _ _ _ _ |- _ => inversion Y; subst; simpl in *; try contradiction; auto end.
  Qed.
End Declared.
