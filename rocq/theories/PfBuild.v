(** PfBuild.v -- the builder produces declared serializers. *)

From Verif Require Import Base Elem Native Errs Names Fields Ser SpecNames Build SpecBuild PfNames.

(** ---- contexts ---- *)

(** contexts that differ only in what the builder never looks at again, and in definitions *)
Definition like (c d : ctx) : Prop :=
  cx_model c = cx_model d /\ cx_field c = cx_field d /\ cx_alias c = cx_alias d /\
  cx_computed c = cx_computed d /\ cx_info c = cx_info d /\ cx_ns_attrs c = cx_ns_attrs d /\
  cx_mode c = cx_mode d /\ cx_hide c = cx_hide d /\ cx_parent c = cx_parent d.

Lemma like_refl : forall c, like c c.
Proof. intros c; repeat split. Qed.

Lemma like_trans : forall a b c, like a b -> like b c -> like a c.
Proof. unfold like; intuition congruence. Qed.

Lemma preprocess_like : forall n s c s' c', preprocess n s c = Ok (s', c') -> like c c'.
Proof.
  induction n as [|n IH]; intros s c s' c' H; [discriminate|]; cbn [preprocess] in H.
  destruct s; cbn [family_of] in H;
    try (injection H as <- <-; apply like_refl); try discriminate.
  - destruct (str_in ty prim_types); simpl in H; [injection H as <- <-; apply like_refl | discriminate].
  - apply IH in H. destruct k; auto.
  - destruct ser; [eauto | discriminate].
  - eauto.
  - apply IH in H. auto.
  - destruct (dget ref (cx_defs c)); [eauto | discriminate].
Qed.

(** what the specification sees of a context *)
Fixpoint scopes (c : ctx) : list scope :=
  match cx_parent c with
  | Some p => scope_of (cx_info p) :: scopes p
  | None => []
  end.

Definition amb (c : ctx) : ambient :=
  Ambient (cx_model c) (cx_alias c) (cx_field c) (cx_computed c) (cx_ns_attrs c) (cx_mode c) (cx_hide c).

Fixpoint parents_ok (c : ctx) : Prop :=
  match cx_parent c with
  | Some p => maybe_info_ok (cx_info p) /\ parents_ok p
  | None => True
  end.

Definition ctx_ok (c : ctx) : Prop :=
  cx_field c <> Some "" /\ maybe_info_ok (cx_info c) /\ parents_ok c.

Lemma like_scopes : forall c d, like c d -> scopes c = scopes d.
Proof.
  intros c d L. destruct c, d; unfold like in L; simpl in *.
  decompose [and] L; subst. reflexivity.
Qed.

Lemma like_amb : forall c d, like c d -> amb c = amb d.
Proof. unfold like, amb; intros c d L; decompose [and] L; congruence. Qed.

Lemma like_ok : forall c d, like c d -> ctx_ok c -> ctx_ok d.
Proof.
  intros c d L. destruct c, d; unfold like in L; simpl in *.
  decompose [and] L; subst. unfold ctx_ok; simpl. auto.
Qed.

Lemma like_info : forall c d, like c d -> cx_info c = cx_info d.
Proof. unfold like; intuition. Qed.

Lemma is_first_cons : forall A B (f : A -> option B) a l o,
  is_first f l o -> is_first f (a :: l) (match f a with Some b => Some b | None => o end).
Proof.
  intros A B f a l o H. destruct (f a) eqn:E; simpl.
  - constructor; auto.
  - destruct o; simpl in *; [apply first_later|constructor]; auto.
Qed.

Lemma parent_ns_scopes : forall c, is_first (fun o => o) (map sc_ns (scopes c)) (parent_ns c).
Proof.
  fix IH 1. intros [mo fi al co inf na md op hd de hi [p|]]; [|constructor].
  specialize (IH p). cbn [scopes cx_parent map sc_ns scope_of parent_ns].
  apply (is_first_cons (fun o => o) (says_ns (cx_info p))) in IH.
  change (cx_ns p) with (says_ns (cx_info p)).
  cbn [select_ns]. destruct (says_ns (cx_info p)); auto. destruct (parent_ns p); auto.
Qed.

Lemma is_first_unique : forall A B (f : A -> option B) l o o',
  is_first f l o -> is_first f l o' -> o = o'.
Proof.
  intros A B f l. induction l as [|a l IH]; intros o o' H H'.
  - destruct o; [inversion H|]. destruct o'; [inversion H'|]. auto.
  - destruct (f a) eqn:E.
    + destruct o; [|inversion H; congruence]. destruct o'; [|inversion H'; congruence].
      inversion H; inversion H'; congruence.
    + apply IH.
      * destruct o; simpl in *; inversion H; subst; auto; congruence.
      * destruct o'; simpl in *; inversion H'; subst; auto; congruence.
Qed.

Lemma is_first_app : forall A B (f : A -> option B) l1 l2 o1 o2,
  is_first f l1 o1 -> is_first f l2 o2 ->
  is_first f (l1 ++ l2) (match o1 with Some b => Some b | None => o2 end).
Proof.
  intros A B f l1. induction l1 as [|a l1 IH]; intros l2 o1 o2 H1 H2.
  - destruct o1; [inversion H1 | auto].
  - simpl. destruct (f a) eqn:E.
    + destruct o1 as [b1|]; [|inversion H1; congruence].
      apply first_here. inversion H1; congruence.
    + assert (H : is_first f l1 o1)
        by (destruct o1; simpl in *; inversion H1; subst; auto; congruence).
      specialize (IH _ _ _ H H2).
      destruct (match o1 with Some b => Some b | None => o2 end); simpl in *;
        [apply first_later|constructor]; auto.
Qed.

Arguments is_first_app {A B f l1 l2 o1 o2} _ _.
Arguments is_first_unique {A B f l o o'} _ _.
Arguments is_first_cons {A B} f a {l o} _.

(** the map handed down: outer maps win *)
Lemma parent_nsmap_nodup : forall c, parents_ok c -> dict_ok (parent_nsmap c).
Proof.
  intros [mo fi al co inf na md op hd de hi [p|]] H; simpl; [|auto].
  apply nodup_dupdate, nodup_dupdate. constructor.
Qed.

Lemma parent_nsmap_scopes : forall c, parents_ok c ->
  forall p, is_first (says p) (rev (map sc_map (scopes c))) (says p (parent_nsmap c)).
Proof.
  fix IH 1. intros [mo fi al co inf na md op hd de hi [q|]] H p; simpl in *; [|constructor].
  destruct H as [Hq Hp]. specialize (IH q Hp p).
  rewrite dget_dupdate.
  2: { pose proof (parent_nsmap_nodup _ Hp) as D. destruct (parent_nsmap q); simpl in *; [auto|constructor]. }
  rewrite dget_dupdate.
  2: { unfold cx_nsmap, of_info. destruct (cx_info q) as [i|]; simpl in *; [|constructor].
       destruct i as [lo pa nsx mm ni wr]; simpl in *. destruct Hq as [Hq _].
       destruct mm; simpl in *; [auto|constructor]. }
  assert (E1 : dget p (default [] (parent_nsmap q)) = says p (parent_nsmap q))
    by (destruct (parent_nsmap q); reflexivity).
  assert (E2 : is_first (says p) [says_nsmap (cx_info q)]
                 (match dget p (default [] (cx_nsmap q)) with Some v => Some v | None => dget p [] end)).
  { unfold cx_nsmap, says_nsmap, of_info. destruct (cx_info q) as [i|]; simpl.
    - destruct (ei_nsmap i) as [m|]; simpl; [|repeat constructor].
      destruct (dget p m) eqn:D; simpl; [constructor; auto | constructor; [exact D|constructor]].
    - repeat constructor. }
  rewrite E1. apply is_first_app; auto.
Qed.

(** ---- names ---- *)

Lemma picks_step : forall o l t, picks l t ->
  picks (o :: l) (match o with Some s => if String.eqb s "" then t else s | None => t end).
Proof.
  intros o l t (pre & post & -> & Ht & Hp).
  destruct o as [s|]; [destruct (String.eqb_spec s "") as [->|N]|].
  - exists (Some "" :: pre), post. repeat split; auto.
  - exists [], (pre ++ Some t :: post). repeat split; auto.
  - exists (None :: pre), post. repeat split; auto.
Qed.

Lemma picks_last : forall t, t <> "" -> picks [Some t] t.
Proof. intros t H; exists [], []; repeat split; auto. Qed.

Lemma entity_name_picks : forall c t, cx_field c <> Some "" -> entity_name c = Some t ->
  own_name (amb c) (cx_info c) t.
Proof.
  intros c t N H. unfold own_name; simpl. unfold entity_name in H.
  change (says_path (cx_info c)) with (cx_path c).
  unfold str_or in H.
  destruct (cx_path c) as [s|] eqn:Ep; simpl in H.
  - destruct (String.eqb_spec s "") as [->|Ns]; simpl in H.
    + destruct (cx_alias c) as [a|] eqn:Ea; simpl in H.
      * destruct (String.eqb_spec a "") as [->|Na]; simpl in H.
        -- exists [Some ""; Some ""], []. simpl. split; [congruence|]. split; [congruence|]. auto.
        -- injection H as ->. exists [Some ""], [cx_field c]. auto.
      * exists [Some ""; None], []. simpl. split; [congruence|]. split; [congruence|]. auto.
    + destruct (String.eqb_spec s ""); [congruence|]. simpl in H. injection H as ->.
      exists [], [cx_alias c; cx_field c]. auto.
  - destruct (cx_alias c) as [a|] eqn:Ea; simpl in H.
    + destruct (String.eqb_spec a "") as [->|Na]; simpl in H.
      * exists [None; Some ""], []. simpl. split; [congruence|]. split; [congruence|]. auto.
      * injection H as ->. exists [None], [cx_field c]. auto.
    + exists [None; None], []. simpl. split; [congruence|]. split; [congruence|]. auto.
Qed.

Lemma uri_clark : forall t u, uri (QName t u) = clark u t.
Proof. intros t [u|]; reflexivity. Qed.

Lemma declares_says : forall m p u, declares m p u <-> says p m = Some u.
Proof.
  intros m p u; split.
  - intros (d & -> & H); auto.
  - destruct m as [d|]; [|discriminate]. exists d; auto.
Qed.

Lemma uri_of_resolves : forall t ns (m : nsmap) a name maps,
  (forall p, is_first (says p) maps (dget p m)) -> (m = [] -> Forall declares_nothing maps) ->
  uri_of t ns m a = Ok name ->
  exists u, resolves_in maps a ns u /\ name = clark u t.
Proof.
  intros t ns m a name maps Hm He H. unfold uri_of in H.
  destruct (from_alias_total t ns (Some m) a) as [[u E]|[E _]].
  2: { rewrite E in H. discriminate. }
  rewrite E in H.
  injection H as <-. apply from_alias_resolves in E. exists u; split; [|apply uri_clark].
  inversion E; subst.
  - apply ri_alias. apply declares_says in H. simpl in H. specialize (Hm a0). rewrite H in Hm. exact Hm.
  - apply ri_no_map. apply He. destruct H as [H|H]; [discriminate|congruence].
  - apply ri_default. apply declares_says in H. simpl in H. specialize (Hm ""). rewrite H in Hm. exact Hm.
  - apply ri_default. specialize (Hm ""). destruct (dget "" m) eqn:D; auto.
    exfalso. apply (H s). apply declares_says; auto.
  - apply ri_attr.
Qed.

Arguments uri_of_resolves {t ns m a name maps} _ _ _.

(** the merged map of a context *)
Lemma merged_says : forall c, maybe_info_ok (cx_info c) -> parents_ok c -> forall own p,
  Forall dict_ok own ->
  is_first (says p) (maps_of own (scopes c)) (dget p (merge_nsmaps (own ++ [parent_nsmap c]))).
Proof.
  intros c Hi Hp own p Ho.
  assert (F : forall m, In (Some m) (own ++ [parent_nsmap c]) -> NoDup (dkeys m)).
  { intros m Hin. apply in_app_or in Hin as [Hin|[E|[]]].
    - rewrite Forall_forall in Ho. apply (Ho _ Hin).
    - pose proof (parent_nsmap_nodup _ Hp) as D. rewrite E in D. exact D. }
  pose proof (@merge_nsmaps_first _ p F) as H.
  unfold maps_of.
  assert (exists o, is_first (says p) own o) as [o Hown].
  { clear. induction own as [|m own [o IH]]; [exists None; constructor|].
    eexists. apply is_first_cons, IH. }
  pose proof (is_first_app Hown (parent_nsmap_scopes _ Hp p)) as H1.
  assert (H2 : is_first (says p) [parent_nsmap c] (says p (parent_nsmap c))).
  { destruct (says p (parent_nsmap c)) eqn:E; simpl; [constructor; auto|constructor; auto]. }
  pose proof (is_first_app Hown H2) as H3.
  rewrite (is_first_unique H H3). exact H1.
Qed.

Lemma is_first_none : forall A B (f : A -> option B) l, is_first f l None -> Forall (fun x => f x = None) l.
Proof. auto. Qed.

Lemma no_says_nothing : forall m, (forall p, says p m = None) -> declares_nothing m.
Proof.
  intros [[|[k v] d]|] H; [right; auto| |left; auto].
  specialize (H k). simpl in H. rewrite String.eqb_refl in H. discriminate.
Qed.

Lemma merged_empty : forall maps m, (forall p, is_first (says p) maps (dget p m)) -> m = [] ->
  Forall declares_nothing maps.
Proof.
  intros maps m H ->. simpl in H. rewrite Forall_forall. intros x Hx.
  apply no_says_nothing. intros p. specialize (H p). simpl in H. rewrite Forall_forall in H. auto.
Qed.

Arguments merged_empty {maps m} _ _.

Lemma info_dict_ok : forall c, maybe_info_ok (cx_info c) -> dict_ok (cx_nsmap c).
Proof.
  intros c H. unfold cx_nsmap, of_info. destruct (cx_info c) as [[lo pa nsx mm ni wr]|]; simpl in *; tauto.
Qed.

Lemma entity_nsmap_says : forall c, ctx_ok c -> forall p,
  is_first (says p) (maps_of [says_nsmap (cx_info c)] (scopes c)) (dget p (entity_nsmap c)).
Proof.
  intros c (_ & Hi & Hp) p. unfold entity_nsmap.
  change [cx_nsmap c; parent_nsmap c] with ([cx_nsmap c] ++ [parent_nsmap c]).
  change (says_nsmap (cx_info c)) with (cx_nsmap c).
  apply merged_says; auto. constructor; [|constructor]. apply info_dict_ok; auto.
Qed.

Lemma entity_ns_first : forall c,
  is_first (fun o => o) (says_ns (cx_info c) :: map sc_ns (scopes c)) (entity_ns c).
Proof.
  intros c. unfold entity_ns.
  pose proof (is_first_cons (fun o => o) (cx_ns c) (parent_ns_scopes c)) as H.
  change (says_ns (cx_info c)) with (cx_ns c).
  simpl. destruct (cx_ns c); auto. simpl in H. destruct (parent_ns c); auto.
Qed.

Lemma element_named : forall c t name, ctx_ok c ->
  uri_of t (entity_ns c) (entity_nsmap c) false = Ok name ->
  element_name (scopes c) (cx_info c) t name.
Proof.
  intros c t name Hc H.
  assert (M := entity_nsmap_says Hc).
  destruct (uri_of_resolves M (merged_empty M) H) as (u & R & ->).
  exists (entity_ns c), u. split; [apply entity_ns_first|]. auto.
Qed.

Lemma nillable_says : forall c, cx_nillable c = says_nillable (cx_info c).
Proof.
  intros c. unfold cx_nillable, says_nillable, of_info.
  destruct (cx_info c) as [i|]; auto. destruct (ei_nillable i) as [[|]|]; auto.
Qed.

(** ---- leaves ---- *)

Section Sound.
  Variable cl : classes.
  Variable ev : env.
  Hypothesis Hcl : classes_ok cl.

  Definition good (c : ctx) (s : ser) : Prop := declared cl (amb c) (scopes c) (cx_info c) s.

  Lemma like_good : forall c d s, like c d -> good d s -> good c s.
  Proof.
    unfold good; intros c d s L H.
    rewrite (like_amb L), (like_scopes L), (like_info L). auto.
  Qed.

  Lemma elem_good : forall c s, ctx_ok c -> cx_location c = Some LocElement ->
    build_elem c = Ok s -> good c s.
  Proof.
    intros c s Hc HL H. unfold build_elem in H.
    destruct (entity_name c) as [t|] eqn:E; [|discriminate].
    destruct (uri_of t (entity_ns c) (entity_nsmap c) false) as [u| |] eqn:U; try discriminate.
    injection H as <-. rewrite nillable_says. unfold good.
    eapply dc_elem; eauto.
    - apply entity_name_picks; [apply Hc | eassumption].
    - apply element_named; auto.
    - intros p. simpl. apply entity_nsmap_says; auto.
  Qed.

  Lemma attr_good : forall c s, ctx_ok c -> cx_location c = Some LocAttribute ->
    build_attr c = Ok s -> good c s.
  Proof.
    intros c s Hc HL H. unfold build_attr in H. cbv zeta in H.
    set (ns := select_ns [cx_ns c; if cx_ns_attrs c then parent_ns c else None]) in *.
    destruct (match ns with Some s => (s =? "")%string | None => false end) eqn:D; [discriminate|].
    destruct (entity_name c) as [t|] eqn:E; [|discriminate].
    destruct (uri_of t ns (entity_nsmap c) true) as [u| |] eqn:U; try discriminate.
    injection H as <-.
    eapply dc_attr; eauto.
    - apply entity_name_picks; [apply Hc | eassumption].
    - assert (M := entity_nsmap_says Hc).
      destruct (uri_of_resolves M (merged_empty M) U) as (v & R & ->).
      exists ns, v. split; [|split; [|auto]].
      + unfold ns. simpl. change (says_ns (cx_info c)) with (cx_ns c).
        pose proof (parent_ns_scopes c) as P.
        destruct (cx_ns_attrs c).
        * pose proof (is_first_cons (fun o => o) (cx_ns c) P) as H1. simpl in *.
          destruct (cx_ns c); auto. destruct (parent_ns c); auto.
        * simpl. destruct (cx_ns c); simpl; [constructor; auto | repeat constructor].
      + intros En. rewrite En in D. simpl in D. discriminate.
  Qed.

  Lemma prim_good : forall c s, ctx_ok c -> build_prim c = Ok s -> good c s.
  Proof.
    intros c s Hc H. unfold build_prim in H.
    destruct (cx_location c) as [[| |]|] eqn:L; try discriminate.
    - apply elem_good; auto.
    - apply attr_good; auto.
    - injection H as <-. rewrite nillable_says. apply (@dc_text cl (amb c)). exact L.
  Qed.

  Lemma attrs_of_ok : forall c, ctx_ok c -> attributes_of (amb c) (scopes c) (cx_info c) (attrs_of c).
  Proof.
    intros c Hc. split; [apply entity_ns_first|]. split; [|split; reflexivity].
    intros p. simpl. apply entity_nsmap_says; auto.
  Qed.

  Lemma mapping_at_good : forall c s, ctx_ok c -> build_mapping_at c = Ok s -> good c s.
  Proof.
    intros c s Hc H. unfold build_mapping_at in H.
    destruct (cx_location c) as [[| |]|] eqn:L; try discriminate.
    - unfold build_map_elem in H. destruct (entity_name c) as [t|] eqn:E; [|discriminate].
      destruct (uri_of t (entity_ns c) (entity_nsmap c) false) as [u| |] eqn:U; try discriminate.
      injection H as <-. eapply dc_map; eauto.
      + apply entity_name_picks; [apply Hc | eassumption].
      + apply element_named; auto.
      + apply attrs_of_ok; auto.
    - injection H as <-. apply (@dc_attrs cl (amb c)); [exact L | apply attrs_of_ok; auto].
  Qed.

  Lemma mapping_good : forall n k v c s, ctx_ok c -> build_mapping n k v c = Ok s -> good c s.
  Proof.
    intros n k v c s Hc H. unfold build_mapping, obind in H.
    destruct (preprocess n k c) as [[k' ck]| |]; try discriminate.
    destruct (preprocess n v c) as [[v' cv]| |]; try discriminate.
    destruct (negb (is_family FPrim k')); try discriminate.
    destruct (negb (is_family FPrim v')); try discriminate.
    apply mapping_at_good; auto.
  Qed.

  Lemma typed_good : forall n vs c s, ctx_ok c -> build_typed_mapping n vs c = Ok s -> good c s.
  Proof.
    intros n vs c s Hc H. unfold build_typed_mapping, obind in H.
    destruct (all_prim n vs c); try discriminate. apply mapping_at_good; auto.
  Qed.

  Lemma raw_good : forall c s, ctx_ok c -> build_raw c = Ok s -> good c s.
  Proof.
    intros c s Hc H. unfold build_raw in H.
    assert (H' : at_element_or_bare (cx_info c) /\ build_raw_elem c = Ok s).
    { unfold at_element_or_bare. change (says_loc (cx_info c)) with (cx_location c).
      destruct (cx_location c) as [[| |]|]; try discriminate; auto. }
    clear H. destruct H' as [L H]. unfold build_raw_elem in H.
    destruct (entity_name c) as [t|] eqn:E; [|discriminate].
    destruct (uri_of t (entity_ns c) (entity_nsmap c) false) as [u| |] eqn:U; try discriminate.
    injection H as <-. eapply dc_raw; eauto.
    - apply entity_name_picks; [apply Hc | eassumption].
    - apply element_named; auto.
  Qed.

  Lemma is_instance_good : forall raw c s, ctx_ok c -> build_is_instance raw c = Ok s -> good c s.
  Proof. intros [|] c s Hc H; [apply raw_good | apply prim_good]; auto. Qed.

  Lemma proxy_good : forall cls c s, ctx_ok c -> build_proxy cl cls c = Ok s ->
    exists p, s = SProxy p /\ submodel_of cl (amb c) (scopes c) (cx_info c) p.
  Proof.
    intros cls c s Hc H. unfold build_proxy in H.
    destruct (cl cls) as [k|] eqn:K; [|discriminate]. cbv zeta in H.
    destruct (@Hcl _ _ K) as [Hn Hm].
    match type of H with obind (uri_of ?T ?N ?M false) _ = _ =>
      set (t := T) in *; set (ns := N) in *; set (m := M) in * end.
    destruct (uri_of t ns m false) as [u| |] eqn:U; try discriminate.
    injection H as <-. eexists; split; [reflexivity|].
    assert (M : forall p, is_first (says p)
        (maps_of [says_nsmap (cx_info c); c_nsmap (ci_params k)] (scopes c)) (dget p m)).
    { intros p. unfold m. destruct Hc as (_ & Hi & Hp).
      change [cx_nsmap c; c_nsmap (ci_params k); parent_nsmap c]
        with ([cx_nsmap c; c_nsmap (ci_params k)] ++ [parent_nsmap c]).
      change (says_nsmap (cx_info c)) with (cx_nsmap c).
      apply merged_says; auto. repeat constructor; auto. apply info_dict_ok; auto. }
    destruct (uri_of_resolves M (merged_empty M) U) as (v & R & Hv).
    exists k, t, ns, v. simpl. repeat split; auto.
    - unfold t. clear - Hn. change (says_path (cx_info c)) with (cx_path c).
      unfold str_or.
      pose proof (picks_step (cx_path c) (picks_step (c_tag (ci_params k)) (picks_step (cx_alias c)
         (picks_step (cx_field c) (picks_last Hn))))) as P.
      match type of P with picks _ ?a => match goal with |- picks _ ?b =>
        replace b with a; [exact P|] end end.
      destruct (cx_path c) as [x|]; simpl;
        [destruct (String.eqb_spec x ""); subst; simpl|];
      (destruct (c_tag (ci_params k)) as [y|]; simpl;
        [destruct (String.eqb_spec y ""); subst; simpl|]);
      (destruct (cx_alias c) as [z|]; simpl;
        [destruct (String.eqb_spec z ""); subst; simpl|]);
      (destruct (cx_field c) as [w|]; simpl;
        [destruct (String.eqb_spec w ""); subst; simpl|]);
      repeat match goal with H : ?a <> "" |- context[String.eqb ?a ""] =>
        rewrite (proj2 (String.eqb_neq a "") H); simpl end; auto.
    - unfold ns. change (says_ns (cx_info c)) with (cx_ns c).
      pose proof (is_first_cons (fun o => o) (cx_ns c)
        (is_first_cons (fun o => o) (c_ns (ci_params k)) (parent_ns_scopes c))) as P.
      simpl in *. destruct (cx_ns c); auto. destruct (c_ns (ci_params k)); auto.
      destruct (parent_ns c); auto.
    - apply nillable_says.
  Qed.

  Lemma submodel_good : forall cls c s, ctx_ok c -> build_submodel cl cls c = Ok s ->
    at_element_or_bare (cx_info c) /\
    exists p, s = SProxy p /\ submodel_of cl (amb c) (scopes c) (cx_info c) p.
  Proof.
    intros cls c s Hc H. unfold build_submodel in H.
    unfold at_element_or_bare. change (says_loc (cx_info c)) with (cx_location c).
    destruct (cx_location c) as [[| |]|]; try discriminate; split; auto; eapply proxy_good; eauto.
  Qed.

  (** ---- compound serializers ---- *)

  Lemma omap_Forall2 : forall A B (f : A -> out B) l ys, omap f l = Ok ys ->
    Forall2 (fun x y => f x = Ok y) l ys.
  Proof.
    intros A B f l. induction l as [|x l IH]; intros ys H; simpl in H.
    - injection H as <-. constructor.
    - destruct (f x) as [y| |] eqn:E; try discriminate. simpl in H.
      destruct (omap f l) as [zs| |]; try discriminate. injection H as <-. constructor; auto.
  Qed.

  Lemma Forall2_right : forall A B (P : A -> B -> Prop) (Q : B -> Prop) l l',
    (forall a b, P a b -> Q b) -> Forall2 P l l' -> Forall Q l'.
  Proof. intros A B P Q l l' H F; induction F; constructor; eauto. Qed.

  Section Step.
    Variable rec : cschema -> ctx -> out ser.
    Variable n : nat.
    Hypothesis Hrec : forall s c r, ctx_ok c -> rec s c = Ok r -> good c r.

    Lemma wrap_good : forall s c r, ctx_ok c -> cx_location c = Some LocWrapped ->
      build_wrap rec s c = Ok r -> good c r.
    Proof.
      intros s c r Hc HL H. unfold build_wrap in H.
      destruct (cx_path c) as [path|] eqn:P; [|discriminate].
      destruct (rec s (child_wrapped c)) as [inner| |] eqn:E; try discriminate. simpl in H.
      destruct (omap _ _) as [parts| |] eqn:O in H; try discriminate. injection H as <-.
      eapply dc_wrap; eauto.
      - apply omap_Forall2 in O. clear - O Hc.
        induction O; constructor; auto. apply element_named; auto.
      - intros p. simpl. apply entity_nsmap_says; auto.
      - apply Hrec in E; auto.
        destruct Hc as (Hf & Hi & Hp). repeat split; simpl; auto.
        unfold cx_wrapped, of_info. destruct (cx_info c) as [[lo pa nsx mm ni [w|]]|]; simpl in *; tauto.
    Qed.

    Lemma located : forall c, (cx_location c = Some LocElement \/ cx_location c = None) ->
      at_element_or_bare (cx_info c).
    Proof. auto. Qed.

    Lemma homo_good : forall s c r, ctx_ok c -> build_homo rec n s c = Ok r -> good c r.
    Proof.
      intros s c r Hc H. unfold build_homo, obind in H.
      destruct (preprocess n s c) as [[i d]| |] eqn:P; try discriminate.
      apply preprocess_like in P. pose proof (like_ok P Hc) as Hd.
      destruct (negb _) in H; try discriminate. destruct (_ && _) in H; try discriminate.
      apply (like_good P).
      destruct (cx_location d) as [[| |]|] eqn:L; try discriminate;
        (destruct (rec s d) as [inner| |] eqn:E; [|discriminate|discriminate]);
        injection H as <-; apply (@dc_homo cl (amb d)); auto; try (apply located; auto);
        apply Hrec in E; auto.
    Qed.

    Lemma check_items_like : forall l c d, check_items n l c = Ok d -> like c d.
    Proof.
      induction l as [|s l IH]; intros c d H; simpl in H; [injection H as <-; apply like_refl|].
      destruct (preprocess n s c) as [[i e]| |] eqn:P; try discriminate. simpl in H.
      apply preprocess_like in P.
      destruct (negb _) in H; try discriminate. destruct (_ && _) in H; try discriminate.
      apply IH in H. eapply like_trans; eauto.
    Qed.

    Lemma hetero_good : forall l c r, ctx_ok c -> build_hetero rec n l c = Ok r -> good c r.
    Proof.
      intros l c r Hc H. unfold build_hetero, obind in H.
      destruct (check_items n l c) as [d| |] eqn:P; try discriminate.
      apply check_items_like in P. pose proof (like_ok P Hc) as Hd. apply (like_good P).
      assert (A : at_element_or_bare (cx_info d) /\ exists inners,
         omap (fun s => rec s d) l = Ok inners /\ r = SHetero (cx_model d) (cx_computed d) inners (cx_hide d)).
      { destruct (cx_location d) as [[| |]|] eqn:L; try discriminate; (split; [apply located; auto|]);
        (destruct (omap (fun s => rec s d) l) as [inners| |] eqn:E; [|discriminate|discriminate]);
        injection H as <-; eauto. }
      destruct A as [A (inners & O & ->)].
      apply (@dc_hetero cl (amb d)); auto.
      apply omap_Forall2 in O. eapply Forall2_right; [|exact O]. simpl. intros s x E. apply Hrec in E; auto.
    Qed.

    Lemma tuple_good : forall v l c r, ctx_ok c -> build_tuple rec n v l c = Ok r -> good c r.
    Proof.
      intros v l c r Hc H. destruct v as [[|v]|]; simpl in H; try discriminate.
      - destruct l as [|s [|]]; try discriminate. apply homo_good in H; auto.
      - apply hetero_good in H; auto.
    Qed.

    Lemma call_good : forall b l c r, ctx_ok c -> build_call rec n b l c = Ok r -> good c r.
    Proof. intros [|] l c r Hc H; [apply hetero_good in H; auto | discriminate]. Qed.

    Lemma choices_like : forall l c fs d, choice_families n l c = Ok (fs, d) -> like c d.
    Proof.
      induction l as [|s l IH]; intros c fs d H; simpl in H; [injection H as <- <-; apply like_refl|].
      destruct (preprocess n s c) as [[i e]| |] eqn:P; try discriminate. simpl in H.
      apply preprocess_like in P.
      destruct (choice_families n l e) as [[gs d']| |] eqn:C;
        destruct (family_of i) as [[]|]; try discriminate;
        injection H as <- <-; apply IH in C; eapply like_trans; eauto.
    Qed.

    Lemma union_prim_good : forall l c r, ctx_ok c -> build_union_prim rec l c = Ok r -> good c r.
    Proof.
      intros l c r Hc H. unfold build_union_prim, obind in H.
      destruct (omap (fun s => rec s c) l) as [inners| |] eqn:O; try discriminate.
      apply omap_Forall2 in O. destruct inners as [|x rest]; [discriminate|].
      destruct (forallb _ rest); [|discriminate]. injection H as <-.
      apply (@dc_union cl (amb c)).
      inversion O as [|y z ys zs E F]; subst. apply Hrec in E; auto.
    Qed.

    (** a serializer of a model, found where a model is expected *)
    Lemma good_proxy : forall c p, good c (SProxy p) ->
      at_element_or_bare (cx_info c) /\ submodel_of cl (amb c) (scopes c) (cx_info c) p.
    Proof. intros c p H. unfold good in H. inversion H; subst; auto. Qed.

    Lemma union_model_good : forall l c r, ctx_ok c -> build_union_model rec l c = Ok r -> good c r.
    Proof.
      intros l c r Hc H. unfold build_union_model in H.
      destruct (omap (fun s => obind (rec s c) as_proxy) l) as [vs| |] eqn:O; try discriminate.
      apply omap_Forall2 in O. simpl in H. destruct vs as [|v vs]; [discriminate|]. injection H as <-.
      assert (F : Forall (fun p => good c (SProxy p)) (v :: vs)).
      { eapply Forall2_right; [|exact O]. simpl. intros s p E.
        destruct (rec s c) as [x| |] eqn:R; try discriminate. simpl in E.
        destruct x; try discriminate. injection E as ->. eauto. }
      apply (@dc_models cl (amb c)).
      - inversion F; subst. apply good_proxy in H1. tauto.
      - discriminate.
      - eapply Forall_impl; [|exact F]. simpl. intros p G. apply good_proxy in G; tauto.
    Qed.

    Lemma union_good : forall l c r, ctx_ok c -> build_union rec n l c = Ok r -> good c r.
    Proof.
      intros l c r Hc H. unfold build_union, obind in H.
      destruct (choice_families n l c) as [[fs d]| |] eqn:C; try discriminate.
      apply choices_like in C. pose proof (like_ok C Hc) as Hd. apply (like_good C).
      cbv zeta in H. destruct fs as [|f fs]; [discriminate|].
      destruct (_ && _) in H; [discriminate|].
      destruct (existsb (family_eqb FModel) (f :: fs)); [apply union_model_good in H; auto|].
      destruct (existsb (family_eqb FPrim) (f :: fs)); [apply union_prim_good in H; auto|discriminate].
    Qed.

    Lemma check_tagged_like : forall l c d, check_tagged n l c = Ok d -> like c d.
    Proof.
      induction l as [|[t s] l IH]; intros c d H; simpl in H; [injection H as <-; apply like_refl|].
      destruct (preprocess n s c) as [[i e]| |] eqn:P; try discriminate. simpl in H.
      apply preprocess_like in P.
      destruct i; try discriminate. destruct root; try discriminate.
      apply IH in H. eapply like_trans; eauto.
    Qed.

    Lemma Forall_dset : forall A (P : A -> Prop) k v d, P v -> Forall (fun kv => P (snd kv)) d ->
      Forall (fun kv => P (snd kv)) (dset k v d).
    Proof.
      intros A P k v d Hv F. induction F as [|[k' v'] d H F IH]; simpl; [repeat constructor; auto|].
      destruct (String.eqb k k'); constructor; auto.
    Qed.

    Lemma variants_good : forall disc l c a acc a' vs, ctx_ok c ->
      Forall (fun kv => good c (SProxy (snd kv))) acc ->
      build_variants ev rec disc l c a acc = Ok (a', vs) ->
      Forall (fun kv => good c (SProxy (snd kv))) vs /\ (a <> a' -> vs <> []) /\ (acc <> [] -> vs <> []).
    Proof.
      induction l as [|[[t|] s] l IH]; intros c a acc a' vs Hc Ha H; simpl in H; try discriminate.
      - injection H as <- <-. auto.
      - destruct (rec s c) as [x| |] eqn:R; try discriminate. simpl in H.
        destruct x; try discriminate. simpl in H.
        assert (A1 : Forall (fun kv => good c (SProxy (snd kv))) (dset t p acc)).
        { apply (Forall_dset (fun p => good c (SProxy p))); auto. eauto. }
        assert (N : dset t p acc <> []).
        { destruct acc as [|[k v] acc]; simpl; [discriminate|]. destruct (String.eqb t k); discriminate. }
        destruct (en_model ev (px_model p)) as [m|]; [|discriminate].
        destruct (md_root m); [discriminate|].
        destruct (dget disc (md_fields m)) as [[]|]; try discriminate.
        destruct a as [b|]; [destruct (String.eqb name b); [|discriminate]|];
          apply IH in H; auto; destruct H as (H1 & H2 & H3); repeat split; auto.
    Qed.

    Lemma tagged_good : forall disc l c r, ctx_ok c -> build_tagged ev rec n disc l c = Ok r -> good c r.
    Proof.
      intros disc l c r Hc H. unfold build_tagged, obind in H.
      destruct (check_tagged n l c) as [d| |] eqn:C; try discriminate.
      apply check_tagged_like in C. pose proof (like_ok C Hc) as Hd. apply (like_good C).
      destruct disc as [disc|]; [|discriminate].
      destruct (build_variants ev rec disc l d None []) as [[a vs]| |] eqn:V; try discriminate.
      destruct a as [a|]; [|discriminate]. injection H as <-.
      apply variants_good in V; auto. destruct V as (F & N & _).
      assert (Nv : vs <> []) by (apply N; discriminate).
      apply (@dc_tagged cl (amb d)); auto.
      - destruct vs as [|v vs]; [congruence|]. inversion F; subst. apply good_proxy in H1. tauto.
      - eapply Forall_impl; [|exact F]. simpl. intros p G. apply good_proxy in G; tauto.
    Qed.

    Lemma select_good : forall s c r, ctx_ok c -> select cl ev rec n s c = Ok r -> good c r.
    Proof.
      intros s c r Hc H. unfold select in H.
      destruct (family_of s); [|discriminate].
      assert (W : cx_location c = Some LocWrapped /\ build_wrap rec s c = Ok r \/
        match s with
              | CType _ => build_prim c
              | CModel cls _ _ => build_submodel cl cls c
              | CList item => build_homo rec n item c
              | CTuple variadic items => build_tuple rec n variadic items c
              | CDict keys values => build_mapping n keys values c
              | CTypedDict values => build_typed_mapping n values c
              | CUnion choices => build_union rec n choices c
              | CTagged disc choices => build_tagged ev rec n disc choices c
              | CIsInstance raw => build_is_instance raw c
              | CCall tuple_class args => build_call rec n tuple_class args c
              | _ => Raise XAssertion
        end = Ok r) by (destruct (cx_location c) as [[| |]|]; auto).
      clear H. destruct W as [[L H]|H]; [eapply wrap_good; eauto|].
      destruct s; try discriminate.
      - apply prim_good; auto.
      - apply is_instance_good in H; auto.
      - apply submodel_good in H; auto. destruct H as [A (p & -> & S)]. apply (@dc_model cl (amb c)); auto.
      - apply homo_good in H; auto.
      - apply tuple_good in H; auto.
      - apply mapping_good in H; auto.
      - apply typed_good in H; auto.
      - apply union_good in H; auto.
      - apply tagged_good in H; auto.
      - apply call_good in H; auto.
    Qed.
  End Step.

  Lemma parse_good : forall n s c r, ctx_ok c -> parse cl ev n s c = Ok r -> good c r.
  Proof.
    induction n as [|n IH]; intros s c r Hc H; [discriminate|]. simpl in H.
    destruct (preprocess n s c) as [[s' d]| |] eqn:P; try discriminate. simpl in H.
    apply preprocess_like in P. apply (like_good P).
    eapply select_good; [| |exact H]; [exact IH | eapply like_ok; eauto].
  Qed.
End Sound.

(** ---- a whole class ---- *)

Lemma NoDup_app_remove_l : forall A (l l' : list A), NoDup (l ++ l') -> NoDup l'.
Proof. intros A l l'; induction l as [|x l IH]; simpl; auto. inversion 1; auto. Qed.

Lemma NoDup_app_remove_r : forall A (l l' : list A), NoDup (l ++ l') -> NoDup l.
Proof.
  intros A l l'; induction l as [|x l IH]; simpl; intros H; [constructor|].
  inversion H as [|? ? N H']; subst. constructor; auto.
  intros I; apply N. rewrite in_app_iff; auto.
Qed.

Lemma preprocess_stands : forall n s c s' c', preprocess n s c = Ok (s', c') ->
  stands_for (cx_defs c) s s'.
Proof.
  induction n as [|n IH]; intros s c s' c' H; [discriminate|]; cbn [preprocess] in H.
  destruct s; cbn [family_of] in H;
    try (injection H as <- <-; eapply sf_here; [reflexivity | simpl; intuition discriminate]);
    try discriminate.
  - destruct (str_in ty prim_types) eqn:E; [injection H as <- <- | discriminate].
    eapply sf_here; [cbn [family_of]; rewrite E; reflexivity | simpl; intuition discriminate].
  - apply IH in H. apply sf_meta. destruct k; auto.
  - destruct ser; [apply sf_plain; eauto | discriminate].
  - apply sf_python; eauto.
  - apply IH in H. apply sf_defs. auto.
  - destruct (dget ref (cx_defs c)) eqn:D; [eapply sf_ref; eauto | discriminate].
Qed.

Lemma stands_for_unique : forall defs s t t', stands_for defs s t -> stands_for defs s t' -> t = t'.
Proof.
  intros defs s t t' H. revert t'. induction H; intros t' H'; inversion H'; subst; auto;
    try (match goal with F : family_of (?c) = Some _ |- _ => simpl in F; injection F as <- end;
         exfalso; simpl in *; tauto).
  - apply IHstands_for. congruence.
Qed.

Section Class.
  Variable cl : classes.
  Variable ev : env.
  Hypothesis Hcl : classes_ok cl.

  Lemma child_scopes : forall k c name alias comp info hide, like (class_ctx k) c ->
    scopes (child_field c name alias comp info hide) = [class_scope k].
  Proof.
    intros k c name alias comp info hide L. simpl.
    rewrite <- (like_info L), <- (like_scopes L). reflexivity.
  Qed.

  Lemma child_amb : forall k c name alias comp info hide, like (class_ctx k) c ->
    amb (child_field c name alias comp info hide) = field_ambient k hide name alias comp.
  Proof.
    intros k c name alias comp info hide L. unfold amb, field_ambient; simpl.
    unfold like in L; simpl in L; decompose [and] L. congruence.
  Qed.

  Lemma child_ok : forall k c name alias comp info hide, like (class_ctx k) c ->
    dict_ok (c_nsmap (ci_params k)) -> name <> Some "" -> maybe_info_ok info ->
    ctx_ok (child_field c name alias comp info hide).
  Proof.
    intros k c name alias comp info hide L D N I. unfold ctx_ok; simpl.
    assert (P : parents_ok c). { eapply like_ok in L; [apply L|]. repeat split; simpl; auto; discriminate. }
    rewrite <- (like_info L). repeat split; simpl; auto.
  Qed.

  Lemma fields_built : forall n k c hide, like (class_ctx k) c -> dict_ok (c_nsmap (ci_params k)) ->
    forall fs sers va ex sers' va' ex',
    NoDup (dkeys sers ++ map fst fs) ->
    (forall x, In x (map fst fs) -> ~ In x (dkeys va)) ->
    Forall (fun nf => fst nf <> "" /\ maybe_info_ok (extract_info (ci_meta k (fst nf)))) fs ->
    build_fields cl ev n k hide fs c sers va ex = Ok (sers', va', ex') ->
    exists new, sers' = sers ++ new /\ Forall2 (field_declared cl k hide) (xml_fields k fs) new /\
      va' = va ++ flat_map field_valias (xml_fields k fs) /\
      ex' = rev (map fst (filter field_excluded (xml_fields k fs))) ++ ex.
  Proof.
    intros n k c hide L D. induction fs as [|[name [e sa v s]] fs IH];
      intros sers va ex sers' va' ex' ND NV F H; cbn [build_fields] in H.
    - injection H as <- <- <-. exists []. rewrite !app_nil_r. simpl. auto.
    - inversion F as [|x xs [Fn Fi] F']; subst. simpl in Fn, Fi.
      unfold xml_fields; cbn [filter fst].
      destruct (existsb is_noxml (ci_meta k name)) eqn:X; cbn [negb].
      + apply IH in H; auto.
        * simpl in ND. apply NoDup_remove_1 in ND. auto.
        * intros x Hx. apply NV. simpl; auto.
      + destruct (parse cl ev n s _) as [r| |] eqn:P in H; try discriminate. cbn [obind] in H.
        assert (Nm : ~ In name (dkeys sers)).
        { simpl in ND. apply NoDup_remove_2 in ND. rewrite in_app_iff in ND. tauto. }
        rewrite (dset_fresh _ _ _ Nm) in H.
        apply parse_good in P; auto; [|eapply child_ok; eauto; congruence].
        unfold good in P. erewrite child_scopes, child_amb in P by eauto. simpl in P.
        apply IH in H; auto.
        * destruct H as (new & -> & G & -> & ->). exists ((name, r) :: new).
          rewrite <- app_assoc. split; [auto|]. split.
          { constructor; auto. split; auto. cbn [snd fst].
            assert (Hc : cx_computed c = false) by (unfold like in L; decompose [and] L; simpl in *; congruence).
            rewrite Hc in P. exact P. }
          split.
          { unfold field_valias at 1. cbn [flat_map snd fst]. destruct v as [a|]; cbn [app].
            - rewrite dset_fresh by (apply NV; simpl; auto). rewrite <- app_assoc. reflexivity.
            - reflexivity. }
          { cbn [filter]. unfold field_excluded at 2. cbn [snd]. destruct e; [|reflexivity].
            cbn [map rev fst]. rewrite <- app_assoc. reflexivity. }
        * unfold dkeys. rewrite map_app, <- app_assoc. exact ND.
        * intros x Hx. destruct v as [a|]; [|apply NV; simpl; auto].
          rewrite dset_fresh by (apply NV; simpl; auto). unfold dkeys. rewrite map_app, in_app_iff. simpl.
          intros [I|[I|[]]]; [apply (NV x); simpl; auto|]. subst.
          simpl in ND. apply NoDup_remove_2 in ND. apply ND. rewrite in_app_iff; auto.
  Qed.

  Lemma computed_built : forall n k c hide, like (class_ctx k) c -> dict_ok (c_nsmap (ci_params k)) ->
    forall cs sers sers',
    NoDup (dkeys sers ++ map fst cs) ->
    Forall (fun cf => fst cf <> "" /\ maybe_info_ok (ci_computed k (fst cf))) cs ->
    build_computed cl ev n k hide cs c sers = Ok sers' ->
    exists new, sers' = sers ++ new /\ Forall2 (computed_declared cl k hide) cs new.
  Proof.
    intros n k c hide L D. induction cs as [|[name [sa s]] cs IH];
      intros sers sers' ND F H; cbn [build_computed] in H.
    - injection H as <-. exists []. rewrite !app_nil_r. auto.
    - inversion F as [|x xs [Fn Fi] F']; subst. simpl in Fn, Fi.
      destruct (parse cl ev n s _) as [r| |] eqn:P in H; try discriminate. cbn [obind] in H.
      assert (Nm : ~ In name (dkeys sers)).
      { simpl in ND. apply NoDup_remove_2 in ND. rewrite in_app_iff in ND. tauto. }
      rewrite (dset_fresh _ _ _ Nm) in H.
      apply parse_good in P; auto; [|eapply child_ok; eauto; congruence].
      unfold good in P. erewrite child_scopes, child_amb in P by eauto. simpl in P.
      apply IH in H; auto.
      * destruct H as (new & -> & G). exists ((name, r) :: new).
        rewrite <- app_assoc. split; [auto|]. constructor; auto. split; auto.
      * unfold dkeys. rewrite map_app, <- app_assoc. exact ND.
  Qed.

  Lemma class_element_built : forall k name, ci_name k <> "" -> class_elem_name k = Ok name ->
    class_element k name.
  Proof.
    intros k name N H. unfold class_elem_name in H. cbv zeta in H.
    set (t := default (ci_name k) (if str_truthy (c_tag (ci_params k)) then c_tag (ci_params k) else None)) in *.
    destruct (from_alias_total t (c_ns (ci_params k)) (c_nsmap (ci_params k)) false) as [[u E]|[E _]].
    2: { rewrite E in H. discriminate. }
    rewrite E in H. injection H as <-. apply from_alias_resolves in E.
    exists t, u. split; [|split; [|apply uri_clark]].
    - pose proof (picks_step (c_tag (ci_params k)) (picks_last N)) as P.
      unfold t. destruct (c_tag (ci_params k)) as [x|]; auto. simpl.
      destruct (String.eqb_spec x ""); simpl; auto.
    - assert (S1 : forall p, is_first (says p) [c_nsmap (ci_params k)] (says p (c_nsmap (ci_params k)))).
      { intros p. destruct (says p (c_nsmap (ci_params k))) eqn:S; simpl; [constructor; auto|repeat constructor; auto]. }
      clear - E S1. inversion E as [x a v Hd|x a Hd|v Hd|Hd|]; subst.
      + apply ri_alias. apply declares_says in Hd. specialize (S1 a). rewrite Hd in S1. exact S1.
      + apply ri_no_map. auto.
      + apply ri_default. apply declares_says in Hd. specialize (S1 ""). rewrite Hd in S1. exact S1.
      + apply ri_default. specialize (S1 "").
        destruct (says "" (c_nsmap (ci_params k))) eqn:S; auto.
        exfalso. apply (Hd s). apply declares_says; auto.
  Qed.

  Lemma fields_behind_skip : forall s fs cs, skip_before s = CFields fs cs <-> fields_behind s fs cs.
  Proof.
    intros s fs cs; split.
    - induction s; intros H; simpl in H; try discriminate.
      + injection H as <- <-. constructor.
      + destruct k; try discriminate. constructor. auto.
    - induction 1; auto.
  Qed.

  Lemma class_built : forall n k s b cls body fs cs,
    build_class cl ev n k s = Ok b -> stands_for [] s (CModel cls false body) -> cl cls = Some k ->
    fields_behind body fs cs -> fields_ok k fs cs ->
    exists own comp,
      bm_fields b = own ++ comp /\
      Forall2 (field_declared cl k (bm_hide b)) (xml_fields k fs) own /\
      Forall2 (computed_declared cl k (bm_hide b)) cs comp /\
      class_element k (bm_elem_name b) /\ bm_nsmap b = c_nsmap (ci_params k) /\
      bm_cls b = cls /\ bm_root b = false /\
      bm_valias b = flat_map field_valias (xml_fields k fs) /\
      bm_sexclude b = rev (map fst (filter field_excluded (xml_fields k fs))) /\
      bm_hide b = default false (ci_hide k).
  Proof.
    intros n k s b cls body fs cs H S K B (ND & Ff & Fc). unfold build_class in H.
    destruct (preprocess n s (class_ctx k)) as [[s' c]| |] eqn:P; try discriminate. cbn [obind] in H.
    pose proof (preprocess_like _ _ _ P) as L. apply preprocess_stands in P.
    simpl in P. rewrite (stands_for_unique P S) in H. unfold build_model in H. rewrite K in H.
    destruct (@Hcl _ _ K) as [Hn Hd].
    apply fields_behind_skip in B. rewrite B in H. cbv zeta in H.
    set (hide := default (cx_hide c) (ci_hide k)) in *.
    destruct (build_fields cl ev n k hide fs c [] [] []) as [[[sers va] ex]| |] eqn:E1; try discriminate.
    cbn [obind] in H.
    apply fields_built in E1; auto.
    2: { simpl. eapply NoDup_app_remove_r; eauto. }
    destruct E1 as (own & -> & F1 & -> & ->). cbn [app] in H.
    destruct (build_computed cl ev n k hide cs c own) as [sers2| |] eqn:E2; try discriminate.
    cbn [obind] in H.
    assert (Sub : forall x, In x (dkeys own) -> In x (map fst fs)).
    { clear - F1. unfold xml_fields in F1. intros x Hx.
      remember (filter (fun nf => negb (existsb is_noxml (ci_meta k (fst nf)))) fs) as l.
      assert (I : incl l fs) by (subst l; intros y; apply incl_filter).
      clear Heql. induction F1 as [|a b' l l' [Ha _] F IH]; [destruct Hx|].
      destruct Hx as [<-|Hx].
      - rewrite Ha. apply in_map. apply I; simpl; auto.
      - apply IH; auto. intros y Hy; apply I; simpl; auto. }
    assert (NO : NoDup (dkeys own)).
    { clear - F1 ND. apply NoDup_app_remove_r in ND.
      assert (M : dkeys own = map fst (xml_fields k fs)).
      { clear ND. induction F1 as [|a b' l l' [Ha _] F IH]; simpl; congruence. }
      rewrite M. clear - ND. induction fs as [|f fs IH]; simpl; [constructor|].
      simpl in ND. inversion ND; subst.
      destruct (negb _); simpl; auto. constructor; auto.
      intros I. apply H1. apply in_map_iff in I as (y & E & Hy). rewrite <- E. apply in_map.
      apply filter_In in Hy. tauto. }
    apply computed_built with (hide := hide) in E2; auto.
    2: { clear - NO Sub ND. induction own as [|[x r] own IH]; simpl in *.
         - eapply NoDup_app_remove_l; eauto.
         - inversion NO; subst. constructor; auto.
           rewrite in_app_iff. intros [I|I]; auto.
           assert (I2 : In x (map fst fs)) by auto. clear - ND I I2.
           induction (map fst fs) as [|z zs IH]; [destruct I2|].
           simpl in ND. inversion ND; subst. destruct I2 as [->|I2]; auto.
           apply H1. rewrite in_app_iff; auto. }
    destruct E2 as (comp & -> & F2).
    destruct (class_elem_name k) as [name| |] eqn:E3; try discriminate. cbn [obind] in H.
    injection H as <-. simpl.
    exists own, comp. rewrite app_nil_r. repeat split; auto.
    - apply class_element_built; auto.
    - unfold hide. unfold like in L; simpl in L. decompose [and] L. congruence.
  Qed.

  (** a root model: one nameless field *)
  Lemma root_built : forall n k s b cls body,
    build_class cl ev n k s = Ok b -> stands_for [] s (CModel cls true body) -> cl cls = Some k ->
    maybe_info_ok (extract_info (ci_meta k "root")) ->
    exists r, bm_fields b = [("root", r)] /\
      declared cl (field_ambient k (bm_hide b) None None false) [class_scope k]
        (extract_info (ci_meta k "root")) r /\
      class_element k (bm_elem_name b) /\ bm_nsmap b = c_nsmap (ci_params k) /\
      bm_cls b = cls /\ bm_root b = true /\ bm_hide b = default false (ci_hide k).
  Proof.
    intros n k s b cls body H S K I. unfold build_class in H.
    destruct (preprocess n s (class_ctx k)) as [[s' c]| |] eqn:P; try discriminate. cbn [obind] in H.
    pose proof (preprocess_like _ _ _ P) as L. apply preprocess_stands in P.
    simpl in P. rewrite (stands_for_unique P S) in H. unfold build_root_model in H. rewrite K in H.
    destruct (@Hcl _ _ K) as [Hn Hd]. cbv zeta in H.
    destruct (parse cl ev n body _) as [r| |] eqn:E in H; try discriminate. cbn [obind] in H.
    destruct (class_elem_name k) as [name| |] eqn:E3; try discriminate. cbn [obind] in H.
    injection H as <-. simpl. exists r. split; auto.
    apply parse_good in E; auto; [|eapply child_ok; eauto; discriminate].
    unfold good in E. erewrite child_scopes, child_amb in E by eauto. simpl in E.
    assert (Q : cx_alias c = None /\ cx_computed c = false /\ cx_hide c = false).
    { unfold like in L; simpl in L. decompose [and] L. auto. }
    destruct Q as (Q1 & Q2 & Q3). rewrite Q1, Q2 in E. rewrite Q3 in *.
    repeat split; auto. apply class_element_built; auto.
  Qed.
End Class.
