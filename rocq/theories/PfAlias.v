(** PfAlias.v -- renaming namespace prefixes commutes with building, writing and reading (C75). *)

From Verif Require Import Base Elem Native Errs Names Fields Ser Build Write Read Api SpecAlias.

Lemma out_bind : forall A B A' B' (g : A -> A') (h : B -> B') (o : out A) (o' : out A') (k : A -> out B) (k' : A' -> out B'),
  o' = out_map g o -> (forall a, k' (g a) = out_map h (k a)) -> obind o' k' = out_map h (obind o k).
Proof. intros A B A' B' g h [a|x|] o' k k' -> H; simpl; auto. Qed.

Lemma out_bind_same : forall A B B' (h : B -> B') (o : out A) (k : A -> out B) (k' : A -> out B'),
  (forall a, k' a = out_map h (k a)) -> obind o k' = out_map h (obind o k).
Proof. intros A B B' h [a|x|] k k' H; simpl; auto. Qed.

Section Alias.
  Variable f : string -> string.
  Hypothesis Hf : renaming f.

  Lemma f_eqb : forall a b, String.eqb (f a) (f b) = String.eqb a b.
  Proof.
    intros a b. destruct (String.eqb_spec a b) as [->|N]; [apply String.eqb_refl|].
    apply String.eqb_neq. intros E. apply N. apply (proj1 Hf); auto.
  Qed.

  Lemma f_empty : forall a, String.eqb (f a) "" = String.eqb a "".
  Proof. intros a. rewrite <- (proj2 Hf) at 1. apply f_eqb. Qed.

  (** ---- dictionaries of prefixes ---- *)
  Lemma dget_re : forall m k, dget (f k) (re_map f m) = dget k m.
  Proof. intros m k; induction m as [|[a u] m IH]; simpl; auto. rewrite f_eqb. destruct (String.eqb k a); auto. Qed.

  Lemma dset_re : forall m k u, dset (f k) u (re_map f m) = re_map f (dset k u m).
  Proof. intros m k u; induction m as [|[a w] m IH]; simpl; auto. rewrite f_eqb. destruct (String.eqb k a); simpl; auto. f_equal; auto. Qed.

  Lemma dupdate_re : forall m d, dupdate (re_map f d) (re_map f m) = re_map f (dupdate d m).
  Proof.
    unfold dupdate. intros m; induction m as [|[a u] m IH]; intros d; simpl; auto. rewrite dset_re. apply IH.
  Qed.

  Lemma truthy_re : forall m, nsmap_truthy (re_nsmap f m) = nsmap_truthy m.
  Proof. intros [[|[a u] m]|]; reflexivity. Qed.

  Lemma get_re : forall m k, nsmap_get (re_nsmap f m) (f k) = nsmap_get m k.
  Proof. intros [m|] k; simpl; auto. apply dget_re. Qed.

  Lemma from_alias_re : forall tag ns m a, from_alias tag (re_ns f ns) (re_nsmap f m) a = from_alias tag ns m a.
  Proof.
    intros tag [ns|] m a; unfold from_alias; simpl; rewrite ?truthy_re.
    - rewrite get_re. destruct (negb a || true) eqn:X; auto. destruct a; discriminate X.
    - rewrite <- (proj2 Hf) at 1. rewrite get_re. reflexivity.
  Qed.

  Lemma select_re : forall l, select_ns (map (re_ns f) l) = re_ns f (select_ns l).
  Proof. intros l; induction l as [|[a|] l IH]; simpl; auto. Qed.

  Lemma merge_re : forall l, merge_nsmaps (map (re_nsmap f) l) = re_map f (merge_nsmaps l).
  Proof.
    unfold merge_nsmaps. intros l. rewrite <- map_rev. generalize (rev l). clear l. intros l.
    change (@nil (string * string)) with (re_map f []) at 1. generalize (@nil (string * string)).
    induction l as [|[m|] l IH]; intros d; simpl; auto. rewrite dupdate_re. apply IH.
  Qed.

  Lemma re_default : forall m, default [] (re_nsmap f m) = re_map f (default [] m).
  Proof. intros [m|]; reflexivity. Qed.

  (** ---- class statements and annotations ---- *)
  Lemma or_ns : forall a b, or_else (re_ns f a) (re_ns f b) = re_ns f (or_else a b).
  Proof. intros [a|] b; reflexivity. Qed.

  Lemma init_re : forall base d, init_subclass (option_map (re_params f) base) (re_decl f d) = re_params f (init_subclass base d).
  Proof.
    intros [b|] [t ns m na sk md]; unfold init_subclass, re_params, re_decl; simpl.
    - f_equal; [apply or_ns|]. destruct b as [bt bns bm bna bsk bmd]; simpl. destruct bm as [bm|]; simpl; auto.
      destruct bm as [|kv bm]; simpl; auto. destruct m as [m|]; simpl; auto.
      change (dupdate (re_map f (kv :: bm)) (re_map f m)) with (dupdate (re_map f (kv :: bm)) (re_map f m)).
      f_equal. apply (dupdate_re m (kv :: bm)).
    - f_equal. destruct ns; reflexivity.
  Qed.

  Lemma chain_re : forall ds, class_chain (map (re_decl f) ds) = option_map (re_params f) (class_chain ds).
  Proof.
    unfold class_chain. intros ds.
    assert (H : forall b, fold_left (fun base d => Some (init_subclass base d)) (map (re_decl f) ds) (option_map (re_params f) b) =
      option_map (re_params f) (fold_left (fun base d => Some (init_subclass base d)) ds b)).
    { induction ds as [|d ds IH]; intros b; simpl; auto. rewrite init_re. apply (IH (Some _)). }
    apply (H None).
  Qed.

  Lemma info_wrapped : forall o : option einfo, (match o with Some i' => Some (re_info f i') | None => None end) = option_map (re_info f) o.
  Proof. intros [i|]; reflexivity. Qed.

  Lemma merge_step_re : forall a i, merge_step (re_info f a) (re_info f i) = re_info f (merge_step a i).
  Proof.
    intros [l1 p1 n1 m1 i1 w1] [l2 p2 n2 m2 i2 w2]; unfold merge_step; simpl. f_equal.
    - apply or_ns.
    - destruct m2 as [m2|]; simpl; auto. f_equal. apply (merge_re [Some m2; m1]).
    - destruct w2; reflexivity.
  Qed.

  Lemma merge_infos_re : forall l, merge_infos (map (re_info f) l) = re_info f (merge_infos l).
  Proof.
    unfold merge_infos. intros l. change empty_info with (re_info f empty_info) at 1. generalize empty_info.
    induction l as [|i l IH]; intros a; simpl; auto. rewrite merge_step_re. apply IH.
  Qed.

  Lemma infos_of_re : forall l, infos_of (map (re_meta f) l) = map (re_info f) (infos_of l).
  Proof. intros l; induction l as [|[i| |s] l IH]; simpl; auto. f_equal; auto. Qed.

  Lemma extract_re : forall l, extract_info (map (re_meta f) l) = option_map (re_info f) (extract_info l).
  Proof.
    intros l; unfold extract_info. rewrite infos_of_re. destruct (infos_of l) as [|i is_]; auto.
    cbn [map option_map]. f_equal. apply (merge_infos_re (i :: is_)).
  Qed.

  Lemma attr_re : forall name ns, attr name (re_ns f ns) = map (re_meta f) (attr name ns).
  Proof. reflexivity. Qed.

  Lemma element_re : forall tag ns m nil, element tag (re_ns f ns) (re_nsmap f m) nil = map (re_meta f) (element tag ns m nil).
  Proof. reflexivity. Qed.

  Lemma wrapped_re : forall path inner ns m, wrapped path (option_map (map (re_meta f)) inner) (re_ns f ns) (re_nsmap f m) =
    map (re_meta f) (wrapped path inner ns m).
  Proof.
    intros path [l|] ns m; simpl; auto. rewrite map_app. simpl. rewrite extract_re. f_equal.
    induction l as [|[i| |s] l IH]; simpl; auto; f_equal; auto.
  Qed.

  (** ---- building ---- *)
  Fixpoint re_ctx (c : ctx) : ctx :=
    match c with
    | Ctx m fd al cp info na md op hd defs hide p =>
        Ctx m fd al cp (option_map (re_info f) info) na md op hd defs hide (match p with Some p' => Some (re_ctx p') | None => None end)
    end.

  Lemma ctx_info : forall c, cx_info (re_ctx c) = option_map (re_info f) (cx_info c).
  Proof. intros []; reflexivity. Qed.
  Lemma ctx_parent : forall c, cx_parent (re_ctx c) = option_map re_ctx (cx_parent c).
  Proof. intros [? ? ? ? ? ? ? ? ? ? ? [p|]]; reflexivity. Qed.
  Lemma ctx_model : forall c, cx_model (re_ctx c) = cx_model c. Proof. intros []; reflexivity. Qed.
  Lemma ctx_field : forall c, cx_field (re_ctx c) = cx_field c. Proof. intros []; reflexivity. Qed.
  Lemma ctx_alias : forall c, cx_alias (re_ctx c) = cx_alias c. Proof. intros []; reflexivity. Qed.
  Lemma ctx_computed : forall c, cx_computed (re_ctx c) = cx_computed c. Proof. intros []; reflexivity. Qed.
  Lemma ctx_ns_attrs : forall c, cx_ns_attrs (re_ctx c) = cx_ns_attrs c. Proof. intros []; reflexivity. Qed.
  Lemma ctx_mode : forall c, cx_mode (re_ctx c) = cx_mode c. Proof. intros []; reflexivity. Qed.
  Lemma ctx_defs : forall c, cx_defs (re_ctx c) = cx_defs c. Proof. intros []; reflexivity. Qed.
  Lemma ctx_hide : forall c, cx_hide (re_ctx c) = cx_hide c. Proof. intros []; reflexivity. Qed.
  Lemma ctx_location : forall c, cx_location (re_ctx c) = cx_location c.
  Proof. intros [? ? ? ? [[]|] ? ? ? ? ? ? ?]; reflexivity. Qed.
  Lemma ctx_path : forall c, cx_path (re_ctx c) = cx_path c.
  Proof. intros [? ? ? ? [[]|] ? ? ? ? ? ? ?]; reflexivity. Qed.
  Lemma ctx_nillable : forall c, cx_nillable (re_ctx c) = cx_nillable c.
  Proof. intros [? ? ? ? [[]|] ? ? ? ? ? ? ?]; reflexivity. Qed.
  Lemma ctx_ns : forall c, cx_ns (re_ctx c) = re_ns f (cx_ns c).
  Proof. intros [? ? ? ? [[]|] ? ? ? ? ? ? ?]; reflexivity. Qed.
  Lemma ctx_nsmap : forall c, cx_nsmap (re_ctx c) = re_nsmap f (cx_nsmap c).
  Proof. intros [? ? ? ? [[]|] ? ? ? ? ? ? ?]; reflexivity. Qed.
  Lemma ctx_wrapped : forall c, cx_wrapped (re_ctx c) = option_map (re_info f) (cx_wrapped c).
  Proof. intros [? ? ? ? [[? ? ? ? ? [w|]]|] ? ? ? ? ? ? ?]; reflexivity. Qed.

  Fixpoint ctx_depth (c : ctx) : nat := match c with Ctx _ _ _ _ _ _ _ _ _ _ _ p => match p with Some p' => S (ctx_depth p') | None => 0 end end.

  Lemma ctx_induction : forall P : ctx -> Prop, (forall c, (forall p, cx_parent c = Some p -> P p) -> P c) -> forall c, P c.
  Proof.
    intros P H. assert (X : forall n c, ctx_depth c < n -> P c).
    { intros n; induction n as [|n IH]; intros c L; [lia|]. apply H. intros p E. apply IH.
      destruct c as [? ? ? ? ? ? ? ? ? ? ? q]; simpl in *. subst q. simpl in L. lia. }
    intros c. apply (X (S (ctx_depth c))). lia.
  Qed.

  Lemma parent_ns_eq : forall c, parent_ns c = match cx_parent c with Some p => select_ns [cx_ns p; parent_ns p] | None => None end.
  Proof. intros []; reflexivity. Qed.
  Lemma parent_nsmap_eq : forall c, parent_nsmap c = match cx_parent c with
    | Some p => Some (dupdate (dupdate [] (default [] (cx_nsmap p))) (default [] (parent_nsmap p))) | None => None end.
  Proof. intros []; reflexivity. Qed.

  Lemma parent_ns_re : forall c, parent_ns (re_ctx c) = re_ns f (parent_ns c).
  Proof.
    intros c; induction c as [c IH] using ctx_induction. rewrite (parent_ns_eq c), parent_ns_eq, ctx_parent.
    destruct (cx_parent c) as [p|] eqn:E; cbn [option_map]; auto. rewrite ctx_ns, (IH p eq_refl). apply (select_re [cx_ns p; parent_ns p]).
  Qed.

  Lemma parent_nsmap_re : forall c, parent_nsmap (re_ctx c) = re_nsmap f (parent_nsmap c).
  Proof.
    intros c; induction c as [c IH] using ctx_induction. rewrite (parent_nsmap_eq c), parent_nsmap_eq, ctx_parent.
    destruct (cx_parent c) as [p|] eqn:E; cbn [option_map]; auto. rewrite ctx_nsmap, (IH p eq_refl), !re_default.
    unfold re_nsmap; cbn [option_map]. f_equal. rewrite <- dupdate_re. f_equal. apply (dupdate_re _ []).
  Qed.

  Lemma entity_name_re : forall c, entity_name (re_ctx c) = entity_name c.
  Proof. intros c; unfold entity_name. rewrite ctx_path, ctx_alias, ctx_field; auto. Qed.
  Lemma entity_ns_re : forall c, entity_ns (re_ctx c) = re_ns f (entity_ns c).
  Proof. intros c; unfold entity_ns. rewrite ctx_ns, parent_ns_re. apply (select_re [_; _]). Qed.
  Lemma entity_nsmap_re : forall c, entity_nsmap (re_ctx c) = re_map f (entity_nsmap c).
  Proof. intros c; unfold entity_nsmap. rewrite ctx_nsmap, parent_nsmap_re. apply (merge_re [_; _]). Qed.

  Lemma uri_of_re : forall tag ns m a, uri_of tag (re_ns f ns) (re_map f m) a = uri_of tag ns m a.
  Proof. intros; unfold uri_of. rewrite <- (from_alias_re tag ns (Some m) a). reflexivity. Qed.

  Lemma preprocess_re : forall n s c, preprocess n s (re_ctx c) = out_map (fun '(s', c') => (s', re_ctx c')) (preprocess n s c).
  Proof.
    intros n; induction n as [|n IH]; intros s c; auto. cbn [preprocess]. destruct s; auto.
    - cbn [family_of]. destruct (str_in _ _); auto.
    - rewrite <- IH. f_equal. destruct k; auto; destruct c; auto.
    - destruct ser; auto.
    - rewrite <- IH. f_equal. destruct c; auto.
    - rewrite ctx_defs. destruct (dget _ _); auto.
  Qed.

  Ltac ctx_simpl := rewrite ?ctx_location, ?ctx_path, ?ctx_nillable, ?ctx_model, ?ctx_field, ?ctx_alias, ?ctx_computed,
    ?ctx_ns_attrs, ?ctx_mode, ?ctx_hide, ?ctx_defs, ?entity_name_re, ?entity_ns_re, ?entity_nsmap_re, ?uri_of_re.

  Lemma attrs_of_re : forall c, attrs_of (re_ctx c) = re_attrs f (attrs_of c).
  Proof. intros c; unfold attrs_of, re_attrs; simpl. ctx_simpl. reflexivity. Qed.

  Notation commutes b := (forall c, b (re_ctx c) = out_map (re_ser f) (b c)).

  Lemma build_attr_re : commutes build_attr.
  Proof.
    intros c; unfold build_attr. ctx_simpl. rewrite ctx_ns, parent_ns_re.
    assert (E : select_ns [re_ns f (cx_ns c); if cx_ns_attrs c then re_ns f (parent_ns c) else None] =
      re_ns f (select_ns [cx_ns c; if cx_ns_attrs c then parent_ns c else None])).
    { rewrite <- select_re. destruct (cx_ns_attrs c); reflexivity. }
    rewrite E. generalize (select_ns [cx_ns c; if cx_ns_attrs c then parent_ns c else None]). intros ns.
    assert (X : (match re_ns f ns with Some s => String.eqb s "" | None => false end) = (match ns with Some s => String.eqb s "" | None => false end)).
    { destruct ns as [s|]; simpl; auto. apply f_empty. }
    rewrite X. destruct (match ns with Some _ => _ | None => _ end); auto. destruct (entity_name c); auto.
    rewrite uri_of_re. apply out_bind_same. reflexivity.
  Qed.

  Lemma build_elem_re : commutes build_elem.
  Proof. intros c; unfold build_elem. ctx_simpl. destruct (entity_name c); auto. ctx_simpl. apply out_bind_same. reflexivity. Qed.

  Lemma build_prim_re : commutes build_prim.
  Proof.
    intros c; unfold build_prim. ctx_simpl. destruct (cx_location c) as [[]|]; auto using build_elem_re, build_attr_re.
    unfold build_text. ctx_simpl. reflexivity.
  Qed.

  Lemma build_mapping_at_re : commutes build_mapping_at.
  Proof.
    intros c; unfold build_mapping_at, build_map_elem. ctx_simpl. rewrite attrs_of_re. destruct (cx_location c) as [[]|]; auto.
    destruct (entity_name c); auto. ctx_simpl. apply out_bind_same. reflexivity.
  Qed.

  Lemma build_mapping_re : forall n k v, commutes (build_mapping n k v).
  Proof.
    intros n k v c; unfold build_mapping. rewrite !preprocess_re.
    eapply out_bind; [reflexivity|]. intros [k' c1]. eapply out_bind; [reflexivity|]. intros [v' c2].
    destruct (negb _); auto. destruct (negb _); auto. apply build_mapping_at_re.
  Qed.

  Lemma all_prim_re : forall n l c, all_prim n l (re_ctx c) = all_prim n l c.
  Proof.
    intros n l c; induction l as [|v l IH]; simpl; auto. rewrite preprocess_re.
    destruct (preprocess n v c) as [[v' c']|x|]; simpl; auto. destruct (negb _); auto.
  Qed.

  Lemma build_typed_re : forall n l, commutes (build_typed_mapping n l).
  Proof. intros n l c; unfold build_typed_mapping. rewrite all_prim_re. apply out_bind_same. intros _. apply build_mapping_at_re. Qed.

  Lemma build_raw_re : commutes build_raw.
  Proof.
    intros c; unfold build_raw, build_raw_elem. ctx_simpl. destruct (cx_location c) as [[]|]; auto;
      destruct (entity_name c); auto; ctx_simpl; apply out_bind_same; reflexivity.
  Qed.

  Lemma build_is_instance_re : forall r, commutes (build_is_instance r).
  Proof. intros [|] c; [apply build_raw_re|apply build_prim_re]. Qed.

  Lemma kind_re : forall s, kind (re_ser f s) = kind s.
  Proof. intros []; reflexivity. Qed.

  Lemma omap_re : forall A B B' (g : B -> B') (k : A -> out B) (k' : A -> out B') l, (forall a, k' a = out_map g (k a)) ->
    omap k' l = out_map (map g) (omap k l).
  Proof.
    intros A B B' g k k' l H; induction l as [|a l IH]; simpl; auto.
    apply (@out_bind _ _ _ _ g (map g)); auto. intros y. apply (@out_bind _ _ _ _ (map g) (map g)); auto.
  Qed.

  Lemma as_proxy_re : forall s, as_proxy (re_ser f s) = out_map (re_proxy f) (as_proxy s).
  Proof. intros []; reflexivity. Qed.

  Variable cl : classes.
  Variable ev : env.

  Lemma build_proxy_re : forall cls c, build_proxy (re_classes f cl) cls (re_ctx c) = out_map (re_ser f) (build_proxy cl cls c).
  Proof.
    intros cls c; unfold build_proxy, re_classes. destruct (cl cls) as [i|]; cbn [option_map]; auto. ctx_simpl.
    cbn [re_class ci_params ci_name re_params c_tag c_ns c_nsmap]. rewrite ctx_ns, ctx_nsmap, parent_ns_re, parent_nsmap_re.
    assert (E1 := select_re [cx_ns c; c_ns (ci_params i); parent_ns c]). assert (E2 := merge_re [cx_nsmap c; c_nsmap (ci_params i); parent_nsmap c]).
    cbn [map] in E1, E2. rewrite E1, E2. rewrite uri_of_re. apply out_bind_same. reflexivity.
  Qed.

  Section Rec.
    Variables p p' : cschema -> ctx -> out ser.
    Hypothesis Hp : forall s c, p' s (re_ctx c) = out_map (re_ser f) (p s c).
    Variable n : nat.

    Lemma build_wrap_re : forall s, forall c, build_wrap p' s (re_ctx c) = out_map (re_ser f) (build_wrap p s c).
    Proof.
      intros s c; unfold build_wrap. ctx_simpl. destruct (cx_path c) as [path|]; auto.
      assert (E : child_wrapped (re_ctx c) = re_ctx (child_wrapped c)).
      { unfold child_wrapped. rewrite ctx_wrapped. ctx_simpl. destruct c; reflexivity. }
      rewrite E. apply (@out_bind _ _ _ _ (re_ser f) (re_ser f)); [apply Hp|]. intros s'.
      apply (@out_bind _ _ _ _ (fun l : list string => l) (re_ser f)); [|reflexivity].
      rewrite (@omap_re _ _ _ (fun x : string => x) (fun part => uri_of part (entity_ns c) (entity_nsmap c) false)).
      - destruct (omap _ _); simpl; auto. rewrite map_id; auto.
      - intros part. ctx_simpl. destruct (uri_of _ _ _ _); auto.
    Qed.

    Lemma build_homo_re : forall item c, build_homo p' n item (re_ctx c) = out_map (re_ser f) (build_homo p n item c).
    Proof.
      intros item c; unfold build_homo. rewrite preprocess_re. eapply out_bind; [reflexivity|]. intros [i c1]. ctx_simpl.
      destruct (negb _); auto. destruct (_ && _); auto. destruct (cx_location c1) as [[]|]; auto;
        (apply (@out_bind _ _ _ _ (re_ser f) (re_ser f)); [apply Hp|reflexivity]).
    Qed.

    Lemma check_items_re : forall l c, check_items n l (re_ctx c) = out_map re_ctx (check_items n l c).
    Proof.
      intros l; induction l as [|item l IH]; intros c; cbn [check_items]; auto. rewrite preprocess_re. eapply out_bind; [reflexivity|].
      intros [i c1]. ctx_simpl. destruct (negb _); auto. destruct (_ && _); auto.
    Qed.

    Lemma build_hetero_re : forall l c, build_hetero p' n l (re_ctx c) = out_map (re_ser f) (build_hetero p n l c).
    Proof.
      intros l c; unfold build_hetero. rewrite check_items_re. eapply out_bind; [reflexivity|]. intros c1. ctx_simpl.
      destruct (cx_location c1) as [[]|]; auto;
        (apply (@out_bind _ _ _ _ (map (re_ser f)) (re_ser f)); [apply omap_re; intros; apply Hp|reflexivity]).
    Qed.

    Lemma build_tuple_re : forall v l c, build_tuple p' n v l (re_ctx c) = out_map (re_ser f) (build_tuple p n v l c).
    Proof.
      intros [[|v]|] l c; cbn [build_tuple]; auto using build_hetero_re. destruct l as [|item [|]]; auto. apply build_homo_re.
    Qed.

    Lemma choice_families_re : forall l c, choice_families n l (re_ctx c) = out_map (fun '(fs, c') => (fs, re_ctx c')) (choice_families n l c).
    Proof.
      intros l; induction l as [|s l IH]; intros c; cbn [choice_families]; auto. rewrite preprocess_re. eapply out_bind; [reflexivity|].
      intros [s' c1]. destruct (family_of s') as [[]|]; auto; rewrite IH; (eapply out_bind; [reflexivity|]); intros [fs c2]; reflexivity.
    Qed.

    Lemma build_union_re : forall l c, build_union p' n l (re_ctx c) = out_map (re_ser f) (build_union p n l c).
    Proof.
      intros l c; unfold build_union. rewrite choice_families_re. eapply out_bind; [reflexivity|]. intros [fs c1].
      destruct fs as [|g gs]; auto. cbv zeta. destruct (_ && _); auto. destruct (existsb _ _).
      - unfold build_union_model. ctx_simpl. apply (@out_bind _ _ _ _ (map (re_proxy f)) (re_ser f)).
        + apply omap_re. intros s. apply (@out_bind _ _ _ _ (re_ser f) (re_proxy f)); auto. apply as_proxy_re.
        + intros [|v vs]; reflexivity.
      - destruct (existsb _ _); auto. unfold build_union_prim. ctx_simpl. apply (@out_bind _ _ _ _ (map (re_ser f)) (re_ser f)).
        + apply omap_re; auto.
        + intros [|v vs]; auto. cbn [map].
          assert (E : forallb (fun s => Nat.eqb (kind s) (kind (re_ser f v))) (map (re_ser f) vs) = forallb (fun s => Nat.eqb (kind s) (kind v)) vs).
          { rewrite (kind_re v). induction vs as [|w vs IH]; simpl; auto. rewrite kind_re, IH; auto. }
          rewrite E. clear E. destruct (forallb (fun s => Nat.eqb (kind s) (kind v)) vs); reflexivity.
    Qed.

    Lemma check_tagged_re : forall l c, check_tagged n l (re_ctx c) = out_map re_ctx (check_tagged n l c).
    Proof.
      intros l; induction l as [|[t s] l IH]; intros c; cbn [check_tagged]; auto. rewrite preprocess_re. eapply out_bind; [reflexivity|].
      intros [s' c1]. destruct s' as [| |? root ?| | | | | | | | | | | | |]; auto. destruct root; auto.
    Qed.

    Definition re_variants (d : dict proxy) : dict proxy := map (fun kv => (fst kv, re_proxy f (snd kv))) d.

    Lemma dset_variants : forall d t q, dset t (re_proxy f q) (re_variants d) = re_variants (dset t q d).
    Proof. intros d t q; induction d as [|[k x] d IH]; simpl; auto. destruct (String.eqb t k); simpl; auto. f_equal; auto. Qed.

    Lemma dget_fields : forall fs k, dget k (re_fields f fs) = option_map (re_ser f) (dget k fs).
    Proof. intros fs k; induction fs as [|[a s] fs IH]; simpl; auto. destruct (String.eqb k a); auto. Qed.

    Lemma build_variants_re : forall d l c a acc, build_variants (re_env f ev) p' d l (re_ctx c) a (re_variants acc) =
      out_map (fun '(x, vs) => (x, re_variants vs)) (build_variants ev p d l c a acc).
    Proof.
      intros d l; induction l as [|[[t|] s] l IH]; intros c a acc; cbn [build_variants]; auto.
      apply (@out_bind _ _ _ _ (re_ser f) (fun '(x, vs) => (x, re_variants vs))); [apply Hp|]. intros s'.
      apply (@out_bind _ _ _ _ (re_proxy f) (fun '(x, vs) => (x, re_variants vs))); [apply as_proxy_re|]. intros q.
      cbn [re_env en_model re_proxy px_model]. destruct (en_model ev (px_model q)) as [m|]; cbn [option_map]; auto.
      cbn [re_mdef md_root md_fields]. destruct (md_root m); auto. rewrite dget_fields.
      destruct (dget d (md_fields m)) as [[]|]; cbn [option_map re_ser]; auto.
      destruct a as [b|]; [destruct (String.eqb name b)|]; auto; rewrite <- IH, <- dset_variants; reflexivity.
    Qed.

    Lemma build_tagged_re : forall d l c, build_tagged (re_env f ev) p' n d l (re_ctx c) = out_map (re_ser f) (build_tagged ev p n d l c).
    Proof.
      intros d l c; unfold build_tagged. rewrite check_tagged_re. eapply out_bind; [reflexivity|]. intros c1. destruct d as [d|]; auto.
      apply (@out_bind _ _ _ _ (fun '(x, vs) => (x, re_variants vs)) (re_ser f)); [apply (build_variants_re d l c1 None [])|].
      intros [[a|] vs]; auto. ctx_simpl. reflexivity.
    Qed.

    Lemma select_ser_re : forall s c, select (re_classes f cl) (re_env f ev) p' n s (re_ctx c) = out_map (re_ser f) (select cl ev p n s c).
    Proof.
      intros s c; unfold select. destruct (family_of s) eqn:F; auto. ctx_simpl.
      assert (X : (match s with
              | CType _ => build_prim (re_ctx c)
              | CModel cls _ _ => build_submodel (re_classes f cl) cls (re_ctx c)
              | CList item => build_homo p' n item (re_ctx c)
              | CTuple variadic items => build_tuple p' n variadic items (re_ctx c)
              | CDict keys values => build_mapping n keys values (re_ctx c)
              | CTypedDict values => build_typed_mapping n values (re_ctx c)
              | CUnion choices => build_union p' n choices (re_ctx c)
              | CTagged disc choices => build_tagged (re_env f ev) p' n disc choices (re_ctx c)
              | CIsInstance raw => build_is_instance raw (re_ctx c)
              | CCall tuple_class args => build_call p' n tuple_class args (re_ctx c)
              | _ => Raise XAssertion
              end) = out_map (re_ser f) (match s with
              | CType _ => build_prim c
              | CModel cls _ _ => build_submodel cl cls c
              | CList item => build_homo p n item c
              | CTuple variadic items => build_tuple p n variadic items c
              | CDict keys values => build_mapping n keys values c
              | CTypedDict values => build_typed_mapping n values c
              | CUnion choices => build_union p n choices c
              | CTagged disc choices => build_tagged ev p n disc choices c
              | CIsInstance raw => build_is_instance raw c
              | CCall tuple_class args => build_call p n tuple_class args c
              | _ => Raise XAssertion
              end)).
      { clear F. destruct s; auto using build_prim_re, build_homo_re, build_tuple_re, build_mapping_re, build_typed_re, build_union_re, build_tagged_re, build_is_instance_re.
        - unfold build_submodel. ctx_simpl. destruct (cx_location c) as [[]|]; auto using build_proxy_re.
        - unfold build_call. destruct tuple_class; auto. apply build_hetero_re. }
      destruct (cx_location c) as [[]|]; auto. apply build_wrap_re.
    Qed.
  End Rec.

  Lemma parse_re : forall n s c, parse (re_classes f cl) (re_env f ev) n s (re_ctx c) = out_map (re_ser f) (parse cl ev n s c).
  Proof.
    intros n; induction n as [|n IH]; intros s c; auto. cbn [parse]. rewrite preprocess_re. eapply out_bind; [reflexivity|].
    intros [s' c1]. apply select_ser_re. exact IH.
  Qed.

  Lemma child_field_re : forall c name alias comp info hide,
    child_field (re_ctx c) name alias comp (option_map (re_info f) info) hide = re_ctx (child_field c name alias comp info hide).
  Proof. intros c name alias comp info hide; unfold child_field. ctx_simpl. destruct c; reflexivity. Qed.

  Lemma dset_fields : forall fs k s, dset k (re_ser f s) (re_fields f fs) = re_fields f (dset k s fs).
  Proof. intros fs k s; induction fs as [|[a x] fs IH]; simpl; auto. destruct (String.eqb k a); simpl; auto. f_equal; auto. Qed.

  Lemma noxml_re : forall l, existsb is_noxml (map (re_meta f) l) = existsb is_noxml l.
  Proof. intros l; induction l as [|[i| |s] l IH]; simpl; auto. Qed.

  Lemma build_fields_re : forall n i hide fs c sers va ex,
    build_fields (re_classes f cl) (re_env f ev) n (re_class f i) hide fs (re_ctx c) (re_fields f sers) va ex =
    out_map (fun '(s, a, x) => (re_fields f s, a, x)) (build_fields cl ev n i hide fs c sers va ex).
  Proof.
    intros n i hide fs c; induction fs as [|[name [exclude salias v s]] fs IH]; intros sers va ex; cbn [build_fields]; auto.
    cbn [re_class ci_meta]. rewrite noxml_re. destruct (existsb _ _); auto. rewrite extract_re, ctx_computed, child_field_re.
    apply (@out_bind _ _ _ _ (re_ser f) (fun '(s, a, x) => (re_fields f s, a, x))); [apply parse_re|]. intros s'. rewrite dset_fields. apply IH.
  Qed.

  Lemma build_computed_re : forall n i hide fs c sers,
    build_computed (re_classes f cl) (re_env f ev) n (re_class f i) hide fs (re_ctx c) (re_fields f sers) =
    out_map (re_fields f) (build_computed cl ev n i hide fs c sers).
  Proof.
    intros n i hide fs c; induction fs as [|[name [alias s]] fs IH]; intros sers; cbn [build_computed]; auto.
    cbn [re_class ci_computed]. rewrite child_field_re.
    apply (@out_bind _ _ _ _ (re_ser f) (re_fields f)); [apply parse_re|]. intros s'. rewrite dset_fields. apply IH.
  Qed.

  Lemma class_name_re : forall i, class_elem_name (re_class f i) = class_elem_name i.
  Proof. intros i; unfold class_elem_name. cbn [re_class ci_params ci_name re_params c_tag c_ns c_nsmap]. rewrite from_alias_re; auto. Qed.

  Lemma build_class_re : forall n i s, build_class (re_classes f cl) (re_env f ev) n (re_class f i) s =
    out_map (re_built f) (build_class cl ev n i s).
  Proof.
    intros n i s; unfold build_class. change (class_ctx (re_class f i)) with (re_ctx (class_ctx i)). rewrite preprocess_re.
    eapply out_bind; [reflexivity|]. intros [s' c]. destruct s' as [| |cls root body| | | | | | | | | | | | |]; auto. destruct root.
    - unfold build_root_model, re_classes. destruct (cl cls) as [k|]; cbn [option_map]; auto. ctx_simpl. cbn [re_class ci_hide ci_meta ci_params].
      rewrite extract_re, child_field_re.
      apply (@out_bind _ _ _ _ (re_ser f) (re_built f)); [apply parse_re|]. intros r.
      change (class_elem_name _) with (class_elem_name (re_class f k)) at 1. rewrite class_name_re. apply out_bind_same. reflexivity.
    - unfold build_model. unfold re_classes at 1. destruct (cl cls) as [k|]; cbn [option_map]; auto. destruct (skip_before body); auto. ctx_simpl.
      apply (@out_bind _ _ _ _ (fun '(s, a, x) => (re_fields f s, a, x)) (re_built f)); [apply (build_fields_re n k _ fields c [] [] [])|].
      intros [[sers va] ex]. apply (@out_bind _ _ _ _ (re_fields f) (re_built f)); [apply (build_computed_re n k)|]. intros sers'.
      rewrite class_name_re. apply out_bind_same. reflexivity.
  Qed.
End Alias.
