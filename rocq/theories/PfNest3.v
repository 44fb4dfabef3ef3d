(** PfNest3.v -- proofs for C82: building. *)

From Verif Require Import Base Elem Native Errs Names Fields Ser Build SpecDecl SpecSim SpecNest PfDecl PfNest.

Local Ltac inv H := inversion H; subst; clear H.

(** ---- declarations ---- *)
Lemma step_infos_app : forall p q w, step_infos (p ++ q) w = step_infos p (step_infos q w).
Proof. induction p; simpl; intros; auto. rewrite IHp; auto. Qed.

Lemma steps_infos_inv : forall p p' w w', p <> [] -> p' <> [] ->
  hd "" p = hd "" p' -> step_infos (tl p) (nest_oinfo w) = step_infos (tl p') (nest_oinfo w') ->
  (p = p' /\ nest_oinfo w = nest_oinfo w') \/
  (exists q, q <> [] /\ p' = p ++ q /\ nest_oinfo w = step_infos q (nest_oinfo w')) \/
  (exists q, q <> [] /\ p = p' ++ q /\ nest_oinfo w' = step_infos q (nest_oinfo w)).
Proof.
  induction p as [|a p IH]; intros p' w w' N N' Hd H; [congruence|].
  destruct p' as [|a' p']; [congruence|]. simpl in Hd, H. subst a'.
  destruct p as [|b p].
  - destruct p' as [|b' p']; [left; auto|]. right; left. exists (b' :: p'). split; [discriminate|]. split; auto.
  - destruct p' as [|b' p'].
    + right; right. exists (b :: p). split; [discriminate|]. split; auto.
    + simpl in H. inv H.
      destruct (IH (b' :: p') w w') as [[E F]|[(q & Nq & E & F)|(q & Nq & E & F)]]; try discriminate; auto.
      * left. rewrite E. auto.
      * right; left. exists q. rewrite E. auto.
      * right; right. exists q. rewrite E. auto.
Qed.

Lemma nest_kept : forall i, ei_location (nest_info i) = ei_location i /\ ei_ns (nest_info i) = ei_ns i /\
  ei_nsmap (nest_info i) = ei_nsmap i /\ ei_nillable (nest_info i) = ei_nillable i /\
  (ei_location i <> Some LocWrapped -> ei_path (nest_info i) = ei_path i) /\
  (ei_path (nest_info i) = None <-> ei_path i = None).
Proof.
  intros [l p ns m ni w]. cbn [nest_info].
  destruct l as [[| |]|]; try (simpl; intuition congruence); destruct p as [p|]; try (simpl; intuition congruence);
    destruct m; try (simpl; intuition congruence).
  destruct (py_split "/" p) eqn:E; simpl; intuition congruence.
Qed.

Lemma nest_wrapped : forall i i', nest_info i = nest_info i' ->
  ei_location i <> Some LocWrapped \/ ei_nsmap i <> None \/ ei_path i = None ->
  ei_path i = ei_path i' /\ nest_oinfo (ei_wrapped i) = nest_oinfo (ei_wrapped i').
Proof.
  intros i i' H C. destruct (nest_kept i) as (A & B & Cm & D & Ep & En). destruct (nest_kept i') as (A' & B' & Cm' & D' & Ep' & En').
  rewrite H in *.
  destruct i as [l p ns m ni w], i' as [l' p' ns' m' ni' w']. simpl in *. subst.
  destruct l' as [[| |]|]; simpl in *; try (inv H; auto; fail).
  destruct p as [p|]; [|destruct p'; [destruct En as [_ En]; specialize (En eq_refl); apply En' in En; discriminate|inv H; auto]].
  destruct p' as [p'|]; [|destruct En' as [_ En']; specialize (En' eq_refl); apply En in En'; discriminate].
  destruct m'; [inv H; auto|]. destruct C as [C|[C|C]]; congruence.
Qed.

(** two wrappers without prefixes of their own: the same steps, or one has more steps *)
Lemma nest_paths : forall i i' path path', nest_info i = nest_info i' -> ei_location i = Some LocWrapped -> ei_nsmap i = None ->
  ei_path i = Some path -> ei_path i' = Some path' ->
  let p := py_split "/"%char path in let p' := py_split "/"%char path' in
  (p = p' /\ nest_oinfo (ei_wrapped i) = nest_oinfo (ei_wrapped i')) \/
  (exists q, q <> [] /\ p' = p ++ q /\ nest_oinfo (ei_wrapped i) = step_infos q (nest_oinfo (ei_wrapped i'))) \/
  (exists q, q <> [] /\ p = p' ++ q /\ nest_oinfo (ei_wrapped i') = step_infos q (nest_oinfo (ei_wrapped i))).
Proof.
  intros i i' path path' H L M P P' p p'.
  assert (L' : ei_location i' = Some LocWrapped) by (rewrite <- L, <- (proj1 (nest_kept i)), H; symmetry; apply nest_kept).
  assert (M' : ei_nsmap i' = None) by (rewrite <- M, <- (proj1 (proj2 (proj2 (nest_kept i)))), H; symmetry; apply nest_kept).
  destruct i as [l p0 ns m ni w], i' as [l' p0' ns' m' ni' w']. cbn [ei_location ei_nsmap ei_path ei_wrapped] in *. subst. cbn [nest_info] in H.
  assert (N := split_nonempty "/"%char path). assert (N' := split_nonempty "/"%char path').
  fold p in N, H. fold p' in N', H. clearbody p p'.
  apply steps_infos_inv; auto.
  - destruct p as [|x p], p' as [|y p']; try congruence. inv H. auto.
  - destruct p as [|x p], p' as [|y p']; try congruence. inv H. auto.
Qed.

(** a declaration that amounts to steps *)
Lemma nest_is_steps : forall i q w, q <> [] -> nest_oinfo i = step_infos q (nest_oinfo w) -> exists j path, i = Some j /\
  ei_location j = Some LocWrapped /\ ei_ns j = None /\ ei_nsmap j = None /\ ei_nillable j = None /\ ei_path j = Some path /\
  let p := py_split "/"%char path in
  (p = q /\ nest_oinfo (ei_wrapped j) = nest_oinfo w) \/
  (exists q', q' <> [] /\ q = p ++ q' /\ nest_oinfo (ei_wrapped j) = step_infos q' (nest_oinfo w)) \/
  (exists q', q' <> [] /\ p = q ++ q' /\ nest_oinfo w = step_infos q' (nest_oinfo (ei_wrapped j))).
Proof.
  intros i q w N H. destruct q as [|b q]; [congruence|]. destruct i as [j|]; [|discriminate].
  simpl in H. destruct (nest_kept j) as (A & B & Cm & D & _ & En). inversion H as [H0]. rewrite H0 in *. simpl in *.
  destruct (ei_path j) as [path|] eqn:P; [|destruct En as [_ En]; specialize (En eq_refl); discriminate].
  exists j, path. rewrite <- A, <- B, <- Cm, <- D, P. repeat (split; [reflexivity|]). cbv zeta.
  set (p := py_split "/"%char path). assert (Np := split_nonempty "/"%char path). fold p in Np.
  destruct j as [l p0 ns m ni w0]. simpl in *. subst. simpl in H0. fold p in H0. clearbody p.
  apply (@steps_infos_inv p (b :: q) w0 w Np N).
  - destruct p; [congruence|]. inv H0; auto.
  - destruct p; [congruence|]. inv H0; auto.
Qed.

Lemma extract_last : forall l i, infos_of l = [] -> extract_info (l ++ [MetaInfo i]) = Some (merge_infos [i]).
Proof.
  intros l i H. unfold extract_info. unfold infos_of in *. rewrite flat_map_app, H. reflexivity.
Qed.

Lemma extract_wrapped : forall path e ns, extract_info (wrapped path e ns None) =
  Some (EInfo (Some LocWrapped) (Some path) ns None None (match e with Some i => extract_info i | None => None end)).
Proof.
  intros path [e|] ns; unfold wrapped.
  - rewrite extract_last; [unfold merge_infos, merge_step; simpl; destruct ns; destruct (extract_info e); reflexivity|].
    induction e as [|[i| |o] e IH]; simpl; auto.
  - destruct ns; reflexivity.
Qed.

Lemma split_app : forall p q, py_split "/"%char (p ++ "/" ++ q)%string = py_split "/"%char p ++ py_split "/"%char q.
Proof.
  intros p q. induction p as [|c p IH]; [reflexivity|]. 
  change ((String c p ++ "/" ++ q)%string) with (String c (p ++ "/" ++ q)%string).
  simpl py_split. destruct (Ascii.eqb c "/"); [simpl; f_equal; exact IH|].
  simpl in IH. simpl. rewrite IH. pose proof (split_nonempty "/"%char p). destruct (py_split "/"%char p); [congruence|reflexivity].
Qed.

(** ---- contexts ---- *)
Record crel (c c' : ctx) : Prop := CRel {
  cr_model : cx_model c = cx_model c';
  cr_field : cx_field c = cx_field c';
  cr_alias : cx_alias c = cx_alias c';
  cr_computed : cx_computed c = cx_computed c';
  cr_nsa : cx_ns_attrs c = cx_ns_attrs c';
  cr_mode : cx_mode c = cx_mode c';
  cr_opt : cx_optional c = cx_optional c';
  cr_def : cx_has_default c = cx_has_default c';
  cr_defs : cx_defs c = cx_defs c';
  cr_hide : cx_hide c = cx_hide c';
  cr_pns : parent_ns c = parent_ns c';
  cr_pmap : parent_nsmap c = parent_nsmap c';
  cr_dict : exists M, parent_nsmap c = Some M /\ dupdate [] M = M
}.

Definition irel (c c' : ctx) : Prop := nest_oinfo (cx_info c) = nest_oinfo (cx_info c').

Lemma crel_sym : forall c c', crel c c' -> crel c' c.
Proof. intros c c' []; constructor; auto. rewrite <- cr_pmap0; auto. Qed.

Lemma oinfo_some : forall i i', nest_oinfo i = nest_oinfo i' ->
  match i, i' with Some i, Some i' => nest_info i = nest_info i' | None, None => True | _, _ => False end.
Proof. intros [i|] [i'|] H; simpl in H; try discriminate; auto. congruence. Qed.

Lemma irel_acc : forall c c', irel c c' -> cx_location c = cx_location c' /\ cx_ns c = cx_ns c' /\ cx_nsmap c = cx_nsmap c' /\
  cx_nillable c = cx_nillable c' /\
  (cx_location c <> Some LocWrapped -> cx_path c = cx_path c' /\ nest_oinfo (cx_wrapped c) = nest_oinfo (cx_wrapped c')).
Proof.
  intros c c' H. apply oinfo_some in H. unfold cx_location, cx_ns, cx_nsmap, cx_nillable, cx_path, cx_wrapped, of_info.
  destruct (cx_info c) as [i|], (cx_info c') as [i'|]; try contradiction; [|repeat split; auto].
  destruct (nest_kept i) as (A & B & Cm & D & _). destruct (nest_kept i') as (A' & B' & Cm' & D' & _).
  repeat (split; [congruence|]). intros L. apply nest_wrapped; auto.
Qed.

Lemma fresh_dict : forall (M : nsmap), NoDup (dkeys M) -> dupdate [] M = M.
Proof. intros M H. rewrite dupdate_fresh; auto. Qed.

Lemma pmap_dict : forall c M, parent_nsmap c = Some M -> dupdate [] M = M.
Proof.
  intros c M H. apply fresh_dict. destruct c as [? ? ? ? ? ? ? ? ? ? ? [p|]]; simpl in H; [|discriminate]. inv H.
  repeat apply nodup_dupdate. constructor.
Qed.

(** the names of a context without prefixes of its own *)
Lemma child_ns : forall c, parent_ns (child_wrapped c) = entity_ns c.
Proof. intros; reflexivity. Qed.

Lemma child_nsmap : forall c M, cx_nsmap c = None -> parent_nsmap c = Some M -> parent_nsmap (child_wrapped c) = Some M /\ entity_nsmap c = M.
Proof.
  intros c M N P. pose proof (pmap_dict _ P) as D. split.
  - change (parent_nsmap (child_wrapped c)) with (Some (dupdate (dupdate [] (default [] (cx_nsmap c))) (default [] (parent_nsmap c)))).
    rewrite N, P. simpl. change (fold_left (fun acc kv => dset (fst kv) (snd kv) acc) M []) with (dupdate [] M). rewrite ?D; auto.
  - unfold entity_nsmap, merge_nsmaps. rewrite N, P. simpl. auto.
Qed.

Lemma crel_child : forall c c', crel c c' -> cx_ns c = cx_ns c' -> cx_nsmap c = cx_nsmap c' -> crel (child_wrapped c) (child_wrapped c').
Proof.
  intros c c' C N M. destruct C. constructor; simpl; auto.
  - rewrite N, cr_pns0. auto.
  - rewrite M, cr_pmap0. auto.
  - eexists; split; eauto. apply fresh_dict. repeat apply nodup_dupdate. constructor.
Qed.

Lemma crel_default : forall c c', crel c c' -> crel (replace_default c) (replace_default c').
Proof. intros c c' []; constructor; simpl in *; auto; destruct c, c'; simpl in *; auto. Qed.

Lemma crel_optional : forall c c', crel c c' -> crel (replace_optional c) (replace_optional c').
Proof. intros c c' []; constructor; simpl in *; auto; destruct c, c'; simpl in *; auto. Qed.

Lemma crel_defs : forall c c' d, crel c c' -> crel (replace_defs c d) (replace_defs c' d).
Proof. intros c c' d []; constructor; simpl in *; auto; try (destruct c, c'; simpl in *; auto; fail). rewrite cr_defs0; auto. Qed.

Definition both (c c' : ctx) : Prop := crel c c' /\ irel c c'.

Lemma preprocess_ag : forall n n' s c c', both c c' ->
  ag (fun a b : cschema * ctx => fst a = fst b /\ both (snd a) (snd b)) (preprocess n s c) (preprocess n' s c').
Proof.
  induction n as [|n IH]; intros n' s c c' [C I]; [constructor|]. destruct n' as [|n']; [constructor|].
  destruct s; cbn [preprocess family_of]; try (constructor; simpl; split; auto; split; auto; fail); try (constructor; fail).
  - destruct (str_in ty prim_types); [constructor; simpl; split; auto; split; auto|constructor].
  - apply IH. destruct k; split; auto using crel_default, crel_optional.
  - destruct ser; [apply IH; split; auto|constructor].
  - apply IH; split; auto.
  - apply IH; split; auto using crel_defs.
  - rewrite (cr_defs C). destruct (dget ref (cx_defs c')); [apply IH; split; auto|constructor].
Qed.

Lemma preprocess_both : forall A B (R : A -> B -> Prop) n n' s c c' f g, both c c' ->
  (forall s' d d', both d d' -> ag R (f (s', d)) (g (s', d'))) ->
  ag R (obind (preprocess n s c) f) (obind (preprocess n' s c') g).
Proof.
  intros A B R n n' s c c' f g H K. eapply ag_bind; [apply preprocess_ag; eauto|].
  intros [x d] [y d'] [E D]. simpl in E, D. subst y. auto.
Qed.

(** ---- the serializers that look at their own declaration only ---- *)
Lemma nbnd : forall (l : option eloc), l = Some LocWrapped \/ l <> Some LocWrapped.
Proof. intros [[| |]|]; auto; right; discriminate. Qed.

Section Leaf.
  Variables c c' : ctx.
  Hypothesis B : both c c'.

  Lemma loc_eq : cx_location c = cx_location c'. Proof. apply (irel_acc (proj2 B)). Qed.
  Lemma ns_eq : cx_ns c = cx_ns c'. Proof. apply (irel_acc (proj2 B)). Qed.
  Lemma nsmap_eq : cx_nsmap c = cx_nsmap c'. Proof. apply (irel_acc (proj2 B)). Qed.
  Lemma nil_eq : cx_nillable c = cx_nillable c'. Proof. apply (irel_acc (proj2 B)). Qed.
  Lemma ens_eq : entity_ns c = entity_ns c'.
  Proof. unfold entity_ns. rewrite ns_eq, (cr_pns (proj1 B)); auto. Qed.
  Lemma ensmap_eq : entity_nsmap c = entity_nsmap c'.
  Proof. unfold entity_nsmap. rewrite nsmap_eq, (cr_pmap (proj1 B)); auto. Qed.

  Hypothesis L : cx_location c <> Some LocWrapped.
  Lemma path_eq' : cx_path c = cx_path c'. Proof. apply (irel_acc (proj2 B)); auto. Qed.
  Lemma name_eq : entity_name c = entity_name c'.
  Proof. unfold entity_name. rewrite path_eq', (cr_alias (proj1 B)), (cr_field (proj1 B)); auto. Qed.

  Lemma attrs_of_eq : attrs_of c = attrs_of c'.
  Proof. unfold attrs_of. rewrite ens_eq, ensmap_eq, (cr_nsa (proj1 B)), (cr_computed (proj1 B)); auto. Qed.

  Lemma prim_eq : build_prim c = build_prim c'.
  Proof.
    unfold build_prim, build_elem, build_attr, build_text.
    rewrite name_eq, ens_eq, ensmap_eq, loc_eq, nil_eq, ns_eq, (cr_nsa (proj1 B)), (cr_computed (proj1 B)), (cr_mode (proj1 B)),
      (cr_pns (proj1 B)). auto.
  Qed.

  Lemma mapping_at_eq : build_mapping_at c = build_mapping_at c'.
  Proof.
    unfold build_mapping_at, build_map_elem. rewrite attrs_of_eq, name_eq, ens_eq, ensmap_eq, loc_eq, (cr_mode (proj1 B)). auto.
  Qed.

  Lemma raw_eq : build_raw c = build_raw c'.
  Proof.
    unfold build_raw, build_raw_elem. rewrite name_eq, ens_eq, ensmap_eq, loc_eq, (cr_mode (proj1 B)), (cr_computed (proj1 B)). auto.
  Qed.
End Leaf.

Definition sag (x y : out ser) : Prop := ag (fun a b => nest a = nest b) x y.

Lemma sag_refl : forall x, sag x x.
Proof. intros [a|e|]; constructor; auto. Qed.

Lemma omap_ag : forall A B C (R : B -> C -> Prop) (f : A -> out B) (g : A -> out C) l,
  (forall a, In a l -> ag R (f a) (g a)) -> ag (Forall2 R) (omap f l) (omap g l).
Proof.
  induction l as [|a l IH]; simpl; intros H; [constructor; constructor|].
  eapply ag_bind; [apply H; auto|]. intros x y Hx. eapply ag_bind; [apply IH; auto|]. intros xs ys Hxs. constructor. constructor; auto.
Qed.

Lemma nest_kind : forall s s', nest s = nest s' -> kind s = kind s'.
Proof. intros s s' H. apply nest_shape in H. destruct H; auto. Qed.

Lemma as_proxy_ag : forall s s', nest s = nest s' -> ag eq (as_proxy s) (as_proxy s').
Proof. intros s s' H. apply nest_shape in H. destruct H; try apply ag_refl. Qed.

Lemma dget_fields : forall k fs fs', Forall2 (fun a b : string * ser => fst a = fst b /\ nest (snd a) = nest (snd b)) fs fs' ->
  match dget k fs, dget k fs' with Some s, Some s' => nest s = nest s' | None, None => True | _, _ => False end.
Proof.
  intros k fs fs' H; induction H as [|[a x] [b y] fs fs' [A B] H IH]; simpl in *; auto. subst b.
  destruct (String.eqb k a); auto.
Qed.

Section Rec.
  Variables cl cl' : classes.
  Variables ev ev' : env.
  Hypothesis Cls : same_classes cl cl'.
  Hypothesis Env : same_env ev ev'.
  Variables p p' : cschema -> ctx -> out ser.
  Variables n n' : nat.
  Hypothesis Hp : forall s c c', both c c' -> sag (p s c) (p' s c').

  Lemma proxy_eq : forall cls c c', both c c' -> cx_location c <> Some LocWrapped -> build_proxy cl cls c = build_proxy cl' cls c'.
  Proof.
    intros cls c c' B L. unfold build_proxy. pose proof (Cls cls) as Hc. destruct (cl cls) as [i|], (cl' cls) as [i'|]; try contradiction; auto.
    destruct Hc as (A1 & A2 & _). rewrite A1, A2, (path_eq' B L), (cr_alias (proj1 B)), (cr_field (proj1 B)), (ns_eq B), (nsmap_eq B),
      (cr_pns (proj1 B)), (cr_pmap (proj1 B)), (cr_mode (proj1 B)), (cr_computed (proj1 B)), (nil_eq B). auto.
  Qed.

  Lemma submodel_eq : forall cls c c', both c c' -> cx_location c <> Some LocWrapped -> build_submodel cl cls c = build_submodel cl' cls c'.
  Proof. intros cls c c' B L. unfold build_submodel. rewrite (proxy_eq cls B L), (loc_eq B). auto. Qed.

  Lemma bmapping_ag : forall k v c c', both c c' -> cx_location c <> Some LocWrapped -> sag (build_mapping n k v c) (build_mapping n' k v c').
  Proof.
    intros k v c c' B L. unfold build_mapping. apply preprocess_both; auto. intros k' _ _ _. apply preprocess_both; auto. intros v' _ _ _.
    destruct (negb (is_family FPrim k')); [constructor|]. destruct (negb (is_family FPrim v')); [constructor|].
    rewrite (mapping_at_eq B L). apply sag_refl.
  Qed.

  Lemma all_prim_ag : forall vs c c', both c c' -> ag eq (all_prim n vs c) (all_prim n' vs c').
  Proof.
    induction vs as [|v vs IH]; intros c c' B; simpl; [constructor; auto|]. apply preprocess_both; auto. intros v' _ _ _.
    destruct (negb (is_family FPrim v')); [constructor|auto].
  Qed.

  Lemma btyped_ag : forall vs c c', both c c' -> cx_location c <> Some LocWrapped ->
    sag (build_typed_mapping n vs c) (build_typed_mapping n' vs c').
  Proof.
    intros vs c c' B L. unfold build_typed_mapping. eapply ag_bind; [apply all_prim_ag; auto|]. intros _ _ _.
    rewrite (mapping_at_eq B L). apply sag_refl.
  Qed.

  Lemma bhomo_ag : forall item c c', both c c' -> sag (build_homo p n item c) (build_homo p' n' item c').
  Proof.
    intros item c c' B. unfold build_homo. apply preprocess_both; auto. intros i d d' D. rewrite (loc_eq D).
    destruct (negb _); [constructor|]. destruct (_ && _); [constructor|].
    destruct (cx_location d') as [[| |]|]; try constructor.
    - eapply ag_bind; [apply Hp; auto|]. intros a b E. constructor. simpl. rewrite E, (cr_model (proj1 D)), (cr_computed (proj1 D)), (cr_hide (proj1 D)). auto.
    - eapply ag_bind; [apply Hp; auto|]. intros a b E. constructor. simpl. rewrite E, (cr_model (proj1 D)), (cr_computed (proj1 D)), (cr_hide (proj1 D)). auto.
  Qed.

  Lemma check_items_ag : forall items c c', both c c' -> ag both (check_items n items c) (check_items n' items c').
  Proof.
    induction items as [|i items IH]; intros c c' B; simpl; [constructor; auto|]. apply preprocess_both; auto. intros i' d d' D.
    rewrite (loc_eq D). destruct (negb _); [constructor|]. destruct (_ && _); [constructor|auto].
  Qed.

  Lemma map_nest_eq : forall l l', Forall2 (fun a b => nest a = nest b) l l' -> map nest l = map nest l'.
  Proof. intros l l' H; induction H; simpl; f_equal; auto. Qed.

  Lemma bhetero_ag : forall items c c', both c c' -> sag (build_hetero p n items c) (build_hetero p' n' items c').
  Proof.
    intros items c c' B. unfold build_hetero. eapply ag_bind; [apply check_items_ag; eauto|]. intros d d' D. rewrite (loc_eq D).
    assert (K : sag (obind (omap (fun item => p item d) items) (fun inners => Ok (SHetero (cx_model d) (cx_computed d) inners (cx_hide d))))
                    (obind (omap (fun item => p' item d') items) (fun inners => Ok (SHetero (cx_model d') (cx_computed d') inners (cx_hide d'))))).
    { eapply ag_bind; [apply omap_ag; intros; apply Hp; auto|]. intros l l' E. constructor. simpl.
      rewrite (map_nest_eq E), (cr_model (proj1 D)), (cr_computed (proj1 D)), (cr_hide (proj1 D)). auto. }
    destruct (cx_location d') as [[| |]|]; try (constructor; fail); apply K.
  Qed.

  Lemma btuple_ag : forall v items c c', both c c' -> sag (build_tuple p n v items c) (build_tuple p' n' v items c').
  Proof.
    intros v items c c' B. unfold build_tuple. destruct v as [[|v]|]; try (constructor; fail).
    - destruct items as [|i [|? ?]]; try (constructor; fail). apply bhomo_ag; auto.
    - apply bhetero_ag; auto.
  Qed.

  Lemma families_ag : forall cs c c', both c c' ->
    ag (fun a b : list family * ctx => fst a = fst b /\ both (snd a) (snd b)) (choice_families n cs c) (choice_families n' cs c').
  Proof.
    induction cs as [|s cs IH]; intros c c' B; simpl; [constructor; auto|]. apply preprocess_both; auto. intros s' d d' D.
    destruct (family_of s') as [[]|]; try (constructor; fail);
      (eapply ag_bind; [apply IH; eauto|]; intros [fs e] [fs' e'] [E F]; simpl in *; subst; constructor; auto).
  Qed.

  Lemma uprim_ag : forall cs c c', both c c' -> sag (build_union_prim p cs c) (build_union_prim p' cs c').
  Proof.
    intros cs c c' B. unfold build_union_prim. eapply ag_bind; [apply omap_ag; intros; apply Hp; eauto|].
    intros l l' E. destruct E as [|a b l l' E F]; [constructor|].
    replace (forallb (fun s => Nat.eqb (kind s) (kind b)) l') with (forallb (fun s => Nat.eqb (kind s) (kind a)) l).
    - destruct (forallb _ l); [|constructor]. constructor. simpl. rewrite E, (cr_computed (proj1 B)). auto.
    - rewrite (nest_kind _ _ E). clear -F. induction F; simpl; auto. rewrite (nest_kind _ _ H), IHF. auto.
  Qed.

  Lemma omodel_ag : forall cs c c', both c c' ->
    ag eq (omap (fun s => obind (p s c) as_proxy) cs) (omap (fun s => obind (p' s c') as_proxy) cs).
  Proof.
    induction cs as [|s cs IH]; intros c c' B; simpl; [constructor; auto|].
    eapply ag_bind with (R := eq).
    - eapply ag_bind; [apply Hp; eauto|]. intros a b E. apply as_proxy_ag; auto.
    - intros a ? <-. eapply ag_bind; [apply IH; eauto|]. intros l ? <-. constructor; auto.
  Qed.

  Lemma umodel_ag : forall cs c c', both c c' -> sag (build_union_model p cs c) (build_union_model p' cs c').
  Proof.
    intros cs c c' B. unfold build_union_model. eapply ag_bind; [apply omodel_ag; eauto|].
    intros l ? <-. destruct l; constructor. simpl. rewrite (cr_model (proj1 B)), (cr_computed (proj1 B)), (cr_hide (proj1 B)). auto.
  Qed.

  Lemma bunion_ag : forall cs c c', both c c' -> sag (build_union p n cs c) (build_union p' n' cs c').
  Proof.
    intros cs c c' B. unfold build_union. eapply ag_bind; [apply families_ag; eauto|]. intros [fs d] [fs' d'] [E D].
    simpl in E, D. subst fs'. destruct fs; [constructor|].
    destruct (_ && _); [constructor|]. destruct (existsb (family_eqb FModel) (f :: fs)); [apply umodel_ag; auto|].
    destruct (existsb (family_eqb FPrim) (f :: fs)); [apply uprim_ag; auto|constructor].
  Qed.

  Lemma check_tagged_ag : forall cs c c', both c c' -> ag both (check_tagged n cs c) (check_tagged n' cs c').
  Proof.
    induction cs as [|[t s] cs IH]; intros c c' B; simpl; [constructor; auto|]. apply preprocess_both; auto. intros s' d d' D.
    destruct s'; try (constructor; fail). destruct root; [constructor|auto].
  Qed.

  Lemma variants_ag : forall disc cs c c' a acc, both c c' ->
    ag eq (build_variants ev p disc cs c a acc) (build_variants ev' p' disc cs c' a acc).
  Proof.
    induction cs as [|[[t|] s] cs IH]; intros c c' a acc B; simpl; [constructor; auto| |constructor].
    eapply ag_bind; [apply Hp; eauto|]. intros x y E. eapply ag_bind; [apply as_proxy_ag; eauto|]. intros q ? <-.
    pose proof (same_env_model Env (px_model q)) as M.
    destruct (en_model ev (px_model q)) as [m|], (en_model ev' (px_model q)) as [m'|]; try contradiction; [|constructor].
    rewrite (sd_root M). destruct (md_root m'); [constructor|].
    pose proof (dget_fields disc (sd_fields M)) as G.
    destruct (dget disc (md_fields m)) as [z|], (dget disc (md_fields m')) as [z'|]; try contradiction; [|constructor].
    apply nest_shape in G. destruct G; try (constructor; fail). destruct s0; try (constructor; fail).
    destruct a as [b|]; [|apply IH; auto]. destruct (String.eqb name b); [apply IH; auto|constructor].
  Qed.

  Lemma btagged_ag : forall disc cs c c', both c c' -> sag (build_tagged ev p n disc cs c) (build_tagged ev' p' n' disc cs c').
  Proof.
    intros disc cs c c' B. unfold build_tagged. eapply ag_bind; [apply check_tagged_ag; eauto|]. intros d d' D.
    destruct disc as [x|]; [|constructor]. eapply ag_bind; [apply variants_ag; eauto|]. intros [a vs] ? <-.
    destruct a; constructor. rewrite (cr_computed (proj1 D)), (cr_mode (proj1 D)). auto.
  Qed.

  Lemma select_ag : forall s c c', both c c' -> cx_location c <> Some LocWrapped ->
    sag (select cl ev p n s c) (select cl' ev' p' n' s c').
  Proof.
    intros s c c' B L. unfold select. destruct (family_of s); [|constructor]. rewrite <- (loc_eq B).
    assert (K : sag
      match s with
      | CType _ => build_prim c
      | CModel cls _ _ => build_submodel cl cls c
      | CList item => build_homo p n item c
      | CTuple variadic items => build_tuple p n variadic items c
      | CDict keys values => build_mapping n keys values c
      | CTypedDict values => build_typed_mapping n values c
      | CUnion choices => build_union p n choices c
      | CTagged disc choices => build_tagged ev p n disc choices c
      | CIsInstance raw => build_is_instance raw c
      | CCall tuple_class args => build_call p n tuple_class args c
      | _ => Raise XAssertion
      end
      match s with
      | CType _ => build_prim c'
      | CModel cls _ _ => build_submodel cl' cls c'
      | CList item => build_homo p' n' item c'
      | CTuple variadic items => build_tuple p' n' variadic items c'
      | CDict keys values => build_mapping n' keys values c'
      | CTypedDict values => build_typed_mapping n' values c'
      | CUnion choices => build_union p' n' choices c'
      | CTagged disc choices => build_tagged ev' p' n' disc choices c'
      | CIsInstance raw => build_is_instance raw c'
      | CCall tuple_class args => build_call p' n' tuple_class args c'
      | _ => Raise XAssertion
      end).
    { destruct s; try (constructor; fail); auto using bhomo_ag, btuple_ag, bmapping_ag, btyped_ag, bunion_ag, btagged_ag.
      - rewrite (prim_eq B L). apply sag_refl.
      - unfold build_is_instance. rewrite (prim_eq B L), (raw_eq B L). apply sag_refl.
      - rewrite (submodel_eq _ B L). apply sag_refl.
      - unfold build_call. destruct tuple_class; [apply bhetero_ag; auto|constructor]. }
    destruct (cx_location c) as [[| |]|]; auto. congruence.
  Qed.
End Rec.
