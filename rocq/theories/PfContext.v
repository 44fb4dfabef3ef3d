(** PfContext.v -- the context is passed on unchanged. *)

From Verif Require Import Base Elem Native Errs Names Ser Read Api Context SpecContext.

Section Fixed.
  Variable X : Type.
  Variable ce : cenv X.
  Variable ctx : context X.
  Variable ev : env.
  Hypothesis same_backend : en_backend ev = en_backend (ce_env ce).
  Hypothesis same_classes : forall cls, match en_model (ce_env ce) cls, en_model ev cls with
    | None, None => True
    | Some m, Some m' => exists f, m' = validated_by f m /\ forall i, ce_validate ce cls ctx i = f i
    | _, _ => False
    end.

  Definition same (rc : creader X) (r : reader) : Prop := forall eas loc s, rc ctx eas loc s = r eas loc s.

  Lemma with_found_same : forall r f g s, (forall c, f c = g c) -> with_found r f s = with_found r g s.
  Proof.
    intros [[|i|] e] f g s H; simpl; auto. unfold on_child. destruct (nth_error _ i); auto. rewrite H. auto.
  Qed.

  Lemma on_path_same : forall path f g s, (forall c, f c = g c) -> @on_path val path f s = on_path path g s.
  Proof.
    induction path as [|i path IH]; intros f g s H; simpl; auto. unfold on_child. destruct (nth_error _ i); auto. rewrite (IH f g); auto.
  Qed.

  Lemma items_same : forall rc r, same rc r -> forall k title hide eas loc idx result errors s,
    cread_items k rc title hide ctx eas loc idx result errors s = read_items k r title hide eas loc idx result errors s.
  Proof.
    intros rc r H; induction k as [|k IH]; intros; simpl; auto. rewrite H.
    destruct (r eas (loc ++ [LIdx idx]) s) as [[v|x|] s']; auto; [destruct v|destruct x]; auto.
  Qed.

  Lemma tuple_same : forall rcs rs, Forall2 same rcs rs -> forall title hide eas loc idx result errors s,
    cread_tuple rcs title hide ctx eas loc idx result errors s = read_tuple rs title hide eas loc idx result errors s.
  Proof.
    intros rcs rs F; induction F as [|rc r rcs rs H F IH]; intros; simpl; auto. rewrite H.
    destruct (r eas (loc ++ [LIdx idx]) s) as [[v|x|] s']; auto; destruct x; auto.
  Qed.

  Lemma variants_same : forall rcs rs, Forall2 same rcs rs -> forall title hide eas loc errors s,
    cread_variants rcs title hide ctx eas loc errors s = read_variants rs title hide eas loc errors s.
  Proof.
    intros rcs rs F; induction F as [|rc r rcs rs H F IH]; intros; simpl; auto. rewrite H.
    destruct (r eas loc (set_el (create_snapshot (st_el s)) s)) as [[v|x|] s']; auto; [destruct v|destruct x]; auto.
  Qed.

  Lemma tagged_same : forall rpc rp, (forall p, same (rpc p) (rp p)) -> forall a mode vs eas loc s,
    cread_tagged rpc a mode vs ctx eas loc s = read_tagged rp a mode vs eas loc s.
  Proof.
    intros rpc rp H a mode; induction vs as [|[tag p] vs IH]; intros; auto. cbn [cread_tagged read_tagged].
    destruct (find_element (st_el s) (px_name p) mode false false) as [[|i|] e]; [apply IH| |auto].
    destruct (nth_error (e_elems e) i) as [c|]; auto. destruct (match get_attrib a c with Some _ => _ | None => _ end); [apply H|apply IH].
  Qed.

  Lemma validate_same : forall cls m f input s, (forall i, ce_validate ce cls ctx i = f i) ->
    cvalidate_result ce cls m ctx input s = validate_result (validated_by f m) input s.
  Proof. intros cls m f input s H. unfold cvalidate_result, validate_result. cbn [validated_by md_forbid md_name md_hide md_validate]. rewrite H. reflexivity. Qed.

  Lemma fields_same : forall rc r f m, (forall s, same (rc s) (r s)) -> forall fs eas result errors s,
    cread_fields rc m fs ctx eas result errors s = read_fields r (validated_by f m) fs eas result errors s.
  Proof.
    intros rc r f m H; induction fs as [|[name fser] fs IH]; intros; simpl; auto. rewrite H.
    match goal with |- match ?x with _ => _ end = _ => destruct x as [[v|x'|] s'] end; auto; [destruct v|destruct x']; auto.
  Qed.

  Lemma model_same : forall rc r cls m f, (forall s, same (rc s) (r s)) -> (forall i, ce_validate ce cls ctx i = f i) ->
    same (cread_model ce rc cls m) (read_model r (validated_by f m)).
  Proof.
    intros rc r cls m f H Hf eas loc s. unfold cread_model, read_model. cbn [validated_by md_root]. destruct (md_root m).
    - unfold cread_root_model, read_root_model. cbn [validated_by md_fields md_name md_hide]. destruct (md_fields m) as [|[name rs] ?]; auto.
      rewrite H. destruct (r rs eas loc s) as [[v|x|] s']; auto. rewrite (@validate_same cls m f _ _ Hf). auto.
    - unfold cread_plain_model, read_plain_model. cbn [validated_by md_fields md_name md_hide].
      rewrite (@fields_same rc r f m H). change (MDef (md_name m) (md_root m) (md_elem_name m) (md_nsmap m) (md_fields m) (md_valias m) (md_sexclude m) (md_hide m)
       (md_forbid m) (md_skip_empty m) (md_cser m) (md_cval m) f) with (validated_by f m).
      destruct (read_fields _ _ _ _ _ _ _) as [[[result errors]|x|] s']; auto. rewrite (@validate_same cls m f _ _ Hf). auto.
  Qed.

  Lemma proxy_same : forall rc r, (forall s, same (rc s) (r s)) -> forall p, same (cread_proxy ce rc p) (read_proxy ev r p).
  Proof.
    intros rc r H p eas loc s. unfold cread_proxy, read_proxy. pose proof (same_classes (px_model p)) as C.
    destruct (en_model (ce_env ce) (px_model p)) as [m|], (en_model ev (px_model p)) as [m'|]; try contradiction; auto.
    destruct C as (f & -> & Hf). destruct (px_computed p); auto.
    apply with_found_same. intros c. cbv zeta. destruct (is_element_nill _) as [nil e1]. destruct nil; auto. apply model_same; auto.
  Qed.

  Lemma map_same : forall A (f : A -> creader X) g l, (forall a, same (f a) (g a)) -> Forall2 same (map f l) (map g l).
  Proof. intros A f g l H; induction l; simpl; constructor; auto. Qed.

  Lemma read_same : forall n s, same (cread ce n s) (read n ev s).
  Proof.
    induction n as [|n IH]; intros s eas loc st0; simpl; auto. destruct s; simpl; auto.
    - unfold cread_homo, read_homo. destruct computed; auto. apply items_same; auto.
    - unfold cread_hetero, read_hetero. destruct computed; auto. apply tuple_same. apply map_same; auto.
    - unfold cread_union_prim, read_union_prim. destruct computed; auto. apply IH.
    - unfold cread_union_model, read_union_model. destruct computed; auto. apply variants_same. apply map_same. apply proxy_same; auto.
    - destruct computed; auto. apply tagged_same. apply proxy_same; auto.
    - unfold cread_wrap, read_wrap. destruct computed; auto. destruct (find_sub_element path mode (st_el st0)) as [[idxs|] e]; auto.
      destruct (negb _ && _); auto. apply on_path_same. intros c. apply IH.
    - unfold cread_raw. rewrite same_backend. reflexivity.
    - apply proxy_same; auto.
  Qed.

  Lemma from_xml_tree_same : forall n cls root eas, from_xml_tree_in ce n cls root ctx eas = from_xml_tree n ev cls root eas.
  Proof.
    intros. unfold from_xml_tree_in, from_xml_tree. rewrite same_backend. pose proof (same_classes cls) as C.
    destruct (en_model (ce_env ce) cls) as [m|], (en_model ev cls) as [m'|]; try contradiction; auto.
    destruct C as (f & -> & Hf). cbn [validated_by md_elem_name].
    destruct (tag_is _ _); auto. f_equal. apply model_same; auto. apply read_same.
  Qed.
End Fixed.

Lemma in_context : forall X (ce : cenv X) ctx n cls root eas,
  from_xml_tree_in ce n cls root ctx eas = from_xml_tree n (all_in_context ce ctx) cls root eas.
Proof.
  intros. apply from_xml_tree_same; [reflexivity|]. intros c. simpl. destruct (en_model (ce_env ce) c); simpl; auto. eexists; split; eauto.
Qed.

Lemma other_contexts : forall X (ce ce' : cenv X) ctx, differ_in_other_contexts ctx ce ce' -> forall n cls root eas,
  from_xml_tree_in ce n cls root ctx eas = from_xml_tree_in ce' n cls root ctx eas.
Proof.
  intros X ce ce' ctx (E & V) n cls root eas. rewrite (in_context ce'). apply from_xml_tree_same; simpl; rewrite E; [reflexivity|].
  intros c. destruct (en_model (ce_env ce') c); simpl; auto. eexists; split; eauto.
Qed.
