(** PfAlias2.v -- renaming namespace prefixes: documents (C75). *)

From Verif Require Import Base Elem Native Errs Names Fields Ser Build Write Read Api SpecAlias PfAlias.

Section Alias.
  Variable f : string -> string.
  Hypothesis Hf : renaming f.

  Notation re := (re_elem f).

  Lemma elem_eta : forall e, e = Elem (e_tag e) (e_nsmap e) (e_text e) (e_tail e) (e_attrib e) (e_elems e) (e_next e) (e_line e).
  Proof. intros []; reflexivity. Qed.

  Lemma tag_re : forall e, e_tag (re e) = e_tag e. Proof. intros []; reflexivity. Qed.
  Lemma text_re : forall e, e_text (re e) = e_text e. Proof. intros []; reflexivity. Qed.
  Lemma tail_re : forall e, e_tail (re e) = e_tail e. Proof. intros []; reflexivity. Qed.
  Lemma attrib_re : forall e, e_attrib (re e) = e_attrib e. Proof. intros []; reflexivity. Qed.
  Lemma next_re : forall e, e_next (re e) = e_next e. Proof. intros []; reflexivity. Qed.
  Lemma elems_re : forall e, e_elems (re e) = map re (e_elems e). Proof. intros []; reflexivity. Qed.

  Lemma set_text_re : forall t e, set_text t (re e) = re (set_text t e). Proof. intros t []; reflexivity. Qed.
  Lemma set_attribute_re : forall k t e, set_attribute k t (re e) = re (set_attribute k t e). Proof. intros k t []; reflexivity. Qed.
  Lemma set_attributes_re : forall a e, set_attributes a (re e) = re (set_attributes a e). Proof. intros a []; reflexivity. Qed.
  Lemma set_next_re : forall i e, set_next i (re e) = re (set_next i e). Proof. intros a []; reflexivity. Qed.
  Lemma set_elems_re : forall l e, set_elems (map re l) (re e) = re (set_elems l e). Proof. intros l []; reflexivity. Qed.
  Lemma nill_re : forall e, make_element_nill (re e) = re (make_element_nill e). Proof. intros; apply set_attribute_re. Qed.

  Lemma append_re : forall c e, append_element (re c) (re e) = re (append_element c e).
  Proof. intros c e; unfold append_element. rewrite next_re, elems_re. rewrite <- set_next_re, <- set_elems_re, map_app; auto. Qed.

  Lemma is_empty_re : forall e, is_empty (re e) = is_empty e.
  Proof. intros e; unfold is_empty. rewrite text_re, tail_re, attrib_re, elems_re, map_length; auto. Qed.

  Lemma append_unless_re : forall fl c e, append_unless_empty fl (re c) (re e) = re (append_unless_empty fl c e).
  Proof. intros fl c e; unfold append_unless_empty. rewrite is_empty_re. destruct (_ && _); auto using append_re. Qed.

  Lemma make_re : forall b tag m, make_element b tag (re_nsmap f m) = re (make_element b tag m).
  Proof. intros [|] tag m; reflexivity. Qed.

  Lemma list_upd_re : forall l i c, list_upd i (re c) (map re l) = map re (list_upd i c l).
  Proof. intros l; induction l as [|x l IH]; intros [|i] c; simpl; auto. f_equal; auto. Qed.

  Lemma put_re : forall i c e, put_child i (re c) (re e) = re (put_child i c e).
  Proof. intros i c e; unfold put_child. rewrite elems_re, list_upd_re. apply set_elems_re. Qed.

  Lemma nth_re : forall i e, nth_error (e_elems (re e)) i = option_map re (nth_error (e_elems e) i).
  Proof. intros i e. rewrite elems_re. apply nth_error_map. Qed.

  Lemma find_from_re : forall tag l i, find_from i (map re l) tag = find_from i l tag.
  Proof. intros tag l; induction l as [|c l IH]; intros i; simpl; auto. rewrite tag_re, IH; auto. Qed.

  Lemma swap_re : forall i j l, list_swap i j (map re l) = map re (list_swap i j l).
  Proof.
    intros i j l; unfold list_swap. rewrite !nth_error_map. destruct (nth_error l i), (nth_error l j); simpl; auto.
    rewrite !list_upd_re; auto.
  Qed.

  Definition fmap (r : found * elem) : found * elem := (fst r, re (snd r)).

  Lemma search_re : forall m e tag behind step, search m (re e) tag behind step = fmap (search m e tag behind step).
  Proof.
    intros m e tag behind step.
    assert (FW : forward m (re e) tag step = fmap (forward m e tag step)).
    { destruct m; simpl.
      - unfold strict_forward. rewrite next_re, nth_re. destruct (nth_error _ _) as [c|]; simpl; auto. rewrite tag_re.
        destruct (tag_is _ _); auto. unfold fmap; simpl. destruct step; simpl; auto; rewrite set_next_re; auto.
      - unfold ordered_forward. rewrite next_re, elems_re, skipn_map, find_from_re. destruct (find_from _ _ _); auto. unfold fmap; simpl.
        destruct step; auto; rewrite set_next_re; auto.
      - unfold unordered_forward. rewrite next_re, elems_re, skipn_map, find_from_re. destruct (find_from _ _ _); auto. unfold fmap; simpl.
        rewrite swap_re, set_elems_re. destruct step; auto; rewrite set_next_re; auto. }
    unfold search. destruct behind; auto.
    assert (B : look_behind (re e) tag = look_behind e tag).
    { unfold look_behind. rewrite next_re. destruct (e_next e); auto. rewrite nth_re. destruct (nth_error _ _); simpl; auto. rewrite tag_re; auto. }
    rewrite B. destruct (look_behind e tag); auto.
  Qed.

  Lemma find_or_create_re : forall b e tag m ns, find_element_or_create b (re e) tag m (re_nsmap f ns) = fmap (find_element_or_create b e tag m ns).
  Proof.
    intros b e tag m ns; unfold find_element_or_create, find_element. rewrite search_re.
    destruct (search m e tag true true) as [[|i|] e']; unfold fmap; simpl; auto.
    rewrite make_re, append_re, elems_re, map_length; auto.
  Qed.

  (** ---- the [serialize] methods ---- *)
  Definition walike (w' w : writer) : Prop := forall fl e v enc, w' fl (re e) v enc = out_map re (w fl e v enc).

  Lemma text_alike : forall n, walike (write_text n) (write_text n).
  Proof.
    intros n fl e v enc; unfold write_text. destruct (_ && _); auto. apply out_bind_same. intros s. simpl.
    destruct (n && is_none v); rewrite ?nill_re, set_text_re; auto.
  Qed.

  Lemma attr_alike : forall k, walike (write_attr k) (write_attr k).
  Proof. intros n fl e v enc; unfold write_attr. destruct (_ && _); auto. apply out_bind_same. intros s. simpl. rewrite set_attribute_re; auto. Qed.

  Lemma append_alike : forall fl o o' e, o' = out_map re o ->
    obind o' (fun sub => Ok (append_unless_empty fl sub (re e))) = out_map re (obind o (fun sub => Ok (append_unless_empty fl sub e))).
  Proof. intros fl o o' e ->. destruct o; simpl; auto. rewrite append_unless_re; auto. Qed.

  Lemma elem_alike : forall b k ns ni, walike (write_elem b k (re_nsmap f ns) ni) (write_elem b k ns ni).
  Proof.
    intros b k ns ni fl e v enc; unfold write_elem. destruct (_ && _); auto. rewrite make_re. apply append_alike. apply text_alike.
  Qed.

  Lemma uri_alike : forall a, attrs_uri (re_attrs f a) = attrs_uri a.
  Proof.
    intros [[ns|] m na c]; unfold attrs_uri, re_attrs; simpl; rewrite truthy_re; auto.
    rewrite f_empty, get_re; auto.
  Qed.

  Lemma attrs_alike : forall a, walike (write_attrs (re_attrs f a)) (write_attrs a).
  Proof.
    intros a fl e v enc; unfold write_attrs. rewrite uri_alike. destruct (is_none v); auto. destruct enc; auto. apply out_bind_same.
    intros s. simpl. rewrite set_attributes_re; auto.
  Qed.

  Lemma map_elem_alike : forall b k a, walike (write_map_elem b k (re_attrs f a)) (write_map_elem b k a).
  Proof.
    intros b k a fl e v enc; unfold write_map_elem. cbn [re_attrs as_nsmap]. rewrite make_re.
    assert (X := append_alike fl _ e (attrs_alike a fl (make_element b k (as_nsmap a)) v enc)).
    destruct (fl_skip_empty fl); auto. destruct (py_len v) as [[|n]|]; auto.
  Qed.

  Lemma items_alike : forall w' w, walike w' w -> forall fl vs encs e, write_items w' fl (re e) vs encs = out_map re (write_items w fl e vs encs).
  Proof.
    intros w' w Hw fl vs; induction vs as [|v vs IH]; intros encs e; simpl; auto. destruct encs as [|enc encs]; simpl; auto.
    destruct (_ && _); auto. apply (@out_bind _ _ _ _ re re); auto.
  Qed.

  Lemma homo_alike : forall w' w, walike w' w -> walike (write_homo w') (write_homo w).
  Proof.
    intros w' w Hw fl e v enc; unfold write_homo. destruct (is_none v); auto. apply out_bind_same. intros vs. destruct (_ && _); auto.
    apply out_bind_same. intros encs. apply items_alike; auto.
  Qed.

  Lemma tuple_alike : forall ws' ws, Forall2 walike ws' ws -> forall fl vs encs e,
    write_tuple ws' fl (re e) vs encs = out_map re (write_tuple ws fl e vs encs).
  Proof.
    intros ws' ws H; induction H as [|w' w ws' ws Hw Hs IH]; intros fl vs encs e; simpl; auto. destruct vs as [|v vs]; auto.
    destruct encs as [|enc encs]; auto. apply (@out_bind _ _ _ _ re re); auto.
  Qed.

  Lemma hetero_alike : forall ws' ws, Forall2 walike ws' ws -> walike (write_hetero ws') (write_hetero ws).
  Proof.
    intros ws' ws H fl e v enc; unfold write_hetero. destruct (is_none v); auto. apply out_bind_same. intros vs. destruct (_ && _); auto.
    assert (L : length ws' = length ws) by (induction H; simpl; auto). rewrite L. destruct (negb _); auto.
    apply out_bind_same. intros encs. apply tuple_alike; auto.
  Qed.

  Lemma union_alike : forall wp' wp, (forall p, walike (wp' (re_proxy f p)) (wp p)) -> forall vs,
    walike (write_union wp' (map (re_proxy f) vs)) (write_union wp vs).
  Proof.
    intros wp' wp H vs; induction vs as [|p vs IH]; intros fl e v enc; simpl; auto.
    destruct (match model_type v with Some _ => _ | None => _ end); [apply H|apply IH].
  Qed.

  Lemma dget_variants : forall vs k, dget k (map (fun kv : string * proxy => (fst kv, re_proxy f (snd kv))) vs) = option_map (re_proxy f) (dget k vs).
  Proof. intros vs k; induction vs as [|[a p] vs IH]; simpl; auto. destruct (String.eqb k a); auto. Qed.

  Lemma tagged_alike : forall wp' wp, (forall p, walike (wp' (re_proxy f p)) (wp p)) -> forall d vs,
    walike (write_tagged wp' d (map (fun kv => (fst kv, re_proxy f (snd kv))) vs)) (write_tagged wp d vs).
  Proof.
    intros wp' wp H d vs fl e v enc; unfold write_tagged. destruct enc; auto. destruct (dget d d0) as [t|]; auto.
    destruct (py_truthy t); auto. destruct t; auto. rewrite dget_variants. destruct (dget s vs); simpl; auto. apply H.
  Qed.

  Lemma path_alike : forall b mode ns path (k' k : elem -> out elem), (forall e, k' (re e) = out_map re (k e)) ->
    forall e, write_path b mode (re_nsmap f ns) path k' (re e) = out_map re (write_path b mode ns path k e).
  Proof.
    intros b mode ns path k' k K; induction path as [|part path IH]; intros e; simpl; auto. rewrite find_or_create_re.
    destruct (find_element_or_create b e part mode ns) as [[|i|] e']; unfold fmap; simpl; auto. rewrite nth_re.
    destruct (nth_error (e_elems e') i) as [c|]; simpl; auto. apply (@out_bind _ _ _ _ re re); auto. intros c'. simpl. rewrite put_re; auto.
  Qed.

  Lemma wrap_alike : forall b path ns mode w' w, walike w' w -> walike (write_wrap b path (re_nsmap f ns) mode w') (write_wrap b path ns mode w).
  Proof.
    intros b path ns mode w' w Hw fl e v enc; unfold write_wrap. destruct (is_none v); auto. destruct (_ && _); auto. apply path_alike. intros c; apply Hw.
  Qed.

  Lemma from_native_kept : forall b n, re (from_native b n) = from_native b n.
  Proof.
    intros b n; induction n as [tag ns text tail a cs line IH| |] using native_ind'; auto. simpl. unfold new_elem. f_equal.
    induction cs as [|c cs IHc]; simpl; auto. inversion IH; subst. rewrite map_app, IHc; auto. f_equal.
    destruct (is_xml_comment c); simpl; auto. f_equal; auto.
  Qed.

  Lemma raw_alike : forall b, walike (fun fl e v _ => write_raw b fl e v) (fun fl e v _ => write_raw b fl e v).
  Proof. intros b fl e v enc. destruct v; simpl; auto. rewrite <- append_unless_re, from_native_kept; auto. Qed.

  Variable ev : env.
  Hypothesis Hc : prefixes_ignored f ev.

  Section Rec.
    Variables w' w : ser -> writer.
    Hypothesis Hw : forall s, walike (w' (re_ser f s)) (w s).

    Lemma fields_alike : forall cls m, en_model ev cls = Some m -> forall fs fl e v enc,
      write_fields w' (re_mdef f m) (re_fields f fs) fl (re e) v enc = out_map re (write_fields w m fs fl e v enc).
    Proof.
      intros cls m Hm fs; induction fs as [|[name s] fs IH]; intros fl e v enc; auto. cbn [re_fields map write_fields fst snd].
      fold (re_fields f fs). cbn [re_mdef md_sexclude md_cser]. destruct (str_in _ _); [apply IH|].
      apply out_bind_same. intros [|]; [apply IH|]. apply out_bind_same. intros x.
      apply (@out_bind _ _ _ _ re re); [|intros e'; apply IH]. destruct (md_cser m name) as [g|] eqn:G.
      - eapply Hc; eauto.
      - apply out_bind_same. intros xe. apply Hw.
    Qed.

    Lemma model_alike : forall cls m, en_model ev cls = Some m -> walike (write_model w' (re_mdef f m)) (write_model w m).
    Proof.
      intros cls m Hm fl e v enc; unfold write_model. destruct (is_none v); auto. cbn [re_mdef md_root].
      change (with_skip_empty (re_mdef f m) fl) with (with_skip_empty m fl). destruct (md_root m).
      - apply out_bind_same. intros [|]; auto. change (md_fields (re_mdef f m)) with (re_fields f (md_fields m)). unfold re_fields. destruct (md_fields m) as [|[nm s] fs]; cbn [map fst snd]; auto.
        apply out_bind_same. intros x. apply Hw.
      - eapply fields_alike; eauto.
    Qed.

    Lemma proxy_alike : forall p, walike (write_proxy (re_env f ev) w' (re_proxy f p)) (write_proxy ev w p).
    Proof.
      intros p fl e v enc; unfold write_proxy. cbn [re_env en_model re_proxy px_model px_name px_nsmap px_nillable en_backend].
      destruct (en_model ev (px_model p)) as [m|] eqn:Hm; cbn [option_map]; auto. destruct (_ && _); auto. rewrite make_re. destruct (_ && _).
      - rewrite nill_re, append_re; auto.
      - destruct (is_none v); auto. apply append_alike. eapply model_alike; eauto.
    Qed.
  End Rec.

  Lemma write_alike : forall n s, walike (write n (re_env f ev) (re_ser f s)) (write n ev s).
  Proof.
    intros n; induction n as [|n IH]; intros s fl e v enc; auto. cbn [write]. destruct s; cbn [re_ser write_step re_env en_backend].
    - apply text_alike.
    - apply attr_alike.
    - apply elem_alike.
    - apply attrs_alike.
    - apply map_elem_alike.
    - apply homo_alike; auto.
    - apply hetero_alike. rewrite map_map. induction inners; simpl; constructor; auto.
    - apply IH.
    - apply union_alike. intros; apply proxy_alike; auto.
    - apply tagged_alike. intros; apply proxy_alike; auto.
    - apply wrap_alike; auto.
    - exact (raw_alike (en_backend ev) fl e v enc).
    - apply proxy_alike; auto.
  Qed.

  Lemma decls_re : forall m, native_nsmap (re_nsmap f m) = map (fun du => (option_map f (fst du), snd du)) (native_nsmap m).
  Proof.
    intros [m|]; auto. unfold native_nsmap, re_nsmap; simpl. unfold re_map. rewrite !map_map. apply map_ext. intros [k u]; simpl.
    rewrite f_empty; auto. destruct (String.eqb k ""); auto.
  Qed.

  Lemma to_native_re : forall b e, to_native b (re e) = option_map (re_native f) (to_native b e).
  Proof.
    intros b e; induction e as [tag ns text tail a l next line IH] using elem_ind'. simpl. destruct tag as [t|]; [|destruct b; auto].
    assert (X : map_opt (to_native b) (map re l) = option_map (map (re_native f)) (map_opt (to_native b) l)).
    { clear -IH. induction l as [|c l IHl]; simpl; auto. inversion IH as [|? ? H1 H2]; subst. rewrite H1.
      destruct (to_native b c); simpl; auto. rewrite (IHl H2). destruct (map_opt (to_native b) l); auto. }
    rewrite X. destruct (map_opt (to_native b) l); simpl; auto. rewrite decls_re. destruct b; auto.
  Qed.

  Lemma to_xml_re : forall n encode v fl, to_xml_tree n (re_env f ev) encode v fl = out_map (re_native f) (to_xml_tree n ev encode v fl).
  Proof.
    intros n encode v fl; unfold to_xml_tree. destruct (model_type v) as [cls|]; auto. cbn [re_env en_model en_backend].
    destruct (en_model ev cls) as [m|] eqn:Hm; cbn [option_map]; auto. cbn [re_mdef md_elem_name md_nsmap].
    apply (@out_bind _ _ _ _ re (re_native f)).
    - eapply (@model_alike (write n (re_env f ev)) (write n ev)) with (e := new_elem (TName (md_elem_name m)) None None None [] (md_nsmap m) (-1)); eauto.
      intros s. apply write_alike.
    - intros e. rewrite to_native_re. destruct (to_native _ e); auto.
  Qed.
End Alias.

(** ---- reading: the maps are not looked at ---- *)
Section Reading.
  Variable f : string -> string.
  Variable ev : env.

  Definition ralike (r' r : reader) : Prop := forall eas loc s, r' eas loc s = r eas loc s.

  Lemma on_child_alike : forall A i (g' g : st -> rres A) s, (forall c, g' c = g c) -> on_child i g' s = on_child i g s.
  Proof. intros A i g' g s H; unfold on_child. destruct (nth_error _ _); auto. rewrite H; auto. Qed.

  Lemma with_found_alike : forall r (g' g : st -> rres val) s, (forall c, g' c = g c) -> with_found r g' s = with_found r g s.
  Proof. intros [[|i|] e] g' g s H; simpl; auto. apply on_child_alike; auto. Qed.

  Lemma ritems_alike : forall r' r, ralike r' r -> forall k title hide eas loc idx res errs s,
    read_items k r' title hide eas loc idx res errs s = read_items k r title hide eas loc idx res errs s.
  Proof.
    intros r' r H k; induction k as [|k IH]; intros; simpl; auto. rewrite H. destruct (r eas _ s) as [[[]|[]|] s']; auto.
  Qed.

  Lemma rtuple_alike : forall rs' rs, Forall2 ralike rs' rs -> forall title hide eas loc idx res errs s,
    read_tuple rs' title hide eas loc idx res errs s = read_tuple rs title hide eas loc idx res errs s.
  Proof.
    intros rs' rs H; induction H as [|r' r rs' rs Hr Hs IH]; intros; simpl; auto. rewrite Hr. destruct (r eas _ s) as [[|[]|] s']; auto.
  Qed.

  Lemma rvariants_alike : forall rs' rs, Forall2 ralike rs' rs -> forall title hide eas loc errs s,
    read_variants rs' title hide eas loc errs s = read_variants rs title hide eas loc errs s.
  Proof.
    intros rs' rs H; induction H as [|r' r rs' rs Hr Hs IH]; intros; simpl; auto. rewrite Hr. destruct (r eas _ _) as [[[]|[]|] s']; auto.
  Qed.

  Lemma rtagged_alike : forall rp' rp, (forall p, ralike (rp' (re_proxy f p)) (rp p)) -> forall a mode vs,
    forall eas loc s, read_tagged rp' a mode (map (fun kv => (fst kv, re_proxy f (snd kv))) vs) eas loc s = read_tagged rp a mode vs eas loc s.
  Proof.
    intros rp' rp H a mode vs eas loc; induction vs as [|[t p] vs IH]; intros s; auto. cbn [map read_tagged fst snd].
    change (px_name (re_proxy f p)) with (px_name p). destruct (find_element (st_el s) (px_name p) mode false false) as [r e]. destruct r as [|i|].
    - apply IH.
    - destruct (nth_error (e_elems e) i) as [c|]; auto. destruct (match get_attrib a c with Some _ => _ | None => _ end); [apply H|apply IH].
    - reflexivity.
  Qed.

  Lemma on_path_alike : forall A path (g' g : st -> rres A) s, (forall c, g' c = g c) -> on_path path g' s = on_path path g s.
  Proof. intros A path g' g; induction path as [|i path IH]; intros s H; simpl; auto. apply on_child_alike. intros c; apply IH; auto. Qed.

  Section Rec.
    Variables r' r : ser -> reader.
    Hypothesis Hr : forall s, ralike (r' (re_ser f s)) (r s).

    Lemma rfields_alike : forall m fs eas res errs s,
      read_fields r' (re_mdef f m) (re_fields f fs) eas res errs s = read_fields r m fs eas res errs s.
    Proof.
      intros m fs; induction fs as [|[name x] fs IH]; intros eas res errs s; auto. cbn [re_fields map read_fields fst snd]. fold (re_fields f fs).
      cbn [re_mdef md_cval md_valias]. rewrite Hr. destruct (match md_cval m name with Some _ => _ | None => _ end) as [[[]|[]|] s']; auto.
    Qed.

    Lemma rmodel_alike : forall m, ralike (read_model r' (re_mdef f m)) (read_model r m).
    Proof.
      intros m eas loc s; unfold read_model. cbn [re_mdef md_root]. destruct (md_root m).
      - unfold read_root_model. cbn [re_mdef md_fields]. destruct (md_fields m) as [|[nm x] fs]; simpl; auto. rewrite Hr. destruct (r x eas loc s) as [[|[]|] s']; auto.
      - unfold read_plain_model. cbn [re_mdef md_fields md_name md_hide]. rewrite <- rfields_alike. reflexivity.
    Qed.

    Lemma rproxy_alike : forall p, ralike (read_proxy (re_env f ev) r' (re_proxy f p)) (read_proxy ev r p).
    Proof.
      intros p eas loc s; unfold read_proxy. cbn [re_env en_model re_proxy px_model px_name px_mode px_computed].
      destruct (en_model ev (px_model p)) as [m|]; simpl; auto. destruct (px_computed p); auto. apply with_found_alike. intros c.
      destruct (is_element_nill _) as [[|] e]; auto. apply rmodel_alike.
    Qed.
  End Rec.

  Lemma read_alike : forall n s, ralike (read n (re_env f ev) (re_ser f s)) (read n ev s).
  Proof.
    intros n; induction n as [|n IH]; intros s eas loc s0; auto. cbn [read]. destruct s; cbn [re_ser read_step re_env en_backend]; auto.
    - unfold read_homo. destruct computed; auto. apply ritems_alike; auto.
    - unfold read_hetero. destruct computed; auto. apply rtuple_alike. rewrite map_map. induction inners; simpl; constructor; auto.
    - unfold read_union_prim. destruct computed; auto. apply IH.
    - unfold read_union_model. destruct computed; auto. apply rvariants_alike. rewrite map_map.
      induction variants; simpl; constructor; auto. apply rproxy_alike; auto.
    - destruct computed; auto. apply rtagged_alike. apply rproxy_alike; auto.
    - unfold read_wrap. destruct computed; auto. destruct (find_sub_element _ _ _) as [[idxs|] e]; auto. destruct (_ && _); auto.
      apply on_path_alike. intros c. apply IH.
    - apply rproxy_alike; auto.
  Qed.

  Lemma from_xml_re : forall n cls root eas, from_xml_tree n (re_env f ev) cls root eas = from_xml_tree n ev cls root eas.
  Proof.
    intros n cls root eas; unfold from_xml_tree. cbn [re_env en_model en_backend]. destruct (en_model ev cls) as [m|]; simpl; auto.
    destruct (tag_is _ _); auto. f_equal. apply rmodel_alike. apply read_alike.
  Qed.

  Lemma from_native_re : forall b n, from_native b (re_native f n) = from_native b n.
  Proof.
    intros b n; induction n as [tag ns text tail a cs line IH| |] using native_ind'; auto. simpl. f_equal.
    induction cs as [|c cs IHc]; simpl; auto. inversion IH; subst. rewrite IHc; auto. f_equal.
    assert (is_xml_comment (re_native f c) = is_xml_comment c) as -> by (destruct c; auto). destruct (is_xml_comment c); auto. f_equal; auto.
  Qed.

  Lemma from_xml_doc_re : forall n cls root eas, from_xml_tree n (re_env f ev) cls (re_native f root) eas = from_xml_tree n ev cls root eas.
  Proof.
    intros n cls root eas. rewrite from_xml_re. unfold from_xml_tree. rewrite from_native_re.
    assert (native_tag (re_native f root) = native_tag root) as -> by (destruct root; auto). reflexivity.
  Qed.
End Reading.
