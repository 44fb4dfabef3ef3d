(** PfRel.v -- a relation between the element before and after, closed under the primitive
    element operations, holds between the element before and after any read. *)

From Verif Require Import Base Elem Native Errs Names Ser Read SpecElem SpecRead PfElem PfField.

Section Rel.
  Variable R : elem -> elem -> Prop.
  Hypothesis Rrefl : forall e, R e e.
  Hypothesis Rtrans : forall a b c, R a b -> R b c -> R a c.
  Hypothesis Rtext : forall e, R e (set_text_o None e).
  Hypothesis Rpop : forall k e, R e (snd (pop_attrib k e)).
  Hypothesis Rattrs : forall e, R e (set_attrib_o None e).
  Hypothesis Rsearch : forall m e tag behind step, R e (snd (search m e tag behind step)).
  Hypothesis Rchild : forall i c c' e, nth_error (e_elems e) i = Some c -> R c c' -> R e (put_child i c' e).
  Hypothesis Rextract : forall c, R c (snd (extract c)).
  Hypothesis Rstep : forall e, e_next e < length (e_elems e) -> R e (step_forward e).
  Hypothesis Rapply : forall e s, R e s -> R e (apply_snapshot e s).

  Variable ev : env.
  Hypothesis Rcustom : forall cls m name f, en_model ev cls = Some m -> md_cval m name = Some f ->
    forall e, R e (snd (f e)).

  Definition rel {A} (s : st) (p : rres A) : Prop := R (st_el s) (st_el (snd p)).
  Definition reader_rel (r : reader) : Prop := forall eas loc s, rel s (r eas loc s).

  Lemma on_child_rel : forall A i (f : st -> rres A) s, (forall c, rel c (f c)) -> rel s (on_child i f s).
  Proof.
    intros A i f s H; unfold rel, on_child. destruct (nth_error _ i) as [c|] eqn:E; simpl; auto.
    specialize (H (St c (st_sm s))). destruct (f _) as [o s']. unfold rel in H; simpl in *. eauto.
  Qed.

  Lemma with_found_rel : forall tag m (f : st -> rres val) s, (forall c, rel c (f c)) ->
    rel s (with_found (pop_element (st_el s) tag m) f s).
  Proof.
    intros tag m f s H. pose proof (Rsearch m (st_el s) tag false true) as S.
    unfold pop_element. destruct (search _ _ _ _ _) as [[|i|] e']; simpl in S; unfold rel; simpl; auto.
    eapply Rtrans; [exact S|]. apply (@on_child_rel val i f (set_el e' s) H).
  Qed.

  Lemma nill_rel : forall e, R e (snd (is_element_nill e)).
  Proof.
    intros e; unfold is_element_nill. pose proof (Rpop xsi_nil e) as P. destruct (pop_attrib xsi_nil e); auto.
  Qed.

  Lemma read_text_rel : forall c n, reader_rel (read_text c n).
  Proof.
    intros c n eas loc s; unfold read_text, rel. destruct c; simpl; auto. destruct n; simpl; auto.
    pose proof (nill_rel (st_el s)) as N. destruct (is_element_nill (st_el s)) as [nil e1]; simpl in N.
    destruct nil; simpl; auto. eapply Rtrans; eauto.
  Qed.

  Lemma read_attr_rel : forall k c, reader_rel (read_attr k c).
  Proof.
    intros k c eas loc s; unfold read_attr, rel. destruct c; simpl; auto.
    pose proof (Rpop k (st_el s)) as P. destruct (pop_attrib k (st_el s)); simpl; auto.
  Qed.

  Lemma read_attrs_rel : forall a, reader_rel (read_attrs a).
  Proof.
    intros a eas loc s; unfold read_attrs, rel. destruct (as_computed a); simpl; auto.
    destruct (e_attrib (st_el s)); simpl; auto.
  Qed.

  Lemma read_items_rel : forall r, reader_rel r -> forall k title hide eas loc idx result errors s,
    rel s (read_items k r title hide eas loc idx result errors s).
  Proof.
    intros r Hr k; induction k as [|k IH]; intros title hide eas loc idx result errors s; cbn [read_items].
    - unfold rel; simpl; auto.
    - specialize (Hr eas (loc ++ [LIdx idx]) s). unfold rel in Hr.
      destruct (r eas (loc ++ [LIdx idx]) s) as [[v|x|] s']; simpl in Hr; unfold rel; simpl; auto.
      + destruct v; try (eapply Rtrans; [exact Hr|apply IH]). destruct errors; simpl; auto.
      + destruct x; simpl; auto. eapply Rtrans; [exact Hr|apply IH].
  Qed.

  Lemma read_tuple_rel : forall rs, Forall reader_rel rs -> forall title hide eas loc idx result errors s,
    rel s (read_tuple rs title hide eas loc idx result errors s).
  Proof.
    intros rs Hrs; induction Hrs as [|r rs Hr Hrs IH]; intros title hide eas loc idx result errors s; cbn [read_tuple].
    - destruct errors; unfold rel; simpl; auto.
    - specialize (Hr eas (loc ++ [LIdx idx]) s). unfold rel in Hr.
      destruct (r eas (loc ++ [LIdx idx]) s) as [[v|x|] s']; simpl in Hr; unfold rel; simpl; auto.
      + eapply Rtrans; [exact Hr|apply IH].
      + destruct x; simpl; auto. eapply Rtrans; [exact Hr|apply IH].
  Qed.

  (** the reader fails validation only after finding a child ahead *)
  Definition found_first (r : reader) : Prop :=
    forall eas loc s o s', r eas loc s = (o, s') ->
      (exists e, o = Raise (XValidation e)) -> e_next (st_el s) < length (e_elems (st_el s)).

  Lemma read_proxy_found : forall r p, found_first (read_proxy ev r p).
  Proof.
    intros r p eas loc s o s' E (err & Ho); subst o. unfold read_proxy in E.
    destruct (en_model ev (px_model p)) as [m|]; [|discriminate].
    destruct (px_computed p); [discriminate|].
    destruct (pop_element (st_el s) (px_name p) (px_mode p)) as [[|i|] e'] eqn:P; simpl in E; try discriminate.
    unfold pop_element, search in P. destruct (px_mode p); simpl in P.
    - unfold strict_forward in P. destruct (nth_error (e_elems (st_el s)) (e_next (st_el s))) eqn:N; [|discriminate].
      apply nth_error_Some; congruence.
    - unfold ordered_forward in P. destruct (find_from _ _ _) as [j|] eqn:F; [|discriminate].
      apply find_from_range in F. rewrite skipn_length in F; lia.
    - unfold unordered_forward in P. destruct (find_from _ _ _) as [j|] eqn:F; [|discriminate].
      apply find_from_range in F. rewrite skipn_length in F; lia.
  Qed.

  Lemma read_variants_rel : forall rs, Forall reader_rel rs -> Forall found_first rs ->
    forall title hide eas loc errors s,
    (errors <> [] -> e_next (st_el s) < length (e_elems (st_el s))) ->
    rel s (read_variants rs title hide eas loc errors s).
  Proof.
    intros rs Hrs; induction Hrs as [|r rs Hr Hrs IH]; intros Hfs title hide eas loc errors s He; cbn [read_variants].
    - destruct errors; unfold rel; simpl; auto. apply Rstep. apply He; discriminate.
    - inversion Hfs as [|? ? Hf Hfs']; subst. rewrite create_snapshot_id.
      specialize (Hr eas loc (set_el (st_el s) s)).
      specialize (Hf eas loc (set_el (st_el s) s)). unfold rel in Hr.
      destruct (r eas loc (set_el (st_el s) s)) as [[v|x|] s']; simpl in Hr; unfold rel; simpl; auto.
      + destruct v; simpl; auto.
        apply (IH Hfs' title hide eas loc errors (St (st_el s) (st_sm s'))); auto.
      + destruct x; simpl; auto.
        apply (IH Hfs' title hide eas loc (dset (ve_title e) e errors) (St (st_el s) (st_sm s'))); auto.
        intros _. eapply (Hf _ _ eq_refl); eauto.
  Qed.

  Lemma read_tagged_rel : forall rp, (forall p, reader_rel (rp p)) ->
    forall a mode vs eas loc s, rel s (read_tagged rp a mode vs eas loc s).
  Proof.
    intros rp Hrp a mode vs; induction vs as [|[tag p] vs IH]; intros eas loc s; cbn [read_tagged].
    - unfold rel; simpl; auto.
    - unfold find_element. pose proof (Rsearch mode (st_el s) (px_name p) false false) as S.
      destruct (search _ _ _ _ _) as [[|i|] e']; simpl in S; unfold rel; simpl; auto.
      + eapply Rtrans; [exact S|]. apply (IH eas loc (set_el e' s)).
      + destruct (nth_error (e_elems e') i) as [c|]; simpl; auto.
        destruct (match get_attrib a c with Some t => _ | None => _ end).
        * eapply Rtrans; [exact S|]. apply (Hrp p eas loc (St e' (sset loc (e_line c) (st_sm s)))).
        * eapply Rtrans; [exact S|]. apply (IH eas loc (set_el e' s)).
  Qed.

  Lemma find_sub_rel : forall path m e, R e (snd (find_sub_element path m e)).
  Proof.
    intros path m; induction path as [|tag rest IH]; intros e; cbn [find_sub_element]; [apply Rrefl|].
    unfold find_element. pose proof (Rsearch m e tag true true) as S.
    destruct (search m e tag true true) as [[|i|] e1]; simpl in S; auto.
    destruct rest as [|t2 rest]; auto. destruct (nth_error (e_elems e1) i) as [c|] eqn:E; auto.
    specialize (IH c). destruct (find_sub_element (t2 :: rest) m c) as [o c']; simpl in *.
    eapply Rtrans; [exact S|]. eapply Rchild; eauto.
  Qed.

  Lemma on_path_rel : forall A path (f : st -> rres A) s, (forall c, rel c (f c)) -> rel s (on_path path f s).
  Proof.
    intros A path f; induction path as [|i path IH]; intros s H; cbn [on_path]; auto. apply on_child_rel; auto.
  Qed.

  Lemma read_wrap_rel : forall path mode c r, reader_rel r -> reader_rel (read_wrap path mode c r).
  Proof.
    intros path mode c r Hr eas loc s; unfold read_wrap. destruct c; [apply Rrefl|].
    pose proof (find_sub_rel path mode (st_el s)) as F.
    destruct (find_sub_element path mode (st_el s)) as [[idxs|] e']; simpl in F; [|unfold rel; simpl; auto].
    destruct (_ && _); [|unfold rel; simpl; auto].
    eapply Rtrans; [exact F|]. apply (@on_path_rel val idxs _ (set_el e' s)). intros c; apply (Hr eas loc (note_line loc c)).
  Qed.

  Lemma read_raw_rel : forall b name mode c, reader_rel (read_raw b name mode c).
  Proof.
    intros b name mode c eas loc s; unfold read_raw. destruct c; [apply Rrefl|].
    apply with_found_rel; auto. intros c. pose proof (Rextract (st_el c)) as X.
    destruct (extract (st_el c)) as [fresh c']; auto.
  Qed.

  Lemma read_fields_rel : forall r m, (forall name f, md_cval m name = Some f -> forall e, R e (snd (f e))) ->
    (forall s, reader_rel (r s)) ->
    forall fs eas result errors s, rel s (read_fields r m fs eas result errors s).
  Proof.
    intros r m Hc Hr fs; induction fs as [|[name fser] fs IH]; intros eas result errors s; cbn [read_fields].
    - unfold rel; simpl; auto.
    - assert (G : rel (note_line [LKey name] s) (match md_cval m name with
                                | Some custom => run_custom custom (note_line [LKey name] s)
                                | None => r fser eas [LKey name] (note_line [LKey name] s)
                                end)).
      { destruct (md_cval m name) as [f|] eqn:E; [|apply Hr]. unfold run_custom, rel.
        specialize (Hc name f E (st_el s)); simpl. destruct (f (st_el s)); auto. }
      destruct (match md_cval m name with Some custom => _ | None => _ end) as [[v|x|] s2];
        unfold rel in *; simpl in *; auto.
      + destruct v; (eapply Rtrans; [exact G|apply IH]).
      + destruct x; simpl; auto. eapply Rtrans; [exact G|apply IH].
  Qed.

  Lemma read_model_rel : forall cls r m, en_model ev cls = Some m -> (forall s, reader_rel (r s)) ->
    reader_rel (read_model r m).
  Proof.
    intros cls r m Hm Hr eas loc s; unfold read_model. destruct (md_root m).
    - unfold read_root_model. destruct (md_fields m) as [|[name rser] fs]; [apply Rrefl|].
      specialize (Hr rser eas loc s). unfold rel in *.
      destruct (r rser eas loc s) as [[v|x|] s']; simpl in *; auto. destruct x; auto.
    - unfold read_plain_model. pose proof (@read_fields_rel r m (fun nm f Hf => @Rcustom cls m nm f Hm Hf) Hr (md_fields m) eas [] [] s) as F.
      unfold rel in *. destruct (read_fields _ _ _ _ _ _ _) as [[[result errors]|x|] s']; simpl in *; auto.
      destruct errors; auto.
  Qed.

  Lemma read_proxy_rel : forall r p, (forall s, reader_rel (r s)) -> reader_rel (read_proxy ev r p).
  Proof.
    intros r p Hr eas loc s; unfold read_proxy. destruct (en_model ev (px_model p)) as [m|] eqn:Em; [|apply Rrefl].
    destruct (px_computed p); [apply Rrefl|]. apply with_found_rel; auto. intros c. cbv zeta.
    pose proof (nill_rel (st_el c)) as N. simpl. destruct (is_element_nill (st_el c)) as [nil e1]; simpl in N.
    destruct nil; [exact N|]. eapply Rtrans; [exact N|].
    apply (@read_model_rel (px_model p) r m Em Hr eas loc (set_el e1 (note_line loc c))).
  Qed.

  Lemma read_rel : forall n s, reader_rel (read n ev s).
  Proof.
    intros n; induction n as [|n IH]; intros s; cbn [read].
    - intros eas loc s0; apply Rrefl.
    - destruct s; cbn [read_step]; try (intros eas loc s0; unfold read_elem, read_map_elem, read_homo, read_hetero, read_union_prim, read_union_model).
      + apply read_text_rel.
      + apply read_attr_rel.
      + destruct computed; [apply Rrefl|]. apply with_found_rel. intros c; apply (read_text_rel false nillable eas loc (note_line loc c)).
      + apply read_attrs_rel.
      + destruct (as_computed a); [apply Rrefl|]. apply with_found_rel. intros c; apply (read_attrs_rel a eas loc (note_line loc c)).
      + destruct computed; [apply Rrefl|]. apply read_items_rel; auto.
      + destruct computed; [apply Rrefl|]. apply read_tuple_rel. rewrite Forall_map. rewrite Forall_forall; intros; apply IH.
      + destruct computed; [apply Rrefl|]. apply IH.
      + destruct computed; [apply Rrefl|]. apply read_variants_rel; try (rewrite Forall_map; rewrite Forall_forall; intros).
        * apply read_proxy_rel; auto.
        * apply read_proxy_found.
        * congruence.
      + destruct computed; [apply Rrefl|]. apply read_tagged_rel. intros p; apply read_proxy_rel; auto.
      + apply read_wrap_rel; auto.
      + apply read_raw_rel.
      + apply read_proxy_rel; auto.
  Qed.
End Rel.
