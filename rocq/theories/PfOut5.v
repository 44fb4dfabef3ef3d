(** PfOut5.v -- the document is what the pieces make of the root. *)

From Verif Require Import Base Elem Native Errs Names Ser Write Read Api SpecElem SpecRead SpecWrite SpecScalar SpecSim SpecOut
  PfScalar PfElem PfFuel PfWrite PfWrite2 PfWSim PfOut PfOut2 PfOut3 PfOut4.

Local Ltac inv H := inversion H; subst; clear H.

Lemma map_opt_iff : forall A B (f : A -> option B) l l', map_opt f l = Some l' <-> Forall2 (fun x y => f x = Some y) l l'.
Proof.
  intros A B f l; induction l as [|x l IH]; intros l'; simpl.
  - split; intros H; [injection H as <-; constructor|inv H; auto].
  - split; intros H.
    + destruct (f x) as [y|] eqn:E; [|discriminate]. destruct (map_opt f l) as [ys|]; [|discriminate]. injection H as <-. constructor; auto. apply IH; auto.
    + inv H. rewrite H2. apply IH in H4. rewrite H4. auto.
Qed.

Lemma copied_iff : forall b n, is_xml_comment n = false -> forall t, to_native b (from_native b n) = Some t <-> copied b n t.
Proof.
  intros b n; induction n as [tag ns text tail a cs line IH| |text tail a line] using native_ind'; intros C t; try discriminate.
  - cbn [from_native new_elem to_native].
    assert (X : forall cs', map_opt (to_native b) (flat_map (fun c => if is_xml_comment c then [] else [from_native b c]) cs) = Some cs' <->
              Forall2 (copied b) (no_comments cs) cs').
    { clear -IH. unfold no_comments. induction cs as [|c cs IHc]; intros cs'; simpl.
      - split; intros H; [injection H as <-; constructor|inv H; auto].
      - inversion IH as [|? ? I1 I2]; subst. destruct (is_xml_comment c) eqn:C; simpl; auto. specialize (IHc I2). split; intros H.
        + destruct (to_native b (from_native b c)) as [c'|] eqn:E; [|discriminate].
          destruct (map_opt (to_native b) _) as [r|] eqn:M; [|discriminate]. injection H as <-. constructor; [apply I1; auto|apply IHc; auto].
        + inversion H as [|? c' ? r Cc Cr]; subst. apply I1 in Cc; auto. rewrite Cc. apply IHc in Cr. rewrite Cr. auto. }
    split; intros H.
    + destruct (map_opt (to_native b) _) as [cs'|] eqn:M; [|discriminate]. injection H as <-. pose proof (proj1 (X _) eq_refl) as F. destruct b; constructor; auto.
    + inv H. match goal with F : Forall2 _ _ _ |- _ => apply X in F; rewrite F end. destruct b; auto.
  - simpl. split; intros H.
    + destruct b; [discriminate|]. injection H as <-. constructor; auto.
    + inv H. auto.
Qed.

Lemma declarations_native : forall ns, declarations Lxml ns = native_nsmap ns.
Proof.
  intros [m|]; simpl; auto. apply map_ext. intros [k u]. simpl. destruct k; auto.
Qed.

Lemma shown_native : forall b d e t, rep b d e -> to_native b e = Some t <-> shown b d t.
Proof.
  intros b d; induction d as [tag ns text attrs ch IH|n] using draft_ind'; intros e t R.
  - inversion R as [? ? ? ? ? ? T1 T2 T3 T4 T5 T6 T7|]; subst. destruct e as [tg ns' tx tl at_ ch' nx ln].
    cbn [e_tag e_nsmap e_text e_tail e_attrib e_elems e_next] in *. subst.
    assert (X : forall cs, map_opt (to_native b) ch' = Some cs <-> Forall2 (shown b) ch cs).
    { clear -IH T6. induction T6 as [|c e' ch ch' Rc F IHf]; intros cs; simpl.
      - split; intros H; [injection H as <-; constructor|inv H; auto].
      - inversion IH as [|? ? I1 I2]; subst. specialize (IHf I2). split; intros H.
        + destruct (to_native b e') as [c'|] eqn:E; [|discriminate]. destruct (map_opt (to_native b) ch') as [r|] eqn:M; [|discriminate]. injection H as <-.
          constructor; [apply (I1 _ _ Rc); auto|apply IHf; auto].
        + inversion H as [|? c' ? r Cc Cr]; subst. apply (I1 _ _ Rc) in Cc. rewrite Cc. apply IHf in Cr. rewrite Cr. auto. }
    assert (Dn : declarations b ns = match b with Lxml => native_nsmap ns' | Std => [] end).
    { destruct b; [rewrite (T2 eq_refl); apply declarations_native|]. destruct ns; auto. }
    cbn [to_native]. fold (attrs_of at_). split; intros H.
    + destruct (map_opt (to_native b) ch') as [cs|] eqn:M; [|discriminate]. injection H as <-. rewrite <- Dn. constructor. apply (proj1 (X _) eq_refl).
    + inv H. match goal with F : Forall2 (shown b) _ _ |- _ => apply X in F; rewrite F end. rewrite Dn. auto.
  - inv R. split; intros H.
    + constructor. apply copied_iff; auto. destruct n; simpl in *; auto; contradiction.
    + inv H. apply copied_iff; auto. destruct n; simpl in *; auto; contradiction.
Qed.

(** the root element is made for lxml and ElementTree alike *)
Lemma document_written : forall ev encode fl v t, no_customs ev -> document ev fl v (encode v) t ->
  exists N, forall n, N <= n -> to_xml_tree n ev encode v fl = Ok t.
Proof.
  intros ev encode fl v t NC H. inversion H as [cls attrs set enc m ps d t' E Wm Pd Sh]; subst.
  destruct (proj1 (proj2 (proj2 (proj2 (proj2 (complete NC))))) _ _ _ _ _ Wm (fun name => @NC _ _ name E)) as (N & K).
  exists N. intros n L. unfold to_xml_tree. cbn [model_type]. rewrite E.
  destruct (K n L _ _ _ (rep_root (en_backend ev) (md_elem_name m) (md_nsmap m)) Pd) as (e & -> & R). cbn [obind].
  apply (shown_native _ R) in Sh. rewrite Sh. reflexivity.
Qed.

Lemma written_document : forall ev encode fl v t n, no_customs ev -> raws_apart ev v ->
  to_xml_tree n ev encode v fl = Ok t -> document ev fl v (encode v) t.
Proof.
  intros ev encode fl v t n NC A H. pose proof H as H0. unfold to_xml_tree in H. destruct (model_type v) as [cls|] eqn:Mt; [|discriminate].
  destruct v as [| | | | | | |cls' attrs set|]; try discriminate. injection Mt as ->.
  destruct (en_model ev cls) as [m|] eqn:E; [|discriminate].
  set (root := new_elem _ _ _ _ _ _ _) in H. destruct (write_model (write n ev) m fl root (VModel cls attrs set) (encode (VModel cls attrs set))) as [e|?|] eqn:Wm; try discriminate.
  assert (V : vok ev (VModel cls attrs set)).
  { intros x Rx. destruct (A x Rx) as [El Q]. split; auto. intros t0 (c & m0 & name & s & E1 & E2 & E3). eapply Q; eauto. }
  destruct (@model_good ev (write n ev) (fun s So => @sound ev NC n s So) m fl _ _ _ _ (env_mok NC _ E) V eq_refl Wm) as (ps & Q & F).
  destruct (@fresh_total ev ps (md_elem_name m) (md_nsmap m) F) as (d & Pd & D).
  destruct (proj1 (proj2 (proj2 (proj2 (proj2 (complete NC))))) _ _ _ _ _ Q (fun name => @NC _ _ name E)) as (N & K).
  assert (X : to_xml_tree (Nat.max n N) ev encode (VModel cls attrs set) fl = Ok t).
  { rewrite <- H0. apply to_xml_stable; [lia|]. rewrite H0. discriminate. }
  econstructor; eauto. unfold to_xml_tree in X. cbn [model_type] in X. rewrite E in X. fold root in X.
  destruct (K (Nat.max n N) ltac:(lia) _ _ _ (rep_root (en_backend ev) (md_elem_name m) (md_nsmap m)) Pd) as (e' & We & R).
  fold root in We. rewrite We in X. cbn [obind] in X. apply (shown_native _ R). destruct (to_native (en_backend ev) e'); congruence.
Qed.

(** ---- names of classes do not matter below ---- *)

Section Renamed.
  Variables ev ev' : env.
  Definition like (m m' : mdef) : Prop := exists tag ns, m' = named_as tag ns m.
  Hypothesis SM : forall c m, en_model ev c = Some m -> exists m', en_model ev' c = Some m' /\ like m m'.

  Lemma like_flags : forall m m' fl, like m m' -> class_flags m' fl = class_flags m fl.
  Proof. intros m m' fl (tag & ns & ->). reflexivity. Qed.

  Lemma renamed :
    (forall fl s v enc ps, writes ev fl s v enc ps -> writes ev' fl s v enc ps) /\
    (forall fl s vs encs ps, writes_items ev fl s vs encs ps -> writes_items ev' fl s vs encs ps) /\
    (forall fl l vs encs ps, writes_tuple ev fl l vs encs ps -> writes_tuple ev' fl l vs encs ps) /\
    (forall fl p v enc ps, writes_sub ev fl p v enc ps -> writes_sub ev' fl p v enc ps) /\
    (forall fl m v enc ps, writes_model ev fl m v enc ps -> forall m', like m m' -> writes_model ev' fl m' v enc ps) /\
    (forall fl m fs v enc ps, writes_fields ev fl m fs v enc ps -> forall m', like m m' -> writes_fields ev' fl m' fs v enc ps).
  Proof.
    apply writes_all; intros; try (solve [econstructor; eauto]).
    - destruct (SM _ H) as (m' & E & L). eapply ws_nil; eauto.
    - destruct (SM _ H) as (m' & E & L). eapply ws_none; eauto.
    - destruct (SM _ H) as (m' & E & L). eapply ws_value; eauto.
    - pose proof (like_flags fl H3) as Fl. pose proof (H2 _ H3) as K. rewrite <- Fl in K. destruct H3 as (tag & ns & ->). apply wm_fields; auto.
    - destruct H2 as (tag & ns & ->). apply wm_root_unset; auto.
    - pose proof (like_flags fl H5) as Fl. rewrite <- Fl in H4. destruct H5 as (tag & ns & ->). eapply wm_root; eauto.
    - pose proof (H1 _ H2) as K. destruct H2 as (tag & ns & ->). apply wf_excluded; auto.
    - pose proof (H3 _ H4) as K. destruct H4 as (tag & ns & ->). apply wf_unset; auto.
    - pose proof (H6 _ H7) as K. destruct H7 as (tag & ns & ->). eapply wf_field; eauto.
  Qed.
End Renamed.

(** the element of a sub-model is the document of the sub-model *)
Lemma sub_document : forall ev fl p attrs set enc d t, writes_sub ev fl p (VModel (px_model p) attrs set) enc [PChild d] ->
  shown (en_backend ev) d t -> document (with_class_named (px_model p) (px_name p) (px_nsmap p) ev) fl (VModel (px_model p) attrs set) enc t.
Proof.
  intros ev fl p attrs set enc d t H Sh. inv H. match goal with A : as_child _ _ _ |- _ => inv A end.
  set (ev' := with_class_named (px_model p) (px_name p) (px_nsmap p) ev).
  assert (SM : forall c m, en_model ev c = Some m -> exists m', en_model ev' c = Some m' /\ like m m').
  { intros c m0 E. unfold ev', with_class_named. cbn [en_model]. rewrite E. destruct (String.eqb c (px_model p)); eexists; split; eauto.
    - exists (px_name p), (px_nsmap p). reflexivity.
    - exists (md_elem_name m0), (md_nsmap m0). destruct m0; reflexivity. }
  eapply doc_intro with (m := named_as (px_name p) (px_nsmap p) m).
  - unfold ev', with_class_named. cbn [en_model]. rewrite H0, String.eqb_refl. reflexivity.
  - eapply (proj1 (proj2 (proj2 (proj2 (proj2 (@renamed ev ev' SM)))))); eauto. exists (px_name p), (px_nsmap p). reflexivity.
  - cbn [named_as md_elem_name md_nsmap]. eauto.
  - exact Sh.
Qed.
