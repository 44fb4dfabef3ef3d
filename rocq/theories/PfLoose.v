(** PfLoose.v -- what is accepted stays accepted when validation gets looser. *)

From Verif Require Import Base Elem Native Errs Names Ser Read Api SpecRead SpecSim SpecOut SpecSub SpecPage SpecLoose
  PfPage PfPage2 PfPage3 PfPage4.

Local Ltac inv H := inversion H; subst; clear H.

Definition got (a : answer) : Prop := match a with Got _ => True | _ => False end.

Lemma got_map : forall vs, Forall got (map Got vs).
Proof. induction vs; constructor; simpl; auto. Qed.
Lemma fails_got : forall t rs l a, fails t rs l a -> got a -> False.
Proof. intros t rs l a F G. inv F; auto. Qed.

Section Loose.
  Variables (ev ev' : env) (eas : bool).
  Hypothesis L : loosened_env ev ev'.
  Hypothesis U : union_free_classes ev.

  Lemma known_still : forall q, known ev q -> known ev' q.
  Proof.
    intros q K. unfold known in *. destruct (en_model ev (px_model q)) as [m|] eqn:E; [|congruence].
    destruct L as [_ L']. destruct (L' _ _ E) as (m' & -> & _). discriminate.
  Qed.
  Lemma computed_still : forall s, computed ev s -> computed ev' s.
  Proof. intros s C. inv C; constructor; auto using known_still. Qed.

  Lemma judged_still : forall m m' p i a, loosened_class m m' -> judged m p i a -> got a -> judged m' p i a.
  Proof. intros m m' p i a W J G. inv W. inv J; simpl in G; try contradiction. apply jg_valid; simpl in *; auto. Qed.

  Lemma accepted_still :
    (forall s p a p', reads ev eas s p a p' -> union_free s -> got a -> reads ev' eas s p a p') /\
    (forall s p l p', reads_items ev eas s p l p' -> union_free s -> Forall got l -> reads_items ev' eas s p l p') /\
    (forall ss p l p', reads_each ev eas ss p l p' -> fold_right (fun s P => union_free s /\ P) True ss -> Forall got l -> reads_each ev' eas ss p l p') /\
    (forall t qs p noted a p', tries ev eas t qs p noted a p' -> True) /\
    (forall at_ mode qs p a p', picks ev eas at_ mode qs p a p' -> got a -> picks ev' eas at_ mode qs p a p') /\
    (forall mode s path p a p', reads_in ev eas mode s path p a p' -> union_free s -> got a -> reads_in ev' eas mode s path p a p') /\
    (forall q p a p', reads_sub ev eas q p a p' -> got a -> reads_sub ev' eas q p a p') /\
    (forall fs p l p', reads_fields ev eas fs p l p' -> (forall name s, In (name, s) fs -> union_free s) -> Forall got l -> reads_fields ev' eas fs p l p') /\
    (forall m p a p', reads_model ev eas m p a p' -> (forall name s, In (name, s) (md_fields m) -> union_free s) -> forall m', loosened_class m m' -> got a -> reads_model ev' eas m' p a p').
  Proof.
    destruct L as [Lb Lm]. apply rules_ind; intros; simpl in *; try contradiction; auto.
    all: try (exfalso; eapply fails_got; eauto; fail).
    all: try (match goal with X : Forall got (_ :: _) |- _ => inv X; simpl in *; try contradiction end).
    - apply rd_computed. apply computed_still; auto.
    - apply rd_text; auto.
    - apply rd_attr.
    - apply rd_no_elem; auto.
    - eapply rd_elem; eauto.
    - apply rd_attrs; auto.
    - apply rd_no_map; auto.
    - eapply rd_map; eauto.
    - apply rd_list. auto using got_map.
    - eapply rd_tuple; eauto using got_map.
    - apply rd_prim; auto.
    - apply rd_tagged; auto.
    - apply rd_wrap; auto.
    - apply rd_no_raw; auto.
    - eapply rd_raw; eauto. rewrite Lb; auto.
    - apply rd_model; auto.
    - apply ri_end; auto.
    - eapply ri_item; eauto.
    - constructor.
    - destruct H1. eapply re_member; eauto.
    - constructor.
    - apply pk_missing; auto.
    - eapply pk_other; eauto.
    - eapply pk_match; eauto.
    - apply in_here; auto.
    - eapply in_again; eauto.
    - apply in_missing; auto.
    - eapply in_next; eauto.
    - destruct (Lm _ _ e) as (m' & E' & W). eapply rs_computed; eauto.
    - destruct (Lm _ _ e) as (m' & E' & W). eapply rs_missing; eauto.
    - destruct (Lm _ _ e) as (m' & E' & W). eapply rs_nil; eauto.
    - destruct (Lm _ _ e) as (m' & E' & W). eapply rs_model; eauto.
    - constructor.
    - eapply rf_field; eauto.
    - pose proof (judged_still H1 j H2) as J. inv H1. simpl in *. eapply rm_fields; simpl; eauto using got_map.
    - pose proof (judged_still H1 j H2) as J. inv H1. simpl in *. eapply rm_root; simpl; eauto. apply H; simpl; auto. eapply H0. rewrite e0. left; reflexivity.
  Qed.
End Loose.

Lemma looser_documents : forall ev ev', loosened_env ev ev' -> union_free_classes ev -> plain_classes ev -> plain_classes ev' ->
  forall cls root eas v, en_model ev cls <> None ->
  (exists n, from_xml_tree n ev cls root eas = Ok v) -> exists n, from_xml_tree n ev' cls root eas = Ok v.
Proof.
  intros ev ev' L U P P' cls root eas v K. destruct (en_model ev cls) as [m|] eqn:Em; [|congruence].
  destruct (proj2 L _ _ Em) as (m' & Em' & W).
  rewrite (@read_document ev P cls m root eas v Em), (@read_document ev' P' cls m' root eas v Em').
  assert (Et : md_elem_name m' = md_elem_name m) by (inv W; reflexivity). rewrite Et.
  intros (N & left & R). split; auto. exists left.
  apply (proj2 (proj2 (proj2 (proj2 (proj2 (proj2 (proj2 (proj2 (accepted_still eas L U)))))))) m _ _ _ R); auto; [apply (U _ _ Em)|simpl; auto].
Qed.
