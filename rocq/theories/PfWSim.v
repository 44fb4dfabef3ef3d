(** PfWSim.v -- writing on the two back ends side by side; conversions between native and internal trees. *)

From Verif Require Import Base Elem Native Errs Names Ser Write Read Api SpecElem SpecRead SpecSim PfElem PfSim PfSim2.

Notation DN := (differ eq eq any_line any_prefixes).
Definition E2 (e1 e2 : elem) : Prop := DN e1 e2 /\ named e1.

Lemma named_inv : forall e, named e -> e_tag e <> TSpecial /\ Forall named (e_elems e).
Proof. intros e H; inv H; auto. Qed.

Lemma E2_make : forall e e', e_tag e = e_tag e' -> e_text e = e_text e' -> e_tail e = e_tail e' ->
  e_attrib e = e_attrib e' -> Forall2 E2 (e_elems e) (e_elems e') -> e_next e = e_next e' -> e_tag e <> TSpecial -> E2 e e'.
Proof.
  intros e e' H1 H2 H3 H4 H5 H6 H7. assert (X : forall l l', Forall2 E2 l l' -> Forall2 DN l l' /\ Forall named l).
  { clear. intros l l' H; induction H as [|x y l l' [A B] H [C D]]; auto. }
  destruct (X _ _ H5) as [A B]. split; [apply differ_make; auto; exact I|constructor; auto].
Qed.

Lemma E2_inv : forall e e', E2 e e' -> e_tag e = e_tag e' /\ e_text e = e_text e' /\ e_tail e = e_tail e' /\
  e_attrib e = e_attrib e' /\ Forall2 E2 (e_elems e) (e_elems e') /\ e_next e = e_next e' /\ e_tag e <> TSpecial.
Proof.
  intros e e' [H N]. apply differ_inv in H. apply named_inv in N. destruct H as (A&_&B&C&D&F&G&_). destruct N as [N M].
  repeat split; auto. clear -F M. induction F; inv M; constructor; auto. split; auto.
Qed.

Lemma E2_elems : forall e e' l l', E2 e e' -> Forall2 E2 l l' -> E2 (set_elems l e) (set_elems l' e').
Proof. intros e e' l l' H F. apply E2_inv in H. destruct H as (?&?&?&?&?&?&?). apply E2_make; simpl; auto. Qed.

Lemma E2_next : forall e e' i, E2 e e' -> E2 (set_next i e) (set_next i e').
Proof. intros e e' i H. apply E2_inv in H. destruct H as (?&?&?&?&?&?&?). apply E2_make; simpl; auto. Qed.

Lemma E2_text : forall e e' t, E2 e e' -> E2 (set_text t e) (set_text t e').
Proof. intros e e' i H. apply E2_inv in H. destruct H as (?&?&?&?&?&?&?). apply E2_make; simpl; auto. Qed.

Lemma E2_attribs : forall e e' a, E2 e e' -> E2 (set_attrib_o a e) (set_attrib_o a e').
Proof. intros e e' i H. apply E2_inv in H. destruct H as (?&?&?&?&?&?&?). apply E2_make; simpl; auto. Qed.

Lemma E2_attribute : forall e e' k t, E2 e e' -> E2 (set_attribute k t e) (set_attribute k t e').
Proof. intros e e' k t H. pose proof (E2_inv H) as (?&?&?&A&?&?&?). unfold set_attribute. rewrite A. apply E2_attribs; auto. Qed.

Lemma Forall2_len_s : forall A B (R : A -> B -> Prop) l l', Forall2 R l l' -> length l = length l'.
Proof. intros A B R l l' H; induction H; simpl; auto. Qed.

Lemma E2_append : forall c c' e e', E2 c c' -> E2 e e' -> E2 (append_element c e) (append_element c' e').
Proof.
  intros c c' e e' Hc H. pose proof (E2_inv H) as (?&?&?&A&F&Hn&?). unfold append_element. rewrite Hn. apply E2_next.
  apply E2_elems; auto. apply Forall2_app; auto.
Qed.

Lemma E2_empty : forall e e', E2 e e' -> is_empty e = is_empty e'.
Proof.
  intros e e' H. apply E2_inv in H. destruct H as (?&A&B&C&F&?&?). unfold is_empty. rewrite A, B, C, (Forall2_len_s F); auto.
Qed.

Lemma E2_append_unless : forall fl c c' e e', E2 c c' -> E2 e e' -> E2 (append_unless_empty fl c e) (append_unless_empty fl c' e').
Proof. intros fl c c' e e' Hc H. unfold append_unless_empty. rewrite (E2_empty Hc). destruct (_ && _); auto. apply E2_append; auto. Qed.

Lemma E2_search : forall e1 e2, E2 e1 e2 -> forall m tag behind step,
  fst (search m e1 tag behind step) = fst (search m e2 tag behind step) /\
  E2 (snd (search m e1 tag behind step)) (snd (search m e2 tag behind step)).
Proof.
  intros e1 e2 [H N] m tag behind step. destruct (differ_search H m tag behind step) as [A B]. split; auto. split; auto.
  pose proof (named_inv N) as [T F].
  assert (SN : forall i, named (set_next i e1)) by (intros; constructor; auto).
  assert (FW : named (snd (forward m e1 tag step))).
  { destruct m; simpl.
    - unfold strict_forward. destruct (nth_error _ _); auto. destruct (tag_is _ _); auto. destruct step; simpl; auto.
    - unfold ordered_forward. destruct (find_from _ _ _); auto. destruct step; simpl; auto.
    - unfold unordered_forward. destruct (find_from _ _ _); auto. destruct step; simpl; constructor; simpl; auto using Forall_list_swap. }
  unfold search. destruct behind; auto. destruct (look_behind e1 tag); auto.
Qed.

Lemma E2_new : forall b1 b2 name ns, E2 (make_element b1 name ns) (make_element b2 name ns).
Proof. intros; apply E2_make; simpl; auto. discriminate. Qed.

Lemma from_native_E2 : forall b1 b2 n, no_pi n -> E2 (from_native b1 n) (from_native b2 n).
Proof.
  intros b1 b2 n NP. split.
  - pose proof (from_native_backends b1 b2 NP) as H. clear -H. revert H. generalize (from_native b1 n), (from_native b2 n).
    intros e1; induction e1 as [tag ns text tail a l next line IH] using elem_ind'; intros e2 H; inv H. constructor; try exact I; auto.
    match goal with H : Forall2 _ l l' |- _ => clear -IH H; induction H end; constructor; inv IH; auto.
  - pose proof (from_native_clean b1 NP) as H. clear -H. revert H. generalize (from_native b1 n).
    intros e; induction e as [tag ns text tail a l next line IH] using elem_ind'; intros H; apply clean_inv in H. simpl in H.
    destruct H as (T & _ & F). constructor; simpl; auto. clear -IH F. induction l; inv IH; inv F; constructor; auto.
Qed.

Section WSim.
  Variables ev1 ev2 : env.
  Hypothesis Hmodel : forall cls, en_model ev1 cls = en_model ev2 cls.
  Hypothesis Hc : prefixes_unseen ev1.

  Definition osim (o1 o2 : out elem) : Prop :=
    match o1, o2 with
    | Ok e1, Ok e2 => E2 e1 e2
    | Raise x, Raise y => x = y
    | Fuel, Fuel => True
    | _, _ => False
    end.

  Definition wsim (w1 w2 : writer) : Prop :=
    forall fl e1 e2 v enc, raws_ok v -> E2 e1 e2 -> osim (w1 fl e1 v enc) (w2 fl e2 v enc).

  Lemma obind_sim : forall o1 o2 (k1 k2 : elem -> out elem), osim o1 o2 -> (forall e1 e2, E2 e1 e2 -> osim (k1 e1) (k2 e2)) ->
    osim (obind o1 k1) (obind o2 k2).
  Proof. intros [] [] k1 k2 H K; simpl in *; auto; contradiction. Qed.

  Lemma obind_same : forall A (o : out A) (k1 k2 : A -> out elem), (forall a, o = Ok a -> osim (k1 a) (k2 a)) -> osim (obind o k1) (obind o k2).
  Proof. intros A [] k1 k2 K; simpl in *; auto. Qed.

  Lemma write_text_sim : forall n, wsim (write_text n) (write_text n).
  Proof.
    intros n fl e1 e2 v enc R H; unfold write_text. destruct (is_none v && _); [exact H|].
    apply obind_same. intros s _. simpl. apply E2_text. destruct (n && is_none v); auto. apply E2_attribute; auto.
  Qed.

  Lemma write_attr_sim : forall k, wsim (write_attr k) (write_attr k).
  Proof.
    intros k fl e1 e2 v enc R H; unfold write_attr. destruct (is_none v && _); [exact H|].
    apply obind_same. intros s _. apply E2_attribute; auto.
  Qed.

  Lemma write_attrs_sim : forall a, wsim (write_attrs a) (write_attrs a).
  Proof.
    intros a fl e1 e2 v enc R H; unfold write_attrs. destruct (is_none v); [exact H|].
    destruct enc; simpl; auto. apply obind_same. intros s _. apply E2_attribs; auto.
  Qed.

  Lemma append_sim : forall fl o1 o2 e1 e2, osim o1 o2 -> E2 e1 e2 ->
    osim (obind o1 (fun sub => Ok (append_unless_empty fl sub e1))) (obind o2 (fun sub => Ok (append_unless_empty fl sub e2))).
  Proof. intros fl o1 o2 e1 e2 H He. apply obind_sim; auto. intros s1 s2 Hs. apply E2_append_unless; auto. Qed.

  Lemma write_elem_sim : forall k ns ni, wsim (write_elem (en_backend ev1) k ns ni) (write_elem (en_backend ev2) k ns ni).
  Proof.
    intros k ns ni fl e1 e2 v enc R H; unfold write_elem. destruct (is_none v && _); [exact H|].
    apply append_sim; auto. apply write_text_sim; auto. apply E2_new.
  Qed.

  Lemma write_map_elem_sim : forall k a, wsim (write_map_elem (en_backend ev1) k a) (write_map_elem (en_backend ev2) k a).
  Proof.
    intros k a fl e1 e2 v enc R H; unfold write_map_elem.
    assert (X := append_sim fl _ _ (write_attrs_sim a fl enc R (E2_new (en_backend ev1) (en_backend ev2) k (as_nsmap a))) H).
    destruct (fl_skip_empty fl); auto. destruct (py_len v) as [[|n]|]; simpl; auto.
  Qed.

  Lemma py_iter_ok : forall v vs, raws_ok v -> py_iter v = Ok vs -> Forall raws_ok vs.
  Proof. intros v vs R H; inv R; simpl in H; try discriminate. injection H as <-; auto. Qed.

  Lemma write_items_sim : forall w1 w2, wsim w1 w2 -> forall fl vs encs e1 e2, Forall raws_ok vs -> E2 e1 e2 ->
    osim (write_items w1 fl e1 vs encs) (write_items w2 fl e2 vs encs).
  Proof.
    intros w1 w2 Hw fl vs; induction vs as [|v vs IH]; intros encs e1 e2 R H; simpl; auto. inv R.
    destruct encs as [|enc encs]; simpl; auto. destruct (_ && _); auto. apply obind_sim; auto.
  Qed.

  Lemma write_homo_sim : forall w1 w2, wsim w1 w2 -> wsim (write_homo w1) (write_homo w2).
  Proof.
    intros w1 w2 Hw fl e1 e2 v enc R H; unfold write_homo. destruct (is_none v); [exact H|].
    apply obind_same. intros vs Hvs. destruct (_ && _); [exact H|]. apply obind_same. intros encs _.
    apply write_items_sim; auto. eapply py_iter_ok; eauto.
  Qed.

  Lemma write_tuple_sim : forall ws1 ws2, Forall2 wsim ws1 ws2 -> forall fl vs encs e1 e2, Forall raws_ok vs -> E2 e1 e2 ->
    osim (write_tuple ws1 fl e1 vs encs) (write_tuple ws2 fl e2 vs encs).
  Proof.
    intros ws1 ws2 Hw; induction Hw as [|w1 w2 ws1 ws2 Hw Hs IH]; intros fl vs encs e1 e2 R H; simpl; auto.
    destruct vs as [|v vs]; simpl; auto. inv R. destruct encs as [|enc encs]; simpl; auto. apply obind_sim; auto.
  Qed.

  Lemma write_hetero_sim : forall ws1 ws2, Forall2 wsim ws1 ws2 -> wsim (write_hetero ws1) (write_hetero ws2).
  Proof.
    intros ws1 ws2 Hw fl e1 e2 v enc R H; unfold write_hetero. destruct (is_none v); [exact H|].
    apply obind_same. intros vs Hvs. destruct (_ && _); [exact H|]. rewrite (Forall2_len_s Hw). destruct (negb _); [reflexivity|].
    apply obind_same. intros encs _. apply write_tuple_sim; auto. eapply py_iter_ok; eauto.
  Qed.

  Lemma write_union_sim : forall wp1 wp2, (forall p, wsim (wp1 p) (wp2 p)) -> forall vs, wsim (write_union wp1 vs) (write_union wp2 vs).
  Proof.
    intros wp1 wp2 Hw vs; induction vs as [|p vs IH]; intros fl e1 e2 v enc R H; simpl; auto.
    destruct (match model_type v with Some _ => _ | None => _ end); [apply Hw; auto|apply IH; auto].
  Qed.

  Lemma write_tagged_sim : forall wp1 wp2, (forall p, wsim (wp1 p) (wp2 p)) -> forall d vs, wsim (write_tagged wp1 d vs) (write_tagged wp2 d vs).
  Proof.
    intros wp1 wp2 Hw d vs fl e1 e2 v enc R H; unfold write_tagged. destruct enc; simpl; auto.
    destruct (dget d d0) as [t|]; simpl; auto. destruct (py_truthy t); simpl; auto. destruct t; simpl; auto.
    destruct (dget s vs); simpl; auto. apply Hw; auto.
  Qed.

  Lemma find_or_create_sim : forall e1 e2 part mode ns, E2 e1 e2 ->
    fst (find_element_or_create (en_backend ev1) e1 part mode ns) = fst (find_element_or_create (en_backend ev2) e2 part mode ns) /\
    E2 (snd (find_element_or_create (en_backend ev1) e1 part mode ns)) (snd (find_element_or_create (en_backend ev2) e2 part mode ns)).
  Proof.
    intros e1 e2 part mode ns H; unfold find_element_or_create, find_element. destruct (E2_search H mode part true true) as [A B].
    destruct (search mode e1 part true true) as [r1 t1], (search mode e2 part true true) as [r2 t2]. simpl in *. subst r2.
    destruct r1; simpl; auto. pose proof (E2_inv B) as (?&?&?&?&F&?&?). rewrite (Forall2_len_s F). split; auto. apply E2_append; auto. apply E2_new.
  Qed.

  Lemma write_path_sim : forall mode ns path (k1 k2 : elem -> out elem), (forall e1 e2, E2 e1 e2 -> osim (k1 e1) (k2 e2)) ->
    forall e1 e2, E2 e1 e2 -> osim (write_path (en_backend ev1) mode ns path k1 e1) (write_path (en_backend ev2) mode ns path k2 e2).
  Proof.
    intros mode ns path k1 k2 K; induction path as [|part path IH]; intros e1 e2 H; simpl; auto.
    destruct (find_or_create_sim part mode ns H) as [A B].
    destruct (find_element_or_create (en_backend ev1) e1 part mode ns) as [r1 t1], (find_element_or_create (en_backend ev2) e2 part mode ns) as [r2 t2].
    simpl in *. subst r2. destruct r1 as [|i|]; simpl; auto. pose proof (E2_inv B) as (?&?&?&?&F&?&?). pose proof (Forall2_nth F i) as Hi.
    destruct (nth_error (e_elems t1) i), (nth_error (e_elems t2) i); try contradiction; simpl; auto.
    apply obind_sim; auto. intros c1 c2 Hc12. simpl. apply E2_elems; auto. apply Forall2_list_upd; auto.
  Qed.

  Lemma write_wrap_sim : forall path ns mode w1 w2, wsim w1 w2 ->
    wsim (write_wrap (en_backend ev1) path ns mode w1) (write_wrap (en_backend ev2) path ns mode w2).
  Proof.
    intros path ns mode w1 w2 Hw fl e1 e2 v enc R H; unfold write_wrap. destruct (is_none v); [exact H|]. destruct (_ && _); [exact H|].
    apply write_path_sim; auto.
  Qed.

  Lemma write_raw_sim : forall fl e1 e2 v, raws_ok v -> E2 e1 e2 -> osim (write_raw (en_backend ev1) fl e1 v) (write_raw (en_backend ev2) fl e2 v).
  Proof. intros fl e1 e2 v R H; inv R; simpl; auto. apply E2_append_unless; auto. apply from_native_E2; auto. Qed.

  Lemma getattr_ok : forall v name x, raws_ok v -> py_getattr v name = Ok x -> raws_ok x.
  Proof.
    intros v name x R H; inv R; simpl in H; try discriminate. destruct (dget name d) eqn:G; inv H. apply dget_Some_in in G.
    rewrite Forall_forall in H0. apply (H0 _ G).
  Qed.

  Lemma write_fields_sim : forall n cls m, en_model ev1 cls = Some m -> (forall s, wsim (write n ev1 s) (write n ev2 s)) ->
    forall fs fl e1 e2 v enc, raws_ok v -> E2 e1 e2 ->
    osim (write_fields (write n ev1) m fs fl e1 v enc) (write_fields (write n ev2) m fs fl e2 v enc).
  Proof.
    intros n cls m Hm Hw fs; induction fs as [|[name s] fs IH]; intros fl e1 e2 v enc R H; simpl; auto.
    destruct (str_in name (md_sexclude m)); auto. apply obind_same. intros unset _. destruct unset; auto.
    apply obind_same. intros x Hx. apply obind_sim; auto. destruct (md_cser m name) as [f|] eqn:Hf.
    - destruct H as [D N]. pose proof (@Hc cls m name f Hm Hf v x e1 e2 D N) as C.
      destruct (f v e1 x), (f v e2 x); simpl; auto.
    - apply obind_same. intros xe _. apply Hw; auto. eapply getattr_ok; eauto.
  Qed.

  Lemma write_model_sim : forall n cls m, en_model ev1 cls = Some m -> (forall s, wsim (write n ev1 s) (write n ev2 s)) ->
    wsim (write_model (write n ev1) m) (write_model (write n ev2) m).
  Proof.
    intros n cls m Hm Hw fl e1 e2 v enc R H; unfold write_model. destruct (is_none v); [exact H|]. destruct (md_root m).
    - apply obind_same. intros u _. destruct u; [exact H|]. destruct (md_fields m) as [|[nm s] fs]; [reflexivity|].
      apply obind_same. intros x Hx. apply Hw; auto. eapply getattr_ok; eauto.
    - eapply write_fields_sim; eauto.
  Qed.

  Lemma write_proxy_sim : forall n, (forall s, wsim (write n ev1 s) (write n ev2 s)) ->
    forall p, wsim (write_proxy ev1 (write n ev1) p) (write_proxy ev2 (write n ev2) p).
  Proof.
    intros n Hw p fl e1 e2 v enc R H; unfold write_proxy. rewrite <- Hmodel. destruct (en_model ev1 (px_model p)) as [m|] eqn:Hm; [|reflexivity].
    destruct (_ && _); [exact H|]. destruct (_ && _).
    - simpl. apply E2_append; auto. apply E2_attribute. apply E2_new.
    - destruct (is_none v); [exact H|]. apply append_sim; auto. eapply write_model_sim; eauto. apply E2_new.
  Qed.

  Lemma write_sim : forall n s, wsim (write n ev1 s) (write n ev2 s).
  Proof.
    intros n; induction n as [|n IH]; intros s fl e1 e2 v enc R H; [exact I|]. cbn [write]. destruct s; cbn [write_step].
    - apply write_text_sim; auto.
    - apply write_attr_sim; auto.
    - apply write_elem_sim; auto.
    - apply write_attrs_sim; auto.
    - apply write_map_elem_sim; auto.
    - apply write_homo_sim; auto.
    - apply write_hetero_sim; auto. apply Forall2_map_same; auto.
    - apply IH; auto.
    - apply write_union_sim; auto. apply write_proxy_sim; auto.
    - apply write_tagged_sim; auto. apply write_proxy_sim; auto.
    - apply write_wrap_sim; auto.
    - apply write_raw_sim; auto.
    - apply write_proxy_sim; auto.
  Qed.
End WSim.

Lemma E2_native : forall b1 b2 e1 e2, E2 e1 e2 ->
  match to_native b1 e1, to_native b2 e2 with Some t, Some u => same_but_prefixes t u | _, _ => False end.
Proof.
  intros b1 b2 e1; induction e1 as [tag ns text tail a l next line IH] using elem_ind'; intros e2 H; apply E2_inv in H.
  destruct e2 as [tag2 ns2 text2 tail2 a2 l2 next2 line2]. simpl in *. destruct H as (<-&<-&<-&<-&F&_&T). destruct tag as [t|]; [|congruence].
  assert (X : match map_opt (to_native b1) l, map_opt (to_native b2) l2 with Some n1, Some n2 => Forall2 same_but_prefixes n1 n2 | _, _ => False end).
  { clear -IH F. induction F as [|x y l l2 Hxy F IHF]; simpl; auto. inv IH. specialize (H1 _ Hxy). specialize (IHF H2).
    destruct (to_native b1 x), (to_native b2 y); try contradiction.
    destruct (map_opt (to_native b1) l), (map_opt (to_native b2) l2); try contradiction. auto. }
  destruct (map_opt (to_native b1) l), (map_opt (to_native b2) l2); try contradiction. constructor; auto.
Qed.

Lemma backends_write_alike : forall ev b, prefixes_unseen ev -> forall n encode v fl, raws_ok v ->
  same_tree (to_xml_tree n ev encode v fl) (to_xml_tree n (on_backend b ev) encode v fl).
Proof.
  intros ev b Hc n encode v fl R. unfold to_xml_tree. destruct (model_type v) as [cls|]; [|reflexivity]. simpl.
  destruct (en_model ev cls) as [m|] eqn:Hm; [|reflexivity].
  assert (X := @write_model_sim ev (on_backend b ev) Hc n cls m Hm (@write_sim ev (on_backend b ev) (fun _ => eq_refl) Hc n) fl
    (new_elem (TName (md_elem_name m)) None None None [] (md_nsmap m) (-1)) (new_elem (TName (md_elem_name m)) None None None [] (md_nsmap m) (-1)) v (encode v) R).
  assert (Y : E2 (new_elem (TName (md_elem_name m)) None None None [] (md_nsmap m) (-1)) (new_elem (TName (md_elem_name m)) None None None [] (md_nsmap m) (-1))).
  { apply E2_make; simpl; auto. discriminate. }
  specialize (X Y). destruct (write_model (write n ev) _ _ _ _ _) as [e1|x|], (write_model (write n (on_backend b ev)) _ _ _ _ _) as [e2|y|]; simpl in *; try contradiction; auto.
  pose proof (E2_native (en_backend ev) b X) as Z. destruct (to_native (en_backend ev) e1), (to_native b e2); try contradiction; auto.
Qed.

(** ---- conversions ---- *)

Lemma convert_back : forall b n, no_pi n -> exists n', to_native b (from_native b n) = Some n' /\ bare_copy n n'.
Proof.
  intros b n; induction n as [tag ns text tail a cs line IH| |] using native_ind'; intros H; inv H. simpl.
  assert (X : exists cs', map_opt (to_native b) (flat_map (fun c => if is_xml_comment c then [] else [from_native b c]) cs) = Some cs' /\
              Forall2 bare_copy (no_comments cs) cs').
  { clear -IH H1. induction cs as [|c cs IHc]; simpl; [exists []; auto|]. inv IH; inv H1. destruct (IHc H3 H5) as (cs' & E & F).
    destruct (is_xml_comment c) eqn:C; simpl; [exists cs'; auto|]. destruct H4 as [H4|H4]; [congruence|]. destruct (H2 H4) as (c' & E' & F').
    rewrite E', E. exists (c' :: cs'); auto. }
  destruct X as (cs' & -> & F). eexists; split; [reflexivity|]. destruct b; constructor; auto.
Qed.

Lemma convert_forth : forall b e, named e -> exists n, to_native b e = Some n /\ same_content e (from_native b n).
Proof.
  intros b e; induction e as [tag ns text tail a l next line IH] using elem_ind'; intros H; apply named_inv in H. simpl in H.
  destruct H as [T F]. simpl. destruct tag as [t|]; [|congruence].
  assert (X : exists cs, map_opt (to_native b) l = Some cs /\ Forall2 same_content l (flat_map (fun c => if is_xml_comment c then [] else [from_native b c]) cs)).
  { clear -IH F. induction l as [|c l IHl]; simpl; [exists []; simpl; auto|]. inv IH; inv F. destruct (IHl H2 H4) as (cs & E & G).
    destruct (H1 H3) as (c' & E' & G'). rewrite E', E. exists (c' :: cs). split; auto. simpl.
    assert (is_xml_comment c' = false) as ->; [|constructor; auto].
    destruct c as [[s|] ? ? ? ? ? ? ?]; simpl in E'; [|destruct b; inv E'; auto]. destruct (map_opt (to_native b) e_elems); inv E'; auto. }
  destruct X as (cs & -> & G). eexists; split; [reflexivity|]. simpl. constructor; simpl; auto.
Qed.
