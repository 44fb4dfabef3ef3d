(** PfPrefix.v -- proofs about prefix declarations. *)

From Verif Require Import Base Elem Native Errs Names Ser Write Api SpecElem SpecWrite SpecPrefix PfElem PfTerm PfWrite PfWrite2.
From Coq Require Import Permutation Lia.

Lemma dget_pair : forall A k (d : list (string * A)) v, dget k d = Some v -> In (k, v) d.
Proof.
  intros A k d v; induction d as [|[k' v'] d IH]; simpl; intros H; [discriminate|].
  destruct (String.eqb_spec k k'); [injection H as <-; subst; auto|auto].
Qed.

Section Traced.
  (** what is known about the tag and the namespace map of every element below *)
  Variable Q : xtag -> option nsmap -> Prop.

  Inductive traced : elem -> Prop :=
  | traced_intro : forall e, Forall (fun c => Q (e_tag c) (e_nsmap c) /\ traced c) (e_elems e) -> traced e.

  Lemma traced_inv : forall e, traced e -> Forall (fun c => Q (e_tag c) (e_nsmap c) /\ traced c) (e_elems e).
  Proof. intros e H; inversion H; auto. Qed.

  Lemma traced_same : forall e e', traced e -> e_elems e' = e_elems e -> traced e'.
  Proof. intros e e' H E; constructor; rewrite E; apply traced_inv; auto. Qed.

  Lemma traced_fresh : forall e, e_elems e = [] -> traced e.
  Proof. intros e H; constructor; rewrite H; constructor. Qed.

  Definition keeps (e e' : elem) : Prop := traced e' /\ e_tag e' = e_tag e /\ e_nsmap e' = e_nsmap e.

  Lemma keeps_refl : forall e, traced e -> keeps e e.
  Proof. split; auto. Qed.

  Lemma keeps_trans : forall e1 e2 e3, keeps e1 e2 -> keeps e2 e3 -> keeps e1 e3.
  Proof. intros e1 e2 e3 (A & B & C) (A' & B' & C'). split; auto. split; congruence. Qed.

  Lemma keeps_append : forall fl c e, traced e -> traced c -> Q (e_tag c) (e_nsmap c) -> keeps e (append_unless_empty fl c e).
  Proof.
    intros fl c e He Hc HQ. unfold append_unless_empty. destruct (_ && _); [apply keeps_refl; auto|].
    split; [|split; reflexivity]. constructor; simpl. apply Forall_app; split; [apply traced_inv; auto|]. constructor; auto.
  Qed.

  Definition wkeeps (w : writer) : Prop := forall fl e v enc e', traced e -> w fl e v enc = Ok e' -> keeps e e'.

  Lemma text_keeps : forall ni fl e v enc e', write_text ni fl e v enc = Ok e' ->
    e_elems e' = e_elems e /\ e_tag e' = e_tag e /\ e_nsmap e' = e_nsmap e.
  Proof.
    intros ni fl e v enc e' H; unfold write_text in H. destruct (_ && (_ || _)); [injection H as <-; auto|]. cbv zeta in H. ok H.
    injection H as <-. destruct (ni && is_none v); simpl; auto.
  Qed.

  Lemma attrs_keeps : forall a fl e v enc e', write_attrs a fl e v enc = Ok e' ->
    e_elems e' = e_elems e /\ e_tag e' = e_tag e /\ e_nsmap e' = e_nsmap e.
  Proof.
    intros a fl e v enc e' H; unfold write_attrs in H. destruct (is_none v); [injection H as <-; auto|].
    destruct enc; try discriminate. ok H. injection H as <-. auto.
  Qed.

  Lemma search_nsmap : forall m e tag behind step r e', search m e tag behind step = (r, e') ->
    e_nsmap e' = e_nsmap e.
  Proof. intros m e tag behind step r e' H. apply search_cases in H. destruct H as (l & n & _ & -> & _); auto. Qed.

  Lemma find_or_create_nsmap : forall b e tag m ns r e', find_element_or_create b e tag m ns = (r, e') -> e_nsmap e' = e_nsmap e.
  Proof.
    intros b e tag m ns r e' H; unfold find_element_or_create, find_element in H.
    destruct (search m e tag true true) as [[|j|] e1] eqn:S; apply search_nsmap in S; injection H as <- <-; auto.
  Qed.

  Lemma path_keeps : forall b mode ns path (k : elem -> out elem),
    (forall w, In w path -> Q (TName w) (match b with Lxml => ns | Std => None end)) ->
    (forall c c', traced c -> k c = Ok c' -> keeps c c') ->
    forall e e', traced e -> write_path b mode ns path k e = Ok e' -> keeps e e'.
  Proof.
    intros b mode ns path k HQ Hk; induction path as [|p rest IH]; intros e e' He H; simpl in H; auto.
    destruct (find_element_or_create b e p mode ns) as [[|i|] e1] eqn:F; try discriminate.
    destruct (nth_error (e_elems e1) i) as [c|] eqn:En; [|discriminate]. ok H. injection H as <-.
    pose proof (find_or_create_nsmap _ _ _ _ _ F) as N. apply find_or_create_perm in F. destruct F as [Tg P].
    assert (Fe1 : Forall (fun c => Q (e_tag c) (e_nsmap c) /\ traced c) (e_elems e1)).
    { destruct P as [P|P]; rewrite P; [apply traced_inv; auto|constructor; [|apply traced_inv; auto]].
      split; [apply HQ; simpl; auto|apply traced_fresh; auto]. }
    assert (Hc : Q (e_tag c) (e_nsmap c) /\ traced c) by (rewrite Forall_forall in Fe1; apply Fe1; eapply nth_error_In; eauto).
    destruct Hc as [Hc1 Hc2]. destruct (IH ltac:(intros; apply HQ; simpl; auto) _ _ Hc2 E) as (T1 & T2 & T3).
    split; [|split; simpl; auto]. constructor; simpl. apply Forall_list_upd; auto. split; auto. rewrite T2, T3; auto.
  Qed.

  Lemma items_keep : forall w, wkeeps w -> forall fl vs encs e e', traced e -> write_items w fl e vs encs = Ok e' -> keeps e e'.
  Proof.
    intros w Hw fl vs; induction vs as [|v vs IH]; intros encs e e' He H; simpl in H; [injection H as <-; apply keeps_refl; auto|].
    destruct encs as [|enc encs]; [injection H as <-; apply keeps_refl; auto|]. destruct (_ && _); [eauto|]. ok H.
    pose proof (Hw _ _ _ _ _ He E) as K. eapply keeps_trans; [exact K|]. eapply IH; [apply K|exact H].
  Qed.

  Lemma tuple_keeps : forall ws, Forall wkeeps ws -> forall fl vs encs e e', traced e -> write_tuple ws fl e vs encs = Ok e' -> keeps e e'.
  Proof.
    intros ws F; induction F as [|w ws Hw F IH]; intros fl vs encs e e' He H; simpl in H; [injection H as <-; apply keeps_refl; auto|].
    destruct vs as [|v vs]; [injection H as <-; apply keeps_refl; auto|]. destruct encs as [|enc encs]; [injection H as <-; apply keeps_refl; auto|].
    ok H. pose proof (Hw _ _ _ _ _ He E) as K. eapply keeps_trans; [exact K|]. eapply IH; [apply K|exact H].
  Qed.

  Variable ev : env.
  Hypothesis Hc : no_customs ev.

  (** [Q] holds of what a field declares *)
  Definition fits (s : ser) : Prop := no_raw s /\
    forall tag ns, declares s tag ns -> Q (TName tag) (match en_backend ev with Lxml => ns | Std => None end).

  Hypothesis HQ : forall cls m name s, en_model ev cls = Some m -> In (name, s) (md_fields m) -> fits s.

  Lemma fields_keep : forall w cls m, en_model ev cls = Some m ->
    forall fs, Forall (fun nf : string * ser => wkeeps (w (snd nf))) fs ->
    forall fl v enc e e', traced e -> write_fields w m fs fl e v enc = Ok e' -> keeps e e'.
  Proof.
    intros w cls m Hm fs F; induction F as [|[name s] fs Hs F IH]; intros fl v enc e e' He H; simpl in H; [injection H as <-; apply keeps_refl; auto|].
    destruct (str_in name (md_sexclude m)); [eauto|]. ok H. destruct a; [eauto|]. ok H. ok H.
    rewrite (@Hc cls m name Hm) in E1. ok E1.
    pose proof (Hs _ _ _ _ _ He E1) as K. eapply keeps_trans; [exact K|]. eapply IH; [apply K|exact H].
  Qed.

  Lemma model_keeps : forall w cls m, en_model ev cls = Some m -> (forall s, fits s -> wkeeps (w s)) -> wkeeps (write_model w m).
  Proof.
    intros w cls m Hm Hw fl e v enc e' He H; unfold write_model in H.
    destruct (is_none v); [injection H as <-; apply keeps_refl; auto|]. destruct (md_root m).
    - ok H. destruct a; [injection H as <-; apply keeps_refl; auto|]. destruct (md_fields m) as [|[nm s] fs] eqn:Fs; [discriminate|].
      ok H. eapply Hw; [|exact He|exact H]. eapply HQ; [exact Hm|]. rewrite Fs; simpl; eauto.
    - eapply fields_keep; [exact Hm| |exact He|exact H]. apply Forall_forall. intros [nm s] I. apply Hw. eapply HQ; eauto.
  Qed.

  Lemma proxy_keeps : forall w p, (forall s, fits s -> wkeeps (w s)) ->
    Q (TName (px_name p)) (match en_backend ev with Lxml => px_nsmap p | Std => None end) -> wkeeps (write_proxy ev w p).
  Proof.
    intros w p Hw Hp fl e v enc e' He H; unfold write_proxy in H. destruct (en_model ev (px_model p)) as [m|] eqn:Hm; [|discriminate].
    destruct (_ && _); [injection H as <-; apply keeps_refl; auto|]. destruct (_ && _).
    { injection H as <-. split; [|split; reflexivity]. constructor; simpl. apply Forall_app; split; [apply traced_inv; auto|].
      constructor; [|constructor]. split; [apply Hp|apply traced_fresh; auto]. }
    destruct (is_none v); [injection H as <-; apply keeps_refl; auto|]. ok H. injection H as <-.
    assert (T0 : traced (make_element (en_backend ev) (px_name p) (px_nsmap p))) by (apply traced_fresh; reflexivity).
    destruct (@model_keeps w _ m Hm Hw fl _ v enc a T0 E) as (T1 & T2 & T3).
    apply keeps_append; auto. rewrite T2, T3. exact Hp.
  Qed.

  Lemma write_keeps : forall n s, fits s -> wkeeps (write n ev s).
  Proof.
    intros n; induction n as [|n IH]; intros s [R F] fl e v enc e' He H; [discriminate|]. cbn [write] in H.
    destruct s; cbn [write_step] in H.
    - apply text_keeps in H. destruct H as (A & B & C). split; [eapply traced_same; eauto|auto].
    - unfold write_attr in H. destruct (_ && (_ || _)); [injection H as <-; apply keeps_refl; auto|]. ok H. injection H as <-.
      split; [eapply traced_same; [exact He|reflexivity]|auto].
    - unfold write_elem in H. destruct (_ && (_ || _)); [injection H as <-; apply keeps_refl; auto|]. ok H. injection H as <-.
      apply text_keeps in E. destruct E as (A & B & C). apply keeps_append; auto; [apply traced_fresh; auto|]. rewrite B, C. apply F. constructor.
    - apply attrs_keeps in H. destruct H as (A & B & C). split; [eapply traced_same; eauto|auto].
    - unfold write_map_elem in H.
      assert (G : forall sub, write_attrs a fl (make_element (en_backend ev) name (as_nsmap a)) v enc = Ok sub -> keeps e (append_unless_empty fl sub e)).
      { intros sub E. apply attrs_keeps in E. destruct E as (A & B & C). apply keeps_append; auto; [apply traced_fresh; auto|].
        rewrite B, C. apply F. constructor. }
      destruct (fl_skip_empty fl).
      + destruct (py_len v) as [[|k]|]; [injection H as <-; apply keeps_refl; auto| |discriminate]. ok H. injection H as <-. auto.
      + ok H. injection H as <-. auto.
    - inversion R; subst. unfold write_homo in H. destruct (is_none v); [injection H as <-; apply keeps_refl; auto|]. ok H.
      destruct (_ && _); [injection H as <-; apply keeps_refl; auto|]. ok H. eapply items_keep; [|exact He|exact H].
      apply IH. split; auto. intros; apply F; constructor; auto.
    - inversion R; subst. unfold write_hetero in H. destruct (is_none v); [injection H as <-; apply keeps_refl; auto|]. ok H.
      destruct (_ && _); [injection H as <-; apply keeps_refl; auto|]. destruct (negb _); [discriminate|]. ok H.
      eapply tuple_keeps; [|exact He|exact H]. rewrite Forall_map. apply Forall_forall. intros s Is. apply IH.
      split; [rewrite Forall_forall in *; auto|]. intros; apply F; econstructor; eauto.
    - inversion R; subst. eapply IH; [|exact He|exact H]. split; auto. intros; apply F; constructor; auto.
    - assert (G : forall p, In p variants -> wkeeps (write_proxy ev (write n ev) p)).
      { intros p Ip. apply proxy_keeps; auto. apply F. constructor; auto. }
      clear R F. induction variants as [|p vs IHv]; simpl in H; [injection H as <-; apply keeps_refl; auto|].
      destruct (match model_type v with Some _ => _ | None => _ end); [eapply G; simpl; eauto|]. apply IHv; auto. intros; apply G; simpl; auto.
    - unfold write_tagged in H. destruct enc; try discriminate. destruct (dget disc d) as [tag|]; [|injection H as <-; apply keeps_refl; auto].
      destruct (py_truthy tag); [|injection H as <-; apply keeps_refl; auto]. destruct tag; try discriminate.
      destruct (dget s variants) as [p|] eqn:D; [|discriminate]. eapply proxy_keeps; [exact IH| |exact He|exact H].
      apply F. econstructor. apply dget_pair; eauto.
    - inversion R; subst. unfold write_wrap in H. destruct (is_none v); [injection H as <-; apply keeps_refl; auto|].
      destruct (_ && _); [injection H as <-; apply keeps_refl; auto|]. eapply path_keeps; [| |exact He|exact H].
      + intros w Iw. apply F. constructor; auto.
      + cbv beta. intros c c' Hc' Hw. eapply IH; [|exact Hc'|exact Hw]. split; auto. intros; apply F; apply decl_wrapped; auto.
    - inversion R.
    - eapply proxy_keeps; [exact IH| |exact He|exact H]. apply F. constructor.
  Qed.
End Traced.

Lemma native_prefixed : forall b ns, prefixed b ns (match b with Lxml => native_nsmap (match b with Lxml => ns | Std => None end) | Std => [] end).
Proof.
  intros [|] ns; [|reflexivity]. intros prefix u. unfold native_nsmap. destruct ns as [m|].
  - rewrite in_map_iff. split.
    + intros ([q u'] & E & I). injection E as E1 E2. simpl in *. subst u'. exists m; split; auto.
      destruct (String.eqb_spec q ""); subst; auto.
    + intros (m' & E & I). injection E as <-. destruct prefix as [p|].
      * destruct I as [N I]. exists (p, u); split; auto. simpl. destruct (String.eqb_spec p ""); congruence.
      * exists ("", u); split; auto.
  - split; [intros []|intros (m & E & _); discriminate].
Qed.

Lemma traced_native : forall (D : string -> option nsmap -> Prop) b e n,
  traced (fun t ns => exists tag ns', t = TName tag /\ ns = match b with Lxml => ns' | Std => None end /\ D tag ns') e ->
  to_native b e = Some n -> forall d, below n d ->
  exists tag ns decls text tail attrib cs line, d = NElem tag decls text tail attrib cs line /\ prefixed b ns decls /\ D tag ns.
Proof.
  intros D b e; induction e as [tag ns text tail attrib elements next line IH] using elem_ind'.
  intros n T H d B. simpl in H. destruct tag as [t|]; [|destruct b; [discriminate|injection H as <-; inversion B]].
  destruct (map_opt (to_native b) elements) as [cs|] eqn:M; [|discriminate]. injection H as <-.
  apply traced_inv in T. simpl in T. rewrite Forall_forall in T, IH. inversion B; subst.
  - destruct (@map_opt_in _ _ _ _ _ M d ltac:(eassumption)) as (x & Hx & Ex). destruct (T x Hx) as [(tag & ns' & Ht & Hn & HD) _].
    destruct x; simpl in *. subst. destruct (map_opt (to_native b) e_elems); [|discriminate]. injection Ex as <-.
    exists tag, ns'. do 6 eexists. split; [reflexivity|]. split; auto. apply native_prefixed.
  - destruct (@map_opt_in _ _ _ _ _ M c ltac:(eassumption)) as (x & Hx & Ex). destruct (T x Hx) as [_ Tx]. eapply IH; eauto.
Qed.

Lemma prefixes_written : forall ev, no_customs ev -> env_no_raw ev -> forall n encode cls attrs set fl m t,
  en_model ev cls = Some m -> to_xml_tree n ev encode (VModel cls attrs set) fl = Ok t ->
  (exists decls text tail attrib cs line, t = NElem (md_elem_name m) decls text tail attrib cs line /\
     prefixed (en_backend ev) (md_nsmap m) decls) /\
  (forall d, below t d -> exists tag ns decls text tail attrib cs line,
     d = NElem tag decls text tail attrib cs line /\ prefixed (en_backend ev) ns decls /\ declared_in ev tag ns).
Proof.
  intros ev Hc Hr n encode cls attrs set fl m t Hm H. unfold to_xml_tree in H. cbn [model_type] in H. rewrite Hm in H.
  ok H. destruct (to_native (en_backend ev) a) as [t'|] eqn:Et; [|discriminate]. injection H as <-.
  set (Q := fun t ns => exists tag ns', t = TName tag /\ ns = match en_backend ev with Lxml => ns' | Std => None end /\ declared_in ev tag ns').
  assert (HQ : forall cls m name s, en_model ev cls = Some m -> In (name, s) (md_fields m) -> fits Q ev s).
  { intros cls' m' name s Hm' Is. split.
    - specialize (Hr cls' m' Hm'). rewrite Forall_forall in Hr. apply (Hr _ Is).
    - intros tag ns D. exists tag, ns. split; auto. split; auto. exists cls', m', name, s. auto. }
  match type of E with write_model _ _ _ ?r _ _ = _ => assert (T0 : traced Q r) by (apply traced_fresh; reflexivity) end.
  destruct (@model_keeps Q ev Hc HQ (write n ev) cls m Hm (@write_keeps Q ev Hc HQ n) fl _ _ _ _ T0 E) as (T1 & T2 & T3).
  split.
  - destruct a as [tag ns text tail attrib elements next line]. simpl in T2, T3, Et. subst.
    destruct (map_opt (to_native (en_backend ev)) elements) as [cs|]; [|discriminate]. injection Et as <-.
    do 6 eexists. split; [reflexivity|]. pose proof (native_prefixed (en_backend ev) (md_nsmap m)) as P. destruct (en_backend ev); auto.
  - eapply traced_native; eauto.
Qed.
