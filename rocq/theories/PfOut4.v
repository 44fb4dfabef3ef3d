(** PfOut4.v -- whatever is written is described by pieces. *)

From Verif Require Import Base Elem Native Errs Names Ser Write Read Api SpecElem SpecRead SpecWrite SpecScalar SpecSim SpecOut
  PfScalar PfElem PfFuel PfWrite PfWrite2 PfWSim PfPrefix PfOut PfOut2 PfOut3.

Local Ltac inv H := inversion H; subst; clear H.

Section Sound.
  Variable ev : env.
  Hypothesis NC : no_customs ev.
  Let b := en_backend ev.

  Definition W (t : string) : Prop := exists cls m name s, en_model ev cls = Some m /\ In (name, s) (md_fields m) /\ step_of t s.

  Definition rok (n : native) : Prop := is_element n /\ forall t, W t -> draft_tag (Given n) <> Some t.
  Definition vok (v : val) : Prop := forall n, raw_in n v -> rok n.
  Definition sok (s : ser) : Prop := forall t, step_of t s -> W t.
  Definition mok (m : mdef) : Prop := no_custom m /\ forall name s, In (name, s) (md_fields m) -> sok s.

  Inductive dok : draft -> Prop :=
  | dok_made : forall tag ns text attrs ch, Forall dok ch -> dok (Draft tag ns text attrs ch)
  | dok_given : forall n, rok n -> dok (Given n).
  Inductive pok : piece -> Prop :=
  | pok_text : forall s, pok (PText s)
  | pok_attr : forall n v, pok (PAttr n v)
  | pok_attrs : forall m, pok (PAttrs m)
  | pok_child : forall d, dok d -> pok (PChild d)
  | pok_in : forall t ns ps, W t -> Forall pok ps -> pok (PIn t ns ps).

  Definition made (d : draft) : Prop := match d with Draft _ _ _ _ _ => True | Given _ => False end.

  Lemma put_total : forall p, pok p -> forall d, dok d -> made d -> exists d', put p d = Some d' /\ dok d' /\ made d'.
  Proof.
    intros p; induction p as [s|n v|m|c|t tns ps IH] using piece_ind'; intros P d D M; (destruct d as [tag ns text attrs ch|x]; [|contradiction]);
      inversion D as [? ? ? ? ? F|]; subst.
    - eexists; split; [reflexivity|]. split; [constructor; auto|exact I].
    - eexists; split; [reflexivity|]. split; [constructor; auto|exact I].
    - eexists; split; [reflexivity|]. split; [constructor; auto|exact I].
    - eexists; split; [reflexivity|]. split; [constructor; auto|exact I]. inv P. apply Forall_app; auto.
    - inversion P as [| | | |? ? ? Wt Fp]; subst. rewrite put_in.
      assert (X : exists front c, match split_last ch with Some (front, c) => if match draft_tag c with Some t' => String.eqb t' t | None => false end then (front, c) else (ch, fresh t tns) | None => (ch, fresh t tns) end = (front, c) /\
                Forall dok front /\ dok c /\ made c).
      { destruct (split_last ch) as [[front c]|] eqn:Sp; [|exists ch, (fresh t tns); split; [auto|split; [auto|split; [repeat constructor|exact I]]]].
        destruct (match draft_tag c with Some t' => String.eqb t' t | None => false end) eqn:T; [|exists ch, (fresh t tns); split; [auto|split; [auto|split; [repeat constructor|exact I]]]].
        assert (Ec : ch = front ++ [c]).
        { clear -Sp. revert front c Sp. induction ch as [|x ch IH]; intros front c Sp; [discriminate|]. simpl in Sp.
          destruct (split_last ch) as [[f z]|] eqn:E; injection Sp as <- <-; [rewrite (IH f z); auto|]. destruct ch as [|y ch]; auto.
          simpl in E. destruct (split_last ch) as [[? ?]|]; discriminate. }
        rewrite Ec in F. apply Forall_app in F as [F1 F2]. inversion F2 as [|? ? Dc _]; subst.
        exists front, c. split; [auto|split; [auto|split; [auto|]]]. destruct c as [|x]; [exact I|].
        inversion Dc as [|? [_ R]]; subst. destruct (draft_tag (Given x)) as [t'|] eqn:Tx; [|discriminate]. apply String.eqb_eq in T. subst t'.
        exfalso. eapply R; eauto. }
      destruct X as (front & c & -> & Ff & Dc & Mc). destruct c as [tg n1 tx a1 c1|]; [|contradiction].
      assert (Y : exists c', puts ps (Draft tg n1 tx a1 c1) = Some c' /\ dok c').
      { assert (Z : forall d, dok d -> made d -> exists d', puts ps d = Some d' /\ dok d').
        { clear -IH Fp. induction ps as [|q ps IHp]; intros d Dd Md; [exists d; auto|]. inversion IH; inversion Fp; subst. cbn [puts].
          destruct (H1 H5 d Dd Md) as (d1 & -> & D1 & M1). apply IHp; auto. }
        apply Z; auto. }
      destruct Y as (c' & -> & Dc'). eexists; split; [reflexivity|]. split; [|exact I]. constructor. apply Forall_app; auto.
  Qed.

  Lemma puts_total : forall ps, Forall pok ps -> forall d, dok d -> made d -> exists d', puts ps d = Some d' /\ dok d' /\ made d'.
  Proof.
    intros ps F; induction F as [|p ps P F IH]; intros d D M; cbn [puts]; [exists d; auto|].
    destruct (put_total P D M) as (d1 & -> & D1 & M1). auto.
  Qed.

  Lemma fresh_total : forall ps tag ns, Forall pok ps -> exists d, puts ps (fresh tag ns) = Some d /\ dok d.
  Proof.
    intros ps tag ns F. destruct (@puts_total ps F (fresh tag ns)) as (d & E & D & _); [repeat constructor|exact I|eauto].
  Qed.

  Lemma blank_text_dec : forall t, blank_text t \/ ~ blank_text t.
  Proof. intros [[|]|]; unfold blank_text; auto. right. intros [H|H]; discriminate. Qed.

  Lemma nil_dec : forall A (l : list A), l = [] \/ l <> [].
  Proof. intros A [|]; auto. right; discriminate. Qed.

  Lemma blank_dec : forall d, blank d \/ ~ blank d.
  Proof.
    intros [tag ns text attrs ch|[tag ns text tail attrs ch line| |]]; cbn [blank]; auto.
    - destruct (blank_text_dec text), (nil_dec attrs), (nil_dec ch); tauto.
    - destruct (blank_text_dec text), (blank_text_dec tail), (nil_dec attrs), (nil_dec (no_comments ch)); tauto.
  Qed.

  Lemma child_exists : forall fl d, dok d -> exists ps, as_child fl d ps /\ Forall pok ps.
  Proof.
    intros fl d D. destruct (fl_skip_empty fl) eqn:Sk.
    - destruct (blank_dec d) as [B|B]; [exists []; split; [apply ac_skipped; auto|constructor]|].
      exists [PChild d]. split; [constructor; tauto|repeat constructor; auto].
    - exists [PChild d]. split; [constructor; intros [E _]; congruence|repeat constructor; auto].
  Qed.

  Definition good (s : ser) (w : writer) : Prop := forall fl e v enc e', vok v -> w fl e v enc = Ok e' -> exists ps, writes ev fl s v enc ps /\ Forall pok ps.

  Lemma content_pok : forall n v t, Forall pok (content n v t).
  Proof. intros [] v t; unfold content; destruct v; repeat constructor. Qed.

  Lemma attrs_good : forall a, good (SAttrs a) (write_attrs a).
  Proof.
    intros a fl e v enc e' V H. unfold write_attrs in H. destruct (is_none v) eqn:N.
    - destruct v; try discriminate. exists []. split; [apply w_no_mapping|constructor].
    - destruct enc as [| | | | | |d| |]; try discriminate. destruct (attrs_items (attrs_uri a) d) as [items|?|] eqn:E; try discriminate.
      exists [PAttrs (dict_of items)]. split; [|repeat constructor]. econstructor; [apply is_none_false; auto|apply mapping_uri; reflexivity|apply items_iff; auto].
  Qed.

  Lemma vok_list : forall l v, vok (VList l) -> In v l -> vok v.
  Proof. intros l v H I n R. apply H. econstructor; eauto. Qed.

  Lemma vok_attr : forall cls attrs set name v, vok (VModel cls attrs set) -> dget name attrs = Some v -> vok v.
  Proof. intros cls attrs set name v H I n R. apply H. apply dget_pair in I. econstructor; eauto. Qed.

  Lemma items_good : forall s w, good s w -> forall fl vs encs e e', (forall v, In v vs -> vok v) -> write_items w fl e vs encs = Ok e' ->
    exists ps, writes_items ev fl s vs encs ps /\ Forall pok ps.
  Proof.
    intros s w G fl vs; induction vs as [|v vs IH]; intros [|enc encs] e e' V H; cbn [write_items] in H;
      try solve [exists []; split; constructor].
    destruct (fl_skip_empty fl && is_none v) eqn:X.
    - apply andb_true_iff in X as [X1 X2]. destruct v; try discriminate. destruct (IH _ _ _ (fun v I => V v (or_intror I)) H) as (ps & Q & F).
      exists ps. split; auto. constructor; auto.
    - destruct (w fl e v enc) as [e1|?|] eqn:E; try discriminate. cbn [obind] in H.
      destruct (G _ _ _ _ _ (V v (or_introl eq_refl)) E) as (ps & Q & F). destruct (IH _ _ _ (fun v I => V v (or_intror I)) H) as (ps' & Q' & F').
      exists (ps ++ ps'). split; [constructor; auto|apply Forall_app; auto]. intros [Y ->]. rewrite Y in X. discriminate.
  Qed.

  Lemma tuple_good : forall (w : ser -> writer) fl l, (forall s, In s l -> good s (w s)) -> forall vs encs e e', (forall v, In v vs -> vok v) ->
    write_tuple (map w l) fl e vs encs = Ok e' -> exists ps, writes_tuple ev fl l vs encs ps /\ Forall pok ps.
  Proof.
    intros w fl l; induction l as [|s l IH]; intros G [|v vs] [|enc encs] e e' V H; cbn [map write_tuple] in H;
      try solve [exists []; split; [apply wt_end; auto|constructor]].
    destruct (w s fl e v enc) as [e1|?|] eqn:E; try discriminate. cbn [obind] in H.
    destruct (G s (or_introl eq_refl) _ _ _ _ _ (V v (or_introl eq_refl)) E) as (ps & Q & F).
    destruct (IH (fun s I => G s (or_intror I)) _ _ _ _ (fun v I => V v (or_intror I)) H) as (ps' & Q' & F').
    exists (ps ++ ps'). split; [constructor; auto|apply Forall_app; auto].
  Qed.

  Section Step.
    Variable w : ser -> writer.
    Hypothesis Gw : forall s, sok s -> good s (w s).

    Lemma fields_good : forall m fl, mok m -> forall fs, (forall name s, In (name, s) fs -> sok s) -> forall v enc e e', vok v ->
      write_fields w m fs fl e v enc = Ok e' -> exists ps, writes_fields ev fl m fs v enc ps /\ Forall pok ps.
    Proof.
      intros m fl [Mc _] fs; induction fs as [|[name s] fs IH]; intros Fs v enc e e' V H; cbn [write_fields] in H; [exists []; split; constructor|].
      specialize (IH (fun n s I => Fs n s (or_intror I))).
      destruct (str_in name (md_sexclude m)) eqn:X.
      - destruct (IH _ _ _ _ V H) as (ps & Q & F). exists ps. split; auto. apply wf_excluded; auto. apply str_in_spec; auto.
      - assert (NX : ~ In name (md_sexclude m)) by (intros I; apply str_in_spec in I; congruence).
        destruct (if fl_exclude_unset fl then is_unset v name else Ok false) as [un|?|] eqn:U; try discriminate. cbn [obind] in H.
        destruct un.
        + destruct (IH _ _ _ _ V H) as (ps & Q & F). exists ps. split; auto. destruct (fl_exclude_unset fl) eqn:Y; [|discriminate].
          destruct v; try discriminate. cbn [is_unset] in U. injection U as U. apply negb_true_iff in U. apply wf_unset; auto.
          intros I. apply str_in_spec in I. congruence.
        + destruct (py_getattr v name) as [x|?|] eqn:G; try discriminate. cbn [obind] in H. rewrite Mc in H.
          destruct (py_getitem enc name) as [xe|?|] eqn:G'; try discriminate. cbn [obind] in H.
          destruct (w s fl e x xe) as [e1|?|] eqn:E; try discriminate. cbn [obind] in H.
          destruct v as [| | | | | | |cls attrs set|]; try discriminate. cbn [py_getattr] in G. destruct (dget name attrs) as [y|] eqn:Da; [|discriminate]. injection G as ->.
          destruct enc as [| | | | | |d| |]; try discriminate. cbn [py_getitem] in G'. destruct (dget name d) as [y|] eqn:Dd; [|discriminate]. injection G' as ->.
          destruct (IH _ _ _ _ V H) as (ps' & Q' & F').
          destruct (Gw (Fs name s (or_introl eq_refl)) (vok_attr _ V Da) E) as (ps & Q & F).
          exists (ps ++ ps'). split; [|apply Forall_app; auto]. eapply wf_field; eauto. intros [Y N]. rewrite Y in U. cbn [is_unset] in U.
          injection U as U. apply negb_false_iff in U. apply str_in_spec in U. contradiction.
    Qed.

    Lemma model_good : forall m fl v enc e e', mok m -> vok v -> is_none v = false -> write_model w m fl e v enc = Ok e' ->
      exists ps, writes_model ev fl m v enc ps /\ Forall pok ps.
    Proof.
      intros m fl v enc e e' M V N H. unfold write_model in H. rewrite N in H. destruct (md_root m) eqn:R.
      - destruct (if fl_exclude_unset fl then is_unset v "root" else Ok false) as [un|?|] eqn:U; try discriminate. cbn [obind] in H.
        destruct un.
        + destruct (fl_exclude_unset fl) eqn:Y; [|discriminate]. destruct v; try discriminate. cbn [is_unset] in U. injection U as U. apply negb_true_iff in U.
          exists []. split; [|constructor]. apply wm_root_unset; auto. intros I. apply str_in_spec in I. congruence.
        + destruct (md_fields m) as [|[name s] rest] eqn:Fm; [discriminate|]. destruct (py_getattr v "root") as [x|?|] eqn:G; try discriminate. cbn [obind] in H.
          destruct v as [| | | | | | |cls attrs set|]; try discriminate. cbn [py_getattr] in G. destruct (dget "root" attrs) as [y|] eqn:Da; [|discriminate]. injection G as ->.
          assert (So : sok s) by (apply (proj2 M name); rewrite Fm; left; auto).
          destruct (Gw So (vok_attr _ V Da) H) as (ps & Q & F). exists ps. split; auto. eapply wm_root; eauto.
          intros [Y I]. rewrite Y in U. cbn [is_unset] in U. injection U as U. apply negb_false_iff in U. apply str_in_spec in U. contradiction.
      - destruct (@fields_good m _ M _ (proj2 M) _ _ _ _ V H) as (ps & Q & F). exists ps. split; auto. apply wm_fields; auto. apply is_none_false; auto.
    Qed.

    Lemma env_mok : forall cls m, en_model ev cls = Some m -> mok m.
    Proof. intros cls m E. split; [intros name; eapply NC; eauto|]. intros name s I t T. exists cls, m, name, s; auto. Qed.

    Lemma proxy_good : forall p fl v enc e e', vok v -> write_proxy ev w p fl e v enc = Ok e' -> exists ps, writes_sub ev fl p v enc ps /\ Forall pok ps.
    Proof.
      intros p fl v enc e e' V H. unfold write_proxy in H. destruct (en_model ev (px_model p)) as [m|] eqn:E; [|discriminate].
      destruct (is_none v) eqn:N.
      - destruct v; try discriminate. destruct (fl_exclude_none fl) eqn:X; [exists []; split; [eapply ws_none; eauto|constructor]|].
        destruct (px_nillable p) eqn:Y; [|exists []; split; [eapply ws_none; eauto|constructor]].
        eexists; split; [eapply ws_nil; eauto|]. repeat constructor.
      - rewrite !andb_false_r in H. destruct (write_model w m fl _ v enc) as [sub|?|] eqn:Wm; try discriminate.
        destruct (model_good _ _ _ (env_mok _ E) V N Wm) as (ps0 & Q & F). destruct (@fresh_total ps0 (px_name p) (px_nsmap p) F) as (d & Pd & D).
        destruct (child_exists fl D) as (ps & A & Fp). exists ps. split; auto. eapply ws_value; eauto. apply is_none_false; auto.
    Qed.

    Lemma path_inner : forall b0 mode ns path k e e', write_path b0 mode ns path k e = Ok e' -> exists c c', k c = Ok c'.
    Proof.
      intros b0 mode ns path k; induction path as [|t path IH]; intros e e' H; cbn [write_path] in H; [eauto|].
      destruct (find_element_or_create b0 e t mode ns) as [[|i|] e1]; try discriminate. destruct (nth_error (e_elems e1) i) as [c|]; [|discriminate].
      destruct (write_path b0 mode ns path k c) as [c'|?|] eqn:E; try discriminate. eauto.
    Qed.

    Lemma nested_pok : forall ns ps path, Forall W path -> Forall pok ps -> Forall pok (nested path ns ps).
    Proof. intros ns ps path F P; induction F; cbn [nested]; auto. constructor; [constructor; auto|constructor]. Qed.

    Lemma step_good : forall s, sok s -> good s (write_step ev w s).
    Proof.
      intros s So fl e v enc e' V H.
      destruct s as [c n|n c|n ns m c ni|a|n m a|t c s h|t c l h|c s|t c vs h|c disc an vs m|path ns m c s|n m c|p]; cbn [write_step] in H.
      - unfold write_text in H. destruct (is_none v && (fl_skip_empty fl || fl_exclude_none fl)) eqn:O.
        { exists []. split; [apply w_omitted; [constructor|apply omitted_test; auto]|constructor]. }
        apply not_omitted_test in O. destruct (encode_primitive enc) as [t|?|] eqn:E; try discriminate. apply encode_iff in E.
        eexists; split; [eapply w_text; eauto|apply content_pok].
      - unfold write_attr in H. destruct (is_none v && (fl_skip_empty fl || fl_exclude_none fl)) eqn:O.
        { exists []. split; [apply w_omitted; [constructor|apply omitted_test; auto]|constructor]. }
        apply not_omitted_test in O. destruct (encode_primitive enc) as [t|?|] eqn:E; try discriminate. apply encode_iff in E.
        eexists; split; [eapply w_attr; eauto|repeat constructor].
      - unfold write_elem in H. destruct (is_none v && (fl_skip_empty fl || fl_exclude_none fl)) eqn:O.
        { exists []. split; [apply w_omitted; [constructor|apply omitted_test; auto]|constructor]. }
        unfold write_text in H. rewrite O in H. apply not_omitted_test in O. destruct (encode_primitive enc) as [t|?|] eqn:E; try discriminate. apply encode_iff in E.
        destruct (@fresh_total _ n ns (content_pok ni v t)) as (d & Pd & D). destruct (child_exists fl D) as (ps & A & Fp).
        exists ps. split; auto. eapply w_elem; eauto.
      - eapply attrs_good; eauto.
      - unfold write_map_elem in H.
        assert (X : obind (write_attrs a fl (make_element (en_backend ev) n (as_nsmap a)) v enc) (fun sub => Ok (append_unless_empty fl sub e)) = Ok e' ->
          (fl_skip_empty fl = true -> countable v /\ ~ empty_value v) -> exists ps, writes ev fl (SMapElem n m a) v enc ps /\ Forall pok ps).
        { intros X Y. destruct (write_attrs a fl _ v enc) as [sub|?|] eqn:E; try discriminate. destruct (attrs_good _ _ _ _ V E) as (ps0 & Q & F).
          destruct (@fresh_total _ n (as_nsmap a) F) as (d & Pd & D). destruct (child_exists fl D) as (ps & A & Fp). exists ps. split; auto. eapply w_mapping_element; eauto. }
        destruct (fl_skip_empty fl) eqn:Sk; [|apply X; [auto|discriminate]].
        destruct (py_len v) as [[|k]|] eqn:L; [| |discriminate].
        + exists []. split; [apply w_empty_mapping; auto; apply empty_iff; auto|constructor].
        + apply X; auto. intros _. rewrite <- empty_iff, L. split; [|discriminate]. destruct v as [| | | |? [|]| | | |]; simpl in *; auto; discriminate.
      - unfold write_homo in H. destruct (is_none v) eqn:N; [destruct v; try discriminate; exists []; split; [apply w_no_list|constructor]|].
        destruct v as [| | | | |vs| | |]; try discriminate. cbn [py_iter obind] in H.
        destruct (fl_skip_empty fl && Nat.eqb (length vs) 0) eqn:Z.
        + apply andb_true_iff in Z as [Z1 Z2]. apply Nat.eqb_eq, length_zero_iff_nil in Z2. subst. exists []. split; [apply w_empty_list; auto|constructor].
        + destruct (py_iter enc) as [encs|?|] eqn:E; try discriminate. cbn [obind] in H. destruct enc; try discriminate. injection E as ->.
          assert (G : good s (w s)) by (apply Gw; intros t' T; apply So; constructor; auto).
          destruct (@items_good _ _ G _ _ _ _ _ (fun v I => @vok_list _ v V I) H) as (ps & Q & F). exists ps. split; auto. apply w_list; auto.
          intros Sk ->. rewrite Sk in Z. discriminate.
      - unfold write_hetero in H. destruct (is_none v) eqn:N; [destruct v; try discriminate; exists []; split; [apply w_no_tuple|constructor]|].
        destruct v as [| | | | |vs| | |]; try discriminate. cbn [py_iter obind] in H.
        destruct (fl_skip_empty fl && Nat.eqb (length vs) 0) eqn:Z.
        + apply andb_true_iff in Z as [Z1 Z2]. apply Nat.eqb_eq, length_zero_iff_nil in Z2. subst. exists []. split; [apply w_empty_tuple; auto|constructor].
        + destruct (Nat.eqb_spec (length vs) (length (map w l))) as [Le|]; [|discriminate]. cbn [negb] in H.
          destruct (py_iter enc) as [encs|?|] eqn:E; try discriminate. cbn [obind] in H. destruct enc; try discriminate. injection E as ->.
          assert (G : forall s, In s l -> good s (w s)) by (intros s I; apply Gw; intros t' T; apply So; econstructor; eauto).
          destruct (@tuple_good w _ _ G _ _ _ _ (fun v I => @vok_list _ v V I) H) as (ps & Q & F). exists ps. split; auto. apply w_tuple; auto.
          * intros Sk ->. rewrite Sk in Z. discriminate.
          * rewrite map_length in Le; auto.
      - assert (G : good s (w s)) by (apply Gw; intros t' T; apply So; constructor; auto). destruct (G _ _ _ _ _ V H) as (ps & Q & F).
        exists ps. split; auto. constructor; auto.
      - assert (X : (exists before p after cls attrs set, vs = before ++ p :: after /\ v = VModel cls attrs set /\ px_model p = cls /\ Forall (fun q => px_model q <> cls) before /\ write_proxy ev w p fl e v enc = Ok e') \/
          (forall cls attrs set, v = VModel cls attrs set -> Forall (fun q => px_model q <> cls) vs)).
        { clear So. induction vs as [|q vs IH]; cbn [write_union] in H; [right; constructor|]. destruct (model_type v) as [c0|] eqn:Mt.
          - destruct v; try discriminate. injection Mt as ->. destruct (String.eqb_spec (px_model q) c0) as [Ec|Nc].
            + left. exists [], q, vs, c0, attrs, set. repeat split; auto.
            + destruct (IH H) as [(before & p & after & cls & at' & st' & -> & Ev & Ep & Fb & Hw)|R].
              * left. exists (q :: before), p, after, cls, at', st'. injection Ev as <- <- <-. repeat split; auto.
              * right. intros cls at' st' Ev. injection Ev as <- <- <-. constructor; eauto.
          - right. intros cls at' st' ->. discriminate. }
        destruct X as [(before & p & after & cls & at' & st' & -> & -> & Ep & Fb & Hw)|R].
        + destruct (proxy_good _ _ _ _ V Hw) as (ps & Q & F). exists ps. split; auto. apply w_union; auto.
        + exists []. split; [apply w_no_variant; auto|constructor].
      - unfold write_tagged in H. destruct enc as [| | | | | |d| |]; try discriminate. destruct (dget disc d) as [tag|] eqn:Dg.
        2: { exists []. split; [apply w_no_tag; congruence|constructor]. }
        destruct (py_truthy tag) eqn:T.
        2: { exists []. split; [apply w_no_tag|constructor]. intros x Ex. assert (x = tag) by congruence. subst x. apply falsy_test; auto. }
        destruct tag; try discriminate. destruct (dget s vs) as [p|] eqn:Dv; [|discriminate].
        destruct (proxy_good _ _ _ _ V H) as (ps & Q & F). exists ps. split; auto. eapply w_tagged; eauto. intros ->. discriminate.
      - unfold write_wrap in H. destruct (is_none v) eqn:N; [destruct v; try discriminate; exists []; split; [apply w_no_wrapped|constructor]|].
        destruct (fl_skip_empty fl && len_is_zero v) eqn:Z.
        + apply andb_true_iff in Z as [Z1 Z2]. apply len_zero in Z2. exists []. split; [apply w_empty_wrapped; auto|constructor].
        + apply path_inner in H as (x & x' & H). assert (G : good s (w s)) by (apply Gw; intros t' T; apply So; apply so_wrap; auto).
          destruct (G _ _ _ _ _ V H) as (ps & Q & F). exists (nested path ns ps). split.
          * apply w_wrapped; auto; [apply is_none_false; auto|]. intros [Z1 Z2]. apply len_zero in Z2. rewrite Z1, Z2 in Z. discriminate.
          * apply nested_pok; auto. apply Forall_forall. intros t T. apply So. apply so_path; auto.
      - unfold write_raw in H. destruct v as [| | | | | | | |x]; try discriminate; [exists []; split; [apply w_no_raw|constructor]|].
        destruct (V x (ri_here x)) as [El R]. destruct (child_exists fl (dok_given (conj El R))) as (ps & A & Fp). exists ps. split; auto. apply w_raw; auto.
      - destruct (proxy_good _ _ _ _ V H) as (ps & Q & F). exists ps. split; auto. constructor; auto.
    Qed.
  End Step.

  Lemma sound : forall n s, sok s -> good s (write n ev s).
  Proof.
    intros n; induction n as [|n IH]; intros s So; [intros fl e v enc e' V H; discriminate|].
    cbn [write]. apply step_good; auto.
  Qed.
End Sound.
