(** PfIndep.v -- reading does not depend on output settings, nor writing on input settings. *)

From Verif Require Import Base Elem Native Errs Names Ser Write Read Api SpecElem SpecRead SpecSim SpecWrite SpecIndep
  PfElem PfSim PfSim2 PfWrite PfWrite2 PfWrite3 PfWSim.

Lemma input_side_sym : forall ev ev', same_input_side ev ev' -> same_input_side ev' ev.
Proof.
  intros ev ev' [B H]. split; auto. intros cls. specialize (H cls).
  destruct (en_model ev cls) as [m|], (en_model ev' cls) as [m'|]; auto.
  destruct H as (ns & ex & sk & cs & ->). exists (md_nsmap m), (md_sexclude m), (md_skip_empty m), (md_cser m). destruct m; reflexivity.
Qed.

Lemma orel_eq : forall o1 o2, o1 <> Fuel -> orel eq eq o1 o2 -> o1 = o2.
Proof.
  intros [v|x|] [w|y|] N H; simpl in H; try contradiction; try (destruct x; contradiction); try congruence.
  destruct x; try congruence. destruct y; congruence.
Qed.

Lemma orel_eq_refl : forall o, orel (@eq val) (@eq verr) o o.
Proof. intros [v|[]|]; simpl; auto. Qed.

Lemma Forall2_eq_verrs : forall A d1 d2, Forall2 (fun a b : A * verr => fst a = fst b /\ snd a = snd b) d1 d2 -> d1 = d2.
Proof. intros A d1 d2 H; induction H as [|[] [] d1 d2 [X Y]]; simpl in *; subst; auto. Qed.

Lemma read_input_half : forall ev ev', same_input_side ev ev' -> forall n cls root eas,
  from_xml_tree n ev cls root eas = Fuel \/ from_xml_tree n ev cls root eas = from_xml_tree n ev' cls root eas.
Proof.
  intros ev ev' [Hb Hm] n cls root eas.
  destruct (@from_xml_sim (@eq elem) (@eq val) (@eq verr) eq ev ev') with (n := n) (cls := cls) (root1 := root) (root2 := root) (eas := eas) as [H|H]; auto.
  - intros e1 e2 <-; auto.
  - intros e1 e2 <- i. destruct (nth_error _ _); auto.
  - intros; subst; auto.
  - intros; subst; auto.
  - intros; subst; auto.
  - intros e1 e2 <- a. split; auto. destruct (e_attrib e1); auto.
  - intros; subst; auto.
  - intros; subst; auto.
  - intros; subst; auto.
  - intros e1 e2 <-. rewrite Hb. split; auto. destruct (to_native _ _); auto.
  - intros e1 e2 <- title hide. destruct (check_extra _ _ _); auto.
  - intros; subst; auto.
  - intros; subst; auto.
  - intros l1 l2 F. f_equal. apply Forall2_eq; auto.
  - intros d1 d2 F. f_equal. apply Forall2_eq_vals; auto.
  - intros; subst; auto.
  - intros title hide l1 l2 F. apply Forall2_eq_verrs in F. subst; auto.
  - intros c. specialize (Hm c). destruct (en_model ev c) as [m|], (en_model ev' c) as [m'|]; auto.
    destruct Hm as (ns & ex & sk & cs & ->). split; simpl; auto.
    + apply drops_refl.
    + intros name. destruct (md_cval m name) as [f|]; auto. intros e1 e2 <-. right. split; auto. apply orel_eq_refl.
    + intros i1 i2 I. assert (i1 = i2) as <- by (destruct i1, i2; simpl in I; try contradiction; subst; auto).
      destruct (md_validate m i1); auto. intros; subst; auto.
  - specialize (Hm cls). intros m1 m2 H1 H2. rewrite H1, H2 in Hm. destruct Hm as (ns & ex & sk & cs & ->); auto.
  - rewrite Hb; auto.
  - destruct (from_xml_tree n ev cls root eas) eqn:X; auto; right; apply orel_eq; auto; congruence.
Qed.

Lemma read_input_side : forall ev ev', same_input_side ev ev' -> forall n cls root eas,
  from_xml_tree n ev cls root eas = from_xml_tree n ev' cls root eas.
Proof.
  intros ev ev' H n cls root eas. destruct (read_input_half H n cls root eas) as [E|E]; auto.
  destruct (read_input_half (input_side_sym H) n cls root eas) as [E'|E']; congruence.
Qed.

(** ---- writing ---- *)

Section Out.
  Variables ev ev' : env.
  Hypothesis Hx : env_extends ev.
  Hypothesis Hs : same_output_side ev ev'.

  (** [w'] writes what [w] writes *)
  Definition walike (w w' : writer) : Prop := forall fl e v enc, written e -> w fl e v enc = w' fl e v enc.

  Lemma items_alike : forall w w', walike w w' -> wextends w -> forall fl vs encs e, written e ->
    write_items w fl e vs encs = write_items w' fl e vs encs.
  Proof.
    intros w w' H X fl vs; induction vs as [|v vs IH]; intros encs e We; simpl; auto. destruct encs as [|enc encs]; auto.
    destruct (_ && _); auto. rewrite <- (H fl e v enc We). destruct (w fl e v enc) as [a| |] eqn:E; simpl; auto.
    apply IH. eapply X; eauto.
  Qed.

  Lemma tuple_alike : forall ws ws', Forall2 walike ws ws' -> Forall wextends ws -> forall fl vs encs e, written e ->
    write_tuple ws fl e vs encs = write_tuple ws' fl e vs encs.
  Proof.
    intros ws ws' H; induction H as [|w w' ws ws' Hw H IH]; intros F fl vs encs e We; simpl; auto.
    destruct vs as [|v vs]; auto. destruct encs as [|enc encs]; auto. inversion F; subst.
    rewrite <- (Hw fl e v enc We). destruct (w fl e v enc) as [a| |] eqn:E; simpl; auto. apply IH; auto. eapply H2; eauto.
  Qed.

  Lemma path_alike : forall b m m' ns path (k k' : elem -> out elem), (forall c, written c -> k c = k' c) ->
    forall e, written e -> write_path b m ns path k e = write_path b m' ns path k' e.
  Proof.
    intros b m m' ns path k k' H; induction path as [|p rest IH]; intros e We; cbn [write_path]; auto.
    pose proof (written_inv We) as [N F].
    destruct (@find_or_create_cases b e p m ns N) as [(front & c & Ee & Hc & ->)|(Hno & ->)];
      destruct (@find_or_create_cases b e p m' ns N) as [(front' & c' & Ee' & Hc' & ->)|(Hno' & ->)].
    - rewrite Ee in Ee'. apply app_inj_tail in Ee'. destruct Ee' as [<- <-]. rewrite (last_index _ _ Ee).
      rewrite IH; auto. rewrite Ee in F. apply Forall_app in F. destruct F as [_ F]. inversion F; auto.
    - exfalso; eapply Hno'; eauto.
    - exfalso; eapply Hno; eauto.
    - simpl. rewrite nth_error_app2, Nat.sub_diag by lia. simpl. rewrite IH; auto. apply make_written.
  Qed.

  Lemma fields_alike : forall w w' cls m m', en_model ev cls = Some m -> same_output_model m m' ->
    forall fs fs', Forall2 (fun x y : string * ser => fst x = fst y /\ walike (w (snd x)) (w' (snd y)) /\ wextends (w (snd x))) fs fs' ->
    forall fl v enc e, written e -> write_fields w m fs fl e v enc = write_fields w' m' fs' fl e v enc.
  Proof.
    intros w w' cls m m' Hm (_ & _ & _ & Ex & _ & Cs & _) fs fs' H.
    induction H as [|[name s] [name' s'] fs fs' (Nm & Wa & Wx) H IH]; intros fl v enc e We; simpl in *; auto. subst name'.
    rewrite <- Ex. destruct (str_in name (md_sexclude m)); auto.
    destruct (if fl_exclude_unset fl then is_unset v name else Ok false) as [[|]| |]; simpl; auto.
    destruct (py_getattr v name) as [x| |]; simpl; auto. rewrite <- (Cs name).
    destruct (md_cser m name) as [f|] eqn:Ec.
    - destruct (f v e x) as [a| |] eqn:Ef; simpl; auto. apply IH. destruct (Hx cls Hm) as [_ Hc].
      destruct (Hc name f Ec v e x a We Ef); auto.
    - destruct (py_getitem enc name) as [xe| |]; simpl; auto. rewrite <- (Wa fl e x xe We).
      destruct (w s fl e x xe) as [a| |] eqn:Ef; simpl; auto. apply IH. eapply Wx; eauto.
  Qed.

  Lemma with_skip_alike : forall m m' fl, same_output_model m m' -> with_skip_empty m fl = with_skip_empty m' fl.
  Proof. intros m m' fl (_ & _ & _ & _ & E & _). unfold with_skip_empty. rewrite E; auto. Qed.

  Lemma model_alike : forall w w' cls m m', en_model ev cls = Some m -> same_output_model m m' ->
    (forall s s', same_output s s' -> no_raw s -> walike (w s) (w' s')) -> (forall s, no_raw s -> wextends (w s)) ->
    walike (write_model w m) (write_model w' m').
  Proof.
    intros w w' cls m m' Hm Hmm Hw Wx fl e v enc We. unfold write_model. pose proof (with_skip_alike fl Hmm) as Sk.
    pose proof Hmm as (R & _ & _ & _ & _ & _ & Fs). rewrite <- R. destruct (Hx cls Hm) as [Hr _].
    destruct (is_none v); auto. destruct (md_root m).
    - destruct (if fl_exclude_unset fl then is_unset v "root" else Ok false) as [[|]| |]; simpl; auto.
      destruct Fs as [|[k s] [k' s'] l l' [_ So] Fs]; auto. destruct (py_getattr v "root") as [x| |]; simpl; auto.
      rewrite <- Sk. inversion Hr; subst. apply Hw; auto.
    - rewrite <- Sk. eapply fields_alike; eauto. clear - Fs Hr Hw Wx.
      induction Fs as [|[k s] [k' s'] l l' [K So] Fs IH]; constructor; inversion Hr; subst; auto.
  Qed.

  Lemma proxy_alike : forall w w', (forall s s', same_output s s' -> no_raw s -> walike (w s) (w' s')) ->
    (forall s, no_raw s -> wextends (w s)) ->
    forall p p', same_proxy p p' -> walike (write_proxy ev w p) (write_proxy ev' w' p').
  Proof.
    intros w w' Hw Wx p p' (P1 & P2 & P3 & P4) fl e v enc We. unfold write_proxy. destruct Hs as [Hb Hm].
    rewrite <- P1, <- P2, <- P3, <- P4, <- Hb. specialize (Hm (px_model p)).
    destruct (en_model ev (px_model p)) as [m|] eqn:E, (en_model ev' (px_model p)) as [m'|]; try contradiction; auto.
    destruct (_ && _); auto. destruct (_ && _); auto. destruct (is_none v); auto.
    rewrite (@model_alike w w' _ m m' E Hm Hw Wx fl _ v enc (make_written _ _ _)). reflexivity.
  Qed.

  Lemma attrs_alike : forall a a', same_mapping a a' -> forall fl e v enc, write_attrs a fl e v enc = write_attrs a' fl e v enc.
  Proof. intros [ns nsm nd c] [ns' nsm' nd' c'] (A & B & C) fl e v enc; simpl in *; subst. reflexivity. Qed.

  Lemma write_alike : forall n s s', same_output s s' -> no_raw s -> walike (write n ev s) (write n ev' s').
  Proof.
    intros n; induction n as [|n IH]; intros s s' H R fl e v enc We; [reflexivity|].
    assert (Wx : forall s, no_raw s -> wextends (write n ev s)) by (apply write_extends; auto).
    pose proof (@proxy_alike (write n ev) (write n ev') IH Wx) as HP. pose proof (proj1 Hs) as Hb. cbn [write].
    destruct H as [c c' ni|k c c'|tag ns m m' c c' ni|a a' H|tag m m' a a' H|t t' c c' s s' h h' H|t t' c c' l l' h h' H|c c' s s' H
      |t t' c c' vs vs' h h' H|c c' d a a' vs vs' m m' H|path ns m m' c c' s s' H|p p' H]; cbn [write_step]; try reflexivity.
    - rewrite <- Hb; reflexivity.
    - apply attrs_alike; auto.
    - unfold write_map_elem. rewrite <- Hb, (attrs_alike H). destruct H as (_ & B & _). rewrite B. reflexivity.
    - inversion R; subst. unfold write_homo. destruct (is_none v); auto. destruct (py_iter v) as [vs| |]; simpl; auto.
      destruct (_ && _); auto. destruct (py_iter enc) as [encs| |]; simpl; auto. apply items_alike; auto.
    - inversion R; subst. unfold write_hetero. destruct (is_none v); auto. destruct (py_iter v) as [vs| |]; simpl; auto.
      rewrite !map_length, (Forall2_len_s H). destruct (_ && _); auto. destruct (negb _); auto. destruct (py_iter enc) as [encs| |]; simpl; auto.
      apply tuple_alike; auto; [|rewrite Forall_map; eapply Forall_impl; [|eassumption]; auto].
      match goal with F : Forall no_raw l |- _ => clear - H F IH; revert F end.
      induction H as [|x y l l' Hxy H IHl]; intros F; simpl; constructor; inversion F; subst; auto.
    - inversion R; subst. apply IH; auto.
    - clear R. revert e We. induction H as [|p p' vs vs' Hp H IHv]; intros e We; simpl; auto.
      pose proof Hp as (P1 & _). rewrite <- P1. destruct (match model_type v with Some _ => _ | None => _ end); [apply HP; auto|auto].
    - clear R. unfold write_tagged. destruct enc; auto. destruct (dget d d0) as [tag|]; auto. destruct (py_truthy tag); auto.
      destruct tag; auto. assert (D : match dget s vs, dget s vs' with Some p, Some p' => same_proxy p p' | None, None => True | _, _ => False end).
      { clear - H. induction H as [|[k p] [k' p'] vs vs' [K P] H IH]; simpl in *; auto. subst k'. destruct (String.eqb s k); auto. }
      destruct (dget s vs), (dget s vs'); try contradiction; auto. apply HP; auto.
    - inversion R; subst. unfold write_wrap. destruct (is_none v); auto. destruct (_ && _); auto. rewrite <- Hb. apply path_alike; auto.
      intros c0 Wc. apply IH; auto.
    - apply HP; auto.
  Qed.

  Lemma to_xml_alike : forall n encode v fl, to_xml_tree n ev encode v fl = to_xml_tree n ev' encode v fl.
  Proof.
    intros n encode v fl. unfold to_xml_tree. destruct (model_type v) as [cls|]; auto. destruct Hs as [Hb Hm].
    pose proof (Hm cls) as Hc. destruct (en_model ev cls) as [m|] eqn:E, (en_model ev' cls) as [m'|]; try contradiction; auto.
    pose proof Hc as (_ & En & Ns & _). rewrite <- En, <- Ns, <- Hb.
    rewrite (@model_alike (write n ev) (write n ev') cls m m' E Hc); auto.
    - intros; apply write_alike; auto.
    - apply write_extends; auto.
    - constructor; simpl; auto.
  Qed.
End Out.

(** ---- excluded fields ---- *)

Lemma fields_without_excluded : forall w m m' fs fl v enc e, md_sexclude m' = md_sexclude m -> (forall k, md_cser m' k = md_cser m k) ->
  write_fields w m' (filter (fun nf => negb (str_in (fst nf) (md_sexclude m))) fs) fl e v enc = write_fields w m fs fl e v enc.
Proof.
  intros w m m' fs fl v enc e Ex Cs. revert e; induction fs as [|[name s] fs IH]; intros e; cbn [filter fst write_fields]; auto.
  destruct (str_in name (md_sexclude m)) eqn:X; cbn [negb]; auto. cbn [write_fields]. rewrite Ex, X.
  destruct (if fl_exclude_unset fl then is_unset v name else Ok false) as [[|]| |]; cbn [obind]; auto.
  destruct (py_getattr v name) as [x| |]; cbn [obind]; auto. rewrite Cs.
  destruct (match md_cser m name with Some f => f v e x | None => _ end) as [a| |]; cbn [obind]; auto.
Qed.

Lemma model_without_excluded : forall w m fl e v enc, md_root m = false ->
  write_model w (without_excluded m) fl e v enc = write_model w m fl e v enc.
Proof.
  intros w m fl e v enc R. unfold write_model. cbn [without_excluded md_root md_fields]. rewrite R. destruct (is_none v); auto.
  replace (with_skip_empty (without_excluded m) fl) with (with_skip_empty m fl) by reflexivity.
  apply fields_without_excluded; reflexivity.
Qed.

Lemma excluded_values : forall w m fl e cls attrs attrs' set d d', md_root m = false -> (forall name, md_cser m name = None) ->
  (forall name s, In (name, s) (md_fields m) -> ~ In name (md_sexclude m) -> dget name attrs = dget name attrs' /\ dget name d = dget name d') ->
  write_model w m fl e (VModel cls attrs set) (VDict d) = write_model w m fl e (VModel cls attrs' set) (VDict d').
Proof.
  intros w m fl e cls attrs attrs' set d d' R C. unfold write_model. cbn [is_none]. rewrite R. generalize (with_skip_empty m fl) as fl'.
  intros fl'. generalize (md_fields m) as fs. intros fs. revert e; induction fs as [|[name s] fs IH]; intros e A; cbn [write_fields]; auto.
  destruct (str_in name (md_sexclude m)) eqn:X; [apply IH; intros; apply (A name0 s0); simpl; auto|].
  assert (N : ~ In name (md_sexclude m)) by (intros I; apply str_in_spec in I; congruence).
  destruct (A name s ltac:(simpl; auto) N) as [A1 A2].
  assert (IH' : forall e, write_fields w m fs fl' e (VModel cls attrs set) (VDict d) = write_fields w m fs fl' e (VModel cls attrs' set) (VDict d')).
  { intros e0; apply IH. intros name0 s0 I; apply (A name0 s0); simpl; auto. }
  cbn [is_unset py_getattr py_getitem]. rewrite <- A1, <- A2, C.
  destruct (if fl_exclude_unset fl' then Ok (negb (str_in name set)) else Ok false) as [[|]| |]; cbn [obind]; auto.
  destruct (dget name attrs) as [x|]; cbn [obind]; auto. destruct (dget name d) as [xe|]; cbn [obind]; auto.
  destruct (w s fl' e x xe); cbn [obind]; auto.
Qed.
