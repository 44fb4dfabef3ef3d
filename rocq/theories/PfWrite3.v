(** PfWrite3.v -- proofs about writing: independence of unset fields at every depth, blocks of children
    in field order, tuples, nillable elements, mappings, user serializers. *)

From Verif Require Import Base Elem Native Errs Names Ser Write Read Api SpecElem SpecRead SpecNames SpecWrite
  PfElem PfNames PfFuel PfTerm PfWrite PfWrite2.

(** ---- unset fields ---- *)

Section Unset.
  Variable ev : env.
  Hypothesis Hc : no_customs ev.

  Definition blind (w : ser -> writer) : Prop := forall s fl e v enc v' enc', fl_exclude_unset fl = true ->
    alike ev s v enc v' enc' -> w s fl e v enc = w s fl e v' enc'.

  Lemma with_skip_unset : forall m fl, fl_exclude_unset fl = true -> fl_exclude_unset (with_skip_empty m fl) = true.
  Proof. intros m fl H; unfold with_skip_empty; destruct (md_skip_empty m); auto. Qed.

  Lemma write_model_blind : forall w, blind w -> forall cls m fl e v enc v' enc', en_model ev cls = Some m ->
    fl_exclude_unset fl = true -> alike_inst ev cls v enc v' enc' ->
    write_model w m fl e v enc = write_model w m fl e v' enc'.
  Proof.
    intros w Hw cls m fl e v enc v' enc' Hm F A. apply (with_skip_unset m) in F as F'. inv A.
    - assert (m0 = m) by congruence; subst m0. unfold write_model. simpl. rewrite H0.
      generalize dependent (with_skip_empty m fl). intros fl' F'. revert e.
      assert (G : forall fs, incl fs (md_fields m) -> forall e, 
         write_fields w m fs fl' e (VModel c attrs set) (VDict d) = write_fields w m fs fl' e (VModel c attrs' set) (VDict d')).
      { induction fs as [|[name s] fs IH]; intros I e; simpl; auto.
        assert (I' : incl fs (md_fields m)) by (intros x Hx; apply I; right; auto).
        destruct (str_in name (md_sexclude m)); auto. rewrite F'; simpl. destruct (str_in name set) eqn:Is; simpl; auto.
        apply str_in_spec in Is. rewrite (Hc _ name Hm). specialize (H1 name s (I _ (or_introl eq_refl)) Is).
        inv H1; simpl; auto. rewrite (Hw s fl' e v enc v' enc' F' ltac:(eassumption)). destruct (w s fl' e v' enc'); simpl; auto. }
      apply G. intros x; auto.
    - assert (m0 = m) by congruence; subst m0. unfold write_model. simpl. rewrite H0, F. simpl.
      destruct (str_in "root" set) eqn:Is; simpl; auto. apply str_in_spec in Is.
      destruct (md_fields m) as [|[name s] fs]; auto. specialize (H1 name s (or_introl eq_refl) Is).
      inv H1; simpl; auto.
  Qed.

  Lemma write_proxy_blind : forall w, blind w -> forall p fl e v enc v' enc', fl_exclude_unset fl = true ->
    alike_inst ev (px_model p) v enc v' enc' -> write_proxy ev w p fl e v enc = write_proxy ev w p fl e v' enc'.
  Proof.
    intros w Hw p fl e v enc v' enc' F A. unfold write_proxy. destruct (en_model ev (px_model p)) as [m|] eqn:Hm; auto.
    rewrite (@write_model_blind w Hw (px_model p) m fl _ v enc v' enc' Hm F A).
    inv A; simpl; rewrite ?andb_false_r; auto.
  Qed.

  Lemma write_items_blind : forall w fl its, 
    Forall (fun q : (val * val) * (val * val) => is_none (fst (fst q)) = is_none (fst (snd q)) /\
              forall e, w fl e (fst (fst q)) (snd (fst q)) = w fl e (fst (snd q)) (snd (snd q)) :> out elem) its ->
    forall e, write_items w fl e (map (fun q => fst (fst q)) its) (map (fun q => snd (fst q)) its)
            = write_items w fl e (map (fun q => fst (snd q)) its) (map (fun q => snd (snd q)) its).
  Proof.
    intros w fl its H; induction H as [|q its [Hq1 Hq2] H IH]; intros e; simpl; auto.
    rewrite Hq1. destruct (_ && _); auto. rewrite Hq2. destruct (w fl e _ _); simpl; auto.
  Qed.

  Lemma inst_shape : forall c v enc v' enc', alike_inst ev c v enc v' enc' -> is_none v = is_none v' /\ py_len v = py_len v'.
  Proof. intros c v enc v' enc' H; inv H; auto. Qed.

  Lemma alike_shape : forall s v enc v' enc', alike ev s v enc v' enc' -> is_none v = is_none v' /\ py_len v = py_len v'.
  Proof.
    intros s v enc v' enc' H; induction H; auto.
    - simpl; rewrite !map_length; auto.
    - simpl; rewrite !map_length; auto.
    - eapply inst_shape; eauto.
  Qed.

  Lemma write_tuple_blind : forall w fl l its,
    Forall2 (fun s (q : (val * val) * (val * val)) =>
              forall e, w s fl e (fst (fst q)) (snd (fst q)) = w s fl e (fst (snd q)) (snd (snd q)) :> out elem) l its ->
    forall e, write_tuple (map (w : ser -> writer) l) fl e (map (fun q => fst (fst q)) its) (map (fun q => snd (fst q)) its)
            = write_tuple (map w l) fl e (map (fun q => fst (snd q)) its) (map (fun q => snd (snd q)) its).
  Proof.
    intros w fl l its H; induction H as [|s q l its Hq H IH]; intros e; simpl; auto.
    rewrite Hq. destruct (w s fl e _ _); simpl; auto.
  Qed.

  Lemma write_path_ext : forall b mode ns path (k k' : elem -> out elem), (forall c, k c = k' c) -> forall e,
    write_path b mode ns path k e = write_path b mode ns path k' e.
  Proof.
    intros b mode ns path k k' H; induction path as [|p rest IH]; intros e; simpl; auto.
    destruct (find_element_or_create b e p mode ns) as [[|i|] e1]; auto. destruct (nth_error (e_elems e1) i); auto.
    rewrite IH; auto.
  Qed.

  Lemma write_blind : forall n, blind (write n ev).
  Proof.
    intros n; induction n as [|n IH]; intros s fl e v enc v' enc' F A; [reflexivity|]. cbn [write]. inv A; cbn [write_step]; auto.
    - unfold write_homo; simpl. rewrite !map_length. destruct (_ && _); auto.
      apply write_items_blind. eapply Forall_impl; [|exact H]. simpl. intros q Hq. split; [eapply alike_shape; eauto|]. intros; apply IH; auto.
    - unfold write_hetero; simpl. rewrite !map_length. destruct (_ && _); auto. destruct (negb _); auto.
      apply write_tuple_blind. clear - IH F H. induction H; constructor; auto.
    - unfold write_wrap, len_is_zero. destruct (alike_shape H) as [-> ->]. destruct (is_none v'); auto.
      destruct (_ && _); auto. apply write_path_ext. intros; apply IH; auto.
    - induction vs as [|p vs IHv]; simpl; auto. destruct (String.eqb_spec (px_model p) cls) as [E|E]; auto.
      apply write_proxy_blind; auto. rewrite E; auto.
    - unfold write_tagged. rewrite <- H. destruct (dget disc d) as [t|]; auto. destruct (py_truthy t); auto.
      destruct t; auto. destruct (dget s vs) as [p|] eqn:Ep; auto. apply write_proxy_blind; auto. eapply H0; eauto.
    - apply write_proxy_blind; auto.
  Qed.

  Lemma to_xml_blind : forall n encode cls attrs attrs' set fl, fl_exclude_unset fl = true ->
    alike_inst ev cls (VModel cls attrs set) (encode (VModel cls attrs set)) (VModel cls attrs' set) (encode (VModel cls attrs' set)) ->
    to_xml_tree n ev encode (VModel cls attrs set) fl = to_xml_tree n ev encode (VModel cls attrs' set) fl.
  Proof.
    intros n encode cls attrs attrs' set fl F A; unfold to_xml_tree; simpl. destruct (en_model ev cls) as [m|] eqn:Hm; auto.
    rewrite (@write_model_blind (write n ev) (write_blind n) cls m fl _ _ _ _ _ Hm F A); auto.
  Qed.
End Unset.

(** ---- tags never change ---- *)

Lemma write_keeps_tag : forall ev n s, keeps_tag (write n ev s).
Proof.
  intros ev n; induction n as [|n IH]; intros s fl e v enc e' H; [discriminate|]. cbn [write] in H.
  assert (HP : forall p, keeps_tag (write_proxy ev (write n ev) p)).
  { clear. intros p fl e v enc e' H. unfold write_proxy in H. destruct (en_model ev (px_model p)); [|discriminate].
    destruct (_ && _); [injection H as <-; auto|]. destruct (_ && _); [injection H as <-; auto|].
    destruct (is_none v); [injection H as <-; auto|]. ok H. injection H as <-. apply append_tag. }
  destruct s; cbn [write_step] in H.
  - apply text_result in H. tauto.
  - unfold write_attr in H. destruct (_ && (_ || _)); [injection H as <-; auto|]. ok H. injection H as <-; auto.
  - unfold write_elem in H. destruct (_ && (_ || _)); [injection H as <-; auto|]. ok H. injection H as <-. apply append_tag.
  - apply write_attrs_result in H. tauto.
  - unfold write_map_elem in H. destruct (fl_skip_empty fl).
    + destruct (py_len v) as [[|k]|]; [injection H as <-; auto| |discriminate]. ok H. injection H as <-. apply append_tag.
    + ok H. injection H as <-. apply append_tag.
  - unfold write_homo in H. destruct (is_none v); [injection H as <-; auto|]. ok H.
    destruct (_ && _); [injection H as <-; auto|]. ok H. revert e H. clear - IH.
    generalize a as vs, a0 as encs. intros vs; induction vs as [|x vs IHv]; intros [|y encs] e H; simpl in H; try (injection H as <-; auto).
    destruct (_ && _); [eauto|]. ok H. rewrite (IHv _ _ H). eapply IH; eauto.
  - unfold write_hetero in H. destruct (is_none v); [injection H as <-; auto|]. ok H.
    destruct (_ && _); [injection H as <-; auto|]. destruct (negb _); [discriminate|]. ok H. revert e H. clear - IH.
    revert a a0. induction inners as [|s l IHl]; intros [|x vs] [|y encs] e H; simpl in H; try (injection H as <-; auto).
    ok H. rewrite (IHl _ _ _ H). eapply IH; eauto.
  - eapply IH; eauto.
  - induction variants as [|p vs IHv]; simpl in H; [injection H as <-; auto|].
    destruct (match model_type v with Some _ => _ | None => _ end); [eapply HP; eauto|]. auto.
  - unfold write_tagged in H. destruct enc; try discriminate. destruct (dget disc d) as [tag|]; [|injection H as <-; auto].
    destruct (py_truthy tag); [|injection H as <-; auto]. destruct tag; try discriminate.
    destruct (dget s variants) as [p|]; [|discriminate]. eapply HP; eauto.
  - unfold write_wrap in H. destruct (is_none v); [injection H as <-; auto|].
    destruct (_ && _); [injection H as <-; auto|]. eapply write_path_tag; [|exact H]. cbv beta. intros c c' Hw; eapply IH; eauto.
  - unfold write_raw in H. destruct v; try discriminate; injection H as <-; auto. apply append_tag.
  - eapply HP; eauto.
Qed.

(** ---- blocks ---- *)

Lemma direct_adds : forall w fl v enc e e', wdirect w -> w fl e v enc = Ok e' ->
  exists block, e_elems e' = e_elems e ++ block /\ adds (fun e => w fl e v enc) block.
Proof. intros w fl v enc e e' D H. destruct (D _ _ _ _ _ H) as (new & E & A). exists new; split; auto. Qed.

Lemma fields_blocks : forall n ev m fl v enc, (forall name, md_cser m name = None) -> forall fs,
  Forall (fun nf : string * ser => no_wrap (snd nf)) fs -> forall e e',
  write_fields (write n ev) m fs fl e v enc = Ok e' ->
  exists blocks, Forall2 (field_adds n ev m fl v enc) fs blocks /\ e_elems e' = e_elems e ++ concat blocks.
Proof.
  intros n ev m fl v enc Hc fs F; induction F as [|[name s] fs Hs F IH]; intros e e' H; simpl in H.
  - injection H as <-. exists []. split; [constructor|simpl; rewrite app_nil_r; auto].
  - destruct (str_in name (md_sexclude m)) eqn:X.
    { apply str_in_spec in X. destruct (IH _ _ H) as (bs & B & E). exists ([] :: bs). split; auto. constructor; auto. constructor; auto. }
    destruct (if fl_exclude_unset fl then is_unset v name else Ok false) as [[|]|x|] eqn:U; simpl in H; try discriminate.
    { destruct (IH _ _ H) as (bs & B & E). exists ([] :: bs). split; auto. constructor; auto.
      destruct (fl_exclude_unset fl) eqn:Fx; [|discriminate]. destruct v; try discriminate. simpl in U. injection U as U.
      eapply fa_unset; eauto. intros I. apply str_in_spec in I. rewrite I in U; discriminate. }
    ok H. ok H. rewrite Hc in E0. ok E0. destruct (@direct_adds _ _ _ _ _ _ (@write_direct ev n s Hs) E0) as (block & Eb & Ab).
    destruct (IH _ _ H) as (bs & B & Ee). exists (block :: bs). split.
    + constructor; auto. econstructor; eauto.
    + simpl. rewrite Ee, Eb, app_assoc; auto.
Qed.

Lemma items_blocks : forall w fl, wdirect w -> forall vs encs e e', write_items w fl e vs encs = Ok e' ->
  exists blocks, Forall2 (item_adds w fl) (combine vs encs) blocks /\ e_elems e' = e_elems e ++ concat blocks.
Proof.
  intros w fl D vs; induction vs as [|v vs IH]; intros [|enc encs] e e' H; simpl in H;
    try (injection H as <-; exists []; simpl; split; [constructor|rewrite app_nil_r; auto]; fail).
  destruct (fl_skip_empty fl && is_none v) eqn:X.
  - apply andb_true_iff in X. destruct X as [X1 X2]. destruct v; try discriminate. destruct (IH _ _ _ H) as (bs & B & E).
    exists ([] :: bs). simpl. split; auto. constructor; auto. constructor; auto.
  - ok H. destruct (@direct_adds w fl v enc _ _ D E) as (block & Eb & Ab). destruct (IH _ _ _ H) as (bs & B & Ee).
    exists (block :: bs). simpl. split; [constructor; auto; constructor; auto|]. rewrite Ee, Eb, app_assoc; auto.
Qed.

(** ---- tuples ---- *)

Lemma tuple_no_serr : forall ws fl, (forall w, In w ws -> forall e x xe, w fl e x xe <> Raise XSerialization) ->
  forall vs encs e, write_tuple ws fl e vs encs <> Raise XSerialization.
Proof.
  intros ws fl; induction ws as [|w ws IH]; intros Hw vs encs e; [destruct vs; discriminate|].
  destruct vs as [|v vs]; [discriminate|]. destruct encs as [|enc encs]; [discriminate|]. simpl.
  destruct (w fl e v enc) as [e1|x|] eqn:E; simpl; try discriminate.
  - apply IH. intros w' I; apply Hw; right; auto.
  - intros C; injection C as ->. eapply Hw; [left; reflexivity|exact E].
Qed.

Lemma tuple_length_iff : forall n ev t c l h fl e vs encs,
  (forall s, In s l -> forall e x xe, write n ev s fl e x xe <> Raise XSerialization) ->
  (write (S n) ev (SHetero t c l h) fl e (VList vs) (VList encs) = Raise XSerialization <->
   length vs <> length l /\ ~ (fl_skip_empty fl = true /\ vs = [])).
Proof.
  intros n ev t c l h fl e vs encs Hs. cbn [write write_step]. unfold write_hetero. simpl. rewrite map_length.
  destruct (fl_skip_empty fl && Nat.eqb (length vs) 0) eqn:X.
  - apply andb_true_iff in X. destruct X as [X1 X2]. apply Nat.eqb_eq in X2. destruct vs; [|discriminate].
    split; [discriminate|]. intros [_ N]; exfalso; apply N; auto.
  - destruct (Nat.eqb_spec (length vs) (length l)) as [E|E]; simpl.
    + split; [|tauto]. intros C; exfalso. revert C. apply tuple_no_serr. intros w I. apply in_map_iff in I.
      destruct I as (s & <- & Is). apply Hs; auto.
    + split; auto. intros _. split; auto. intros [S1 ->]. rewrite S1 in X; discriminate.
Qed.

(** ---- user serializers ---- *)

Lemma custom_replaces : forall w m name f, md_cser m name = Some f -> md_root m = false -> forall s fl e v enc,
  write_model w (with_field name s m) fl e v enc = write_model w m fl e v enc.
Proof.
  intros w m name f Hf R s fl e v enc; unfold write_model; simpl. rewrite R. destruct (is_none v); auto.
  replace (with_skip_empty (with_field name s m) fl) with (with_skip_empty m fl) by reflexivity.
  generalize (with_skip_empty m fl). intros fl'. generalize (md_fields m). intros fs; revert e.
  induction fs as [|[nm s0] fs IH]; intros e; simpl; auto.
  assert (X : (if String.eqb nm name then (nm, s) else (nm, s0)) = (nm, if String.eqb nm name then s else s0)) by (destruct (String.eqb nm name); auto).
  rewrite X. destruct (str_in nm (md_sexclude m)); auto.
  destruct (if fl_exclude_unset fl' then is_unset v nm else Ok false) as [[|]|x|]; simpl; auto.
  destruct (py_getattr v nm) as [x|x|]; simpl; auto.
  destruct (String.eqb_spec nm name) as [->|N].
  - rewrite Hf. destruct (f v e x); simpl; auto.
  - destruct (match md_cser m nm with Some _ => _ | None => _ end); simpl; auto.
Qed.

Lemma other_customs : forall w m cs cv, (forall name s, In (name, s) (md_fields m) -> cs name = md_cser m name) ->
  forall fl e v enc, write_model w (with_customs cs cv m) fl e v enc = write_model w m fl e v enc.
Proof.
  intros w m cs cv H fl e v enc; unfold write_model; simpl. destruct (is_none v); auto. destruct (md_root m); auto.
  replace (with_skip_empty (with_customs cs cv m) fl) with (with_skip_empty m fl) by reflexivity.
  generalize (with_skip_empty m fl). intros fl'.
  assert (G : forall fs, incl fs (md_fields m) -> forall e, write_fields w (with_customs cs cv m) fs fl' e v enc = write_fields w m fs fl' e v enc).
  { induction fs as [|[nm s0] fs IH]; intros I e0; simpl; auto.
    assert (I' : incl fs (md_fields m)) by (intros x Hx; apply I; right; auto).
    destruct (str_in nm (md_sexclude m)); auto.
    destruct (if fl_exclude_unset fl' then is_unset v nm else Ok false) as [[|]|x|]; simpl; auto.
    destruct (py_getattr v nm) as [x|x|]; simpl; auto. rewrite (H nm s0 (I _ (or_introl eq_refl))).
    destruct (match md_cser m nm with Some _ => _ | None => _ end); simpl; auto. }
  apply G. intros x; auto.
Qed.

Lemma custom_called : forall w m name f s fs1 fs2 fl e v enc x, md_cser m name = Some f ->
  ~ In name (md_sexclude m) -> fl_exclude_unset fl = false -> py_getattr v name = Ok x ->
  write_fields w m (fs1 ++ (name, s) :: fs2) fl e v enc =
  obind (write_fields w m fs1 fl e v enc) (fun e1 => obind (f v e1 x) (fun e2 => write_fields w m fs2 fl e2 v enc)).
Proof.
  intros w m name f s fs1 fs2 fl e v enc x Hf Hx Hu Hv. rewrite write_fields_app. simpl.
  assert (X : str_in name (md_sexclude m) = false).
  { destruct (str_in name (md_sexclude m)) eqn:E; auto. apply str_in_spec in E; tauto. }
  rewrite X, Hu, Hv, Hf. reflexivity.
Qed.

(** validators *)
Lemma validator_replaces : forall r m name f, md_cval m name = Some f -> md_root m = false -> forall s eas loc st,
  read_model r (with_field name s m) eas loc st = read_model r m eas loc st.
Proof.
  intros r m name f Hf R s eas loc st; unfold read_model; simpl. rewrite R. unfold read_plain_model.
  assert (G : forall fs res errs st, 
    read_fields r (with_field name s m) (map (fun nf : string * ser => if String.eqb (fst nf) name then (fst nf, s) else nf) fs) eas res errs st
    = read_fields r m fs eas res errs st).
  { clear st. induction fs as [|[nm s0] fs IH]; intros res errs st; simpl; auto.
    assert (X : (if String.eqb nm name then (nm, s) else (nm, s0)) = (nm, if String.eqb nm name then s else s0)) by (destruct (String.eqb nm name); auto).
    rewrite X. replace (match md_cval m nm with Some custom => run_custom custom (note_line [LKey nm] st)
               | None => r (if String.eqb nm name then s else s0) eas [LKey nm] (note_line [LKey nm] st) end)
      with (match md_cval m nm with Some custom => run_custom custom (note_line [LKey nm] st)
               | None => r s0 eas [LKey nm] (note_line [LKey nm] st) end).
    - destruct (match md_cval m nm with Some _ => _ | None => _ end) as [[[]|[]|] ?]; auto.
    - destruct (String.eqb_spec nm name) as [->|N]; auto. rewrite Hf; auto. }
  simpl. rewrite G. reflexivity.
Qed.

Lemma other_validators : forall r m cs cv, (forall name s, In (name, s) (md_fields m) -> cv name = md_cval m name) ->
  forall eas loc st, read_model r (with_customs cs cv m) eas loc st = read_model r m eas loc st.
Proof.
  intros r m cs cv H eas loc st; unfold read_model; simpl. destruct (md_root m); [reflexivity|]. unfold read_plain_model.
  assert (G : forall fs, incl fs (md_fields m) -> forall res errs st, 
    read_fields r (with_customs cs cv m) fs eas res errs st = read_fields r m fs eas res errs st).
  { clear st. induction fs as [|[nm s0] fs IH]; intros I res errs st; simpl; auto.
    assert (I' : incl fs (md_fields m)) by (intros x Hx; apply I; right; auto).
    rewrite (H nm s0 (I _ (or_introl eq_refl))).
    destruct (match md_cval m nm with Some _ => _ | None => _ end) as [[[]|[]|] ?]; auto. }
  simpl. rewrite G; [reflexivity|intros x; auto].
Qed.

Lemma read_fields_app : forall r m fs1 fs2 eas res errs st,
  read_fields r m (fs1 ++ fs2) eas res errs st =
  match read_fields r m fs1 eas res errs st with
  | (Ok (res1, errs1), st1) => read_fields r m fs2 eas res1 errs1 st1
  | (Raise x, st1) => (Raise x, st1)
  | (Fuel, st1) => (Fuel, st1)
  end.
Proof.
  intros r m fs1; induction fs1 as [|[nm s] fs1 IH]; intros fs2 eas res errs st; simpl; auto.
  destruct (match md_cval m nm with Some _ => _ | None => _ end) as [[[]|[]|] ?]; auto.
Qed.

(** ---- mappings ---- *)

Lemma attrs_items_strs : forall ns d, attrs_items ns (map (fun kv : string * string => (fst kv, VStr (snd kv))) d) =
  Ok (map (fun kv => (uri (QName (fst kv) ns), snd kv)) d).
Proof. intros ns d; induction d as [|[k s] d IH]; simpl; auto. rewrite IH; auto. Qed.

Lemma map_inj_nodup : forall A B (f : A -> B) l, (forall x y, In x l -> In y l -> f x = f y -> x = y) -> NoDup l -> NoDup (map f l).
Proof.
  intros A B f l H N; induction N as [|x l Hx N IH]; simpl; constructor.
  - intros I. apply in_map_iff in I. destruct I as (y & E & Iy). apply H in E; [subst; auto|right; auto|left; auto].
  - apply IH. intros; apply H; auto; right; auto.
Qed.

(** mapping round trip *)
Lemma attrs_name_back : forall a k,
  (as_namespaced a = true -> plain_tag k /\ (forall u, attrs_uri a = Some u -> u = "" \/ plain_ns u)) ->
  attrs_key a (uri (QName k (attrs_uri a))) = k.
Proof.
  intros a k H. unfold attrs_key. destruct (as_namespaced a) eqn:N.
  - destruct (H eq_refl) as [Pk Pu]. destruct (attrs_uri a) as [u|].
    + destruct (Pu u eq_refl) as [->|Hu].
      * change (uri (QName k (Some ""))) with (uri (QName k None)). rewrite (uri_from_uri_plain Pk). reflexivity.
      * rewrite (uri_from_uri Hu Pk). reflexivity.
    + rewrite (uri_from_uri_plain Pk). reflexivity.
  - unfold attrs_uri. rewrite N. reflexivity.
Qed.

Lemma mapping_round_trip : forall ev a d n k fl e v eas loc sm, as_computed a = false -> NoDup (dkeys d) -> is_none v = false ->
  (as_namespaced a = true ->
     Forall plain_tag (dkeys d) /\ (forall u, attrs_uri a = Some u -> u = "" \/ plain_ns u)) ->
  exists e', write (S n) ev (SAttrs a) fl e v (VDict (map (fun kv => (fst kv, VStr (snd kv))) d)) = Ok e' /\
    e_attrib e' = Some (map (fun kv => (uri (QName (fst kv) (attrs_uri a)), snd kv)) d) /\
    fst (read (S k) ev (SAttrs a) eas loc (St e' sm)) = Ok (VDict (map (fun kv => (fst kv, VStr (snd kv))) d)).
Proof.
  intros ev a d n k fl e v eas loc sm C N V P. cbn [write read write_step read_step]. unfold write_attrs. rewrite V.
  rewrite attrs_items_strs. simpl. set (l := map (fun kv : string * string => (uri (QName (fst kv) (attrs_uri a)), snd kv)) d).
  assert (B : forall x, In x (dkeys d) -> attrs_key a (uri (QName x (attrs_uri a))) = x).
  { intros x Hx. apply attrs_name_back. intros Na. destruct (P Na) as [P1 P2]. split; auto. rewrite Forall_forall in P1; auto. }
  assert (Nl : NoDup (dkeys l)).
  { unfold dkeys, l. rewrite map_map. simpl. rewrite <- (map_map fst (fun x => uri (QName x (attrs_uri a)))).
    apply map_inj_nodup; auto. intros x y Hx Hy Exy. rewrite <- (B x Hx), <- (B y Hy), Exy; auto. }
  rewrite (dict_of_nodup _ Nl). eexists. split; [reflexivity|]. split; [reflexivity|].
  unfold read_attrs. rewrite C. simpl. f_equal. f_equal. unfold l. rewrite map_map. simpl.
  assert (Em : map (fun x : string * string => (attrs_key a (uri {| q_tag := fst x; q_ns := attrs_uri a |}), VStr (snd x))) d
             = map (fun kv : string * string => (fst kv, VStr (snd kv))) d).
  { apply map_ext_in. intros [x s] Hx. simpl. rewrite B; auto. apply (in_map fst) in Hx; auto. }
  rewrite Em. apply dict_of_nodup. unfold dkeys. rewrite map_map. simpl. exact N.
Qed.

Lemma mapping_replaces : forall ev a n fl e v enc e', write (S n) ev (SAttrs a) fl e v enc = Ok e' -> is_none v = false ->
  forall e2, exists e2', write (S n) ev (SAttrs a) fl e2 v enc = Ok e2' /\ e_attrib e2' = e_attrib e'.
Proof.
  intros ev a n fl e v enc e' H V e2. cbn [write write_step] in *. unfold write_attrs in *. rewrite V in *.
  destruct enc; try discriminate. ok H. injection H as <-. rewrite E. simpl. eexists; split; reflexivity.
Qed.

(** ---- nillable elements ---- *)

Lemma first_called_unique : forall tag skip (c : elem) rest skip' c' rest', skip ++ c :: rest = skip' ++ c' :: rest' ->
  called tag c -> called tag c' -> Forall (fun x => ~ called tag x) skip -> Forall (fun x => ~ called tag x) skip' -> c = c'.
Proof.
  intros tag skip; induction skip as [|x skip IH]; intros c rest [|x' skip'] c' rest' E Hc Hc' F F'; simpl in E; injection E; intros; subst; auto.
  - inv F'. contradiction.
  - inv F. contradiction.
  - inv F. inv F'. eapply IH; eauto.
Qed.

Lemma takes_unique : forall tag m pu c pu' c' pu'', takes tag m pu (Some c) pu' -> takes tag m pu c' pu'' -> c' = Some c.
Proof.
  intros tag m pu c pu' c' pu'' H H'. inv H; inv H'; auto; try contradiction.
  - f_equal. eapply first_called_unique; try eassumption.
  - exfalso. match goal with F : Forall _ (_ ++ _ :: _) |- _ => apply Forall_app in F; destruct F as [_ F]; inv F end. contradiction.
  - f_equal. eapply first_called_unique; try eassumption.
  - exfalso. match goal with F : Forall _ (_ ++ _ :: _) |- _ => apply Forall_app in F; destruct F as [_ F]; inv F end. contradiction.
Qed.

Lemma taken_child : forall tag m e c after, takes tag m (passed e, unread e) (Some c) after ->
  forall (f : st -> rres val) sm, fst (with_found (pop_element e tag m) f (St e sm)) = fst (f (St c sm)).
Proof.
  intros tag m e c after H f sm. pose proof (pop_element_takes m e tag) as T.
  destruct (pop_element e tag m) as [r e1]. destruct T as (_ & _ & Ht & _). apply (takes_unique H) in Ht.
  destruct r as [|i|]; simpl in Ht; try discriminate. simpl. unfold on_child. simpl. rewrite Ht. destruct (f _); auto.
Qed.

Lemma nil_attr : forall c, attr_of c xsi_nil = Some "true" -> exists c', is_element_nill c = (true, c').
Proof.
  intros c H. unfold is_element_nill, pop_attrib. unfold attr_of in H. destruct (e_attrib c) as [d|]; [|discriminate].
  rewrite H. simpl. eauto.
Qed.

Lemma nil_read_prim : forall ev tag ns m n eas loc st0 c after, takes tag m (passed (st_el st0), unread (st_el st0)) (Some c) after ->
  attr_of c xsi_nil = Some "true" -> fst (read (S n) ev (SElem tag ns m false true) eas loc st0) = Ok VNone.
Proof.
  intros ev tag ns m n eas loc [e sm] c after H A. cbn [read read_step]. unfold read_elem. simpl in *. rewrite (@taken_child _ _ _ _ _ H).
  unfold read_text. simpl. apply nil_attr in A. destruct A as [c' A].  rewrite A. reflexivity.
Qed.

Lemma nil_read_model : forall ev p md n eas loc st0 c after, en_model ev (px_model p) = Some md -> px_computed p = false ->
  takes (px_name p) (px_mode p) (passed (st_el st0), unread (st_el st0)) (Some c) after ->
  attr_of c xsi_nil = Some "true" -> fst (read (S n) ev (SProxy p) eas loc st0) = Ok VNone.
Proof.
  intros ev p md n eas loc [e sm] c after Hm C H A. cbn [read read_step]. unfold read_proxy. rewrite Hm, C. simpl in *.
  rewrite (@taken_child _ _ _ _ _ H). simpl. apply nil_attr in A. destruct A as [c' A]. rewrite A. reflexivity.
Qed.
