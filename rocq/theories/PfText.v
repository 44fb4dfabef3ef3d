(** PfText.v -- empty and missing texts are read alike; the round trip through text. *)

From Verif Require Import Base Elem Native Errs Names Ser Write Read Api Text SpecElem SpecRead SpecSim SpecRound SpecText
  PfElem PfField PfSim PfSim2 PfRound1 PfRound2 PfRound3 PfRound4 PfRound5 PfRound6 PfRound7.

Notation DT := (differ same_text eq any_line eq).

Lemma same_text_refl : forall o, same_text o o.
Proof. reflexivity. Qed.

Lemma same_text_read : forall a b, same_text a b -> forall eas, text_or_default eas a = text_or_default eas b.
Proof. intros [[|c a]|] [[|c' b]|] H eas; unfold same_text in H; simpl in H; try discriminate; auto. injection H as -> ->; auto. Qed.

Lemma same_text_nonblank : forall a b, same_text a b -> nonblank a = nonblank b.
Proof. intros [[|c a]|] [[|c' b]|] H; unfold same_text in H; simpl in H; try discriminate; auto. injection H as -> ->; auto. Qed.

Lemma alike_none : forall v w, alike v w -> is_none v = is_none w.
Proof. intros v w H; inversion H; auto. Qed.

Lemma alike_lerr_refl : forall l, alike_lerr l l.
Proof. intros []; repeat split; [apply same_msg_refl|apply al_refl]. Qed.

Lemma alike_verr_refl : forall e, alike_verr e e.
Proof. intros e; repeat split. induction (ve_lines e); constructor; auto using alike_lerr_refl. Qed.

Lemma alike_verr_into : forall title hide (l1 l2 : list (option locitem * verr)),
  Forall2 (fun a b : option locitem * verr => fst a = fst b /\ alike_verr (snd a) (snd b)) l1 l2 ->
  alike_verr (into_validation_error title l1 hide) (into_validation_error title l2 hide).
Proof.
  intros title hide l1 l2 H; repeat split; simpl. induction H as [|[k1 e1] [k2 e2] l1 l2 [Hk (_ & Hl & _)] H IH]; simpl in *; auto.
  subst. apply Forall2_app; auto. clear -Hl. induction Hl as [|x y l l' (A & B & C & D) Hl IH]; simpl; constructor; auto.
  repeat split; simpl; auto. rewrite C; auto.
Qed.

Lemma alike_verr_lines : forall x y sm1 sm2 h, alike_verr x y ->
  alike_verr (set_validation_error_sourceline x sm1 h) (set_validation_error_sourceline y sm2 h).
Proof.
  intros x y sm1 sm2 h (A & B & C); repeat split; simpl; auto. clear -B. induction B as [|a b l l' (T & M & L & I) B IH]; simpl; constructor; auto.
  repeat split; simpl; auto. constructor; auto.
Qed.

Lemma differ_text_native : forall b e1 e2, DT e1 e2 ->
  match to_native b e1, to_native b e2 with Some n1, Some n2 => reparsed n1 n2 | None, None => True | _, _ => False end.
Proof.
  intros b e1; induction e1 as [tag ns text tail a l next line IH] using elem_ind'; intros e2 H; inv H. simpl.
  assert (X : match map_opt (to_native b) l, map_opt (to_native b) l' with Some n1, Some n2 => Forall2 reparsed n1 n2 | None, None => True | _, _ => False end).
  { match goal with H : Forall2 _ l l' |- _ => clear -IH H; induction H end; simpl; auto. inv IH. specialize (H2 _ H). specialize (IHForall2 H3).
    destruct (to_native b x), (to_native b y); try contradiction; auto.
    destruct (map_opt (to_native b) l), (map_opt (to_native b) l'); try contradiction; auto. }
  destruct tag as [t|].
  - destruct (map_opt (to_native b) l), (map_opt (to_native b) l'); try contradiction; auto. constructor; auto.
  - destruct b; auto. constructor; auto.
Qed.

Lemma differ_text_unbound : forall e1 e2, DT e1 e2 -> forall path,
  Forall2 (fun u v => u_path u = u_path v /\ u_attr u = u_attr v /\ u_value u = u_value v) (get_unbound path e1) (get_unbound path e2).
Proof.
  intros e1; induction e1 as [tag ns text tail a l next line IH] using elem_ind'; intros e2 H path; inv H. simpl.
  repeat match goal with H : same_text _ _ |- _ => apply same_text_nonblank in H; rewrite H; clear H end.
  apply Forall2_app; [|apply Forall2_app; [|apply Forall2_app]].
  1-3: match goal with |- Forall2 _ (map _ ?d) _ => induction d end; simpl; constructor; auto.
  match goal with H : Forall2 _ l l' |- _ => clear -IH H; induction H end; simpl; auto. inv IH.
  pose proof (differ_inv H) as [Ht _]. rewrite Ht. apply Forall2_app; auto.
Qed.

Lemma differ_text_extra : forall e1 e2, DT e1 e2 -> forall title hide,
  match check_extra title e1 hide, check_extra title e2 hide with
  | Some r1, Some r2 => alike_verr r1 r2 | None, None => True | _, _ => False end.
Proof.
  intros e1 e2 H title hide; unfold check_extra. pose proof (differ_text_unbound H []) as U.
  destruct U as [|u v us vs Huv U]; auto. assert (F : forall us vs, Forall2 (fun u v => u_path u = u_path v /\ u_attr u = u_attr v /\ u_value u = u_value v) us vs ->
    Forall2 alike_lerr (map extra_error us) (map extra_error vs)).
  { clear. intros us vs F; induction F as [|u v us vs (A & B & C) F IH]; simpl; constructor; auto.
    unfold extra_error, unbound_loc. rewrite A, B, C. repeat split; simpl; repeat constructor. }
  repeat split; auto. apply F. constructor; auto.
Qed.

Lemma alike_out_orel : forall o1 o2, o1 <> Fuel -> orel alike alike_verr o1 o2 <-> alike_out o1 o2.
Proof. intros [v|x|] [w|y|] N; simpl; try tauto; try (destruct x; tauto). Qed.

Lemma text_run : forall ev, empties_unseen ev -> forall n cls root1 root2 eas,
  native_tag root1 = native_tag root2 -> DT (from_native (en_backend ev) root1) (from_native (en_backend ev) root2) ->
  from_xml_tree n ev cls root1 eas = Fuel \/ orel alike alike_verr (from_xml_tree n ev cls root1 eas) (from_xml_tree n ev cls root2 eas).
Proof.
  intros ev HO n cls root1 root2 eas HT HE.
  apply (@from_xml_sim DT alike alike_verr (fun _ _ => True) ev ev); auto.
  - intros e1 e2 H. apply (differ_search H).
  - intros e1 e2 H. apply (differ_child H).
  - intros e1 e2 c1 c2 i. apply differ_put.
  - intros e1 e2 H. destruct (differ_text eq_refl H) as [A B]. split; auto. apply same_text_read; auto.
  - intros e1 e2 H k. pose proof (differ_inv H) as (T1&T2&T3&T4&T5&T6&T7&T8). unfold attr_of, pop_attrib. rewrite <- T5. split; auto.
    destruct (e_attrib e1) as [d|]; auto. destruct (dget k d); simpl; auto. apply differ_make; simpl; auto.
  - intros e1 e2 H a. pose proof (differ_inv H) as (T1&T2&T3&T4&T5&T6&T7&T8). rewrite <- T5. split; [destruct (e_attrib e1); auto using al_refl|].
    apply differ_make; simpl; auto.
  - intros e1 e2. apply differ_step.
  - intros e1 e2. apply differ_snapshot.
  - intros e1 e2 s1 s2. apply differ_apply.
  - intros e1 e2 H. pose proof (differ_inv H) as (T1&T2&T3&T4&T5&T6&T7&T8). split.
    + assert (D : DT (fst (extract e1)) (fst (extract e2))) by (apply differ_make; simpl; auto using same_text_refl).
      pose proof (differ_text_native (en_backend ev) D) as X.
      destruct (to_native (en_backend ev) (fst (extract e1))), (to_native (en_backend ev) (fst (extract e2))); auto. constructor; auto.
    + apply differ_make; simpl; auto using same_text_refl.
  - intros e1 e2 H. apply differ_text_extra; auto.
  - intros; apply al_refl.
  - apply al_refl.
  - apply alike_none.
  - intros; constructor; auto.
  - intros; constructor; auto.
  - intros a c F; apply F.
  - apply alike_verr_into.
  - intros c. destruct (en_model ev c) as [m|] eqn:Hm; auto. destruct (HO c m Hm) as [HC HV]. split; auto.
    + apply drops_refl.
    + intros name. destruct (md_cval m name) as [f|] eqn:Hf; auto. intros e1 e2 H. destruct (HC name f Hf e1 e2 H) as [O D].
      destruct (fst (f e1)) eqn:Ho; auto; right; (split; [rewrite <- Ho in *; apply alike_out_orel; [rewrite Ho; discriminate|auto]|auto]).
    + intros i1 i2 I. assert (X : match md_validate m i1, md_validate m i2 with Valid w, Valid w' => alike w w' | Invalid x, Invalid x' => alike_verr x x' | Crashed a, Crashed a' => a = a' | _, _ => False end).
      { destruct i1, i2; simpl in I; try contradiction; [apply HV; auto|]. destruct (md_validate m None); [constructor|apply alike_verr_refl|auto]. }
      destruct (md_validate m i1), (md_validate m i2); auto. intros sm1 sm2 _. apply alike_verr_lines; auto.
  - intros m1 m2 H1 H2. congruence.
Qed.

Lemma reparsed_from : forall b n1 n2, reparsed n1 n2 -> DT (from_native b n1) (from_native b n2).
Proof.
  intros b n1; induction n1 as [tag ns text tail a cs line IH| |] using native_ind'; intros n2 H; inv H; simpl.
  - constructor; simpl; auto. 1: exact I. match goal with H : Forall2 _ _ _ |- _ => clear -H IH; induction H end; simpl; auto. inv IH.
    assert (is_xml_comment x = is_xml_comment y) as -> by (inv H; auto). destruct (is_xml_comment y); auto. simpl. constructor; auto.
  - constructor; simpl; auto. exact I.
  - constructor; simpl; auto. exact I.
Qed.

Lemma reparsed_sym : forall n1 n2, reparsed n1 n2 -> reparsed n2 n1.
Proof.
  intros n1; induction n1 as [tag ns text tail a cs line IH| |] using native_ind'; intros n2 H; inv H; constructor; unfold same_text in *; auto.
  match goal with H : Forall2 _ _ _ |- _ => clear -H IH; induction H end; simpl; constructor; inv IH; auto.
Qed.

Lemma reparsed_tag : forall n1 n2, reparsed n1 n2 -> native_tag n1 = native_tag n2.
Proof. intros n1 n2 H; inv H; auto. Qed.

Lemma reparsed_read : forall ev, empties_unseen ev -> forall n cls root1 root2 eas, reparsed root1 root2 ->
  alike_out (from_xml_tree n ev cls root1 eas) (from_xml_tree n ev cls root2 eas).
Proof.
  intros ev HO n cls root1 root2 eas H.
  pose proof (@text_run ev HO n cls _ _ eas (reparsed_tag H) (reparsed_from (en_backend ev) H)) as A.
  pose proof (reparsed_sym H) as H'.
  pose proof (@text_run ev HO n cls _ _ eas (reparsed_tag H') (reparsed_from (en_backend ev) H')) as B.
  destruct (from_xml_tree n ev cls root1 eas) as [v|x|], (from_xml_tree n ev cls root2 eas) as [w|y|], A as [A|A], B as [B|B];
    simpl in *; try discriminate; try contradiction; auto; try (destruct x; contradiction); try (destruct y; contradiction).
Qed.

Section ValInd.
  Variable P : val -> Prop.
  Hypothesis Hnone : P VNone.
  Hypothesis Hbool : forall b, P (VBool b).
  Hypothesis Hint : forall z, P (VInt z).
  Hypothesis Hstr : forall s, P (VStr s).
  Hypothesis Hother : forall r l, P (VOther r l).
  Hypothesis Hraw : forall n, P (VRaw n).
  Hypothesis Hlist : forall l, Forall P l -> P (VList l).
  Hypothesis Hdict : forall d, Forall (fun kv : string * val => P (snd kv)) d -> P (VDict d).
  Hypothesis Hmodel : forall c d s, Forall (fun kv : string * val => P (snd kv)) d -> P (VModel c d s).
  Fixpoint val_ind' (v : val) : P v :=
    let all := fix all (l : list val) : Forall P l :=
      match l with [] => Forall_nil P | x :: l' => Forall_cons x (val_ind' x) (all l') end in
    let alld := fix alld (d : list (string * val)) : Forall (fun kv => P (snd kv)) d :=
      match d with
      | [] => Forall_nil _
      | kv :: d' => Forall_cons kv (val_ind' (snd kv)) (alld d')
      end in
    match v with
    | VList l => Hlist (all l)
    | VDict d => Hdict (alld d)
    | VModel c d s => @Hmodel c d s (alld d)
    | VNone => Hnone
    | VBool b => Hbool b
    | VInt z => Hint z
    | VStr s => Hstr s
    | VOther r l => Hother r l
    | VRaw n => Hraw n
    end.
End ValInd.

Lemma alike_no_raws : forall v w, no_raws v -> alike v w -> v = w.
Proof.
  assert (X : forall d d' : list (string * val), Forall (fun kv => forall w, no_raws (snd kv) -> alike (snd kv) w -> snd kv = w) d ->
    Forall (fun kv : string * val => no_raws (snd kv)) d ->
    Forall2 (fun a b : string * val => fst a = fst b /\ alike (snd a) (snd b)) d d' -> d = d').
  { intros d d' IH N F. induction F as [|[k x] [k' x'] d d' [E A] F IHF]; auto. inv IH; inv N. simpl in *. subst.
    rewrite IHF; auto. f_equal. f_equal. auto. }
  intros v; induction v as [| | | | | |l IH|d IH|c d s IH] using val_ind'; intros w N A; inv A; auto; inversion N; subst; f_equal; auto.
  clear N; match goal with F : Forall2 _ _ _ |- _ => induction F end; auto. inv IH.
  match goal with N : Forall no_raws (_ :: _) |- _ => inversion N; subst; clear N end. f_equal; auto.
Qed.

Lemma named_only : forall b e t, named e -> to_native b e = Some t -> only_elements t.
Proof.
  intros b e; induction e as [tag ns text tail a l next line IH] using elem_ind'; intros t H E; inversion H as [? T F]; subst. simpl in *.
  destruct tag as [s|]; [|congruence]. destruct (map_opt (to_native b) l) as [cs|] eqn:M; [|discriminate]. injection E as <-. constructor.
  clear -IH F M. revert cs M. induction l as [|c l IHl]; simpl; intros cs M; [injection M as <-; auto|].
  destruct (to_native b c) as [c'|] eqn:Ec; [|discriminate]. destruct (map_opt (to_native b) l) as [cs'|]; [|discriminate].
  injection M as <-. inversion IH; inversion F; subst. constructor; eauto.
Qed.

Lemma sub_round_trip_doc : forall neat ev eas encode cls m v fl rs w n0 c, model_type v = Some cls -> en_model ev cls = Some m ->
  sub_sound neat ev eas n0 fl m v (encode v) rs w c ->
  forall n, n0 <= n -> exists doc, document doc /\ to_xml_tree n ev encode v fl = Ok doc /\ from_xml_tree n ev cls doc eas = Ok w.
Proof.
  intros neat ev eas encode cls m v fl rs w n0 c Ht Em Sb n Hn.
  destruct (sub_round_trip encode Ht Em Sb Hn) as (doc & W & R). exists doc. split; auto.
  unfold to_xml_tree in W. rewrite Ht, Em in W.
  destruct (sb_write Sb Hn Lxml (md_elem_name m) (md_nsmap m)) as (d & W' & G).
  change (new_elem (TName (md_elem_name m)) None None None [] (md_nsmap m) (-1)) with (make_element Lxml (md_elem_name m) (md_nsmap m)) in W.
  rewrite W' in W. simpl in W. destruct (node_tree G (sb_named Sb)) as [Nd En].
  destruct (export_import (en_backend ev) Nd) as (doc' & E1 & E2). rewrite E1 in W. injection W as <-. split.
  - eapply named_only; eauto.
  - assert (T : e_tail (from_native (en_backend ev) doc') = None) by (rewrite E2, En; auto). destruct doc'; auto.
Qed.

Lemma round_trip_doc : forall ev eas encode cls m v fl rs w, keeps_apart ev eas -> forbids_nothing ev \/ computes_nothing ev ->
  model_type v = Some cls -> en_model ev cls = Some m -> kept_model ev eas fl m v (encode v) rs w ->
  exists n0, forall n, n0 <= n -> exists doc, document doc /\ to_xml_tree n ev encode v fl = Ok doc /\ from_xml_tree n ev cls doc eas = Ok w.
Proof.
  intros ev eas encode cls m v fl rs w Ka Fc Ht Em K.
  assert (X : exists neat, (neat = true -> computes_nothing ev) /\ (neat = false -> forbids_nothing ev)).
  { destruct Fc; [exists false|exists true]; split; intros; auto; discriminate. }
  destruct X as (neat & Nt & Nf). destruct (kept_model_sound Ka Nt Nf K (ex_intro _ _ Em)) as (n0 & c & Sb).
  exists n0. apply (@sub_round_trip_doc neat ev eas encode cls m v fl rs w n0 c); auto.
Qed.

Lemma text_round_trip : forall D (print : native -> out D) parse, faithful print parse ->
  forall ev eas encode cls m v fl rs w, keeps_apart ev eas -> forbids_nothing ev \/ computes_nothing ev -> empties_unseen ev ->
  model_type v = Some cls -> en_model ev cls = Some m -> kept_model ev eas fl m v (encode v) rs w ->
  exists n0, forall n, n0 <= n ->
    (exists doc, document doc /\ to_xml_tree n ev encode v fl = Ok doc /\ to_xml print n ev encode v fl = print doc) /\
    forall s, to_xml print n ev encode v fl = Ok s -> exists w', from_xml parse n ev cls s eas = Ok w' /\ alike w w'.
Proof.
  intros D print parse Fa ev eas encode cls m v fl rs w Ka Fc Eu Ht Em K.
  destruct (round_trip_doc encode Ka Fc Ht Em K) as (n0 & X). exists n0. intros n Hn.
  destruct (X n Hn) as (doc & Dc & W & R). unfold to_xml, from_xml. rewrite W. simpl. split; [exists doc; auto|].
  intros s Ps. destruct (Fa doc s Dc Ps) as (doc' & -> & Rp). simpl.
  pose proof (reparsed_read Eu n cls eas Rp) as A. rewrite R in A.
  destruct (from_xml_tree n ev cls doc' eas) as [w'|x|]; simpl in A; try contradiction; eauto.
Qed.
