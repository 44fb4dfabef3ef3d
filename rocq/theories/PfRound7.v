(** PfRound7.v -- the round trip, part 7: models, and the induction over written values. *)

From Verif Require Import Base Elem Native Errs Names Ser Write Read Api SpecElem SpecRead SpecNames SpecWrite SpecSim SpecRound.
From Verif Require Import PfElem PfNames PfWrite PfWrite3 PfWSim PfRound1 PfRound2 PfRound3 PfRound4 PfRound5 PfRound6.

Section Models.
Variable neat : bool.
Variable ev : env.
Variable eas : bool.

(** the fields of a model *)
Inductive fields_sound (fl : flags) (m : mdef) (v enc : val) : list (string * ser) -> list (string * val) -> list fld -> Prop :=
| fs_nil : fields_sound fl m v enc [] [] []
| fs_out : forall name s fs rs flds f, is_left_out fl m v name -> f_ser f = s -> f_out f = None -> fsound neat ev eas fl f ->
    fields_sound fl m v enc fs rs flds -> fields_sound fl m v enc ((name, s) :: fs) ((name, f_res f) :: rs) (f :: flds)
| fs_in : forall name s fs rs flds f x xe, is_written fl m v name -> py_getattr v name = Ok x -> py_getitem enc name = Ok xe ->
    f_ser f = s -> f_out f = Some (x, xe) -> fsound neat ev eas fl f ->
    fields_sound fl m v enc fs rs flds -> fields_sound fl m v enc ((name, s) :: fs) ((name, f_res f) :: rs) (f :: flds).

Lemma fields_facts : forall fl m v enc fs rs flds, fields_sound fl m v enc fs rs flds ->
  map f_ser flds = map snd fs /\ map f_res flds = map snd rs /\ Forall (fsound neat ev eas fl) flds.
Proof.
  intros fl m v enc fs rs flds H; induction H as [|name s fs rs flds f L Es Eo Fs H (I1 & I2 & I3)|name s fs rs flds f x xe W Gx Ge Es Eo Fs H (I1 & I2 & I3)];
    simpl; repeat split; auto; congruence.
Qed.

Lemma fields_written : forall fl m v enc fs rs flds, fields_sound fl m v enc fs rs flds -> forall disc s x xe, In (disc, s) fs ->
  is_written fl m v disc -> py_getattr v disc = Ok x -> py_getitem enc disc = Ok xe ->
  exists f, In f flds /\ f_ser f = s /\ f_out f = Some (x, xe).
Proof.
  intros fl m v enc fs rs flds H; induction H as [|name s fs rs flds f L Es Eo Fs H IH|name s fs rs flds f x xe W Gx Ge Es Eo Fs H IH];
    intros disc s' x' xe' I Wr Gx' Ge'; simpl in I; [contradiction| |].
  - destruct I as [E|I].
    + injection E as -> <-. exfalso. destruct Wr as [W1 W2]. destruct L as [L|[L1 L2]]; [congruence|]. rewrite (W2 L1) in L2. discriminate.
    + destruct (IH _ _ _ _ I Wr Gx' Ge') as (g & Ig & Hg). exists g; simpl; auto.
  - destruct I as [E|I].
    + injection E as -> <-. exists f. simpl. repeat split; auto. congruence.
    + destruct (IH _ _ _ _ I Wr Gx' Ge') as (g & Ig & Hg). exists g; simpl; auto.
Qed.

Lemma fields_write : forall fl m v enc fs rs flds n, Forall (fun nf => md_cser m (fst nf) = None /\ md_cval m (fst nf) = None) fs -> fields_sound fl m v enc fs rs flds -> forall e,
  write_fields (write n ev) m fs fl e v enc = write_all (map (item_of ev eas fl n) flds) e.
Proof.
  intros fl m v enc fs rs flds n Hc H; induction H as [|name s fs rs flds f L Es Eo Fs H IH|name s fs rs flds f x xe W Gx Ge Es Eo Fs H IH];
    intros e; simpl; auto; inversion Hc as [|? ? [Hs _] Hc']; subst; specialize (IH Hc'); simpl in Hs.
  - rewrite Eo. simpl. destruct (str_in name (md_sexclude m)) eqn:X; auto. destruct L as [L|[L1 L2]]; [congruence|].
    rewrite L1, L2. simpl. auto.
  - destruct W as [W1 W2]. rewrite W1, Eo. simpl. destruct (fl_exclude_unset fl) eqn:Eu.
    + rewrite (W2 eq_refl). simpl. rewrite Gx. simpl. rewrite Hs, Ge. simpl.
      destruct (write n ev (f_ser f) fl e x xe); simpl; auto.
    + simpl. rewrite Gx. simpl. rewrite Hs, Ge. simpl. destruct (write n ev (f_ser f) fl e x xe); simpl; auto.
Qed.

Definition keep_in (m : mdef) (rs : list (string * val)) : list (string * val) :=
  map (fun kv => (match dget (fst kv) (md_valias m) with Some a => a | None => fst kv end, snd kv))
      (filter (fun kv => negb (is_none (snd kv))) rs).

Lemma fields_read : forall fl m v enc fs rs flds n, Forall (fun nf => md_cser m (fst nf) = None /\ md_cval m (fst nf) = None) fs -> fields_sound fl m v enc fs rs flds -> forall R R',
  reads (map (item_of ev eas fl n) flds) R R' -> forall acc sm, exists sm',
  read_fields (read n ev) m fs eas acc [] (St R sm) = (Ok (fold_left (fun d kv => dset (fst kv) (snd kv) d) (keep_in m rs) acc, []), St R' sm').
Proof.
  intros fl m v enc fs rs flds n Hc H.
  assert (Step : forall name s fs' rs' flds' f, f_ser f = s -> md_cval m name = None ->
    (forall R R', reads (map (item_of ev eas fl n) flds') R R' -> forall acc sm, exists sm',
      read_fields (read n ev) m fs' eas acc [] (St R sm) = (Ok (fold_left (fun d kv => dset (fst kv) (snd kv) d) (keep_in m rs') acc, []), St R' sm')) ->
    forall R R', reads (map (item_of ev eas fl n) (f :: flds')) R R' -> forall acc sm, exists sm',
      read_fields (read n ev) m ((name, s) :: fs') eas acc [] (St R sm) =
      (Ok (fold_left (fun d kv => dset (fst kv) (snd kv) d) (keep_in m ((name, f_res f) :: rs')) acc, []), St R' sm')).
  { clear H Hc. intros name s fs' rs' flds' f Es Hc IH R R' Rd acc sm. inversion Rd as [|it its e e1 e2 R1 T1 R2]; subst it its e e2. clear Rd.
    destruct (R1 [LKey name] (st_sm (note_line [LKey name] (St R sm)))) as (sm1 & E1). cbn [read_fields]. rewrite Hc.
    replace (note_line [LKey name] (St R sm)) with (St R (st_sm (note_line [LKey name] (St R sm)))) by reflexivity.
    rewrite <- Es. simpl in E1. simpl. rewrite E1. unfold keep_in. simpl.
    destruct (is_none (f_res f)) eqn:N.
    - clear E1. revert N. destruct (f_res f); intros N; try discriminate N. simpl. destruct (IH e1 R' R2 acc sm1) as (sm2 & E2). exists sm2. rewrite E2. reflexivity.
    - simpl. destruct (IH e1 R' R2 (dset (match dget name (md_valias m) with Some a => a | None => name end) (f_res f) acc) sm1) as (sm2 & E2).
      exists sm2. unfold keep_in in E2. rewrite <- E2. revert N. destruct (f_res f); intros N; try discriminate N; reflexivity. }
  induction H as [|name s fs rs flds f L Es Eo Fs H IH|name s fs rs flds f x xe W Gx Ge Es Eo Fs H IH]; intros R R' Rd acc sm.
  - inv Rd. exists sm. reflexivity.
  - inversion Hc as [|? ? [_ Hs] Hc']; subst. eapply Step; eauto.
  - inversion Hc as [|? ? [_ Hs] Hc']; subst. eapply Step; eauto.
Qed.

Lemma validates : forall m input w d' sm, md_validate m input = Valid w -> (neat = true -> cleaned d') -> (neat = false -> md_forbid m = false) ->
  validate_result m input (St d' sm) = Ok w.
Proof.
  intros m input w d' sm V C F. unfold validate_result. destruct (md_forbid m) eqn:Fb.
  - destruct neat; [|discriminate (F eq_refl)]. unfold check_extra. simpl. rewrite (cleaned_unbound (C eq_refl)). rewrite V. auto.
  - rewrite V. auto.
Qed.

Lemma at_node : forall tag c, at_ (node tag c) [] (c_elems c ++ []).
Proof. intros tag c. split; simpl; auto. rewrite app_nil_r; auto. Qed.

Lemma all_fuel : forall N n (flds : list fld), N < n -> Forall (fun x : nat * fld => N < fst x) (map (fun f => (n, f)) flds).
Proof. intros N n flds H. rewrite Forall_map. apply Forall_forall. simpl. auto. Qed.

Lemma same_items : forall fl n flds, items ev eas fl (map (fun f => (n, f)) flds) = map (item_of ev eas fl n) flds.
Proof. intros fl n flds. unfold items. rewrite map_map. reflexivity. Qed.

Lemma level_node : forall its T A M X c tag, level neat eas its T A M X c -> (X = false -> c_text c = None) -> exists d', reads its (node tag c) d' /\
  e_tag d' = TName tag /\ (neat = true -> cleaned d').
Proof.
  intros its T A M X c tag Lv Tx. pose proof (level_has Lv) as LF.
  destruct (level_read Lv (R := node tag c) (P := []) (rest := []) (more := [])) as (d' & Rd & Af).
  { constructor; auto.
    - apply at_node.
    - simpl. rewrite app_nil_r. auto.
    - intros M1; split; auto. discriminate.
    - apply (lv_nonil LF). }
  { constructor. }
  exists d'. split; auto. split; [rewrite (reads_tag Rd); auto|]. intros Nt. destruct (Af Nt) as [a1 a2 a3 (Q & [b1 b2] & b3 & b4) a5 a6 a7].
  constructor.
  - rewrite a7. destruct X; auto. simpl. rewrite Tx; auto.
  - rewrite a3. auto.
  - auto.
  - rewrite b1, app_nil_r. simpl. auto.
Qed.

Lemma plain_sound : forall fl m v enc rs w flds, md_root m = false -> is_none v = false ->
  fields_sound (with_skip_empty m fl) m v enc (md_fields m) rs flds ->
  apart ev eas (map snd (md_fields m)) -> Forall (fun nf => md_cser m (fst nf) = None /\ md_cval m (fst nf) = None) (md_fields m) ->
  (neat = true -> Forall (fun nf => ~ computed ev (snd nf)) (md_fields m)) -> (neat = false -> md_forbid m = false) ->
  md_validate m (Some (read_data m rs)) = Valid w -> exists n0 c, sub_sound neat ev eas n0 fl m v enc (map snd rs) w c.
Proof.
  intros fl m v enc rs w flds Rt V Fs Ap Cs Cn Fb Va. destruct (fields_facts Fs) as (E1 & E2 & Sd).
  destruct (@apart_level neat ev eas _ _ Ap flds E1 Sd) as (N & T & c & Sh & _ & Lv).
  { rewrite Forall_map. apply Forall_forall. intros nf I Nt. specialize (Cn Nt). rewrite Forall_forall in Cn. auto. }
  assert (Lv' : forall n, N < n -> level neat eas (map (item_of ev eas (with_skip_empty m fl) n) flds) T (flat_map attr_names (map snd (md_fields m)))
            (existsb all_attrs (map snd (md_fields m))) (existsb own_text (map snd (md_fields m))) c).
  { intros n Hn. rewrite <- same_items. apply Lv; [|apply all_fuel; auto]. rewrite map_map. simpl. apply map_id. }
  pose proof (level_has (Lv' (S N) ltac:(lia))) as LF.
  exists (S N), c. constructor; auto.
  - apply (lv_named LF).
  - apply (lv_nodup LF).
  - apply (lv_nonil LF).
  - intros Ex. apply (level_full (Lv' (S N) ltac:(lia))). rewrite <- E2 in Ex. rewrite Exists_map in Ex |- *. exact Ex.
  - intros disc name cp x t _ I _ W Gx Nx Ge. destruct (fields_written Fs _ I W Gx Ge) as (f & If & Ef & Eo). eapply Sh; eauto.
  - intros n Hn b tag ns. unfold write_model. rewrite V, Rt. rewrite (fields_write n Cs Fs).
    apply (level_write (Lv' n ltac:(lia))); simpl; auto.
  - intros n Hn tag. destruct (level_node tag (Lv' n ltac:(lia)) (lv_text LF)) as (d' & Rd & Td & Cd). exists d'. split; auto.
    intros loc sm. destruct (fields_read n Cs Fs Rd [] sm) as (sm' & E). exists sm'. unfold read_model. rewrite Rt. unfold read_plain_model.
    rewrite E. f_equal. apply validates; auto.
Qed.

Lemma root_sound : forall fl m v enc name s x r w, md_root m = true -> is_none v = false -> md_fields m = [(name, s)] ->
  (fl_exclude_unset fl = true -> is_unset v "root" = Ok false) -> live s = true -> py_getattr v "root" = Ok x ->
  sound neat ev eas (with_skip_empty m fl) s x enc r -> apart ev eas (map snd (md_fields m)) -> (neat = false -> md_forbid m = false) ->
  md_validate m (if is_none r then None else Some r) = Valid w -> exists n0 c, sub_sound neat ev eas n0 fl m v enc [r] w c.
Proof.
  intros fl m v enc name s x r w Rt V Ef Un Lv Gx Sd Ap Fb Va. rewrite Ef in Ap. simpl in Ap.
  set (f := Fld s (Some (x, enc)) r).
  destruct (@apart_level neat ev eas (with_skip_empty m fl) _ Ap [f] eq_refl) as (N & T & c & Sh & _ & L).
  { constructor; [|constructor]. exists r. simpl. rewrite Lv. auto. }
  { constructor; [|constructor]. intros _ C. rewrite (computed_not_live C) in Lv. discriminate. }
  assert (L' : forall n, N < n -> level neat eas [item_of ev eas (with_skip_empty m fl) n f] T (flat_map attr_names [s]) (existsb all_attrs [s]) (existsb own_text [s]) c).
  { intros n Hn. apply (L [(n, f)]); auto. }
  pose proof (level_has (L' (S N) ltac:(lia))) as LF.
  exists (S N), c. constructor; auto.
  - apply (lv_named LF).
  - apply (lv_nodup LF).
  - apply (lv_nonil LF).
  - intros Ex. apply (level_full (L' (S N) ltac:(lia))). inv Ex; [|inv H0]. constructor. auto.
  - intros; congruence.
  - intros n Hn b tag ns. unfold write_model. rewrite V, Rt.
    assert (E : obind (if fl_exclude_unset fl then is_unset v "root" else Ok false) (fun unset => if unset then Ok (make_element b tag ns) else
       match md_fields m with (_, s0) :: _ => obind (py_getattr v "root") (fun x0 => write n ev s0 (with_skip_empty m fl) (make_element b tag ns) x0 enc) | [] => Raise XUnmodelled end)
       = write_all [item_of ev eas (with_skip_empty m fl) n f] (make_element b tag ns)).
    { rewrite Ef. simpl. destruct (fl_exclude_unset fl); [rewrite Un by auto|]; simpl; rewrite Gx; simpl;
        destruct (write n ev s (with_skip_empty m fl) (make_element b tag ns) x enc); simpl; auto. }
    rewrite E. apply (level_write (L' n ltac:(lia))); simpl; auto.
  - intros n Hn tag. destruct (level_node tag (L' n ltac:(lia)) (lv_text LF)) as (d' & Rd & Td & Cd). exists d'. split; auto.
    intros loc sm. inversion Rd as [|it its e e1 e2 R1 T1 R2]; subst. inv R2. destruct (R1 loc sm) as (sm' & E). exists sm'.
    unfold read_model. rewrite Rt. unfold read_root_model. rewrite Ef. simpl in E. rewrite E. f_equal. apply validates; auto.
Qed.

(** ---- the induction ---- *)
Scheme kept_mut := Minimality for kept Sort Prop
  with kept_items_mut := Minimality for kept_items Sort Prop
  with kept_members_mut := Minimality for kept_members Sort Prop
  with kept_fields_mut := Minimality for kept_fields Sort Prop
  with kept_model_mut := Minimality for kept_model Sort Prop.

Lemma prim_direct : forall c s, direct_field ev (SUnionPrim c s) -> primitive s -> direct_field ev s.
Proof.
  intros c s D Pr. inversion D as [| |? ? Pr' D'| |? Rp| | |]; subst; auto. inv Rp. apply df_one. constructor.
Qed.

Hypothesis Ka : keeps_apart ev eas.
Hypothesis Nt : neat = true -> computes_nothing ev.
Hypothesis Nf : neat = false -> forbids_nothing ev.

Lemma not_model : forall s fl v enc r c, (forall p, s <> SProxy p) -> is_model ev s fl v enc r c.
Proof. intros s fl v enc r c H p E. destruct (H p E). Qed.

Lemma kept_model_sound : forall fl m v enc rs w, kept_model ev eas fl m v enc rs w -> (exists cls, en_model ev cls = Some m) ->
  exists n0 c, sub_sound neat ev eas n0 fl m v enc rs w c.
Proof.
  apply (@kept_model_mut ev eas
    (fun fl s v enc r => sound neat ev eas fl s v enc r)
    (fun fl s vs encs rs => repeatable ev s -> exists n0 dss, all_add neat ev eas n0 fl s vs encs rs dss)
    (fun fl ss vs encs rs => Forall (repeatable ev) ss -> exists n0 dss, each_adds neat ev eas n0 fl ss vs encs rs dss)
    (fun fl m fs v enc rs => exists flds, fields_sound fl m v enc fs rs flds)
    (fun fl m v enc rs w => (exists cls, en_model ev cls = Some m) -> exists n0 c, sub_sound neat ev eas n0 fl m v enc rs w c)).
  - (* dropped *) intros fl s v enc Pr Dr. assert (D : direct_field ev s -> exists n0 c, sound_at neat ev eas n0 fl s (Some (v, enc)) (unwritten eas s) c /\ is_model ev s fl v enc (unwritten eas s) c).
    { intros D. destruct (@dropped_sound neat ev eas fl s v enc Pr D Dr) as (n0 & Sd). exists n0, nothing. split; auto. intros p E N. subst s. contradiction Pr. }
    destruct s; try contradiction Pr; exact D.
  - (* text *) intros fl c ni v enc t Dr Ni Et _. exists 1, (Con (Some t) [] []). split; [apply text_sound; auto|apply not_model; discriminate].
  - (* attr *) intros fl n c v enc t Dr Et D. inv D; [|inv H]. exists 1, (Con None [(n, t)] []). split; [apply attr_sound; auto|apply not_model; discriminate].
  - (* elem *) intros fl n ns m c ni v enc t Dr Et Hv _. destruct (@elem_sound neat ev eas fl n ns m c ni v enc t Dr Et Hv) as (n0 & c0 & Sd).
    exists n0, c0. split; auto. apply not_model; discriminate.
  - (* prim *) intros fl c s v enc r Pr _ IH D.
    assert (D' := prim_direct D Pr).
    assert (X : exists n0 c0, sound_at neat ev eas n0 fl s (Some (v, enc)) r c0).
    { destruct s; try contradiction Pr; destruct (IH D') as (n0 & c0 & Sd & _); eauto. }
    destruct X as (n0 & c0 & Sd). exists (S n0), c0. split; [|apply not_model; discriminate]. apply prim_sound; auto.
    intros _ Rp. inv Rp. constructor.
  - intros fl a v enc V _. destruct (@attrs_none_sound neat ev eas fl a v enc V) as (n0 & Sd). exists n0, nothing. split; auto. apply not_model; discriminate.
  - intros fl a v d ts V Mo _. exists 1, (Con None (mapped a d ts) []). split; [apply attrs_sound; auto|apply not_model; discriminate].
  - intros fl n m a v enc Sk V _. destruct (@map_none_sound neat ev eas fl n m a v enc Sk V) as (c0 & Sd). exists 1, c0. split; auto. apply not_model; discriminate.
  - intros fl n m a v enc Sk V _. destruct (@map_skipped_sound neat ev eas fl n m a v enc Sk V) as (n0 & Sd). exists n0, nothing. split; auto. apply not_model; discriminate.
  - intros fl n m a v d ts V Mo Sk _. destruct (@map_sound neat ev eas fl n m a v d ts V Mo Sk) as (c0 & Sd). exists 1, c0. split; auto. apply not_model; discriminate.
  - (* list none *) intros fl t c s h v enc V D. destruct (@silent_sound neat ev eas fl (SHomo t c s h) v enc 1 D) as (n0 & Sd); [|discriminate|].
    { intros [|n] e Hn; [lia|]. cbn [write write_step]. unfold write_homo. rewrite V; auto. }
    exists n0, nothing. split; [exact Sd|apply not_model; discriminate].
  - (* list *) intros fl t c s h vs encs rs _ IH D.
    assert (Rp : repeatable ev s) by (inversion D as [| | | |? R0|? ? ? ? R0| |]; subst; auto; inv R0).
    destruct (IH Rp) as (n0 & dss & A). destruct (@list_sound neat ev eas n0 fl t c s h vs encs rs dss Rp A) as (n1 & Sd).
    exists n1, (Con None [] (concat dss)). split; auto. apply not_model; discriminate.
  - (* tuple none *) intros fl t c l h v enc V D. destruct (@silent_sound neat ev eas fl (SHetero t c l h) v enc 1 D) as (n0 & Sd); [|discriminate|].
    { intros [|n] e Hn; [lia|]. cbn [write write_step]. unfold write_hetero. rewrite V; auto. }
    exists n0, nothing. split; [exact Sd|apply not_model; discriminate].
  - (* tuple *) intros fl t c l h vs encs rs _ IH D.
    assert (Rp : Forall (repeatable ev) l) by (inversion D as [| | | |? R0| | |]; subst; inv R0; auto).
    destruct (IH Rp) as (n0 & dss & A). exists (S n0), (Con None [] (concat dss)). split; [apply tuple_sound; auto|apply not_model; discriminate].
  - (* union *) intros fl t c before p after h v enc cls r Ht Hp Hb _ IH Nn D.
    assert (K : Forall (known ev) (before ++ p :: after) /\ NoDup (map px_name (before ++ p :: after))).
    { inversion D as [| | | |? R0| | |]; subst; auto. inv R0; auto. }
    destruct K as [K1 K2]. assert (Kp : known ev p) by (apply Forall_app in K1; destruct K1 as [_ K1]; inv K1; auto).
    destruct (IH (df_one (rp_model Kp))) as (n0 & c0 & Sd & Im). exists (S n0), c0. split; [|apply not_model; discriminate].
    eapply union_sound; eauto.
  - intros fl t c vs h v enc H D. destruct (@union_none_sound neat ev eas fl t c vs h v enc H D) as (n0 & Sd). exists n0, nothing. split; auto. apply not_model; discriminate.
  - (* tagged *) intros fl c disc aname vs mode v d t p m c' x r G Nt' Gv Em Rt I Nd W Gx Nx _ IH Nn D.
    assert (Kp : known ev p) by (unfold known; rewrite Em; discriminate).
    destruct (IH (df_one (rp_model Kp))) as (n0 & c0 & Sd & Im). exists (S n0), c0. split; [|apply not_model; discriminate].
    eapply tagged_sound; eauto.
  - intros fl path ns m c s v enc H. left. auto.
  - intros fl path ns m c s v enc r V L _ IH. right. auto.
  - intros fl n m c enc _. destruct (@raw_none_sound neat ev eas fl n m c enc) as (n0 & Sd). exists n0, nothing. split; auto. apply not_model; discriminate.
  - intros fl n m c enc x x' Ht Hp Hb Sk _. destruct (@raw_sound neat ev eas fl n m c enc x x' Ht Hp Hb Sk) as (c0 & Sd). exists 1, c0. split; auto. apply not_model; discriminate.
  - intros fl p v enc V K _. apply model_none_sound; auto.
  - intros fl p m v enc rs w Em _ IH Sk _. destruct (IH (ex_intro _ _ Em)) as (n0 & c & Sb).
    exists (S n0), (Con None [] [node (px_name p) c]). eapply proxy_sound; eauto.
  - intros fl s _. exists 0, []. constructor.
  - (* item *) intros fl s v vs enc encs r rs V _ IH Nr _ IHs Rp. destruct (IHs Rp) as (n0 & dss & A).
    assert (X : exists n1 c0, sound_at neat ev eas n1 fl s (Some (v, enc)) r c0).
    { destruct s; try (destruct (IH (df_one Rp)) as (n1 & c0 & Sd & _); eauto); inv Rp. }
    destruct X as (n1 & c0 & Sd). pose proof (sound_adds Rp Nr Sd) as Ad.
    exists (Nat.max n0 n1), (c_elems c0 :: dss). constructor; auto.
    + eapply adds_more; [|exact Ad]. lia.
    + eapply all_add_more; [|exact A]. lia.
  - intros fl _. exists 0, []. constructor.
  - (* member *) intros fl s ss v vs enc encs r rs _ IH Nr _ IHs F. inversion F as [|? ? Rp F']; subst. destruct (IHs F') as (n0 & dss & A).
    assert (X : exists n1 c0, sound_at neat ev eas n1 fl s (Some (v, enc)) r c0).
    { destruct s; try (destruct (IH (df_one Rp)) as (n1 & c0 & Sd & _); eauto); inv Rp. }
    destruct X as (n1 & c0 & Sd). pose proof (sound_adds Rp Nr Sd) as Ad.
    exists (Nat.max n0 n1), (c_elems c0 :: dss). constructor; auto.
    + eapply adds_more; [|exact Ad]. lia.
    + eapply each_adds_more; [|exact A]. lia.
  - intros fl m v enc. exists []. constructor.
  - (* left out *) intros fl m name s fs v enc rs r L C _ (flds & Fs). exists (Fld s None r :: flds).
    apply (@fs_out fl m v enc name s fs rs flds (Fld s None r)); auto.
    destruct C as [[C ->]|[Lv ->]]; exists (unwritten eas s); simpl; [rewrite (computed_not_live C)|rewrite Lv]; auto.
  - (* field *) intros fl m name s fs v enc rs x xe r r' W Gx Ge _ IH C _ (flds & Fs). exists (Fld s (Some (x, xe)) r' :: flds).
    apply (@fs_in fl m v enc name s fs rs flds (Fld s (Some (x, xe)) r') x xe); auto.
    destruct C as [[C ->]|[Lv ->]]; exists r; simpl; [rewrite (computed_not_live C)|rewrite Lv]; auto.
  - (* plain *) intros fl m v enc rs w Rt V _ (flds & Fs) Va (cls & Em). destruct (Ka cls Em) as (Ap & Cs).
    eapply plain_sound; eauto; intros.
    + eapply Nt; eauto.
    + eapply Nf; eauto.
  - (* root *) intros fl m v enc name s x r w Rt V Ef Un Lv Gx _ IH Va (cls & Em). destruct (Ka cls Em) as (Ap & Cs).
    eapply root_sound; eauto. intros. eapply Nf; eauto.
Qed.

End Models.

Lemma node_tree : forall b tag ns c d, grows (make_element b tag ns) c d -> Forall named (c_elems c) -> named d /\ norm d = node tag c.
Proof.
  intros b tag ns c d G F. assert (E : norm d = node tag c) by (apply (norm_grown G); reflexivity). split; auto.
  apply norm_named. rewrite E. apply node_named; auto.
Qed.

Lemma sub_round_trip : forall neat ev eas encode cls m v fl rs w n0 c, model_type v = Some cls -> en_model ev cls = Some m ->
  sub_sound neat ev eas n0 fl m v (encode v) rs w c ->
  forall n, n0 <= n -> exists doc, to_xml_tree n ev encode v fl = Ok doc /\ from_xml_tree n ev cls doc eas = Ok w.
Proof.
  intros neat ev eas encode cls m v fl rs w n0 c Ht Em Sb n Hn. unfold to_xml_tree, from_xml_tree. rewrite Ht, Em.
  destruct (sb_write Sb Hn Lxml (md_elem_name m) (md_nsmap m)) as (d & W & G).
  change (new_elem (TName (md_elem_name m)) None None None [] (md_nsmap m) (-1)) with (make_element Lxml (md_elem_name m) (md_nsmap m)).
  rewrite W. simpl. destruct (node_tree G (sb_named Sb)) as [Nd En].
  destruct (export_import (en_backend ev) Nd) as (doc & E1 & E2). rewrite E1. exists doc. split; auto.
  assert (Td : native_tag doc = TName (md_elem_name m)).
  { assert (e_tag (from_native (en_backend ev) doc) = TName (md_elem_name m)) by (rewrite E2, En; auto).
    destruct doc; simpl in *; auto; discriminate. }
  rewrite Td. cbn [tag_is]. rewrite String.eqb_refl. rewrite E2, En.
  destruct (sb_read Sb Hn (md_elem_name m)) as (d' & Rd & _). destruct (Rd [] []) as (sm' & ->). auto.
Qed.

Lemma round_trip : forall ev eas encode cls m v fl rs w, keeps_apart ev eas -> forbids_nothing ev \/ computes_nothing ev ->
  model_type v = Some cls -> en_model ev cls = Some m -> kept_model ev eas fl m v (encode v) rs w ->
  exists n0, forall n, n0 <= n -> exists doc, to_xml_tree n ev encode v fl = Ok doc /\ from_xml_tree n ev cls doc eas = Ok w.
Proof.
  intros ev eas encode cls m v fl rs w Ka Fc Ht Em K.
  assert (X : exists neat, (neat = true -> computes_nothing ev) /\ (neat = false -> forbids_nothing ev)).
  { destruct Fc; [exists false|exists true]; split; intros; auto; discriminate. }
  destruct X as (neat & Nt & Nf). destruct (kept_model_sound Ka Nt Nf K (ex_intro _ _ Em)) as (n0 & c & Sb).
  exists n0. apply (@sub_round_trip neat ev eas encode cls m v fl rs w n0 c); auto.
Qed.
