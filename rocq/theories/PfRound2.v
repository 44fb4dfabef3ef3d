(** PfRound2.v -- the round trip, part 2: fields without sub-models, one at a time. *)

From Verif Require Import Base Elem Native Errs Names Ser Write Read Api SpecElem SpecRead SpecNames SpecWrite SpecSim SpecRound.
From Verif Require Import PfElem PfNames PfWrite PfWrite3 PfWSim PfRound1.

(** writing field [s] at fuel [n]; [None]: the field is left out *)
Definition put (n : nat) (ev : env) (fl : flags) (s : ser) (o : option (val * val)) (e : elem) : out elem :=
  match o with None => Ok e | Some (v, enc) => write n ev s fl e v enc end.

Lemma computed_not_live : forall ev s, computed ev s -> live s = false.
Proof. intros ev s H; destruct H; simpl; auto; try (rewrite H; auto). Qed.

Lemma computed_read : forall ev s, computed ev s -> forall n eas loc s0, read (S n) ev s eas loc s0 = (Ok VNone, s0).
Proof.
  intros ev s H n eas loc s0; destruct H; cbn [read read_step]; auto.
  - unfold read_attrs. rewrite H. auto.
  - unfold read_map_elem. rewrite H. auto.
  - unfold read_proxy. destruct (en_model ev (px_model p)) eqn:E; [|exfalso; apply H0; auto]. rewrite H. auto.
Qed.

Section Leaf.
Variable neat : bool.
Variable ev : env.
Variable eas : bool.

Definition writes (A : list string) (M : bool) (c : content) (w : elem -> out elem) : Prop :=
  forall e, e_next e = length (e_elems e) -> (forall a, In a A -> ~ In a (dkeys (attr_list e))) ->
    (M = true -> attr_list e = []) -> exists e', w e = Ok e' /\ grows e c e'.

Definition reads_back (eag : bool) (T A : list string) (M X : bool) (c : content) (r : val) (rd : location -> st -> rres val) : Prop :=
  forall R P rest more, ready eag R P c rest more T A M X ->
    exists R', (forall loc sm, exists sm', rd loc (St R sm) = (Ok r, St R' sm')) /\ after neat R P rest more T M X R'.

(** what writing [o] and reading back [r] amounts to *)
Record sound_at (n0 : nat) (fl : flags) (s : ser) (o : option (val * val)) (r : val) (c : content) : Prop := SoundAt {
  sa_facts : level_facts (child_names s) (attr_names s) (all_attrs s) (own_text s) c;
  sa_full : substantial eas r -> nonvoid c;
  sa_some : repeatable ev s -> r <> VNone -> c_elems c <> [];
  sa_attr : forall name cp v enc t, s = SAttr name cp -> o = Some (v, enc) -> is_none v = false ->
    encode_primitive enc = Ok t -> In (name, t) (c_attrs c);
  sa_write : forall n, n0 <= n -> writes (attr_names s) (all_attrs s) c (put n ev fl s o);
  sa_read : forall n, n0 <= n -> live s = true ->
    reads_back false (child_names s) (attr_names s) (all_attrs s) (own_text s) c r (read n ev s eas);
  sa_eager : forall n, n0 <= n -> live s = true -> repeatable ev s -> r <> VNone ->
    reads_back true (child_names s) (attr_names s) (all_attrs s) (own_text s) c r (read n ev s eas)
}.

Lemma rep_place : forall s, repeatable ev s -> attr_names s = [] /\ all_attrs s = false /\ own_text s = false.
Proof. intros s H; destruct H; simpl; auto. Qed.

(** ---- fields bound to child elements ---- *)
Definition same_frame (R R' : elem) : Prop :=
  e_tag R' = e_tag R /\ e_line R' = e_line R /\ e_tail R' = e_tail R /\ e_attrib R' = e_attrib R /\ e_text R' = e_text R.

Lemma same_frame_refl : forall R, same_frame R R.
Proof. intros R; repeat split. Qed.
Lemma same_frame_trans : forall R R1 R2, same_frame R R1 -> same_frame R1 R2 -> same_frame R R2.
Proof. intros R R1 R2 (a & b & c & d & e) (a' & b' & c' & d' & e'); repeat split; congruence. Qed.

Definition child_reads (eag : bool) (T : list string) (ds : list elem) (r : val) (rd : location -> st -> rres val) : Prop :=
  forall R P rest, at_ R P (ds ++ rest) -> ~ In xsi_nil (dkeys (attr_list R)) -> (eag = false -> Forall (not_called T) rest) ->
  exists R', (forall loc sm, exists sm', rd loc (St R sm) = (Ok r, St R' sm')) /\
    e_tag R' = e_tag R /\ e_line R' = e_line R /\ e_tail R' = e_tail R /\ attr_list R' = attr_list R /\
    (e_attrib R <> None -> e_attrib R' <> None) /\ e_text R' = e_text R /\
    exists Q, at_ R' (P ++ Q) rest /\ Forall (called_in T) Q /\ (neat = true -> Forall cleaned Q).

Lemma child_reads_back : forall eag T ds r rd, child_reads eag T ds r rd -> reads_back eag T [] false false (Con None [] ds) r rd.
Proof.
  intros eag T ds r rd H R P rest more [Ra Rc Rat Rap Ral Rn Rt]. simpl in *.
  destruct (H R P rest Ra Rn Rc) as (R' & H1 & F1 & F2 & F3 & F4 & F4' & F5 & H2). exists R'. split; auto.
  constructor; auto. congruence.
Qed.

Lemma back_child_reads : forall eag T c r rd, c_attrs c = [] -> reads_back eag T [] false false c r rd -> child_reads eag T (c_elems c) r rd.
Proof.
  intros eag T c r rd Ac H R P rest A Ni Cl. destruct (H R P rest (attr_list R)) as (R' & Hr & [B1 B2 B3 B4 B5 B6 B7]).
  - constructor; auto; try discriminate. rewrite Ac; auto.
  - exists R'. repeat split; auto.
Qed.

Definition child_writes (ds : list elem) (w : elem -> out elem) : Prop :=
  forall e, e_next e = length (e_elems e) -> exists e', w e = Ok e' /\ grows e (Con None [] ds) e'.

Lemma child_facts : forall T ds, Forall (called_in T) ds -> Forall named ds -> level_facts T [] false false (Con None [] ds).
Proof. intros T ds H1 H2; constructor; simpl; auto; try discriminate. constructor. Qed.

(** the content of a repeatable field is just child elements *)
Lemma rep_content : forall s c, repeatable ev s -> level_facts (child_names s) (attr_names s) (all_attrs s) (own_text s) c ->
  c = Con None [] (c_elems c).
Proof.
  intros s [t a l] Rp L. destruct (rep_place Rp) as (E1 & E2 & E3). rewrite E1, E2, E3 in L. destruct L as [Lt Ln Lk La Lnd Lni Lx].
  simpl in *. rewrite (Lx eq_refl). rewrite (no_keys a); auto. intros k Hk. apply (Lk eq_refl k Hk).
Qed.

(** a field bound to at most one child: [w], [f]: what is done on that child *)
Lemma child_back : forall eag n m (f : location -> st -> rres val) ds r rd,
  (forall loc s, rd loc s = with_found (pop_element (st_el s) n m) (f loc) s) ->
  (ds = [] /\ r = VNone /\ eag = false) \/
  (exists d d', ds = [d] /\ called n d /\ (forall loc sm, exists sm', f loc (St d sm) = (Ok r, St d' sm')) /\
     e_tag d' = e_tag d /\ (neat = true -> cleaned d')) ->
  child_reads eag [n] ds r rd.
Proof.
  intros eag n m f ds r rd Hrd H R P rest A Ni Cl. destruct H as [(-> & -> & ->)|(d & d' & -> & C & Hf & Ht & Hc)].
  - exists R. split.
    + intros loc sm. exists sm. rewrite Hrd. simpl. unfold pop_element, search. rewrite (search_nowhere m true A (Cl eq_refl)). auto.
    + repeat split; auto. exists []. rewrite app_nil_r. split; [exact A|]. split; constructor.
  - destruct A as [He Hn]. simpl in He. exists (set_next (S (length P)) (set_elems (P ++ d' :: rest) R)). split.
    + intros loc sm. rewrite Hrd. simpl. unfold pop_element. rewrite (search_here m (conj He Hn) C). simpl.
      unfold on_child. simpl. rewrite He, nth_error_app2, Nat.sub_diag by auto. simpl.
      destruct (Hf loc sm) as (sm' & ->). exists sm'. simpl. unfold put_child. simpl. rewrite He, list_upd_split. reflexivity.
    + repeat split; auto. exists [d']. split; [split; simpl; [rewrite <- app_assoc; auto|rewrite app_length; simpl; lia]|].
      split; [constructor; [exists n; split; [simpl; auto|unfold called in *; congruence]|constructor]|]. intros Nt; constructor; auto.
Qed.

Lemma nothing_read : forall n m (f : location -> st -> rres val) rd,
  (forall loc s, rd loc s = with_found (pop_element (st_el s) n m) (f loc) s) -> child_reads false [n] [] VNone rd.
Proof. intros n m f rd H. eapply child_back; eauto. Qed.

(** ---- nothing written ---- *)
Lemma put_none : forall n fl s A M, writes A M nothing (put n ev fl s None).
Proof. intros n fl s A M e Hn _ _. exists e; split; auto. apply grows_nothing; auto. Qed.

Lemma nil_absent : forall R, ~ In xsi_nil (dkeys (attr_list R)) -> is_element_nill R = (false, R).
Proof.
  intros R H. unfold is_element_nill, pop_attrib, attr_list in *. destruct (e_attrib R) as [d|]; auto.
  apply dget_None_notin in H. rewrite H; auto.
Qed.

Lemma nothing_facts : forall T A M X, (M = true -> A = []) -> level_facts T A M X nothing.
Proof. intros T A M X H; constructor; simpl; auto; try constructor. intros _ k []. Qed.

(** reading the text *)
Lemma text_read : forall n ni ot, reads_back false [] [] false true (Con ot [] []) (text_or_default eas ot) (read (S n) ev (SText false ni) eas).
Proof.
  intros n ni ot R P rest more [Ra Rc Rat Rap Ral Rn Rt]. simpl in *. specialize (Rt eq_refl).
  exists (set_text_o None R). split.
  - intros loc sm. exists sm. unfold read_text. cbn [read read_step]. unfold read_text; cbn [st_el]. rewrite (nil_absent R Rn). destruct ni; unfold pop_text; cbn; rewrite Rt; auto.
  - constructor; auto. exists []. rewrite app_nil_r. repeat split; simpl; auto; apply Ra.
Qed.

Lemma attr_read_none : forall n name, reads_back false [] [name] false false nothing VNone (read (S n) ev (SAttr name false) eas).
Proof.
  intros n name R P rest more [Ra Rc Rat Rap Ral Rn Rt]. simpl in *. exists R. split.
  - intros loc sm. exists sm. unfold read_attr, pop_attrib. simpl. unfold attr_list in Rat. destruct (e_attrib R) as [d|] eqn:E; auto.
    assert (dget name d = None) as ->; auto. apply dget_None_notin. subst d. apply Rap; auto.
  - constructor; auto. exists []. rewrite app_nil_r. repeat split; simpl; auto; apply Ra.
Qed.

Lemma attr_read : forall n name t, reads_back false [] [name] false false (Con None [(name, t)] []) (VStr t) (read (S n) ev (SAttr name false) eas).
Proof.
  intros n name t R P rest more [Ra Rc Rat Rap Ral Rn Rt]. simpl in *. exists (set_attrib_o (Some more) R). split.
  - intros loc sm. exists sm. unfold read_attr, pop_attrib. simpl. unfold attr_list in Rat. destruct (e_attrib R) as [d|] eqn:E; [|discriminate].
    subst d. simpl. rewrite String.eqb_refl. auto.
  - constructor; simpl; auto; [|discriminate]. exists []. rewrite app_nil_r. repeat split; simpl; auto; apply Ra.
Qed.

(** ---- mappings ---- *)
Definition mapped (a : attrs_ser) (d : dict val) (ts : list string) : dict string :=
  combine (map (fun k => uri (QName k (attrs_uri a))) (dkeys d)) ts.

Lemma mapped_items : forall u (d : dict val) ts, Forall2 (fun kv t => py_str (snd kv) = Ok t) d ts ->
  attrs_items u d = Ok (combine (map (fun k => uri (QName k u)) (dkeys d)) ts).
Proof.
  intros u d ts H; induction H as [|[k v] t d ts H H' IH]; simpl; auto. simpl in H. rewrite H. simpl. rewrite IH. simpl. auto.
Qed.

Lemma combine_keys : forall A (ks : list string) (l : list A), length ks = length l -> dkeys (combine ks l) = ks.
Proof. intros A ks; induction ks as [|k ks IH]; intros [|x l] H; simpl in *; auto; try discriminate. f_equal; apply IH; lia. Qed.

Lemma mapping_names : forall a d ts, mapping_ok a d ts ->
  length (dkeys d) = length ts /\
  (forall k, In k (dkeys d) -> attrs_key a (uri (QName k (attrs_uri a))) = k) /\ NoDup (map (fun k => uri (QName k (attrs_uri a))) (dkeys d)).
Proof.
  intros a d ts (N & F & X & P). split; [unfold dkeys; rewrite map_length; apply (Forall2_len_s F)|].
  assert (B : forall x, In x (dkeys d) -> attrs_key a (uri (QName x (attrs_uri a))) = x).
  { intros x Hx. apply attrs_name_back. intros Na. destruct (P Na) as [P1 P2]. split; auto. rewrite Forall_forall in P1; auto. }
  split; auto. apply map_inj_nodup; auto. intros x y Hx Hy Exy. rewrite <- (B x Hx), <- (B y Hy), Exy; auto.
Qed.

Lemma mapping_write : forall a d ts fl e v, mapping_ok a d ts -> is_none v = false ->
  write_attrs a fl e v (VDict d) = Ok (set_attributes (mapped a d ts) e).
Proof.
  intros a d ts fl e v H V. destruct (mapping_names H) as (L & B & N). destruct H as (_ & F & _ & _).
  unfold write_attrs. rewrite V, (mapped_items (attrs_uri a) F). simpl. rewrite dict_of_nodup; auto.
  rewrite combine_keys; auto. rewrite map_length; auto.
Qed.

Lemma mapping_read : forall a d ts loc e sm, mapping_ok a d ts -> as_computed a = false -> e_attrib e = Some (mapped a d ts) ->
  read_attrs a eas loc (St e sm) = (Ok (strings d ts), St (set_attrib_o None e) sm).
Proof.
  intros a d ts loc e sm H C E. destruct (mapping_names H) as (L & B & N). unfold read_attrs, pop_attributes. rewrite C. simpl. rewrite E.
  unfold set_el; simpl. f_equal. f_equal. unfold strings. f_equal.
  assert (G : map (fun kv : string * string => (attrs_key a (fst kv), VStr (snd kv))) (mapped a d ts) = combine (dkeys d) (map VStr ts)).
  { unfold mapped. clear -B L. revert ts L. induction (dkeys d) as [|k ks IH]; intros [|t ts] L; simpl in *; auto; try discriminate.
    rewrite B by auto. f_equal. apply IH; auto. }
  rewrite G. apply dict_of_nodup. destruct H as (Nd & _). rewrite combine_keys; auto. rewrite map_length; auto.
Qed.

Lemma mapped_nonil : forall a d ts, mapping_ok a d ts -> ~ In xsi_nil (dkeys (mapped a d ts)) /\ NoDup (dkeys (mapped a d ts)).
Proof.
  intros a d ts H. destruct (mapping_names H) as (L & B & N). unfold mapped. rewrite combine_keys by (rewrite map_length; auto).
  split; auto. apply H.
Qed.

Lemma mapped_some : forall a d ts, mapping_ok a d ts -> strings d ts <> VDict [] -> mapped a d ts <> [].
Proof.
  intros a d ts H S Z. destruct (mapping_names H) as (L & B & N). apply S. unfold mapped, strings in *.
  destruct (dkeys d) as [|k ks]; auto. destruct ts as [|t ts]; [discriminate L|discriminate Z].
Qed.

(** ---- raw elements ---- *)
Lemma raw_named : forall b x, no_pi x -> named (norm (from_native b x)).
Proof.
  intros b x; induction x as [tag ns text tail a cs line IH| |] using native_ind'; intros H; inv H. simpl.
  constructor; simpl; [discriminate|]. clear -IH H1. induction cs as [|c cs IHc]; simpl; [constructor|]. inv IH; inv H1.
  destruct (is_xml_comment c) eqn:C; simpl; auto. destruct H4 as [H4|H4]; [congruence|]. constructor; auto.
Qed.

Lemma raw_copy : forall b x x', no_pi x -> bare_copy x x' -> to_native b (norm (from_native b x)) = Some x'.
Proof.
  intros b x; induction x as [tag ns text tail a cs line IH| |] using native_ind'; intros x' H B; inv H. inversion B as [? ? ? ? ? ? cs' ? HB]; subst; clear B. simpl.
  assert (X : map_opt (to_native b) (map norm (flat_map (fun c => if is_xml_comment c then [] else [from_native b c]) cs)) = Some cs').
  { revert cs' HB. clear -IH H1. induction cs as [|c cs IHc]; intros cs' F; simpl in *.
    - inv F; auto.
    - inv IH; inv H1. unfold no_comments in F. simpl in F. destruct (is_xml_comment c) eqn:C; simpl in *; auto.
      destruct H4 as [H4|H4]; [congruence|]. inversion F as [|? ? ? ? F1 F2]; subst. rewrite (H2 _ H4 F1). rewrite (IHc H3 H5 _ F2). auto. }
  rewrite X. destruct b; auto.
Qed.

Lemma raw_read : forall b x x' n loc sm, native_tag x = TName n -> no_pi x -> bare_copy x x' ->
  exists d', (let (fresh, c') := extract (norm (from_native b x)) in
         (match to_native b fresh with Some k => Ok (VRaw k) | None => Raise XTypeError end,
          St c' (sset loc (e_line (norm (from_native b x))) sm))) = (Ok (VRaw x'), St d' (sset loc (e_line (norm (from_native b x))) sm)) /\
    d' = snd (extract (norm (from_native b x))).
Proof.
  intros b x x' n loc sm Ht Hp Hb. pose proof (raw_copy b Hp Hb) as E. inv Hp. eexists; split; [|reflexivity]. simpl in *. rewrite E. auto.
Qed.

Lemma extract_clean : forall e, cleaned (snd (extract e)) /\ e_tag (snd (extract e)) = e_tag e.
Proof. intros e; split; simpl; auto. constructor; simpl; auto. Qed.

End Leaf.
