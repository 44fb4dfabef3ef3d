(** PfRound5.v -- the round trip, part 5: collections, sub-models and unions of sub-models. *)

From Verif Require Import Base Elem Native Errs Names Ser Write Read Api SpecElem SpecRead SpecNames SpecWrite SpecSim SpecRound.
From Verif Require Import PfElem PfNames PfWrite PfWrite3 PfWSim PfRound1 PfRound2 PfRound3 PfRound4.

Section Leaf.
Variable neat : bool.
Variable ev : env.
Variable eas : bool.

Lemma grows_join : forall e ds1 e1 ds2 e2, grows e (Con None [] ds1) e1 -> grows e1 (Con None [] ds2) e2 ->
  grows e (Con None [] (ds1 ++ ds2)) e2.
Proof. intros e ds1 e1 ds2 e2 G1 G2. apply (grows_plus G1 G2). auto. Qed.

(** what a repeatable field adds *)
Record adds (n0 : nat) (fl : flags) (s : ser) (v enc r : val) (ds : list elem) : Prop := Adds {
  ad_tags : Forall (called_in (child_names s)) ds;
  ad_named : Forall named ds;
  ad_some : ds <> [];
  ad_write : forall n e, n0 <= n -> e_next e = length (e_elems e) ->
    exists e', write n ev s fl e v enc = Ok e' /\ grows e (Con None [] ds) e';
  ad_read : forall n, n0 <= n -> live s = true -> child_reads neat true (child_names s) ds r (read n ev s eas)
}.

Lemma sound_adds : forall n0 fl s v enc r c, repeatable ev s -> r <> VNone -> sound_at neat ev eas n0 fl s (Some (v, enc)) r c ->
  adds n0 fl s v enc r (c_elems c).
Proof.
  intros n0 fl s v enc r c Rp Nn [A B C D E F G]. pose proof (rep_content Rp A) as Ec. destruct (rep_place Rp) as (E1 & E2 & E3).
  rewrite E1, E2, E3 in *. constructor; auto.
  - apply (lv_tags A).
  - apply (lv_named A).
  - intros n e Hn He. destruct (E n Hn e He) as (e' & W & Gr); [intros a []|discriminate|]. rewrite Ec in Gr. exists e'; auto.
  - intros n Hn Lv. apply back_child_reads; auto. rewrite Ec; auto.
Qed.

Lemma adds_more : forall n0 n1 fl s v enc r ds, n0 <= n1 -> adds n0 fl s v enc r ds -> adds n1 fl s v enc r ds.
Proof.
  intros n0 n1 fl s v enc r ds H [A B C D E]. constructor; auto.
  - intros n e Hn; apply D; lia.
  - intros n Hn; apply E; lia.
Qed.

(** ---- lists ---- *)
Inductive all_add (n0 : nat) (fl : flags) (s : ser) : list val -> list val -> list val -> list (list elem) -> Prop :=
| aa_nil : all_add n0 fl s [] [] [] []
| aa_cons : forall v vs enc encs r rs ds dss, is_none v = false -> r <> VNone -> adds n0 fl s v enc r ds ->
    all_add n0 fl s vs encs rs dss -> all_add n0 fl s (v :: vs) (enc :: encs) (r :: rs) (ds :: dss).

Lemma all_add_more : forall n0 n1 fl s vs encs rs dss, n0 <= n1 -> all_add n0 fl s vs encs rs dss -> all_add n1 fl s vs encs rs dss.
Proof. intros n0 n1 fl s vs encs rs dss H A; induction A; constructor; auto. eapply adds_more; eauto. Qed.

Lemma all_add_facts : forall n0 fl s vs encs rs dss, all_add n0 fl s vs encs rs dss ->
  Forall (called_in (child_names s)) (concat dss) /\ Forall named (concat dss) /\ (rs <> [] -> concat dss <> []) /\
  length rs = length vs.
Proof.
  intros n0 fl s vs encs rs dss A; induction A as [|v vs enc encs r rs ds dss Nv Nr Ad A (I1 & I2 & I3 & I4)]; simpl.
  - repeat split; auto; constructor.
  - destruct Ad as [B1 B2 B3 B4 B5]. repeat split; try (apply Forall_app; auto); [|congruence].
    intros _ Z. apply app_eq_nil in Z. destruct Z; auto.
Qed.

Lemma all_add_write : forall n0 fl s vs encs rs dss, all_add n0 fl s vs encs rs dss -> forall n e, n0 <= n -> e_next e = length (e_elems e) ->
  exists e', write_items (write n ev s) fl e vs encs = Ok e' /\ grows e (Con None [] (concat dss)) e'.
Proof.
  intros n0 fl s vs encs rs dss A; induction A as [|v vs enc encs r rs ds dss Nv Nr Ad A IH]; intros n e Hn He; simpl.
  - exists e; split; auto. apply grows_nothing; auto.
  - rewrite Nv, andb_false_r. destruct (ad_write Ad e Hn He) as (e1 & W1 & G1). rewrite W1. simpl.
    destruct (IH n e1 Hn (gr_next G1)) as (e2 & W2 & G2). exists e2. split; auto. eapply grows_join; eauto.
Qed.

Lemma all_add_reads : forall n0 fl s vs encs rs dss, all_add n0 fl s vs encs rs dss -> forall n, n0 <= n -> live s = true ->
  Forall2 (fun r ds => r <> VNone /\ child_reads neat true (child_names s) ds r (read n ev s eas)) rs dss.
Proof.
  intros n0 fl s vs encs rs dss A n Hn Lv; induction A as [|v vs enc encs r rs ds dss Nv Nr Ad A IH]; constructor; auto.
  split; auto. apply (ad_read Ad); auto.
Qed.

Lemma list_sound : forall n0 fl t c s h vs encs rs dss, repeatable ev s -> all_add n0 fl s vs encs rs dss ->
  exists n1, sound_at neat ev eas n1 fl (SHomo t c s h) (Some (VList vs, VList encs)) (list_back rs) (Con None [] (concat dss)).
Proof.
  intros n0 fl t c s h vs encs rs dss Rp A. destruct (all_add_facts A) as (F1 & F2 & F3 & F4).
  destruct (rep_absent neat eas Rp) as (n2 & Ab). exists (S (Nat.max (Nat.max n0 n2) (S (length rs)))).
  constructor; cbn [child_names attr_names all_attrs own_text].
  - apply child_facts; auto.
  - intros [Sb _]. left; simpl. apply F3. intros ->. apply Sb; auto.
  - intros R; inv R.
  - discriminate.
  - intros [|n] Hn e He _ _; [lia|]. cbn [put write write_step]. unfold write_homo. simpl.
    destruct (fl_skip_empty fl && Nat.eqb (length vs) 0) eqn:Em.
    + apply andb_true_iff in Em. destruct Em as [_ Em]. apply Nat.eqb_eq in Em. destruct vs; [|discriminate]. inv A. simpl.
      exists e; split; auto. apply grows_nothing; auto.
    + apply (all_add_write A); auto; lia.
  - intros [|n] Hn Lv; [lia|]. simpl in Lv. apply andb_true_iff in Lv. destruct Lv as [Lc Lv]. destruct c; [discriminate|].
    apply child_reads_back.
    apply (@items_back neat eas (read n ev s) (child_names s) t h (Ab n ltac:(lia) Lv) rs dss (all_add_reads A (n := n) ltac:(lia) Lv) n 0 []); lia.
  - intros n Hn Lv R; inv R.
Qed.

(** ---- tuples ---- *)
Inductive each_adds (n0 : nat) (fl : flags) : list ser -> list val -> list val -> list val -> list (list elem) -> Prop :=
| ea_nil : each_adds n0 fl [] [] [] [] []
| ea_cons : forall s ss v vs enc encs r rs ds dss, r <> VNone -> adds n0 fl s v enc r ds -> each_adds n0 fl ss vs encs rs dss ->
    each_adds n0 fl (s :: ss) (v :: vs) (enc :: encs) (r :: rs) (ds :: dss).

Lemma each_adds_more : forall n0 n1 fl ss vs encs rs dss, n0 <= n1 -> each_adds n0 fl ss vs encs rs dss -> each_adds n1 fl ss vs encs rs dss.
Proof. intros n0 n1 fl s vs encs rs dss H A; induction A; constructor; auto. eapply adds_more; eauto. Qed.

Lemma called_in_sub : forall T T' l, (forall t, In t T -> In t T') -> Forall (called_in T) l -> Forall (called_in T') l.
Proof. intros T T' l I F; eapply Forall_impl; [|exact F]. intros e (t & It & C); exists t; auto. Qed.

Lemma each_adds_facts : forall n0 fl ss vs encs rs dss, each_adds n0 fl ss vs encs rs dss ->
  Forall (called_in (flat_map child_names ss)) (concat dss) /\ Forall named (concat dss) /\ (rs <> [] -> concat dss <> []) /\
  length vs = length ss /\ Forall (fun r => r <> VNone) rs.
Proof.
  intros n0 fl s vs encs rs dss A; induction A as [|s ss v vs enc encs r rs ds dss Nr Ad A (I1 & I2 & I3 & I4 & I5)]; simpl.
  - repeat split; auto; constructor.
  - destruct Ad as [B1 B2 B3 B4 B5]. repeat split; auto; try (apply Forall_app; auto).
    + split; [eapply called_in_sub; [|exact B1]|eapply called_in_sub; [|exact I1]]; intros t Ht; apply in_app_iff; auto.
    + intros _ Z. apply app_eq_nil in Z. destruct Z; auto.
Qed.

Lemma each_adds_write : forall n0 fl ss vs encs rs dss, each_adds n0 fl ss vs encs rs dss -> forall n e, n0 <= n -> e_next e = length (e_elems e) ->
  exists e', write_tuple (map (write n ev) ss) fl e vs encs = Ok e' /\ grows e (Con None [] (concat dss)) e'.
Proof.
  intros n0 fl s vs encs rs dss A; induction A as [|s ss v vs enc encs r rs ds dss Nr Ad A IH]; intros n e Hn He; simpl.
  - exists e; split; auto. apply grows_nothing; auto.
  - destruct (ad_write Ad e Hn He) as (e1 & W1 & G1). rewrite W1. simpl.
    destruct (IH n e1 Hn (gr_next G1)) as (e2 & W2 & G2). exists e2. split; auto. eapply grows_join; eauto.
Qed.

Lemma each_adds_members : forall n0 fl ss vs encs rs dss, each_adds n0 fl ss vs encs rs dss -> forall n, n0 <= n -> forallb live ss = true ->
  exists ms, map mb_rd ms = map (read n ev) ss /\ flat_map mb_elems ms = concat dss /\ map mb_res ms = rs /\
    Forall (fun m => child_reads neat true (mb_names m) (mb_elems m) (mb_res m) (mb_rd m eas) /\
                     (forall t, In t (mb_names m) -> In t (flat_map child_names ss))) ms.
Proof.
  intros n0 fl s vs encs rs dss A n Hn; induction A as [|s ss v vs enc encs r rs ds dss Nr Ad A IH]; intros Lv; simpl in Lv.
  - exists []. simpl; auto.
  - apply andb_true_iff in Lv. destruct Lv as [L1 L2]. destruct (IH L2) as (ms & M1 & M2 & M3 & M4).
    exists (Member (read n ev s) (child_names s) ds r :: ms). simpl. rewrite M1, M2, M3. repeat split; auto. constructor.
    + simpl. split; [apply (ad_read Ad); auto|]. intros t Ht; apply in_app_iff; auto.
    + eapply Forall_impl; [|exact M4]. simpl. intros m [H1 H2]. split; auto. intros t Ht; apply in_app_iff; auto.
Qed.

Lemma none_of : forall rs, Forall (fun r => r <> VNone) rs -> (if forallb is_none rs then VNone else VList rs) = list_back rs.
Proof. intros rs H; destruct H as [|r rs Hr H]; auto. simpl. destruct r; auto. congruence. Qed.

Lemma tuple_sound : forall n0 fl t c ss h vs encs rs dss, each_adds n0 fl ss vs encs rs dss ->
  sound_at neat ev eas (S n0) fl (SHetero t c ss h) (Some (VList vs, VList encs)) (list_back rs) (Con None [] (concat dss)).
Proof.
  intros n0 fl t c ss h vs encs rs dss A. destruct (each_adds_facts A) as (F1 & F2 & F3 & F4 & F5).
  assert (Rd : forall n, S n0 <= n -> live (SHetero t c ss h) = true ->
    child_reads neat true (flat_map child_names ss) (concat dss) (list_back rs) (read n ev (SHetero t c ss h) eas)).
  { intros [|n] Hn Lv; [lia|]. simpl in Lv. apply andb_true_iff in Lv. destruct Lv as [Lc Lv]. destruct c; [discriminate|].
    destruct (each_adds_members A (n := n) ltac:(lia) Lv) as (ms & M1 & M2 & M3 & M4).
    pose proof (@tuple_back neat eas true (flat_map child_names ss) t h ms) as Tb. specialize (fun a => Tb a M4 0 []). simpl in Tb.
    rewrite M1, M2, M3, (none_of F5) in Tb. apply Tb. discriminate. }
  constructor; cbn [child_names attr_names all_attrs own_text].
  - apply child_facts; auto.
  - intros [Sb _]. left; simpl. apply F3. intros ->. apply Sb; auto.
  - simpl. intros _ Nn. apply F3. intros ->. apply Nn; auto.
  - discriminate.
  - intros [|n] Hn e He _ _; [lia|]. cbn [put write write_step]. unfold write_hetero. simpl. rewrite map_length, F4, Nat.eqb_refl. simpl.
    destruct (fl_skip_empty fl && Nat.eqb (length ss) 0) eqn:Em.
    + apply andb_true_iff in Em. destruct Em as [_ Em]. apply Nat.eqb_eq in Em. destruct ss; [|discriminate]. inv A. simpl.
      exists e; split; auto. apply grows_nothing; auto.
    + apply (each_adds_write A); auto; lia.
  - intros n Hn Lv. apply child_reads_back. apply child_reads_eager. apply Rd; auto.
  - intros n Hn Lv _ _. apply child_reads_back. apply Rd; auto.
Qed.

(** ---- sub-models ---- *)

(** the instance [v] of [m], written into an empty element, has content [c] and is read back as [w] *)
Record sub_sound (n0 : nat) (fl : flags) (m : mdef) (v enc : val) (rs : list val) (w : val) (c : content) : Prop := SubSound {
  sb_value : is_none v = false;
  sb_named : Forall named (c_elems c);
  sb_nodup : NoDup (dkeys (c_attrs c));
  sb_nonil : ~ In xsi_nil (dkeys (c_attrs c));
  sb_full : Exists (substantial eas) rs -> nonvoid c;
  sb_attr : forall disc name cp x t, md_root m = false -> In (disc, SAttr name cp) (md_fields m) -> NoDup (map fst (md_fields m)) ->
    is_written (with_skip_empty m fl) m v disc -> py_getattr v disc = Ok x -> is_none x = false ->
    py_getitem enc disc = Ok (VStr t) -> In (name, t) (c_attrs c);
  sb_write : forall n, n0 <= n -> forall b tag ns, exists d,
    write_model (write n ev) m fl (make_element b tag ns) v enc = Ok d /\ grows (make_element b tag ns) c d;
  sb_read : forall n, n0 <= n -> forall tag, exists d',
    (forall loc sm, exists sm', read_model (read n ev) m eas loc (St (node tag c) sm) = (Ok w, St d' sm')) /\
    e_tag d' = TName tag /\ (neat = true -> cleaned d')
}.

(** a written sub-model is one element, with its discriminator among its attributes *)
Definition is_model (s : ser) (fl : flags) (v enc r : val) (c : content) : Prop :=
  forall p, s = SProxy p -> r <> VNone -> exists d, c_elems c = [d] /\ called (px_name p) d /\
    forall m disc name cp x t, en_model ev (px_model p) = Some m -> md_root m = false -> In (disc, SAttr name cp) (md_fields m) ->
      NoDup (map fst (md_fields m)) -> is_written (with_skip_empty m fl) m v disc -> py_getattr v disc = Ok x -> is_none x = false ->
      py_getitem enc disc = Ok (VStr t) -> get_attrib name d = Some t.

Lemma nonvoid_not_empty : forall e c tag b ns, grows (make_element b tag ns) c e -> nonvoid c -> is_empty e = false.
Proof.
  intros e c tag b ns [T1 L1 A1 X1 E1 N1] Nv. unfold is_empty. rewrite X1. simpl in *. rewrite L1.
  destruct Nv as [H|[H|H]].
  - rewrite andb_false_iff. right. destruct (e_elems e); simpl in *; [|auto]. subst; congruence.
  - rewrite andb_false_iff. left. unfold attr_list in A1. simpl in A1. rewrite andb_false_iff. right.
    destruct (e_attrib e) as [d|]; simpl in *; [|congruence]. destruct d; [congruence|]. auto.
  - destruct (c_text c); [|discriminate]. rewrite H. auto.
Qed.

Lemma proxy_sound : forall n0 fl p m v enc rs w c, en_model ev (px_model p) = Some m -> sub_sound n0 fl m v enc rs w c ->
  (fl_skip_empty fl = true -> Exists (substantial eas) rs) ->
  sound_at neat ev eas (S n0) fl (SProxy p) (Some (v, enc)) w (Con None [] [node (px_name p) c]) /\
  is_model (SProxy p) fl v enc w (Con None [] [node (px_name p) c]).
Proof.
  intros n0 fl p m v enc rs w c Em [Bv Bn Bd Bi Bf Ba Bw Br] Sk. split.
  - apply one_sound with (name := px_name p).
    + constructor. unfold known; congruence.
    + reflexivity.
    + reflexivity.
    + apply node_named; auto.
    + intros [|n] e Hn He; [lia|]. cbn [write write_step]. unfold write_proxy. rewrite Em, Bv, !andb_false_r.
      destruct (Bw n ltac:(lia) (en_backend ev) (px_name p) (px_nsmap p)) as (d & W & G). rewrite W. simpl.
      exists (append_element d e). split.
      * unfold append_unless_empty. destruct (fl_skip_empty fl) eqn:S; auto. rewrite (nonvoid_not_empty G); auto.
      * assert (N : norm d = node (px_name p) c). { eapply norm_grown; eauto; reflexivity. } rewrite <- N. apply grows_append; auto.
    + intros [|n] Hn Lv; [lia|]. simpl in Lv. destruct (Br n ltac:(lia) (px_name p)) as (d' & R1 & R2 & R3).
      exists (px_mode p). exists (fun loc c => let c1 := note_line loc c in
             let (nil, e1) := is_element_nill (st_el c1) in
             if nil then (Ok VNone, set_el e1 c1)
             else read_model (read n ev) m eas loc (set_el e1 c1)). exists d'. split; [|split; [|split]]; auto.
      * intros loc s0. cbn [read read_step]. unfold read_proxy. rewrite Em. destruct (px_computed p); [discriminate|]. reflexivity.
      * intros loc sm. assert (Z : is_element_nill (node (px_name p) c) = (false, node (px_name p) c)) by (apply nil_absent; auto).
        cbn zeta. unfold note_line. cbn [st_el st_sm]. rewrite Z. unfold set_el. cbn [st_el st_sm]. apply R1.
  - intros q E Nn. injection E as <-. exists (node (px_name p) c). split; auto. split; [reflexivity|].
    intros m' disc name cp x t Em'. assert (m' = m) as -> by congruence. intros. unfold get_attrib. simpl. apply dget_nodup_in; auto. eapply Ba; eauto.
Qed.

Lemma model_none_sound : forall fl p v enc, is_none v = true -> known ev p ->
  exists n0 c, sound_at neat ev eas n0 fl (SProxy p) (Some (v, enc)) VNone c /\ is_model (SProxy p) fl v enc VNone c.
Proof.
  intros fl p v enc V K. destruct (negb (fl_exclude_none fl) && px_nillable p) eqn:Nl.
  - apply andb_true_iff in Nl. destruct Nl as [En Np]. apply negb_true_iff in En.
    set (d0 := make_element_nill (make_element (en_backend ev) (px_name p) (px_nsmap p))).
    exists 1, (Con None [] [norm d0]). split; [|intros q _ Nn; congruence]. unfold known in K. destruct (en_model ev (px_model p)) as [m|] eqn:Em; [|congruence].
    apply one_sound with (name := px_name p).
    + constructor. unfold known; congruence.
    + reflexivity.
    + reflexivity.
    + constructor; simpl; [discriminate|constructor].
    + intros [|n] e Hn He; [lia|]. cbn [write write_step]. unfold write_proxy. rewrite Em, En, V, Np. cbn [andb].
      eexists; split; [reflexivity|]. exact (@grows_append d0 e He).
    + intros [|n] Hn Lv; [lia|]. simpl in Lv. exists (px_mode p). exists (fun loc c => let c1 := note_line loc c in
             let (nil, e1) := is_element_nill (st_el c1) in
             if nil then (Ok VNone, set_el e1 c1)
             else read_model (read n ev) m eas loc (set_el e1 c1)). eexists. split; [|split; [|split]].
      * intros loc s0. cbn [read read_step]. unfold read_proxy. rewrite Em. destruct (px_computed p); [discriminate|]. reflexivity.
      * intros loc sm. eexists. cbn. unfold is_element_nill, pop_attrib. cbn. reflexivity.
      * reflexivity.
      * intros _. constructor; simpl; auto.
  - destruct (@silent_sound neat ev eas fl (SProxy p) v enc 1) as (n0 & Sd).
    + apply df_one; constructor; auto.
    + intros [|n] e Hn; [lia|]. cbn [write write_step]. unfold write_proxy. unfold known in K. destruct (en_model ev (px_model p)); [|congruence].
      rewrite V, !andb_true_r. destruct (fl_exclude_none fl); auto. destruct (px_nillable p); auto. discriminate.
    + discriminate.
    + exists n0, nothing. split; auto. intros q _ Nn; congruence.
Qed.

(** ---- unions of sub-models ---- *)
Lemma write_union_first : forall w before p after fl e v enc cls, model_type v = Some cls -> px_model p = cls ->
  Forall (fun q => px_model q <> cls) before -> write_union w (before ++ p :: after) fl e v enc = w p fl e v enc.
Proof.
  intros w before p after fl e v enc cls Ht Hp F; induction F as [|q before Hq F IH]; simpl; rewrite Ht.
  - subst. rewrite String.eqb_refl; auto.
  - apply String.eqb_neq in Hq. rewrite Hq; auto.
Qed.

Lemma write_union_out : forall w vs fl e v enc, (forall cls, model_type v = Some cls -> Forall (fun q => px_model q <> cls) vs) ->
  write_union w vs fl e v enc = Ok e.
Proof.
  intros w vs fl e v enc H; induction vs as [|q vs IH]; simpl; auto. destruct (model_type v) as [cls|]; [|apply IH; discriminate].
  specialize (H cls eq_refl) as H'. inv H'. apply String.eqb_neq in H2. rewrite H2. apply IH. intros c E. inv E; auto.
Qed.

Lemma union_back : forall eag rr title hide p d r before after, r <> VNone -> called (px_name p) d ->
  Forall (fun q => known ev q /\ px_name q <> px_name p /\ (eag = true -> px_mode q = Strict)) before ->
  child_reads neat eag [px_name p] [d] r (read_proxy ev rr p eas) ->
  child_reads neat eag (map px_name (before ++ p :: after)) [d] r
    (fun loc s => read_variants (map (read_proxy ev rr) (before ++ p :: after)) title hide eas loc [] s).
Proof.
  intros eag rr title hide p d r before after Nn Cd F H R P rest A Ni Cl.
  assert (Cl' : eag = false -> Forall (not_called [px_name p]) rest).
  { intros E. eapply not_called_sub; [|apply Cl; auto]. intros t [<-|[]]. rewrite map_app, in_app_iff; simpl; auto. }
  assert (Out : forall q, In q before -> forall loc sm, read_proxy ev rr q eas loc (St R sm) = (Ok VNone, St R sm)).
  { intros q Hq loc sm. rewrite Forall_forall in F. destruct (F q Hq) as (Kq & Nq & Sq). unfold known in Kq. unfold read_proxy.
    destruct (en_model ev (px_model q)); [|congruence]. destruct (px_computed q); auto. unfold pop_element, search. simpl.
    assert (forward (px_mode q) R (px_name q) true = (NotFound, R)) as ->; auto.
    assert (Nd : not_called [px_name q] d). { intros t [<-|[]] C. unfold called in *. congruence. }
    destruct eag.
    - rewrite (Sq eq_refl). simpl. destruct A as [He Hn]. unfold strict_forward. rewrite Hn, He. simpl.
      rewrite nth_error_app2, Nat.sub_diag by auto. simpl.
      assert (tag_is (e_tag d) (px_name q) = false) as ->; auto. apply tag_is_not_called, Nd; simpl; auto.
    - apply (search_nowhere _ true A). constructor; auto. eapply not_called_sub; [|apply Cl; auto].
      intros t [<-|[]]. rewrite map_app, in_app_iff. left. apply in_map; auto. }
  destruct (H R P rest A Ni Cl') as (R' & E & F1 & F2 & F3 & F4 & F5 & F6 & Q & G1 & G2 & G3). exists R'. split.
  - intros loc sm. destruct (E loc sm) as (sm' & E'). exists sm'. clear F Cl. induction before as [|q before IH]; cbn [app map read_variants].
    + rewrite create_snapshot_id. unfold set_el. cbn [st_el st_sm]. rewrite E'. cbn [st_el st_sm]. rewrite apply_snapshot_id by auto.
      destruct r; auto. congruence.
    + rewrite create_snapshot_id. unfold set_el. cbn [st_el st_sm]. rewrite Out by (simpl; auto). cbn [st_el st_sm]. apply IH.
      intros q' Hq'; apply Out; simpl; auto.
  - repeat (split; auto). exists Q. split; auto. split; auto. eapply called_in_sub; [|exact G2].
    intros t [<-|[]]. rewrite map_app, in_app_iff; simpl; auto.
Qed.

Lemma union_sound : forall n0 fl t c before p after h v enc cls r c0, model_type v = Some cls -> px_model p = cls ->
  Forall (fun q => px_model q <> cls) before -> r <> VNone -> sound_at neat ev eas n0 fl (SProxy p) (Some (v, enc)) r c0 ->
  is_model (SProxy p) fl v enc r c0 -> Forall (known ev) (before ++ p :: after) -> NoDup (map px_name (before ++ p :: after)) ->
  sound_at neat ev eas (S n0) fl (SUnionModel t c (before ++ p :: after) h) (Some (v, enc)) r c0.
Proof.
  intros n0 fl t c before p after h v enc cls r c0 Ht Hp Hb Nn Sd Im K N.
  assert (Kb : Forall (known ev) before /\ known ev p). { apply Forall_app in K. destruct K as [K1 K2]. inv K2; auto. }
  assert (Rp : repeatable ev (SProxy p)) by (constructor; apply Kb).
  pose proof (rep_content Rp (sa_facts Sd)) as Ec. pose proof (sound_adds Rp Nn Sd) as Ad.
  destruct (Im p eq_refl Nn) as (d & Ed & Cd & _). rewrite Ed in *. subst c0. clear Ed. simpl in *.
  assert (Nb : Forall (fun q => px_name q <> px_name p) before).
  { clear -N. rewrite map_app in N. simpl in N. apply NoDup_remove_2 in N. apply Forall_forall. intros q Hq E. apply N.
    rewrite in_app_iff. left. rewrite <- E. apply in_map; auto. }
  assert (Rd : forall eag n, S n0 <= n -> live (SUnionModel t c (before ++ p :: after) h) = true ->
     (eag = true -> Forall (fun q => px_mode q = Strict) (before ++ p :: after)) ->
     child_reads neat eag (map px_name (before ++ p :: after)) [d] r (read n ev (SUnionModel t c (before ++ p :: after) h) eas)).
  { intros eag [|n] Hn Lv Sr; [lia|]. simpl in Lv. apply andb_true_iff in Lv. destruct Lv as [Lc Lv]. destruct c; [discriminate|].
    apply (@union_back eag (read n ev) t h p d r before after Nn Cd).
    - rewrite Forall_forall in *. intros q Hq. repeat split; [apply (proj1 Kb); auto|apply Nb; auto|].
      intros E. specialize (Sr E). apply Sr. apply in_app_iff; auto.
    - apply child_reads_eager. apply (ad_read Ad (n := S n)); [lia|]. simpl. rewrite forallb_forall in Lv. apply Lv.
      apply in_app_iff; simpl; auto. }
  constructor; cbn [child_names attr_names all_attrs own_text].
  - apply child_facts; auto. constructor; auto. exists (px_name p). split; auto. rewrite map_app, in_app_iff; simpl; auto.
    apply (ad_named Ad).
  - intros _; left; simpl; discriminate.
  - simpl; discriminate.
  - discriminate.
  - intros [|n] Hn e He _ _; [lia|]. cbn [put write write_step]. rewrite (@write_union_first _ before p after fl e v enc cls); auto.
    destruct (ad_write Ad (n := S n) e ltac:(lia) He) as (e' & W & G). exists e'. split; auto.
  - intros n Hn Lv. apply child_reads_back. apply Rd; auto. discriminate.
  - intros n Hn Lv R _. apply child_reads_back. apply Rd; auto. intros _. inv R; auto.
Qed.

Lemma union_none_sound : forall fl t c vs h v enc, (forall cls, model_type v = Some cls -> Forall (fun q => px_model q <> cls) vs) ->
  direct_field ev (SUnionModel t c vs h) -> exists n0, sound_at neat ev eas n0 fl (SUnionModel t c vs h) (Some (v, enc)) VNone nothing.
Proof.
  intros fl t c vs h v enc H D. apply (@silent_sound neat ev eas fl (SUnionModel t c vs h) v enc 1 D); [|discriminate].
  intros [|n] e Hn; [lia|]. cbn [write write_step]. apply write_union_out; auto.
Qed.

(** ---- discriminated unions ---- *)
Lemma peek_here : forall m R P d U t, at_ R P (d :: U) -> called t d -> forward m R t false = (Found (length P), R).
Proof.
  intros m R P d U t [He Hn] C. apply tag_is_called in C.
  assert (N : nth_error (P ++ d :: U) (length P) = Some d) by (rewrite nth_error_app2, Nat.sub_diag; auto).
  destruct m; simpl; unfold strict_forward, ordered_forward, unordered_forward; rewrite Hn, He.
  - rewrite N, C. auto.
  - rewrite skipn_app_len by auto. simpl. rewrite C. auto.
  - rewrite skipn_app_len by auto. simpl. rewrite C, list_swap_same. rewrite <- He. destruct R; reflexivity.
Qed.

Lemma tagged_back : forall eag rr aname mode p d r t vs, r <> VNone -> called (px_name p) d -> dget t vs = Some p ->
  get_attrib aname d = Some t -> (eag = true -> mode = Strict \/ Forall (fun kv => px_name (snd kv) = px_name p) vs) ->
  child_reads neat eag [px_name p] [d] r (read_proxy ev rr p eas) ->
  child_reads neat eag (map (fun kv => px_name (snd kv)) vs) [d] r
    (fun loc s => read_tagged (read_proxy ev rr) aname mode vs eas loc s).
Proof.
  intros eag rr aname mode p d r t vs Nn Cd Dg Ga Eg H R P rest A Ni Cl.
  assert (Ip : In (px_name p) (map (fun kv => px_name (snd kv)) vs)).
  { apply dget_Some_in in Dg. apply (in_map (fun kv => px_name (snd kv))) in Dg. auto. }
  assert (Cl' : eag = false -> Forall (not_called [px_name p]) rest).
  { intros E. eapply not_called_sub; [|apply Cl; auto]. intros x [<-|[]]; auto. }
  assert (Peek : forall kv, In kv vs -> (px_name (snd kv) = px_name p /\ forward mode R (px_name (snd kv)) false = (Found (length P), R)) \/
                   (px_name (snd kv) <> px_name p /\ forward mode R (px_name (snd kv)) false = (NotFound, R))).
  { intros kv Hkv. destruct (string_dec (px_name (snd kv)) (px_name p)) as [E|E].
    - left; split; auto. rewrite E. apply (peek_here mode A Cd).
    - right; split; auto.
      assert (Nd : not_called [px_name (snd kv)] d). { intros x [<-|[]] C. unfold called in *. congruence. }
      destruct eag.
      + destruct (Eg eq_refl) as [->|Sm]; [|rewrite Forall_forall in Sm; exfalso; apply E, Sm; auto].
        destruct A as [He Hn]. simpl. unfold strict_forward. rewrite Hn, He. simpl. rewrite nth_error_app2, Nat.sub_diag by auto. simpl.
        assert (tag_is (e_tag d) (px_name (snd kv)) = false) as ->; auto. apply tag_is_not_called, Nd; simpl; auto.
      + apply (search_nowhere _ false A). constructor; auto. eapply not_called_sub; [|apply Cl; auto].
        intros x [<-|[]]. apply (in_map (fun kv => px_name (snd kv))); auto. }
  destruct (H R P rest A Ni Cl') as (R' & E & F1 & F2 & F3 & F4 & F5 & F6 & Q & G1 & G2 & G3). exists R'. split.
  - intros loc sm. clear Eg Cl Ip. induction vs as [|[t' q] vs IH]; [discriminate Dg|]. cbn [read_tagged]. unfold find_element, search. cbn [st_el].
    assert (Nth : nth_error (e_elems R) (length P) = Some d).
    { destruct A as [He _]. rewrite He. simpl. rewrite nth_error_app2, Nat.sub_diag by auto. auto. }
    simpl in Dg. destruct (Peek (t', q) (or_introl eq_refl)) as [[Eq Fw]|[Eq Fw]]; cbn [snd] in *; rewrite Fw; unfold set_el; cbn [st_el st_sm].
    + rewrite Nth, Ga. destruct (String.eqb t t') eqn:Et.
      * injection Dg as ->. apply E.
      * apply IH; auto. intros kv Hkv; apply Peek; simpl; auto.
    + destruct (String.eqb t t') eqn:Et; [injection Dg as ->; congruence|].
      apply IH; auto. intros kv Hkv; apply Peek; simpl; auto.
  - repeat (split; auto). exists Q. split; auto. split; auto. eapply called_in_sub; [|exact G2].
    intros x [<-|[]]; auto.
Qed.

Lemma tagged_sound : forall n0 fl c disc aname vs mode v d t p m c' x r c0, dget disc d = Some (VStr t) -> t <> "" -> dget t vs = Some p ->
  en_model ev (px_model p) = Some m -> md_root m = false ->
  In (disc, SAttr aname c') (md_fields m) -> NoDup (map fst (md_fields m)) ->
  is_written (with_skip_empty m fl) m v disc -> py_getattr v disc = Ok x -> is_none x = false -> r <> VNone ->
  sound_at neat ev eas n0 fl (SProxy p) (Some (v, VDict d)) r c0 -> is_model (SProxy p) fl v (VDict d) r c0 ->
  sound_at neat ev eas (S n0) fl (STagged c disc aname vs mode) (Some (v, VDict d)) r c0.
Proof.
  intros n0 fl c disc aname vs mode v d t p m c' x r c0 Dd Nt Dt Em Rt Fi Nd Wr Ga Xn Nn Sd Im.
  assert (Rp : repeatable ev (SProxy p)) by (constructor; unfold known; congruence).
  pose proof (rep_content Rp (sa_facts Sd)) as Ec. pose proof (sound_adds Rp Nn Sd) as Ad.
  destruct (Im p eq_refl Nn) as (d0 & Ed & Cd & At). rewrite Ed in *. subst c0. clear Ed. simpl in *.
  assert (Ip : In (t, p) vs) by (apply dget_Some_in; auto).
  assert (At' : get_attrib aname d0 = Some t). { eapply At; eauto. simpl. rewrite Dd; auto. }
  assert (Rd : forall eag n, S n0 <= n -> live (STagged c disc aname vs mode) = true ->
     (eag = true -> mode = Strict \/ Forall (fun kv => px_name (snd kv) = px_name p) vs) ->
     child_reads neat eag (map (fun kv => px_name (snd kv)) vs) [d0] r (read n ev (STagged c disc aname vs mode) eas)).
  { intros eag [|n] Hn Lv Sr; [lia|]. simpl in Lv. apply andb_true_iff in Lv. destruct Lv as [Lc Lv]. destruct c; [discriminate|].
    apply (@tagged_back eag (read n ev) aname mode p d0 r t vs); auto.
    apply child_reads_eager. apply (ad_read Ad (n := S n)); [lia|]. simpl. rewrite forallb_forall in Lv. apply (Lv (t, p)); auto. }
  constructor; cbn [child_names attr_names all_attrs own_text].
  - apply child_facts; auto. constructor; auto. exists (px_name p). split; auto. apply (in_map (fun kv => px_name (snd kv))) in Ip; auto.
    apply (ad_named Ad).
  - intros _; left; simpl; discriminate.
  - simpl; discriminate.
  - discriminate.
  - intros [|n] Hn e He _ _; [lia|]. cbn [put write write_step]. unfold write_tagged. rewrite Dd.
    assert (py_truthy (VStr t) = true) as -> by (destruct t; [congruence|reflexivity]). rewrite Dt.
    destruct (ad_write Ad (n := S n) e ltac:(lia) He) as (e' & W & G). exists e'. split; auto.
  - intros n Hn Lv. apply child_reads_back. apply Rd; auto. discriminate.
  - intros n Hn Lv R _. apply child_reads_back. apply Rd; auto. intros _. inversion R; subst; auto. right.
    match goal with H : Forall (fun kv => px_name (snd kv) = ?n) vs |- _ => pose proof (proj1 (Forall_forall _ _) H) as Sm end.
    apply Forall_forall. intros kv Hkv. rewrite (Sm kv Hkv). symmetry. apply (Sm (t, p)); auto.
Qed.

End Leaf.
