(** PfRound3.v -- the round trip, part 3: tuples, lists and unions, and fields that are not written. *)

From Verif Require Import Base Elem Native Errs Names Ser Write Read Api SpecElem SpecRead SpecNames SpecWrite SpecSim SpecRound.
From Verif Require Import PfElem PfNames PfWrite PfWrite3 PfWSim PfRound1 PfRound2.

Section Leaf.
Variable neat : bool.
Variable ev : env.
Variable eas : bool.

Lemma child_reads_sub : forall eag T T' ds r rd, child_reads neat eag T ds r rd -> (forall t, In t T -> In t T') ->
  child_reads neat eag T' ds r rd.
Proof.
  intros eag T T' ds r rd H I R P rest A Ni Cl. destruct (H R P rest A Ni) as (R' & H1 & F1 & F2 & F3 & F4 & F5 & F6 & Q & G1 & G2 & G3).
  { intros E. apply (@not_called_sub T'); auto. }
  exists R'. repeat (split; auto). exists Q. split; auto. split; auto. eapply Forall_impl; [|exact G2].
  intros e (t & It & C). exists t; auto.
Qed.

Lemma child_reads_ext : forall eag T ds r rd rd', child_reads neat eag T ds r rd -> (forall loc s, rd' loc s = rd loc s) ->
  child_reads neat eag T ds r rd'.
Proof.
  intros eag T ds r rd rd' H E R P rest A Ni Cl. destruct (H R P rest A Ni Cl) as (R' & H1 & H2). exists R'. split; auto.
  intros loc sm. rewrite E. auto.
Qed.

Lemma child_reads_eager : forall eag T ds r rd, child_reads neat true T ds r rd -> child_reads neat eag T ds r rd.
Proof. intros eag T ds r rd H R P rest A Ni Cl. apply H; auto. discriminate. Qed.

(** one reading after another *)
Lemma child_reads_then : forall eag T ds1 ds2 r1 r2 rd1 rd,
  child_reads neat eag T ds1 r1 rd1 -> (eag = false -> Forall (not_called T) ds2) ->
  (forall R1, exists rd2, (forall loc sm1 sm2, rd1 loc sm1 = (Ok r1, St R1 sm2) -> rd loc sm1 = rd2 loc (St R1 sm2)) /\
     child_reads neat eag T ds2 r2 rd2) ->
  child_reads neat eag T (ds1 ++ ds2) r2 rd.
Proof.
  intros eag T ds1 ds2 r1 r2 rd1 rd H1 Cl H2 R P rest A Ni Clr. rewrite <- app_assoc in A.
  destruct (H1 R P (ds2 ++ rest) A Ni) as (R1 & E1 & F1 & F2 & F3 & F4 & F5 & F6 & Q & G1 & G2 & G3).
  { intros E; apply Forall_app; auto. }
  destruct (H2 R1) as (rd2 & E2 & C2). rewrite <- F4 in Ni.
  destruct (C2 R1 (P ++ Q) rest G1 Ni Clr) as (R2 & E3 & K1 & K2 & K3 & K4 & K5 & K6 & Q' & L1 & L2 & L3).
  exists R2. split.
  - intros loc sm. destruct (E1 loc sm) as (sm1 & E). rewrite (E2 _ _ _ E). apply E3.
  - split; [congruence|]. split; [congruence|]. split; [congruence|]. split; [congruence|]. split; [auto|]. split; [congruence|].
    exists (Q ++ Q'). rewrite app_assoc. split; auto. split; [apply Forall_app; auto|]. intros Nt; apply Forall_app; auto.
Qed.

(** ---- tuples ---- *)
Record member := Member { mb_rd : reader; mb_names : list string; mb_elems : list elem; mb_res : val }.

Lemma tuple_back : forall eag T title hide ms,
  (eag = false -> Forall (fun m => mb_elems m = []) ms) ->
  Forall (fun m => child_reads neat eag (mb_names m) (mb_elems m) (mb_res m) (mb_rd m eas) /\ (forall t, In t (mb_names m) -> In t T)) ms ->
  forall idx acc, child_reads neat eag T (flat_map mb_elems ms)
    (if forallb is_none (acc ++ map mb_res ms) then VNone else VList (acc ++ map mb_res ms))
    (fun loc s => read_tuple (map mb_rd ms) title hide eas loc idx acc [] s).
Proof.
  intros eag T title hide ms; induction ms as [|m ms IH]; intros Em F idx acc.
  - simpl. rewrite app_nil_r. intros R P rest A Ni Cl. exists R. split; [intros loc sm; exists sm; auto|].
    repeat split; auto. exists []. rewrite app_nil_r. split; [exact A|]. split; constructor.
  - inversion F as [|? ? [Hm Hi] F']; subst. cbn [flat_map].
    assert (Em' : eag = false -> Forall (fun m0 => mb_elems m0 = []) ms) by (intros E; specialize (Em E); inv Em; auto).
    apply child_reads_then with (r1 := mb_res m) (rd1 := fun loc s => mb_rd m eas (loc ++ [LIdx idx]) s).
    + apply (@child_reads_sub eag (mb_names m) T); auto. intros R P rest A Ni Cl. destruct (Hm R P rest A Ni Cl) as (R' & E & G).
      exists R'; split; auto.
    + intros E. specialize (Em' E). replace (flat_map mb_elems ms) with (@nil elem); [constructor|].
      clear -Em'. induction Em'; simpl; auto. rewrite H. auto.
    + intros R1. exists (fun loc s => read_tuple (map mb_rd ms) title hide eas loc (S idx) (acc ++ [mb_res m]) [] s). split.
      * intros loc sm1 sm2 E. cbn [map read_tuple]. rewrite E. auto.
      * specialize (IH Em' F' (S idx) (acc ++ [mb_res m])). rewrite <- app_assoc in IH. exact IH.
Qed.

(** ---- lists ---- *)
Lemma items_end : forall rd T title hide k idx acc, child_reads neat false T [] VNone (rd eas) ->
  child_reads neat false T [] (list_back acc) (fun loc s => read_items (S k) rd title hide eas loc idx acc [] s).
Proof.
  intros rd T title hide k idx acc H R P rest A Ni Cl. destruct (H R P rest A Ni Cl) as (R' & E & G). exists R'. split; auto.
  intros loc sm. destruct (E (loc ++ [LIdx idx]) sm) as (sm' & E'). exists sm'. cbn [read_items]. rewrite E'. reflexivity.
Qed.

Lemma items_back : forall rd T title hide, child_reads neat false T [] VNone (rd eas) -> forall rs dss,
  Forall2 (fun r ds => r <> VNone /\ child_reads neat true T ds r (rd eas)) rs dss -> forall k idx acc, length rs < k ->
  child_reads neat false T (concat dss) (list_back (acc ++ rs)) (fun loc s => read_items k rd title hide eas loc idx acc [] s).
Proof.
  intros rd T title hide H0 rs dss F; induction F as [|r ds rs dss [Hr Hd] F IH]; intros k idx acc Hk; simpl in Hk.
  - destruct k as [|k]; [lia|]. simpl. rewrite app_nil_r. apply items_end; auto.
  - destruct k as [|k]; [lia|]. intros R P rest A Ni Cl. simpl in A. rewrite <- app_assoc in A.
    destruct (Hd R P (concat dss ++ rest) A Ni) as (R1 & E1 & F1 & F2 & F3 & F4 & F5 & F6 & Q & G1 & G2 & G3); [discriminate|].
    rewrite <- F4 in Ni. destruct (IH k (S idx) (acc ++ [r])) with (R := R1) (P := P ++ Q) (rest := rest)
      as (R2 & E3 & K1 & K2 & K3 & K4 & K5 & K6 & Q' & L1 & L2 & L3); auto; [lia|].
    exists R2. split.
    + intros loc sm. destruct (E1 (loc ++ [LIdx idx]) sm) as (sm1 & E). destruct (E3 loc sm1) as (sm2 & E'). exists sm2.
      cbn [read_items]. rewrite E. rewrite <- app_assoc in E'. destruct r; try exact E'. congruence.
    + split; [congruence|]. split; [congruence|]. split; [congruence|]. split; [congruence|]. split; [auto|]. split; [congruence|].
      exists (Q ++ Q'). rewrite app_assoc. split; auto. split; [apply Forall_app; auto|]. intros Nt; apply Forall_app; auto.
Qed.

(** ---- sub-models that are not there ---- *)
Lemma proxy_absent : forall r p R P rest, known ev p -> at_ R P rest -> Forall (not_called [px_name p]) rest ->
  forall loc sm, read_proxy ev r p eas loc (St R sm) = (Ok VNone, St R sm).
Proof.
  intros r p R P rest K A Cl loc sm. unfold read_proxy. unfold known in K. destruct (en_model ev (px_model p)); [|congruence].
  destruct (px_computed p); auto. unfold pop_element, search. simpl. rewrite (search_nowhere _ true A Cl). auto.
Qed.

Lemma unchanged_reads : forall eag T r rd,
  (forall R P rest, at_ R P rest -> (eag = false -> Forall (not_called T) rest) -> forall loc sm, exists sm', rd loc (St R sm) = (Ok r, St R sm')) ->
  child_reads neat eag T [] r rd.
Proof.
  intros eag T r rd H R P rest A Ni Cl. exists R. split; [intros loc sm; eapply H; eauto|].
  repeat split; auto. exists []. rewrite app_nil_r. split; [exact A|]. split; constructor.
Qed.

Lemma variants_absent : forall r vs title hide R P rest, Forall (known ev) vs -> at_ R P rest ->
  Forall (not_called (map px_name vs)) rest -> forall loc sm,
  read_variants (map (read_proxy ev r) vs) title hide eas loc [] (St R sm) = (Ok VNone, St R sm).
Proof.
  intros r vs title hide R P rest K A Cl loc sm. induction K as [|p vs Kp K IH]; simpl; auto.
  rewrite create_snapshot_id. unfold set_el; simpl. rewrite (@proxy_absent r p R P rest Kp A); simpl.
  - apply IH. eapply not_called_sub; [|exact Cl]. simpl; auto.
  - eapply not_called_sub; [|exact Cl]. simpl; intros t [<-|[]]; auto.
Qed.

Lemma tagged_absent : forall r vs aname mode R P rest, at_ R P rest ->
  Forall (not_called (map (fun kv => px_name (snd kv)) vs)) rest -> forall loc sm,
  read_tagged (read_proxy ev r) aname mode vs eas loc (St R sm) = (Ok VNone, St R sm).
Proof.
  intros r vs aname mode R P rest A Cl loc sm. induction vs as [|[t p] vs IH]; simpl; auto.
  unfold find_element, search. rewrite (search_nowhere _ false A).
  - apply IH. eapply not_called_sub; [|exact Cl]. simpl; auto.
  - eapply not_called_sub; [|exact Cl]. simpl; intros x [<-|[]]; auto.
Qed.

(** ---- fields that are not written ---- *)
Lemma rep_absent : forall s, repeatable ev s -> exists n0, forall n, n0 <= n -> live s = true ->
  child_reads neat false (child_names s) [] VNone (read n ev s eas).
Proof.
  intros s; induction s as [c ni|n c|n ns m c ni|a|n m a|t c s h IH|t c l h IH|c s IH|t c vs h|c d a vs m|p ns m c s IH|n m c|p] using ser_ind';
    intros Rp; try (inv Rp; fail).
  - exists 1. intros [|k] Hk Lv; [lia|]. simpl in Lv. destruct c; [discriminate|]. cbn [read read_step child_names]. eapply nothing_read. intros loc s; reflexivity.
  - exists 1. intros [|k] Hk Lv; [lia|]. simpl in Lv. cbn [read read_step child_names]. eapply nothing_read. intros loc s; unfold read_map_elem.
    destruct (as_computed a); [discriminate|]. reflexivity.
  - inversion Rp as [| | | | | | | |? ? ? ? Rl]; subst. clear Rp.
    assert (X : exists n0, forall n, n0 <= n -> forallb live l = true ->
                  Forall (fun m => child_reads neat false (mb_names m) (mb_elems m) (mb_res m) (mb_rd m eas))
                         (map (fun s => Member (read n ev s) (child_names s) [] VNone) l)).
    { clear -IH Rl. induction IH as [|s l Hs IH IHl]; [exists 0; intros; constructor|]. inv Rl.
      destruct (Hs H1) as (n1 & E1). destruct (IHl H2) as (n2 & E2). exists (Nat.max n1 n2). intros n Hn Lv. simpl in Lv.
      apply andb_true_iff in Lv. destruct Lv as [L1 L2]. simpl. constructor; [apply E1; auto; lia|apply E2; auto; lia]. }
    destruct X as (n0 & X). exists (S n0). intros [|k] Hk Lv; [lia|]. simpl in Lv. apply andb_true_iff in Lv. destruct Lv as [L1 L2].
    destruct c; [discriminate|]. specialize (X k ltac:(lia) L2). cbn [read read_step child_names]. unfold read_hetero.
    set (ms := map (fun s => Member (read k ev s) (child_names s) [] VNone) l) in *.
    assert (E1 : flat_map mb_elems ms = []). { unfold ms; clear. induction l; simpl; auto. }
    assert (E2 : map mb_rd ms = map (read k ev) l). { unfold ms; rewrite map_map; auto. }
    assert (E3 : forallb is_none (map mb_res ms) = true). { unfold ms; clear. induction l; simpl; auto. }
    pose proof (@tuple_back false (flat_map child_names l) t h ms) as Tb.
    specialize (fun a b => Tb a b 0 []). simpl in Tb. rewrite E1, E2, E3 in Tb. apply Tb.
    + intros _. unfold ms. rewrite Forall_map. apply Forall_forall; auto.
    + rewrite Forall_forall in X |- *. intros m Hm. split; auto. unfold ms in Hm. apply in_map_iff in Hm. destruct Hm as (s & <- & Is).
      simpl. intros x Hx. apply in_flat_map. eauto.
  - inversion Rp; subst. exists 2. intros [|[|k]] Hk Lv; try lia. simpl in Lv. destruct c; [discriminate|].
    match goal with H : _ |- context [SUnionPrim false (SElem ?n ?ns ?m ?c' ?ni)] => destruct c'; [discriminate|] end.
    cbn [read read_step child_names]. unfold read_union_prim. eapply nothing_read. intros loc s; reflexivity.
  - inversion Rp as [| | | | |? ? ? ? Kn Nd St| | |]; subst. exists 1. intros [|k] Hk Lv; [lia|]. simpl in Lv. destruct c; [discriminate|].
    cbn [read read_step child_names]. unfold read_union_model. apply unchanged_reads. intros R P rest A Cl loc sm. exists sm.
    eapply variants_absent; eauto.
  - exists 1. intros [|k] Hk Lv; [lia|]. simpl in Lv. destruct c; [discriminate|].
    cbn [read read_step child_names]. apply unchanged_reads. intros R P rest A Cl loc sm. exists sm.
    eapply tagged_absent; eauto.
  - exists 1. intros [|k] Hk Lv; [lia|]. simpl in Lv. destruct c; [discriminate|]. cbn [read read_step child_names]. eapply nothing_read. intros loc s; reflexivity.
  - inversion Rp as [| | |? Kn| | | | |]; subst. exists 1. intros [|k] Hk Lv; [lia|]. cbn [read read_step child_names]. apply unchanged_reads.
    intros R P rest A Cl loc sm. exists sm. eapply proxy_absent; eauto.
Qed.

(** a field that is left out *)
Lemma absent_sound : forall fl s, direct_field ev s -> exists n0, sound_at neat ev eas n0 fl s None (unwritten eas s) nothing.
Proof.
  intros fl s D.
  assert (X : exists n0, forall n, n0 <= n -> live s = true ->
    reads_back neat false (child_names s) (attr_names s) (all_attrs s) (own_text s) nothing (unwritten eas s) (read n ev s eas)).
  { induction D as [c ni|n c Nx|c s Pr D IH|a|s Rp|t c s h Rp|t c vs h K N|c d a vs m K].
    - exists 1. intros [|k] Hk Lv; [lia|]. simpl in Lv. destruct c; [discriminate|]. apply (@text_read neat ev eas k ni None).
    - exists 1. intros [|k] Hk Lv; [lia|]. simpl in Lv. destruct c; [discriminate|]. apply attr_read_none.
    - destruct IH as (n0 & IH). exists (S n0). intros [|k] Hk Lv; [lia|]. simpl in Lv. apply andb_true_iff in Lv. destruct Lv as [Lc Lv].
      destruct c; [discriminate|]. specialize (IH k ltac:(lia) Lv). destruct s; try contradiction; exact IH.
    - exists 1. intros [|k] Hk Lv; [lia|]. simpl in Lv. intros R P rest more [Ra Rc Rat Rap Ral Rn Rt]. destruct (Ral eq_refl) as [-> Rs].
      simpl in *. exists (set_attrib_o None R). split.
      + intros loc sm. exists sm. unfold read_attrs, pop_attributes. destruct (as_computed a); [discriminate|]. simpl.
        unfold attr_list in Rat. destruct (e_attrib R); [subst; auto|congruence].
      + constructor; simpl; auto; try discriminate. exists []. rewrite app_nil_r. repeat split; simpl; auto; apply Ra.
    - destruct (rep_absent Rp) as (n0 & X). exists n0. intros n Hn Lv. destruct (rep_place Rp) as (E1 & E2 & E3).
      unfold unwritten. rewrite E1, E2, E3. apply child_reads_back. apply X; auto.
    - destruct (rep_absent Rp) as (n0 & X). exists (S (S n0)). intros [|[|k]] Hn Lv; try lia. simpl in Lv. apply andb_true_iff in Lv. destruct Lv as [Lc Lv].
      destruct c; [discriminate|]. apply child_reads_back. change (read (S (S k)) ev (SHomo t false s h) eas)
        with (fun loc s0 => read_items (S k) (read (S k) ev s) t h eas loc 0 [] [] s0).
      apply items_end. apply X; auto; lia.
    - exists 1. intros [|k] Hk Lv; [lia|]. simpl in Lv. destruct c; [discriminate|]. apply child_reads_back.
      apply unchanged_reads. intros R P rest A Cl loc sm. exists sm. eapply variants_absent; eauto.
    - exists 1. intros [|k] Hk Lv; [lia|]. simpl in Lv. destruct c; [discriminate|]. apply child_reads_back.
      apply unchanged_reads. intros R P rest A Cl loc sm. exists sm. eapply tagged_absent; eauto. }
  destruct X as (n0 & X). exists n0. constructor; auto.
  - apply nothing_facts. destruct s; simpl; auto; discriminate.
  - intros (S1 & S2 & S3). unfold unwritten, text_back in *. destruct (all_attrs s), (own_text s), eas; simpl in *; try congruence. exfalso; apply S3; auto.
  - intros Rp Nn. destruct (rep_place Rp) as (_ & E & E'). unfold unwritten in Nn. rewrite E, E' in Nn. congruence.
  - discriminate.
  - intros n Hn. apply put_none.
  - intros n Hn Lv Rp Nn. destruct (rep_place Rp) as (_ & E & E'). unfold unwritten in Nn. rewrite E, E' in Nn. congruence.
Qed.

End Leaf.
