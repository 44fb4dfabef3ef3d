(** PfRound4.v -- the round trip, part 4: every kind of field, given the round trip of its parts. *)

From Verif Require Import Base Elem Native Errs Names Ser Write Read Api SpecElem SpecRead SpecNames SpecWrite SpecSim SpecRound.
From Verif Require Import PfElem PfNames PfWrite PfWrite3 PfWSim PfRound1 PfRound2 PfRound3.

Section Leaf.
Variable neat : bool.
Variable ev : env.
Variable eas : bool.

Lemma grows_append : forall d e, e_next e = length (e_elems e) -> grows e (Con None [] [norm d]) (append_element d e).
Proof.
  intros d e H. constructor; simpl; auto.
  - rewrite app_nil_r; auto.
  - rewrite map_app; auto.
  - rewrite app_length; simpl; lia.
Qed.

Lemma sound_more : forall n0 n1 fl s o r c, n0 <= n1 -> sound_at neat ev eas n0 fl s o r c -> sound_at neat ev eas n1 fl s o r c.
Proof.
  intros n0 n1 fl s o r c H [A B C D E F G]. constructor; auto.
  - intros n Hn; apply E; lia.
  - intros n Hn; apply F; lia.
  - intros n Hn; apply G; lia.
Qed.

(** a value that leaves no trace *)
Lemma silent_sound : forall fl s v enc n1, direct_field ev s -> (forall n e, n1 <= n -> write n ev s fl e v enc = Ok e) ->
  (forall name cp, s = SAttr name cp -> is_none v = true) ->
  exists n0, sound_at neat ev eas n0 fl s (Some (v, enc)) (unwritten eas s) nothing.
Proof.
  intros fl s v enc n1 D H N. destruct (absent_sound neat eas fl D) as (n0 & Sd). exists (Nat.max n0 n1).
  apply (sound_more (n1 := Nat.max n0 n1)) in Sd; [|lia]. destruct Sd as [A B C _ E F G]. constructor; auto.
  - intros name cp v0 enc0 t Es Eo Hv. apply N in Es. congruence.
  - intros n Hn e He _ _. exists e. split; [simpl; apply H; lia|apply grows_nothing; auto].
Qed.

Lemma one_sound : forall n0 fl s v enc r name d, repeatable ev s -> child_names s = [name] -> called name d -> named d ->
  (forall n e, n0 <= n -> e_next e = length (e_elems e) -> exists e', write n ev s fl e v enc = Ok e' /\ grows e (Con None [] [d]) e') ->
  (forall n, n0 <= n -> live s = true -> exists m f d',
     (forall loc s0, read n ev s eas loc s0 = with_found (pop_element (st_el s0) name m) (f loc) s0) /\
     (forall loc sm, exists sm', f loc (St d sm) = (Ok r, St d' sm')) /\ e_tag d' = e_tag d /\ (neat = true -> cleaned d')) ->
  sound_at neat ev eas n0 fl s (Some (v, enc)) r (Con None [] [d]).
Proof.
  intros n0 fl s v enc r name d Rp En Cd Nd W Rd. destruct (rep_place Rp) as (E1 & E2 & E3).
  constructor; rewrite ?En, ?E1, ?E2, ?E3.
  - apply child_facts; constructor; auto. exists name; simpl; auto.
  - intros _. left; simpl; discriminate.
  - simpl; discriminate.
  - intros; subst; inv Rp.
  - intros n Hn e He _ _. apply W; auto.
  - intros n Hn Lv. apply child_reads_back. destruct (Rd n Hn Lv) as (m & f & d' & H1 & H2 & H3 & H4).
    eapply child_back; [exact H1|]. right. exists d, d'. auto.
  - intros n Hn Lv _ _. apply child_reads_back. destruct (Rd n Hn Lv) as (m & f & d' & H1 & H2 & H3 & H4).
    eapply child_back; [exact H1|]. right. exists d, d'. auto.
Qed.

(** ---- primitive values ---- *)
Lemma dropped_sound : forall fl s v enc, primitive s -> direct_field ev s -> drops fl v = true ->
  exists n0, sound_at neat ev eas n0 fl s (Some (v, enc)) (unwritten eas s) nothing.
Proof.
  intros fl s v enc Pr D Dr.
  apply (@silent_sound fl s v enc 1); auto.
  - intros [|n] e Hn; [lia|]. unfold drops in Dr. destruct s; try contradiction; cbn [write write_step].
    + unfold write_text. rewrite Dr; auto.
    + unfold write_attr. rewrite Dr; auto.
    + unfold write_elem. rewrite Dr; auto.
  - intros. unfold drops in Dr. apply andb_true_iff in Dr. tauto.
Qed.

Lemma text_default_back : forall t, text_or_default eas (Some t) = text_back eas t.
Proof. intros t. unfold text_or_default, text_back. simpl. destruct (String.eqb t ""), eas; auto. Qed.

Lemma text_back_some : forall t, substantial eas (text_back eas t) -> str_truthy (Some t) = true.
Proof. intros t (H & _ & H'). unfold text_back in *. simpl. destruct (String.eqb t ""); auto. destruct eas; [exfalso; apply H'; auto|congruence]. Qed.

Lemma text_sound : forall fl c ni v enc t, drops fl v = false -> ni = false \/ is_none v = false -> encode_primitive enc = Ok t ->
  sound_at neat ev eas 1 fl (SText c ni) (Some (v, enc)) (text_back eas t) (Con (Some t) [] []).
Proof.
  intros fl c ni v enc t Dr Ni Et. constructor; simpl.
  - constructor; simpl; auto; try constructor; try discriminate.
  - intros H. right; right. simpl. apply text_back_some; auto.
  - intros Rp; inv Rp.
  - discriminate.
  - intros [|n] Hn e He _ _; [lia|]. cbn [put write write_step]. unfold write_text. unfold drops in Dr. rewrite Dr.
    assert (ni && is_none v = false) as -> by (destruct Ni as [-> | ->]; auto; destruct ni; auto).
    rewrite Et. simpl. eexists; split; [reflexivity|]. constructor; simpl; auto; rewrite ?app_nil_r; auto.
  - intros [|n] Hn Lv; [lia|]. destruct c; [discriminate|]. rewrite <- text_default_back. apply text_read.
  - intros n Hn Lv Rp; inv Rp.
Qed.

Lemma attr_sound : forall fl name c v enc t, name <> xsi_nil -> drops fl v = false -> encode_primitive enc = Ok t ->
  sound_at neat ev eas 1 fl (SAttr name c) (Some (v, enc)) (VStr t) (Con None [(name, t)] []).
Proof.
  intros fl name c v enc t Nx Dr Et. constructor; simpl.
  - constructor; simpl; auto; try discriminate.
    + constructor; [intros []|constructor].
    + intros [E|[]]; auto.
  - intros _. right; left; simpl; discriminate.
  - intros Rp; inv Rp.
  - intros nm cp v0 enc0 t0 E1 E2 H1 H2. inv E1. inv E2. left. congruence.
  - intros [|n] Hn e He Ha _; [lia|]. cbn [put write write_step]. unfold write_attr. unfold drops in Dr. rewrite Dr, Et. simpl.
    eexists; split; [reflexivity|]. specialize (Ha name (or_introl eq_refl)). constructor; simpl; auto; rewrite ?app_nil_r; auto.
    unfold set_attribute, attr_list in *; simpl. destruct (e_attrib e) as [d|]; auto. rewrite dset_fresh; auto.
  - intros [|n] Hn Lv; [lia|]. destruct c; [discriminate|]. apply attr_read.
  - intros n Hn Lv Rp; inv Rp.
Qed.

Lemma elem_sound : forall fl name ns m c ni v enc t, drops fl v = false -> encode_primitive enc = Ok t ->
  (is_none v = true -> enc = VNone) ->
  exists n0 c0, sound_at neat ev eas n0 fl (SElem name ns m c ni) (Some (v, enc)) (if ni && is_none v || fl_skip_empty fl && String.eqb t "" then VNone else text_back eas t) c0.
Proof.
  intros fl name ns m c ni v enc t Dr Et Hv.
  assert (Dr' := Dr). unfold drops in Dr'.
  destruct (ni && is_none v) eqn:Nl.
  - (* xsi:nil *)
    apply andb_true_iff in Nl. destruct Nl as [-> Vn]. assert (t = "") as ->. { rewrite (Hv Vn) in Et. inv Et; auto. }
    rewrite Vn in Dr'. simpl in Dr'. apply orb_false_iff in Dr'. destruct Dr' as [Sk En].
    exists 1, (Con None [] [norm (set_text "" (make_element_nill (make_element (en_backend ev) name ns)))]).
    apply one_sound with (name := name); auto.
    + constructor.
    + reflexivity.
    + constructor; simpl; [discriminate|constructor].
    + intros [|n] e Hn He; [lia|]. cbn [write write_step]. unfold write_elem, write_text. rewrite Vn, Sk, En, Et. simpl.
      unfold append_unless_empty. rewrite Sk. simpl. eexists; split; [reflexivity|].
      exact (@grows_append (set_text "" (make_element_nill (make_element (en_backend ev) name ns))) e He).
    + intros [|n] Hn Lv; [lia|]. simpl in Lv. destruct c; [discriminate|].
      exists m, (fun loc c => read_text false true eas loc (note_line loc c)). eexists. split; [reflexivity|]. split; [|split].
      * intros loc sm. eexists. cbn. unfold read_text, is_element_nill, pop_attrib. cbn. reflexivity.
      * reflexivity.
      * intros _. constructor; simpl; auto.
  - destruct (fl_skip_empty fl && String.eqb t "") eqn:Em.
    + (* an empty element is not written *)
      apply andb_true_iff in Em. destruct Em as [Sk Ee]. apply String.eqb_eq in Ee. subst t.
      change VNone with (unwritten eas (SElem name ns m c ni)).
      destruct (@silent_sound fl (SElem name ns m c ni) v enc 1) as (n0 & Sd); eauto.
      * apply df_one; constructor.
      * intros [|n] e Hn; [lia|]. cbn [write write_step]. unfold write_elem, write_text. rewrite Dr', Nl, Et. simpl.
        unfold append_unless_empty. rewrite Sk. reflexivity.
      * discriminate.
    + exists 1, (Con None [] [norm (set_text t (make_element (en_backend ev) name ns))]).
      apply one_sound with (name := name); auto.
      * constructor.
      * reflexivity.
      * constructor; simpl; [discriminate|constructor].
      * intros [|n] e Hn He; [lia|]. cbn [write write_step]. unfold write_elem, write_text. rewrite Dr', Nl, Et. simpl.
        unfold append_unless_empty.
        assert (fl_skip_empty fl && is_empty (set_text t (make_element (en_backend ev) name ns)) = false) as ->.
        { destruct (fl_skip_empty fl); auto. simpl in *. unfold is_empty. simpl. rewrite Em. auto. }
        eexists; split; [reflexivity|]. exact (@grows_append (set_text t (make_element (en_backend ev) name ns)) e He).
      * intros [|n] Hn Lv; [lia|]. simpl in Lv. destruct c; [discriminate|].
        exists m, (fun loc c => read_text false ni eas loc (note_line loc c)). eexists. split; [reflexivity|]. split; [|split].
        { intros loc sm. eexists. rewrite <- text_default_back. cbn. unfold read_text, is_element_nill, pop_attrib. cbn.
          destruct ni; reflexivity. }
        { reflexivity. }
        intros _. constructor; simpl; auto.
Qed.

Lemma prim_sound : forall n0 fl c s v enc r c0, primitive s -> sound_at neat ev eas n0 fl s (Some (v, enc)) r c0 ->
  (r <> VNone -> repeatable ev (SUnionPrim c s) -> repeatable ev s) ->
  sound_at neat ev eas (S n0) fl (SUnionPrim c s) (Some (v, enc)) r c0.
Proof.
  intros n0 fl c s v enc r c0 Pr [A B C D E F G] Rp.
  assert (Ea : all_attrs s = false) by (destruct s; try contradiction; auto). rewrite Ea in *.
  constructor; cbn [child_names attr_names all_attrs own_text]; auto.
  - discriminate.
  - intros [|n] Hn; [lia|]. apply E; lia.
  - intros [|n] Hn Lv; [lia|]. simpl in Lv. apply andb_true_iff in Lv. destruct Lv as [Lc Lv]. destruct c; [discriminate|].
    apply F; auto; lia.
  - intros [|n] Hn Lv R Nn; [lia|]. simpl in Lv. apply andb_true_iff in Lv. destruct Lv as [Lc Lv]. destruct c; [discriminate|].
    apply G; auto; lia.
Qed.

(** ---- mappings ---- *)
Lemma attrs_none_sound : forall fl a v enc, is_none v = true ->
  exists n0, sound_at neat ev eas n0 fl (SAttrs a) (Some (v, enc)) (VDict []) nothing.
Proof.
  intros fl a v enc V. apply (@silent_sound fl (SAttrs a) v enc 1); [constructor| |discriminate].
  intros [|n] e Hn; [lia|]. cbn [write write_step]. unfold write_attrs. rewrite V; auto.
Qed.

Lemma attrs_sound : forall fl a v d ts, is_none v = false -> mapping_ok a d ts ->
  sound_at neat ev eas 1 fl (SAttrs a) (Some (v, VDict d)) (strings d ts) (Con None (mapped a d ts) []).
Proof.
  intros fl a v d ts V H. destruct (mapped_nonil H) as [M1 M2]. constructor; simpl.
  - constructor; simpl; auto; try discriminate.
  - intros (_ & S & _). right; left; simpl. eapply mapped_some; eauto.
  - intros Rp; inv Rp.
  - discriminate.
  - intros [|n] Hn e He _ Ha; [lia|]. cbn [put write write_step]. rewrite (mapping_write fl e v H V).
    eexists; split; [reflexivity|]. constructor; simpl; auto; rewrite ?app_nil_r; auto. rewrite (Ha eq_refl). reflexivity.
  - intros [|n] Hn Lv; [lia|]. intros R P rest more [Ra Rc Rat Rap Ral Rn Rt]. destruct (Ral eq_refl) as [-> Rs]. simpl in *.
    rewrite app_nil_r in Rat. exists (set_attrib_o None R). split.
    + intros loc sm. exists sm. apply (@mapping_read eas a d ts); auto; [destruct (as_computed a); auto; discriminate|].
      unfold attr_list in Rat. destruct (e_attrib R); [congruence|congruence].
    + constructor; simpl; auto; try discriminate. exists []. rewrite app_nil_r. repeat split; simpl; auto; apply Ra.
  - intros n Hn Lv Rp; inv Rp.
Qed.

Lemma map_skipped_sound : forall fl n m a v enc, fl_skip_empty fl = true -> py_len v = Some 0 ->
  exists n0, sound_at neat ev eas n0 fl (SMapElem n m a) (Some (v, enc)) VNone nothing.
Proof.
  intros fl n m a v enc Sk V. apply (@silent_sound fl (SMapElem n m a) v enc 1); [apply df_one; constructor| |discriminate].
  intros [|k] e Hn; [lia|]. cbn [write write_step]. unfold write_map_elem. rewrite Sk, V; auto.
Qed.

Lemma map_none_sound : forall fl n m a v enc, fl_skip_empty fl = false -> is_none v = true ->
  exists c0, sound_at neat ev eas 1 fl (SMapElem n m a) (Some (v, enc)) (VDict []) c0.
Proof.
  intros fl n m a v enc Sk V. exists (Con None [] [norm (make_element (en_backend ev) n (as_nsmap a))]).
  apply one_sound with (name := n); auto.
  - constructor.
  - reflexivity.
  - constructor; simpl; [discriminate|constructor].
  - intros [|k] e Hn He; [lia|]. cbn [write write_step]. unfold write_map_elem, write_attrs. rewrite Sk, V. simpl.
    unfold append_unless_empty. rewrite Sk. simpl. eexists; split; [reflexivity|].
    exact (@grows_append (make_element (en_backend ev) n (as_nsmap a)) e He).
  - intros [|k] Hn Lv; [lia|]. simpl in Lv. assert (C : as_computed a = false) by (destruct (as_computed a); auto; discriminate).
    exists m, (fun loc c => read_attrs a eas loc (note_line loc c)). eexists. split; [|split; [|split]].
    + intros loc s0. cbn [read read_step]. unfold read_map_elem. rewrite C. reflexivity.
    + intros loc sm. eexists. unfold read_attrs. rewrite C. cbn. reflexivity.
    + reflexivity.
    + intros _. constructor; simpl; auto.
Qed.

Lemma map_sound : forall fl n m a v d ts, is_none v = false -> mapping_ok a d ts ->
  (fl_skip_empty fl = true -> d <> [] /\ exists k, py_len v = Some (S k)) ->
  exists c0, sound_at neat ev eas 1 fl (SMapElem n m a) (Some (v, VDict d)) (strings d ts) c0.
Proof.
  intros fl n m a v d ts V H Sk. set (d0 := set_attributes (mapped a d ts) (make_element (en_backend ev) n (as_nsmap a))).
  exists (Con None [] [norm d0]). apply one_sound with (name := n); auto.
  - constructor.
  - reflexivity.
  - constructor; simpl; [discriminate|constructor].
  - intros [|k] e Hn He; [lia|]. cbn [write write_step]. unfold write_map_elem. rewrite (mapping_write fl _ v H V). fold d0. simpl.
    exists (append_element d0 e). split; [|exact (@grows_append d0 e He)]. unfold append_unless_empty.
    destruct (fl_skip_empty fl) eqn:S; auto. destruct (Sk eq_refl) as (Nd & k' & ->). simpl.
    assert (is_empty d0 = false) as ->; auto. unfold is_empty, d0. simpl. destruct (mapped a d ts) eqn:Em; auto. exfalso.
    destruct (mapping_names H) as (L & _). unfold mapped in Em. destruct d as [|x d]; auto. destruct ts; [discriminate L|discriminate Em].
  - intros [|k] Hn Lv; [lia|]. simpl in Lv. assert (C : as_computed a = false) by (destruct (as_computed a); auto; discriminate).
    exists m, (fun loc c => read_attrs a eas loc (note_line loc c)). eexists. split; [|split; [|split]].
    + intros loc s0. cbn [read read_step]. unfold read_map_elem. rewrite C. reflexivity.
    + intros loc sm. eexists. unfold note_line; simpl. apply (@mapping_read eas a d ts); auto.
    + reflexivity.
    + intros _. constructor; simpl; auto.
Qed.

(** ---- raw elements ---- *)
Lemma raw_none_sound : forall fl n m c enc, exists n0, sound_at neat ev eas n0 fl (SRaw n m c) (Some (VNone, enc)) VNone nothing.
Proof.
  intros fl n m c enc. apply (@silent_sound fl (SRaw n m c) VNone enc 1); [apply df_one; constructor| |discriminate].
  intros [|k] e Hn; [lia|]. reflexivity.
Qed.

Lemma raw_sound : forall fl n m c enc x x', native_tag x = TName n -> no_pi x -> bare_copy x x' ->
  (fl_skip_empty fl = true -> is_empty (from_native (en_backend ev) x) = false) ->
  exists c0, sound_at neat ev eas 1 fl (SRaw n m c) (Some (VRaw x, enc)) (VRaw x') c0.
Proof.
  intros fl n m c enc x x' Ht Hp Hb Sk. exists (Con None [] [norm (from_native (en_backend ev) x)]).
  apply one_sound with (name := n); auto.
  - constructor.
  - unfold called. rewrite norm_tag. destruct x; try discriminate. simpl in *. auto.
  - apply raw_named; auto.
  - intros [|k] e Hn He; [lia|]. cbn [write write_step write_raw]. exists (append_element (from_native (en_backend ev) x) e).
    split; [|apply grows_append; auto]. unfold append_unless_empty. destruct (fl_skip_empty fl); auto. rewrite Sk; auto.
  - intros [|k] Hn Lv; [lia|]. simpl in Lv. destruct c; [discriminate|].
    exists m. eexists. exists (snd (extract (norm (from_native (en_backend ev) x)))). split; [intros loc s0; reflexivity|].
    destruct (extract_clean (norm (from_native (en_backend ev) x))) as [X1 X2]. split; [|auto].
    intros loc sm. destruct (@raw_read (en_backend ev) x x' n loc sm Ht Hp Hb) as (d' & E & ->). eexists. exact E.
Qed.

End Leaf.
