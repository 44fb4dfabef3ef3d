(** PfRound8.v -- what does not survive the round trip: lists and tuples with empty or missing items. *)

From Verif Require Import Base Elem Native Errs Names Ser Write Read Api SpecElem SpecRead SpecNames SpecWrite SpecSim SpecRound.
From Verif Require Import PfElem PfNames PfWrite PfWrite3 PfWSim PfRound1 PfRound2 PfRound3 PfRound4 PfRound5 PfRound6 PfRound7.

Section Texts.
Variable ev : env.
Variable eas : bool.
Variables (name : string) (ns : option nsmap) (m : smode) (ni : bool).
Let s := SElem name ns m false ni.

(** an element that is there: it is read whatever follows it *)
Definition sent_as (d : elem) (r : val) : Prop :=
  called name d /\ named d /\ forall n, child_reads false true [name] [d] r (read (S n) ev s eas).

Lemma item_sent : forall fl v, maybe_text v -> not_sent fl v = false -> exists d, sent_as d (if ni && is_none v then VNone else text_back eas (item_text v)) /\
  forall n e, e_next e = length (e_elems e) -> exists e', write (S n) ev s fl e v v = Ok e' /\ grows e (Con None [] [d]) e'.
Proof.
  intros fl v Mt Ns. destruct (ni && is_none v) eqn:Nl.
  - apply andb_true_iff in Nl. destruct Nl as [En Vn]. destruct v; try discriminate Vn. clear Mt. unfold s. rewrite En. simpl in Ns.
    apply orb_false_iff in Ns. destruct Ns as [Sk Ex].
    exists (norm (set_text "" (make_element_nill (make_element (en_backend ev) name ns)))). split; [split; [|split]|].
    + reflexivity.
    + constructor; simpl; [discriminate|constructor].
    + intros n. eapply child_back with (m := m) (f := fun loc c => read_text false true eas loc (note_line loc c)).
      { intros loc s0. subst s. rewrite En. reflexivity. }
      right. eexists; eexists. split; [reflexivity|]. split; [reflexivity|]. split; [|split].
      * intros loc sm. eexists. cbn. unfold read_text, is_element_nill, pop_attrib. cbn. reflexivity.
      * reflexivity.
      * discriminate.
    + intros n e He. cbn [write write_step]. unfold write_elem, write_text. rewrite Sk, Ex. simpl.
      unfold append_unless_empty. rewrite Sk. simpl. eexists; split; [reflexivity|].
      exact (@grows_append (set_text "" (make_element_nill (make_element (en_backend ev) name ns))) e He).
  - assert (Et : encode_primitive v = Ok (item_text v)) by (destruct Mt as [->|(t & ->)]; reflexivity).
    assert (Dr : is_none v && (fl_skip_empty fl || fl_exclude_none fl) = false).
    { destruct Mt as [->|(t & ->)]; simpl in *; auto. }
    set (t := item_text v) in *.
    exists (norm (set_text t (make_element (en_backend ev) name ns))). split; [split; [|split]|].
    + reflexivity.
    + constructor; simpl; [discriminate|constructor].
    + intros n. eapply child_back with (m := m) (f := fun loc c => read_text false ni eas loc (note_line loc c)).
      { intros loc s0. reflexivity. }
      right. eexists; eexists. split; [reflexivity|]. split; [reflexivity|]. split; [|split].
      * intros loc sm. eexists. rewrite <- text_default_back. cbn. unfold read_text, is_element_nill, pop_attrib. cbn. destruct ni; reflexivity.
      * reflexivity.
      * discriminate.
    + intros n e He. cbn [write write_step s]. unfold s. cbn [write_step]. unfold write_elem, write_text. rewrite Dr, Nl, Et. simpl. unfold append_unless_empty.
      assert (fl_skip_empty fl && is_empty (set_text t (make_element (en_backend ev) name ns)) = false) as ->.
      { destruct (fl_skip_empty fl) eqn:Sk; auto. simpl. unfold is_empty. simpl. destruct Mt as [->|(t' & ->)]; simpl in Ns; rewrite Sk in Ns; simpl in Ns; [discriminate|].
        unfold t. simpl. rewrite Ns. auto. }
      eexists; split; [reflexivity|]. exact (@grows_append (set_text t (make_element (en_backend ev) name ns)) e He).
Qed.

Lemma item_not_sent : forall fl v n e, maybe_text v -> not_sent fl v = true -> write (S n) ev s fl e v v = Ok e.
Proof.
  intros fl v n e [->|(t & ->)] Ns; unfold s; cbn [write write_step]; unfold write_elem, write_text; simpl in *.
  - rewrite Ns. auto.
  - apply andb_true_iff in Ns. destruct Ns as [Sk Et]. unfold append_unless_empty. rewrite Sk. apply String.eqb_eq in Et. subst t.
    rewrite andb_false_r. reflexivity.
Qed.

Lemma items_sent : forall fl vs, Forall maybe_text vs -> exists ds, Forall2 sent_as ds (seen eas ni fl vs) /\
  (forall n e, e_next e = length (e_elems e) -> exists e', write_items (write (S n) ev s) fl e vs vs = Ok e' /\ grows e (Con None [] ds) e') /\
  (forall n e, e_next e = length (e_elems e) -> exists e', write_tuple (repeat (write (S n) ev s) (length vs)) fl e vs vs = Ok e' /\ grows e (Con None [] ds) e').
Proof.
  intros fl vs F; induction F as [|v vs Mt F (ds & D1 & D2 & D3)].
  - exists []. split; [constructor|]. split; intros n e He; exists e; split; auto; apply grows_nothing; auto.
  - unfold seen. cbn [filter map write_items write_tuple length repeat]. destruct (not_sent fl v) eqn:Ns; cbn [negb map].
    + exists ds. split; auto. split; intros n e He.
      * rewrite (@item_not_sent fl v n e Mt Ns). cbn [obind]. destruct (fl_skip_empty fl && is_none v); apply D2; auto.
      * rewrite (@item_not_sent fl v n e Mt Ns). cbn [obind]. apply D3; auto.
    + destruct (@item_sent fl v Mt Ns) as (d & Sd & W). exists (d :: ds). split; [constructor; auto|]. split; intros n e He.
      * assert (fl_skip_empty fl && is_none v = false) as ->.
        { destruct v; try apply andb_false_r. simpl in *. apply orb_false_iff in Ns. rewrite (proj1 Ns). auto. }
        destruct (W n e He) as (e1 & W1 & G1). rewrite W1. cbn [obind]. destruct (D2 n e1 (gr_next G1)) as (e2 & W2 & G2). exists e2. split; auto.
        apply (grows_join G1 G2).
      * destruct (W n e He) as (e1 & W1 & G1). rewrite W1. cbn [obind]. destruct (D3 n e1 (gr_next G1)) as (e2 & W2 & G2). exists e2. split; auto.
        apply (grows_join G1 G2).
Qed.

Lemma none_left : forall n, child_reads false false [name] [] VNone (read (S n) ev s eas).
Proof. intros n. eapply nothing_read. intros loc s0. reflexivity. Qed.

(** reading a list: it ends at the first None *)
Lemma list_cut : forall n title hide ds rs, Forall2 sent_as ds rs -> forall k idx acc R P, length ds < k -> at_ R P ds -> ~ In xsi_nil (dkeys (attr_list R)) ->
  exists R', forall loc sm, exists sm', read_items k (read (S n) ev s) title hide eas loc idx acc [] (St R sm) = (Ok (list_back (acc ++ cut rs)), St R' sm').
Proof.
  intros n title hide ds rs F; induction F as [|d r ds rs Sd F IH]; intros k idx acc R P Hk A Ni; (destruct k as [|k]; [simpl in Hk; lia|]).
  - destruct (none_left n (R := R) (P := P) (rest := []) A Ni) as (R' & E & _); [constructor|]. exists R'. intros loc sm.
    destruct (E (loc ++ [LIdx idx]) sm) as (sm' & E'). exists sm'. cbn [read_items]. rewrite E'. simpl. rewrite app_nil_r. reflexivity.
  - destruct Sd as (Cd & Nd & Rd). destruct (Rd n R P ds A Ni) as (R1 & E & F1 & F2 & F3 & F4 & F5 & F6 & Q & A1 & _); [discriminate|].
    rewrite <- F4 in Ni. destruct (is_none r) eqn:Nr.
    + exists R1. intros loc sm. destruct (E (loc ++ [LIdx idx]) sm) as (sm' & E'). exists sm'. cbn [read_items]. rewrite E'.
      destruct r; try discriminate Nr. simpl. rewrite app_nil_r. reflexivity.
    + destruct (IH k (S idx) (acc ++ [r]) R1 (P ++ Q)) as (R2 & E2); auto; [simpl in Hk; lia|]. exists R2. intros loc sm.
      destruct (E (loc ++ [LIdx idx]) sm) as (sm1 & E'). destruct (E2 loc sm1) as (sm2 & E2'). exists sm2. cbn [read_items]. rewrite E'.
      rewrite <- app_assoc in E2'. destruct r; try discriminate Nr; exact E2'.
Qed.

(** reading a tuple: the elements there are, then None *)
Lemma tuple_shift : forall n title hide k ds rs, Forall2 sent_as ds rs -> length ds <= k -> forall idx acc R P, at_ R P ds -> ~ In xsi_nil (dkeys (attr_list R)) ->
  exists R', forall loc sm, exists sm', read_tuple (repeat (read (S n) ev s) k) title hide eas loc idx acc [] (St R sm) =
    (Ok (if forallb is_none (acc ++ padded k rs) then VNone else VList (acc ++ padded k rs)), St R' sm').
Proof.
  intros n title hide k; induction k as [|k IH]; intros ds rs F L idx acc R P A Ni.
  - destruct ds; [|simpl in L; lia]. inv F. exists R. intros loc sm. exists sm. simpl. unfold padded. simpl. rewrite app_nil_r. reflexivity.
  - destruct F as [|d r ds rs Sd F].
    + destruct (none_left n (R := R) (P := P) (rest := []) A Ni) as (R1 & E & F1 & F2 & F3 & F4 & F5 & F6 & Q & A1 & _); [constructor|].
      rewrite <- F4 in Ni. destruct (IH [] [] (Forall2_nil _) (Nat.le_0_l k) (S idx) (acc ++ [VNone]) R1 (P ++ Q) A1 Ni) as (R2 & E2). exists R2.
      intros loc sm. destruct (E (loc ++ [LIdx idx]) sm) as (sm1 & E'). destruct (E2 loc sm1) as (sm2 & E2'). exists sm2.
      cbn [repeat read_tuple]. rewrite E'. rewrite E2'. unfold padded. simpl. rewrite Nat.sub_0_r. rewrite <- app_assoc. reflexivity.
    + destruct Sd as (Cd & Nd & Rd). destruct (Rd n R P ds A Ni) as (R1 & E & F1 & F2 & F3 & F4 & F5 & F6 & Q & A1 & _); [discriminate|].
      rewrite <- F4 in Ni. simpl in L. destruct (IH ds rs F ltac:(lia) (S idx) (acc ++ [r]) R1 (P ++ Q) A1 Ni) as (R2 & E2). exists R2.
      intros loc sm. destruct (E (loc ++ [LIdx idx]) sm) as (sm1 & E'). destruct (E2 loc sm1) as (sm2 & E2'). exists sm2.
      cbn [repeat read_tuple]. rewrite E'. rewrite E2'. unfold padded. simpl. rewrite <- app_assoc. reflexivity.
Qed.

End Texts.

(** a class with one field *)
Lemma one_field_back : forall eas b cls tag f s validate encode x xe fl r w ds n0,
  let ev := one_field b cls tag f s validate in
  encode (instance cls f x) = VDict [(f, xe)] -> Forall named ds ->
  (forall n e, n0 <= n -> e_next e = length (e_elems e) -> exists e', write n ev s fl e x xe = Ok e' /\ grows e (Con None [] ds) e') ->
  (forall n R, n0 <= n -> at_ R [] ds -> ~ In xsi_nil (dkeys (attr_list R)) -> exists R', forall loc sm, exists sm', read n ev s eas loc (St R sm) = (Ok r, St R' sm')) ->
  validate (Some (data_of f r)) = Valid w ->
  comes_back ev eas encode cls (instance cls f x) fl w.
Proof.
  intros eas b cls tag f s validate encode x xe fl r w ds n0 ev Ee Nd W Rd Va. exists n0. intros n Hn.
  set (md := MDef cls false tag None [(f, s)] [] [] false false None (fun _ => None) (fun _ => None) validate).
  assert (Em : en_model ev cls = Some md) by (unfold ev, one_field; simpl; rewrite String.eqb_refl; auto).
  assert (Eb : en_backend ev = b) by auto. clearbody ev.
  unfold to_xml_tree, from_xml_tree. cbn [model_type instance]. rewrite Em, Ee, Eb. cbn [md_elem_name md_nsmap md].
  change (new_elem (TName tag) None None None [] None (-1)) with (make_element Lxml tag None).
  destruct (W n (make_element Lxml tag None) Hn eq_refl) as (d & Wd & G).
  assert (E : write_model (write n ev) md fl (make_element Lxml tag None) (instance cls f x) (VDict [(f, xe)]) = Ok d).
  { unfold write_model, with_skip_empty. simpl. unfold is_unset, str_in. simpl. rewrite !String.eqb_refl. simpl.
    destruct (fl_exclude_unset fl); simpl; rewrite Wd; auto. }
  rewrite E. cbn [obind]. clear E.
  destruct (@node_tree Lxml tag None _ _ G Nd) as [Ndd En].
  destruct (export_import b Ndd) as (doc & E1 & E2). rewrite E1. exists doc. split; auto.
  assert (Td : native_tag doc = TName tag).
  { assert (e_tag (from_native b doc) = TName tag) by (rewrite E2, En; auto). destruct doc; simpl in *; auto; discriminate. }
  rewrite Td. cbn [tag_is]. rewrite String.eqb_refl. rewrite E2, En.
  destruct (Rd n (node tag (Con None [] ds)) Hn) as (R' & E); [split; auto|simpl; auto|].
  unfold read_model, read_plain_model. cbn [md md_root md_fields read_fields md_cval].
  destruct (E [LKey f] (st_sm (note_line [LKey f] (St (node tag (Con None [] ds)) [])))) as (sm' & E').
  change (note_line [LKey f] (St (node tag (Con None [] ds)) [])) with (St (node tag (Con None [] ds)) (st_sm (note_line [LKey f] (St (node tag (Con None [] ds)) [])))).
  rewrite E'. unfold data_of in Va. unfold validate_result. cbn [md_forbid md_validate md_valias dget].
  destruct r; simpl in *; rewrite Va; reflexivity.
Qed.

Lemma sent_named : forall ev eas name ns m ni ds rs, Forall2 (sent_as ev eas name ns m ni) ds rs -> Forall named ds /\ length ds = length rs.
Proof. intros ev eas name ns m ni ds rs F; induction F as [|d r ds rs (C & N & _) F [IH1 IH2]]; simpl; auto. Qed.

Lemma seen_short : forall eas ni fl vs, length (seen eas ni fl vs) <= length vs.
Proof. intros eas ni fl vs; unfold seen. rewrite map_length. induction vs as [|v vs IH]; simpl; auto. destruct (negb (not_sent fl v)); simpl; lia. Qed.

Lemma list_of_texts : forall eas b cls tag f title name ns m ni hide validate encode vs fl w,
  let ev := one_field b cls tag f (SHomo title false (SElem name ns m false ni) hide) validate in
  Forall maybe_text vs -> encode (instance cls f (VList vs)) = VDict [(f, VList vs)] ->
  validate (Some (data_of f (list_back (cut (seen eas ni fl vs))))) = Valid w ->
  comes_back ev eas encode cls (instance cls f (VList vs)) fl w.
Proof.
  intros eas b cls tag f title name ns m ni hide validate encode vs fl w ev F Ee Va.
  destruct (@items_sent ev eas name ns m ni fl vs F) as (ds & Sd & W & _). destruct (sent_named Sd) as [Nd Ln].
  apply one_field_back with (xe := VList vs) (r := list_back (cut (seen eas ni fl vs))) (ds := ds) (n0 := S (S (length vs))); auto.
  - intros [|[|n]] e Hn He; try lia. unfold write at 1. fold write. cbn [write_step]. unfold write_homo. simpl. fold ev.
    destruct (fl_skip_empty fl && Nat.eqb (length vs) 0) eqn:Z; [|exact (W n e He)].
    destruct vs; [|rewrite andb_false_r in Z; discriminate]. simpl in Sd. inv Sd. exists e; split; auto. apply grows_nothing; auto.
  - intros [|[|n]] R Hn A Ni; try lia. pose proof (seen_short eas ni fl vs).
    destruct (@list_cut ev eas name ns m ni n title hide ds (seen eas ni fl vs) Sd (S n) 0 [] R [] ltac:(lia) A Ni) as (R' & E). exists R'. exact E.
Qed.

Lemma tuple_of_texts : forall eas b cls tag f title name ns m ni hide validate encode vs fl w,
  let ev := one_field b cls tag f (SHetero title false (repeat (SElem name ns m false ni) (length vs)) hide) validate in
  Forall maybe_text vs -> encode (instance cls f (VList vs)) = VDict [(f, VList vs)] ->
  validate (Some (data_of f (if forallb is_none (seen eas ni fl vs) then VNone else VList (padded (length vs) (seen eas ni fl vs))))) = Valid w ->
  comes_back ev eas encode cls (instance cls f (VList vs)) fl w.
Proof.
  intros eas b cls tag f title name ns m ni hide validate encode vs fl w ev F Ee Va.
  destruct (@items_sent ev eas name ns m ni fl vs F) as (ds & Sd & _ & W). destruct (sent_named Sd) as [Nd Ln].
  eapply one_field_back with (xe := VList vs) (ds := ds) (n0 := 2); eauto.
  - intros [|[|n]] e Hn He; try lia. unfold write at 1. fold write. cbn [write_step]. unfold write_hetero. cbn [is_none py_iter obind]. fold ev.
    rewrite map_length, repeat_length, Nat.eqb_refl. cbn [negb].
    assert (Ew : forall k, map (write (S n) ev) (repeat (SElem name ns m false ni) k) = repeat (write (S n) ev (SElem name ns m false ni)) k).
    { intros k; induction k as [|k IH]; [reflexivity|]. cbn [repeat map]. rewrite IH. reflexivity. }
    destruct (fl_skip_empty fl && Nat.eqb (length vs) 0) eqn:Z.
    + destruct vs; [|rewrite andb_false_r in Z; discriminate]. simpl in Sd. inv Sd. exists e; split; auto. apply grows_nothing; auto.
    + destruct (W n e He) as (e' & W' & G). exists e'. split; auto. rewrite <- W', <- Ew. reflexivity.
  - intros [|[|n]] R Hn A Ni; try lia. pose proof (seen_short eas ni fl vs).
    destruct (@tuple_shift ev eas name ns m ni n title hide (length vs) ds (seen eas ni fl vs) Sd ltac:(lia) 0 [] R [] A Ni) as (R' & E). exists R'.
    intros loc sm. destruct (E loc sm) as (sm' & E'). exists sm'. unfold read. fold read. cbn [read_step]. unfold read_hetero.
    assert (Er : forall k, map (read (S n) ev) (repeat (SElem name ns m false ni) k) = repeat (read (S n) ev (SElem name ns m false ni)) k).
    { intros k; induction k; simpl; f_equal; auto. }
    unfold ev in *. rewrite Er. rewrite E'. cbn [app].
    assert (Ep : forallb is_none (padded (length vs) (seen eas ni fl vs)) = forallb is_none (seen eas ni fl vs)).
    { unfold padded. rewrite forallb_app. assert (forallb is_none (repeat VNone (length vs - length (seen eas ni fl vs))) = true) as ->; [|apply andb_true_r].
      clear. induction (length vs - length (seen eas ni fl vs)); simpl; auto. }
    rewrite Ep. reflexivity.
Qed.

(** a class with one field, read back completely *)
Lemma one_kept : forall eas b cls tag f s validate encode x xe fl r w,
  let ev := one_field b cls tag f s validate in
  direct_field ev s -> live s = true -> encode (instance cls f x) = VDict [(f, xe)] -> kept ev eas fl s x xe r ->
  validate (Some (data_of f r)) = Valid w -> comes_back ev eas encode cls (instance cls f x) fl w.
Proof.
  intros eas b cls tag f s validate encode x xe fl r w ev D Lv Ee K Va.
  set (md := MDef cls false tag None [(f, s)] [] [] false false None (fun _ => None) (fun _ => None) validate).
  assert (Em : en_model ev cls = Some md) by (unfold ev, one_field; simpl; rewrite String.eqb_refl; auto).
  apply (@round_trip ev eas encode cls md (instance cls f x) fl (map snd [(f, r)]) w); auto.
  - intros c m. unfold ev, one_field. simpl. destruct (String.eqb c cls); [|discriminate]. intros E; injection E as <-. simpl.
    split; [|repeat constructor]. apply apart_direct; simpl; auto; try constructor.
  - left. intros c m. unfold ev, one_field. simpl. destruct (String.eqb c cls); [|discriminate]. intros E; injection E as <-. auto.
  - rewrite Ee. apply kept_plain; auto.
    + assert (F : forall y : val, dget f [(f, y)] = Some y) by (intros y; simpl; rewrite String.eqb_refl; auto).
      apply kept_field with (x := x) (xe := xe) (r := r); auto.
      * split; auto. intros _. simpl. unfold str_in. simpl. rewrite String.eqb_refl. auto.
      * unfold py_getattr, instance. rewrite F. auto.
      * unfold py_getitem. rewrite F. auto.
      * apply kept_no_fields.
    + unfold read_data. simpl. destruct r; exact Va.
Qed.
