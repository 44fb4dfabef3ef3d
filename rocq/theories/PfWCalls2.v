(** PfWCalls2.v -- proofs for C80: for which instances field serializers are called, and how often. *)

From Verif Require Import Base Elem Native Errs Names Ser Write Api WCalls SpecCrash SpecWCalls PfFuel PfWrite PfNames.

Local Ltac inv H := inversion H; subst; clear H.

Lemma value_at_app : forall a v b, value_at v (a ++ b) = match value_at v a with Some x => value_at x b | None => None end.
Proof.
  induction a as [|[k|i] a IH]; intros v b; simpl; auto; destruct v; auto.
  - destruct (dget k attrs); auto.
  - destruct (nth_error l i); auto.
Qed.

Lemma getattr_at : forall v name y, py_getattr v name = Ok y -> value_at v [LKey name] = Some y.
Proof. intros v name y H. destruct v; try discriminate. simpl in *. destruct (dget name attrs); congruence. Qed.

Section Where.
  Variable ev : env.
  Hypothesis Dis : distinct_fields ev.

  (** the calls made at or below [pl], where the value [v] is *)
  Definition placed (fl : flags) (pl : list locitem) (v : val) (c : wcall) : Prop :=
    exists rest, wc_place c = pl ++ rest /\
      value_at v rest = Some (wc_instance c) /\ value_at v (rest ++ [LKey (wc_field c)]) = Some (wc_value c) /\
      exists m, en_model ev (wc_class c) = Some m /\ In (wc_field c) (map fst (md_fields m)) /\
        runs_serializer m fl (wc_instance c) (wc_field c) = true.

  Definition key (c : wcall) : list locitem * string := (wc_place c, wc_field c).

  Lemma placed_below : forall fl pl v st y c, placed fl (pl ++ [st]) y c -> value_at v [st] = Some y -> placed fl pl v c.
  Proof.
    intros fl pl v st y c (rest & E & A & B & M) V. exists (st :: rest). rewrite <- app_assoc in E.
    assert (G : forall r, value_at v (st :: r) = value_at y r).
    { intros r. change (st :: r) with ([st] ++ r). rewrite value_at_app, V; auto. }
    rewrite <- app_comm_cons, !G. auto.
  Qed.

  Lemma runs_skip : forall m m' fl v name, runs_serializer m (with_skip_empty m' fl) v name = runs_serializer m fl v name.
  Proof. intros m m' fl v name. unfold runs_serializer, with_skip_empty. destruct (md_skip_empty m'); auto. Qed.

  Lemma placed_skip : forall m fl pl v c, placed (with_skip_empty m fl) pl v c -> placed fl pl v c.
  Proof. intros m fl pl v c (rest & E & A & B & m' & M1 & M2 & M3). rewrite runs_skip in M3. exists rest. repeat split; eauto 6. Qed.

  Definition well (t : wtracer) : Prop := forall pl fl e v enc,
    Forall (placed fl pl v) (t pl fl e v enc) /\ NoDup (map key (t pl fl e v enc)).

  Lemma app_inj_step : forall (pl a b : list locitem) x y, pl ++ x :: a = (pl ++ [y]) ++ b -> x = y.
  Proof. intros pl a b x y H. rewrite <- app_assoc in H. apply app_inv_head in H. simpl in H. congruence. Qed.

  Lemma nodup_app : forall A (l l' : list A), NoDup l -> NoDup l' -> (forall x, In x l -> ~ In x l') -> NoDup (l ++ l').
  Proof.
    intros A l l' N N' D; induction N as [|x l Hx N IH]; simpl; auto. constructor.
    - rewrite in_app_iff. intros [I|I]; auto. apply (D x); simpl; auto.
    - apply IH. intros y I; apply D; simpl; auto.
  Qed.

  (** items *)
  Definition at_item (fl : flags) (pl : list locitem) (idx : nat) (vs : list val) (c : wcall) : Prop :=
    exists i y, nth_error vs i = Some y /\ placed fl (pl ++ [LIdx (idx + i)]) y c.

  Lemma item_key : forall fl pl idx vs c c' y, at_item fl pl (S idx) vs c' -> placed fl (pl ++ [LIdx idx]) y c -> key c <> key c'.
  Proof.
    intros fl pl idx vs c c' y (i & z & _ & r' & E' & _) (r & E & _) K. unfold key in K. injection K as K _.
    rewrite E, E', <- !app_assoc in K. apply app_inv_head in K. simpl in K. injection K as K _. lia.
  Qed.

  Lemma cons_item : forall fl pl idx v vs c, at_item fl pl (S idx) vs c -> at_item fl pl idx (v :: vs) c.
  Proof. intros fl pl idx v vs c (i & y & N & P). exists (S i), y. rewrite Nat.add_succ_r. auto. Qed.

  Lemma first_item : forall fl pl idx v vs c, placed fl (pl ++ [LIdx idx]) v c -> at_item fl pl idx (v :: vs) c.
  Proof. intros fl pl idx v vs c P. exists 0, v. rewrite Nat.add_0_r. auto. Qed.

  Lemma join_items : forall fl pl idx v vs l l', Forall (placed fl (pl ++ [LIdx idx]) v) l -> NoDup (map key l) ->
    Forall (at_item fl pl (S idx) vs) l' -> NoDup (map key l') ->
    Forall (at_item fl pl idx (v :: vs)) (l ++ l') /\ NoDup (map key (l ++ l')).
  Proof.
    intros fl pl idx v vs l l' F N F' N'. split.
    - apply Forall_app; split; [eapply Forall_impl; [|exact F]; intros; apply first_item; auto|].
      eapply Forall_impl; [|exact F']; intros; apply cons_item; auto.
    - rewrite map_app. apply nodup_app; auto. intros k I I'. apply in_map_iff in I, I'. destruct I as (c & <- & I), I' as (c' & E & I').
      rewrite Forall_forall in F, F'. eapply item_key; eauto.
  Qed.

  Lemma items_well : forall w t, well t -> forall fl pl vs encs idx e,
    Forall (at_item fl pl idx vs) (wt_items w t pl idx fl e vs encs) /\ NoDup (map key (wt_items w t pl idx fl e vs encs)).
  Proof.
    intros w t H fl pl vs; induction vs as [|v vs IH]; intros encs idx e; cbn [wt_items]; [split; constructor|].
    destruct encs as [|enc encs]; [split; constructor|]. destruct (_ && _).
    - destruct (IH encs (S idx) e) as [F N]. split; auto. eapply Forall_impl; [|exact F]; intros; apply cons_item; auto.
    - destruct (H (pl ++ [LIdx idx]) fl e v enc) as [F N].
      destruct (w fl e v enc) as [e'|y|]; [destruct (IH encs (S idx) e') as [F' N']|..]; apply join_items; auto; constructor.
  Qed.

  Lemma tuple_well : forall wts, Forall (fun wt => well (snd wt)) wts -> forall fl pl vs encs idx e,
    Forall (at_item fl pl idx vs) (wt_tuple wts pl idx fl e vs encs) /\ NoDup (map key (wt_tuple wts pl idx fl e vs encs)).
  Proof.
    intros wts H; induction H as [|[w t] wts Hw _ IH]; intros fl pl vs encs idx e; cbn [wt_tuple]; [split; constructor|].
    destruct vs as [|v vs]; [split; constructor|]. destruct encs as [|enc encs]; [split; constructor|].
    destruct (Hw (pl ++ [LIdx idx]) fl e v enc) as [F N]. cbn [snd] in *.
    destruct (w fl e v enc) as [e'|y|]; [destruct (IH fl pl vs encs (S idx) e') as [F' N']|..]; apply join_items; auto; constructor.
  Qed.

  Lemma items_placed : forall fl pl v vs l, py_iter v = Ok vs -> Forall (at_item fl pl 0 vs) l -> Forall (placed fl pl v) l.
  Proof.
    intros fl pl v vs l E F. eapply Forall_impl; [|exact F]. intros c (i & y & N & P). eapply placed_below; [exact P|].
    destruct v; try discriminate. simpl in *. injection E as ->. rewrite N; auto.
  Qed.

  (** fields *)
  Definition at_field (fl : flags) (pl : list locitem) (v : val) (fs : list (string * ser)) (c : wcall) : Prop :=
    placed fl pl v c /\ ((wc_place c = pl /\ In (wc_field c) (map fst fs)) \/
                         exists name rest, In name (map fst fs) /\ wc_place c = pl ++ LKey name :: rest).

  Lemma cons_field : forall fl pl v nf fs c, at_field fl pl v fs c -> at_field fl pl v (nf :: fs) c.
  Proof. intros fl pl v nf fs c [P [(A & B)|(name & rest & A & B)]]; split; auto; [left|right; exists name, rest]; simpl; auto. Qed.

  Lemma runs_unset : forall m fl v name b, has_serializer m name = true -> str_in name (md_sexclude m) = false ->
    (exists y, py_getattr v name = Ok y) -> (if fl_exclude_unset fl then is_unset v name else Ok false) = Ok b ->
    runs_serializer m fl v name = negb b.
  Proof.
    intros m fl v name b Hs Ex (y & G) U. unfold runs_serializer. rewrite Hs, Ex. simpl. destruct v; try discriminate.
    destruct (fl_exclude_unset fl); simpl in *; injection U as <-; auto. rewrite negb_involutive; auto.
  Qed.

  Lemma join_fields : forall fl pl v name s fs l l', ~ In name (map fst fs) -> Forall (at_field fl pl v [(name, s)]) l -> NoDup (map key l) ->
    Forall (at_field fl pl v fs) l' -> NoDup (map key l') ->
    Forall (at_field fl pl v ((name, s) :: fs)) (l ++ l') /\ NoDup (map key (l ++ l')).
  Proof.
    intros fl pl v name s fs l l' Nn F N F' N'. split.
    - apply Forall_app; split.
      + eapply Forall_impl; [|exact F]. intros c [P [(A & [B|[]])|(n0 & rest & [B|[]] & C)]]; split; auto; simpl in *; [left; auto|right; eauto].
      + eapply Forall_impl; [|exact F']; intros; apply cons_field; auto.
    - rewrite map_app. apply nodup_app; auto. intros k I I'. apply in_map_iff in I, I'. destruct I as (c & <- & I), I' as (c' & E & I').
      rewrite Forall_forall in F, F'. destruct (F _ I) as [_ H], (F' _ I') as [_ H']. unfold key in E. injection E as Ep Ef.
      assert (Z : forall n r, pl <> pl ++ LKey n :: r).
      { intros n r X. apply (f_equal (@length _)) in X. rewrite app_length in X. simpl in X. lia. }
      destruct H as [(A & [B|[]])|(n0 & rest & [B|[]] & C)]; simpl in *; destruct H' as [(A' & B')|(n1 & rest' & B' & C')].
      + congruence.
      + eapply Z. rewrite <- A at 1. rewrite <- Ep. exact C'.
      + eapply Z. rewrite <- A' at 1. rewrite Ep. exact C.
      + rewrite C, C' in Ep. apply app_inv_head in Ep. injection Ep as E1 _. subst. auto.
  Qed.

  Lemma sub_field : forall fl pl v name s y l, value_at v [LKey name] = Some y -> Forall (placed fl (pl ++ [LKey name]) y) l ->
    Forall (at_field fl pl v [(name, s)]) l.
  Proof.
    intros fl pl v name s y l V F. eapply Forall_impl; [|exact F]. intros c P. split; [eapply placed_below; eauto|].
    right. destruct P as (rest & E & _). exists name, rest. split; [left; auto|]. rewrite <- app_assoc in E. exact E.
  Qed.

  Lemma fields_well : forall (w : ser -> writer) (t : ser -> wtracer) cls m, (forall s, well (t s)) -> en_model ev cls = Some m ->
    forall fs pl fl e v enc, NoDup (map fst fs) -> (forall nf, In nf fs -> In nf (md_fields m)) ->
    Forall (at_field fl pl v fs) (wt_fields w t cls m fs pl fl e v enc) /\ NoDup (map key (wt_fields w t cls m fs pl fl e v enc)).
  Proof.
    intros w t cls m H Em fs; induction fs as [|[name s] fs IH]; intros pl fl e v enc N Sub; cbn [wt_fields]; [split; constructor|].
    inv N. assert (Sub' : forall nf, In nf fs -> In nf (md_fields m)) by (intros; apply Sub; right; auto).
    assert (Skip : Forall (at_field fl pl v ((name, s) :: fs)) (wt_fields w t cls m fs pl fl e v enc) /\ NoDup (map key (wt_fields w t cls m fs pl fl e v enc))).
    { destruct (IH pl fl e v enc) as [F D]; auto. split; auto. eapply Forall_impl; [|exact F]; intros; apply cons_field; auto. }
    destruct (str_in name (md_sexclude m)) eqn:Ex; auto.
    destruct (if fl_exclude_unset fl then is_unset v name else Ok false) as [[|]|y|] eqn:U; auto; try (split; constructor).
    destruct (py_getattr v name) as [x|y|] eqn:G; try (split; constructor).
    destruct (md_cser m name) as [custom|] eqn:Cs.
    - assert (Own : Forall (at_field fl pl v [(name, s)]) [WCall pl cls name v e x]).
      { constructor; [|constructor]. split; [|left; simpl; auto]. exists []. rewrite app_nil_r. simpl. repeat split; auto.
        - apply (getattr_at _ _ G).
        - exists m. repeat split; auto; [apply (in_map fst _ (name, s)), Sub; left; auto|].
          rewrite (@runs_unset m fl v name false); auto; [unfold has_serializer; rewrite Cs; auto|eauto]. }
      match goal with |- Forall _ (?c :: ?l) /\ _ => change (c :: l) with ([c] ++ l) end.
      apply join_fields; auto; try (repeat constructor; simpl; tauto); destruct (custom v e x) as [e'|y|]; try constructor; apply IH; auto.
    - destruct (py_getitem enc name) as [xe|y|]; try (split; constructor).
      destruct (H s (pl ++ [LKey name]) fl e x xe) as [F D].
      apply join_fields; auto; [eapply sub_field; eauto; apply (getattr_at _ _ G)| |]; destruct (w s fl e x xe) as [e'|y|]; try constructor; apply IH; auto.
  Qed.

  Lemma model_well : forall (w : ser -> writer) (t : ser -> wtracer) cls m, (forall s, well (t s)) -> en_model ev cls = Some m ->
    well (wt_model w t cls m).
  Proof.
    intros w t cls m H Em pl fl e v enc. unfold wt_model. destruct (is_none v); [split; constructor|]. destruct (md_root m).
    - destruct (if fl_exclude_unset fl then is_unset v "root" else Ok false) as [[|]|y|]; try (split; constructor).
      destruct (md_fields m) as [|[name s] fs]; [split; constructor|]. destruct (py_getattr v "root") as [x|y|] eqn:G; try (split; constructor).
      destruct (H s (pl ++ [LKey "root"]) (with_skip_empty m fl) e x enc) as [F D]. split; auto.
      eapply Forall_impl; [|exact F]. intros c P. eapply placed_skip, placed_below; eauto. apply (getattr_at _ _ G).
    - destruct (@fields_well w t cls m H Em (md_fields m) pl (with_skip_empty m fl) e v enc) as [F D]; auto; [apply (Dis _ Em)|].
      split; auto. eapply Forall_impl; [|exact F]. intros c [P _]. eapply placed_skip; eauto.
  Qed.

  Lemma proxy_well : forall (w : ser -> writer) (t : ser -> wtracer), (forall s, well (t s)) -> forall p, well (wt_proxy ev w t p).
  Proof.
    intros w t H p pl fl e v enc. unfold wt_proxy. destruct (en_model ev (px_model p)) as [m|] eqn:Em; [|split; constructor].
    destruct (is_none v); [split; constructor|]. apply model_well; auto.
  Qed.

  Lemma path_well : forall b mode ns t fl pl v path e, (forall c, Forall (placed fl pl v) (t c) /\ NoDup (map key (t c))) ->
    Forall (placed fl pl v) (wt_path b mode ns path t e) /\ NoDup (map key (wt_path b mode ns path t e)).
  Proof.
    intros b mode ns t fl pl v path; induction path as [|p rest IH]; intros e K; cbn [wt_path]; auto.
    destruct (find_element_or_create b e p mode ns) as [[|i|] e']; try (split; constructor).
    destruct (nth_error (e_elems e') i); auto. split; constructor.
  Qed.

  Lemma trace_well : forall n s, well (wtrace n ev s).
  Proof.
    induction n as [|n IH]; intros s pl fl e v enc; [split; constructor|].
    destruct s; cbn [wtrace wtrace_step]; try (split; constructor).
    - unfold wt_homo. destruct (is_none v); [split; constructor|]. destruct (py_iter v) as [vs|y|] eqn:V; try (split; constructor).
      destruct (_ && _); [split; constructor|]. destruct (py_iter enc) as [encs|y|]; try (split; constructor).
      destruct (@items_well (write n ev s) _ (IH s) fl pl vs encs 0 e) as [F D]. split; auto. eapply items_placed; eauto.
    - unfold wt_hetero. destruct (is_none v); [split; constructor|]. destruct (py_iter v) as [vs|y|] eqn:V; try (split; constructor).
      destruct (_ && _); [split; constructor|]. destruct (negb _); [split; constructor|]. destruct (py_iter enc) as [encs|y|]; try (split; constructor).
      destruct (@tuple_well (map (fun i => (write n ev i, wtrace n ev i)) inners)) with (fl := fl) (pl := pl) (vs := vs) (encs := encs) (idx := 0) (e := e) as [F D].
      { clear - IH. induction inners; simpl; constructor; auto. exact (IH a). }
      split; auto. eapply items_placed; eauto.
    - apply IH.
    - induction variants as [|p vs IHv]; cbn [wt_union]; [split; constructor|].
      destruct (match model_type v with Some _ => _ | None => _ end); auto. apply proxy_well; auto.
    - unfold wt_tagged. destruct enc; try (split; constructor). destruct (dget _ _) as [tag|]; [|split; constructor].
      destruct tag; try (split; constructor). destruct (py_truthy _); [|split; constructor]. destruct (dget s _); [|split; constructor]. apply proxy_well; auto.
    - unfold wt_wrap. destruct (is_none v); [split; constructor|]. destruct (_ && _); [split; constructor|]. apply path_well. intros c. apply IH.
    - apply proxy_well; auto.
  Qed.

  Lemma wcalls_well : forall n encode v fl, Forall (placed fl [] v) (wcalls n ev encode v fl) /\ NoDup (map key (wcalls n ev encode v fl)).
  Proof.
    intros n encode v fl. unfold wcalls. destruct (model_type v) as [cls|]; [|split; constructor].
    destruct (en_model ev cls) as [m|] eqn:Em; [|split; constructor]. apply model_well; auto. apply trace_well.
  Qed.

  (** ---- the fields of the instance itself ---- *)

  Definition here (pl : list locitem) (c : wcall) : bool := Nat.eqb (length (wc_place c)) (length pl).

  Lemma below_not_here : forall fl pl st y l, Forall (placed fl (pl ++ [st]) y) l -> filter (here pl) l = [].
  Proof.
    intros fl pl st y l F; induction F as [|c l (rest & E & _) _ IH]; simpl; auto.
    unfold here at 1. rewrite E, !app_length. simpl. destruct (Nat.eqb_spec (length pl + 1 + length rest) (length pl)); [lia|]. auto.
  Qed.

  Lemma fields_here : forall (w : ser -> writer) (t : ser -> wtracer) cls m, (forall s, well (t s)) ->
    forall fs pl fl e v enc r, write_fields w m fs fl e v enc = Ok r ->
    map wc_field (filter (here pl) (wt_fields w t cls m fs pl fl e v enc)) =
    map fst (filter (fun nf => runs_serializer m fl v (fst nf)) fs).
  Proof.
    intros w t cls m H fs; induction fs as [|[name s] fs IH]; intros pl fl e v enc r Hw; cbn [wt_fields write_fields filter fst] in *; auto.
    destruct (str_in name (md_sexclude m)) eqn:Ex.
    - rewrite (IH _ _ _ _ _ _ Hw). replace (runs_serializer m fl v name) with false; auto.
      unfold runs_serializer. rewrite Ex. simpl. rewrite andb_false_r. auto.
    - destruct (if fl_exclude_unset fl then is_unset v name else Ok false) as [[|]|y|] eqn:U; cbn [obind] in Hw; try discriminate.
      + rewrite (IH _ _ _ _ _ _ Hw). destruct (runs_serializer m fl v name) eqn:R; auto. exfalso.
        unfold runs_serializer in R. rewrite Ex in R. destruct v; try (rewrite andb_false_r in R; discriminate).
        destruct (fl_exclude_unset fl); [|discriminate]. simpl in U. injection U as U. apply negb_true_iff in U. simpl in R. rewrite U, andb_false_r in R. discriminate.
      + destruct (py_getattr v name) as [x|y|] eqn:G; cbn [obind] in Hw; try discriminate.
        destruct (md_cser m name) as [custom|] eqn:Cs.
        * ok Hw. rewrite E. rewrite (@runs_unset m fl v name false); auto; [|unfold has_serializer; rewrite Cs; auto|eauto]. simpl.
          unfold here at 1. simpl. rewrite Nat.eqb_refl. simpl. f_equal. eapply IH; eauto.
        * replace (runs_serializer m fl v name) with false by (unfold runs_serializer, has_serializer; rewrite Cs; auto).
          ok Hw. ok E. rewrite E0, E, filter_app. rewrite (@below_not_here fl pl (LKey name) x); [simpl; eapply IH; eauto|apply H].
  Qed.
End Where.

(** ---- counting ---- *)

Section Count.
  Variables (ev : env) (k : nat).
  Hypothesis Dis : distinct_fields ev.
  Hypothesis Up : serializers_upto k ev.

  Definition few (t : wtracer) : Prop := forall pl fl e v enc, length (t pl fl e v enc) <= k * instances v.

  Definition all_in (vs : list val) : nat := fold_right (fun x n => instances x + n) 0 vs.

  Lemma items_few : forall w t, few t -> forall fl pl vs encs idx e, length (wt_items w t pl idx fl e vs encs) <= k * all_in vs.
  Proof.
    intros w t H fl pl vs; induction vs as [|v vs IH]; intros encs idx e; cbn [wt_items all_in fold_right]; [simpl; lia|].
    destruct encs as [|enc encs]; [simpl; lia|]. fold (all_in vs). destruct (_ && _).
    - specialize (IH encs (S idx) e). nia.
    - rewrite app_length. specialize (H (pl ++ [LIdx idx]) fl e v enc). destruct (w fl e v enc) as [e'|y|]; [specialize (IH encs (S idx) e')|..]; simpl; nia.
  Qed.

  Lemma tuple_few : forall wts, Forall (fun wt => few (snd wt)) wts -> forall fl pl vs encs idx e, length (wt_tuple wts pl idx fl e vs encs) <= k * all_in vs.
  Proof.
    intros wts H; induction H as [|[w t] wts Hw _ IH]; intros fl pl vs encs idx e; cbn [wt_tuple]; [simpl; lia|].
    destruct vs as [|v vs]; [simpl; lia|]. destruct encs as [|enc encs]; [simpl; lia|]. cbn [all_in fold_right]. fold (all_in vs).
    rewrite app_length. specialize (Hw (pl ++ [LIdx idx]) fl e v enc). cbn [snd] in Hw.
    destruct (w fl e v enc) as [e'|y|]; [specialize (IH fl pl vs encs (S idx) e')|..]; simpl; nia.
  Qed.

  (** the instances in the attributes of the given names *)
  Definition inside_of (v : val) (names : list string) : nat :=
    fold_right (fun name n => match py_getattr v name with Ok x => instances x | _ => 0 end + n) 0 names.

  Definition attrs_in (attrs : list (string * val)) : nat := fold_right (fun (kv : string * val) n => let (_, x) := kv in instances x + n) 0 attrs.

  Lemma inside_attrs : forall cls set attrs names, NoDup names -> inside_of (VModel cls attrs set) names <= attrs_in attrs.
  Proof.
    intros cls set attrs; induction attrs as [|[a x] attrs IH]; intros names N.
    - induction names as [|name names IHn]; simpl; auto. inv N. apply IHn; auto.
    - cbn [attrs_in fold_right]. fold (attrs_in attrs). specialize (IH names N).
      assert (X : forall names, NoDup names ->
        inside_of (VModel cls ((a, x) :: attrs) set) names <= (if str_in a names then instances x else 0) + inside_of (VModel cls attrs set) names).
      { clear. intros names N; induction N as [|name names Hn N IHn]; [simpl; lia|].
        unfold inside_of in *. cbn [fold_right].
        set (A := fold_right _ 0 names) in IHn |- *. set (B := fold_right _ 0 names) in IHn |- *. clearbody A B.
        cbn [str_in existsb]. cbn [py_getattr dget]. rewrite (String.eqb_sym name a).
        destruct (String.eqb_spec a name); cbn [orb].
        - subst. assert (Z : str_in name names = false).
          { destruct (str_in name names) eqn:Ez; auto. apply str_in_In in Ez. contradiction. }
          rewrite Z in IHn. destruct (dget name attrs); lia.
        - fold (str_in a names). destruct (str_in a names), (dget name attrs); lia. }
      specialize (X names N). destruct (str_in a names); lia.
  Qed.

  Lemma fields_few : forall (w : ser -> writer) (t : ser -> wtracer) cls m, (forall s, few (t s)) ->
    forall fs pl fl e v enc, length (wt_fields w t cls m fs pl fl e v enc) <=
      length (filter (fun nf => has_serializer m (fst nf)) fs) + k * inside_of v (map fst fs).
  Proof.
    intros w t cls m H fs; induction fs as [|[name s] fs IH]; intros pl fl e v enc; cbn [wt_fields filter fst map]; [simpl; lia|].
    cbn [inside_of fold_right]. fold (inside_of v (map fst fs)).
    assert (Skip : forall e, length (wt_fields w t cls m fs pl fl e v enc) <=
      length (if has_serializer m name then (name, s) :: filter (fun nf => has_serializer m (fst nf)) fs else filter (fun nf => has_serializer m (fst nf)) fs) + k * inside_of v (map fst fs)).
    { intros e0. specialize (IH pl fl e0 v enc). destruct (has_serializer m name); simpl; lia. }
    assert (Le : k * inside_of v (map fst fs) <= k * (match py_getattr v name with Ok x => instances x | _ => 0 end + inside_of v (map fst fs))) by nia.
    destruct (str_in name (md_sexclude m)); [specialize (Skip e); lia|].
    destruct (if fl_exclude_unset fl then is_unset v name else Ok false) as [[|]|y|]; try (simpl; lia); [specialize (Skip e); lia|].
    destruct (py_getattr v name) as [x|y|] eqn:G; try (simpl; lia).
    destruct (md_cser m name) as [custom|] eqn:Cs.
    - replace (has_serializer m name) with true by (unfold has_serializer; rewrite Cs; auto). simpl.
      destruct (custom v e x) as [e'|y|]; simpl; try lia. specialize (IH pl fl e' v enc). lia.
    - replace (has_serializer m name) with false by (unfold has_serializer; rewrite Cs; auto).
      destruct (py_getitem enc name) as [xe|y|]; try (simpl; lia). rewrite app_length. specialize (H s (pl ++ [LKey name]) fl e x xe).
      destruct (w s fl e x xe) as [e'|y|]; [specialize (IH pl fl e' v enc)|..]; simpl; nia.
  Qed.

  Lemma no_instance_fields : forall (w : ser -> writer) (t : ser -> wtracer) cls m v, model_type v = None ->
    forall fs pl fl e enc, wt_fields w t cls m fs pl fl e v enc = [].
  Proof.
    intros w t cls m v Mt fs; induction fs as [|[name s] fs IH]; intros pl fl e enc; cbn [wt_fields]; auto.
    destruct (str_in name (md_sexclude m)); auto. destruct v; try discriminate; destruct (fl_exclude_unset fl); auto.
  Qed.

  Lemma model_few : forall (w : ser -> writer) (t : ser -> wtracer) cls m, (forall s, few (t s)) -> en_model ev cls = Some m -> few (wt_model w t cls m).
  Proof.
    intros w t cls m H Em pl fl e v enc. unfold wt_model. destruct (is_none v); [simpl; lia|]. destruct (md_root m).
    - destruct (if fl_exclude_unset fl then is_unset v "root" else Ok false) as [[|]|y|]; try (simpl; lia).
      destruct (md_fields m) as [|[name s] fs]; [simpl; lia|]. destruct (py_getattr v "root") as [x|y|] eqn:G; try (simpl; lia).
      specialize (H s (pl ++ [LKey "root"]) (with_skip_empty m fl) e x enc).
      destruct v; try discriminate. pose proof (@inside_attrs cls0 set attrs ["root"] ltac:(repeat constructor; auto)) as I.
      unfold inside_of in I. cbn [fold_right] in I. rewrite G in I. cbn [instances]. fold (attrs_in attrs). nia.
    - pose proof (@fields_few w t cls m H (md_fields m) pl (with_skip_empty m fl) e v enc) as F. pose proof (Up _ Em) as U. cbv beta in F.
      destruct (model_type v) as [c|] eqn:Mt.
      + destruct v; try discriminate. pose proof (@inside_attrs cls0 set attrs (map fst (md_fields m)) (Dis _ Em)) as I.
        cbn [instances]. fold (attrs_in attrs). nia.
      + rewrite no_instance_fields by auto. simpl; lia.
  Qed.

  Lemma proxy_few : forall (w : ser -> writer) (t : ser -> wtracer), (forall s, few (t s)) -> forall p, few (wt_proxy ev w t p).
  Proof.
    intros w t H p pl fl e v enc. unfold wt_proxy. destruct (en_model ev (px_model p)) as [m|] eqn:Em; [|simpl; lia].
    destruct (is_none v); [simpl; lia|]. apply model_few; auto.
  Qed.

  Lemma path_few : forall b mode ns t u path e, (forall c, length (t c) <= u) -> length (wt_path b mode ns path t e) <= u.
  Proof.
    intros b mode ns t u path; induction path as [|p rest IH]; intros e K; cbn [wt_path]; auto.
    destruct (find_element_or_create b e p mode ns) as [[|i|] e']; try (simpl; lia).
    destruct (nth_error (e_elems e') i); auto. simpl; lia.
  Qed.

  Lemma iter_in : forall v vs, py_iter v = Ok vs -> all_in vs = instances v.
  Proof. intros v vs E. destruct v; try discriminate. simpl in E. injection E as ->. auto. Qed.

  Lemma trace_few : forall n s, few (wtrace n ev s).
  Proof.
    induction n as [|n IH]; intros s pl fl e v enc; [simpl; lia|].
    destruct s; cbn [wtrace wtrace_step]; try (simpl; lia).
    - unfold wt_homo. destruct (is_none v); [simpl; lia|]. destruct (py_iter v) as [vs|y|] eqn:V; try (simpl; lia).
      destruct (_ && _); [simpl; lia|]. destruct (py_iter enc) as [encs|y|]; try (simpl; lia).
      rewrite <- (iter_in _ V). apply items_few. exact (IH s).
    - unfold wt_hetero. destruct (is_none v); [simpl; lia|]. destruct (py_iter v) as [vs|y|] eqn:V; try (simpl; lia).
      destruct (_ && _); [simpl; lia|]. destruct (negb _); [simpl; lia|]. destruct (py_iter enc) as [encs|y|]; try (simpl; lia).
      rewrite <- (iter_in _ V). apply tuple_few. clear - IH. induction inners; simpl; constructor; auto. exact (IH a).
    - apply IH.
    - induction variants as [|p vs IHv]; cbn [wt_union]; [simpl; lia|].
      destruct (match model_type v with Some _ => _ | None => _ end); auto. apply proxy_few; auto.
    - unfold wt_tagged. destruct enc; try (simpl; lia). destruct (dget _ _) as [tag|]; [|simpl; lia].
      destruct tag; try (simpl; lia). destruct (py_truthy _); [|simpl; lia]. destruct (dget s _); [|simpl; lia]. apply proxy_few; auto.
    - unfold wt_wrap. destruct (is_none v); [simpl; lia|]. destruct (_ && _); [simpl; lia|]. apply path_few. intros c. apply IH.
    - apply proxy_few; auto.
  Qed.

  Lemma wcalls_few : forall n encode v fl, length (wcalls n ev encode v fl) <= k * instances v.
  Proof.
    intros n encode v fl. unfold wcalls. destruct (model_type v) as [cls|]; [|simpl; lia].
    destruct (en_model ev cls) as [m|] eqn:Em; [|simpl; lia]. apply model_few; auto. apply trace_few.
  Qed.
End Count.
