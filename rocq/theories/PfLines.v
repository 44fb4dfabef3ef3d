(** PfLines.v -- the lines recorded for the items of a list and for wrapped fields (C42) *)

From Verif Require Import Base Elem Native Errs Names Ser Read Api SpecElem SpecRead SpecSim SpecRead2
  SpecLines PfElem PfField PfSim PfRel PfTerm PfRead2 PfRead3 PfMap PfSafe.

(** ---- the entry of a location inside the field [name] is touched by nothing else ---- *)

Section Entry.
  Variable ev : env.
  Variable name : string.
  Variable rest : location.

  Definition away (loc : location) : Prop := forall r, LKey name :: rest <> loc ++ r.
  Definition keeps_at (_ : elem) (sm sm' : smap) : Prop := sget (LKey name :: rest) sm' = sget (LKey name :: rest) sm.

  Lemma away_idx : forall loc i, away loc -> away (loc ++ [LIdx i]).
  Proof. intros loc i A r E. rewrite <- app_assoc in E. eapply A; eauto. Qed.

  Lemma away_key : forall k, k <> name -> away [LKey k].
  Proof. intros k N r [= E _]. congruence. Qed.

  Lemma set_away : forall loc z sm, away loc -> sget (LKey name :: rest) (sset loc z sm) = sget (LKey name :: rest) sm.
  Proof.
    intros loc z sm A. rewrite sget_sset. destruct (loc_eqb (LKey name :: rest) loc) eqn:E; auto.
    apply loc_eqb_eq in E. exfalso. apply (A []). now rewrite app_nil_r.
  Qed.

  Lemma read_keeps_at : forall n s eas loc s0, name_unused ev name s -> away loc ->
    sget (LKey name :: rest) (st_sm (snd (read n ev s eas loc s0))) = sget (LKey name :: rest) (st_sm s0).
  Proof.
    intros n s eas loc s0 Hu Hl.
    apply (@read_rm (fun _ _ => True) keeps_at away) with
      (G := fun cls => forall m, en_model ev cls = Some m -> ~ In name (map fst (md_fields m)));
      unfold keeps_at; auto.
    - intros; congruence.
    - intros e l sm Hl'. now apply set_away.
    - intros l0 i. apply away_idx.
    - intros cls m k HG Hm Hk. apply away_key. intros ->. eapply HG; eauto.
    - intros cls Hc m Hm. eapply Hu; eauto.
  Qed.

  Lemma fields_keep_at : forall n m eas fs s os s', field_outcomes (read n ev) m eas fs s os s' ->
    Forall (fun kf => fst kf <> name /\ name_unused ev name (snd kf)) fs ->
    sget (LKey name :: rest) (st_sm s') = sget (LKey name :: rest) (st_sm s).
  Proof.
    intros n m eas fs s os s' H. induction H as [s|k f fs s o s1 os s' Hr Ho H IH]; intros F; auto.
    inversion F as [|x l [Hk Hu] F']; subst. rewrite IH by auto. simpl in Hk, Hu.
    assert (N : sget (LKey name :: rest) (st_sm (note_line [LKey k] s)) = sget (LKey name :: rest) (st_sm s)).
    { unfold note_line. cbn [st_sm]. apply set_away. now apply away_key. }
    rewrite <- N. destruct (md_cval m k) as [g|].
    - unfold run_custom in Hr. destruct (g _) as [o' e']. injection Hr as <- <-. reflexivity.
    - pose proof (read_keeps_at n eas (note_line [LKey k] s) Hu (loc := [LKey k])) as K. rewrite Hr in K. simpl in K.
      apply K. now apply away_key.
  Qed.

  Lemma plain_keeps_at : forall n cls m eas loc s, en_model ev cls = Some m -> md_root m = false ->
    name_unused ev name (SProxy (Proxy cls "" None Strict false false)) ->
    sget (LKey name :: rest) (st_sm (snd (read_model (read n ev) m eas loc s))) = sget (LKey name :: rest) (st_sm s).
  Proof.
    intros n cls m eas loc s Hm Hroot Hu. unfold read_model. rewrite Hroot. unfold read_plain_model.
    assert (F : rm (fun _ _ => True) keeps_at s (read_fields (read n ev) m (md_fields m) eas [] [] s)).
    { apply (@read_fields_rm (fun _ _ => True) keeps_at away); unfold keeps_at; auto.
      - intros; congruence.
      - intros e l sm Hl'. now apply set_away.
      - intros k f Hin. split.
        + intros eas' loc' s' Hl. split; auto. apply read_keeps_at; auto.
          intros c m' Hc. apply Hu. eapply rc_field; simpl; eauto.
        + apply away_key. intros ->. apply (Hu cls m); auto.
          * apply (rc_model ev (Proxy cls "" None Strict false false)).
          * apply (in_map fst) in Hin; exact Hin. }
    destruct F as [_ F]; unfold keeps_at in F.
    destruct (read_fields _ _ _ _ _ _ _) as [[[result errors]|x|] s']; auto. destruct errors; auto.
  Qed.

  Lemma found_at : forall tag m f s o s', with_found (pop_element (st_el s) tag m) f s = (o, s') ->
    (forall c, sget (LKey name :: rest) (st_sm (snd (f c))) = Some (e_line (st_el c))) ->
    match items_ahead m tag (unread (st_el s)) with
    | c :: cs => sget (LKey name :: rest) (st_sm s') = Some (e_line c) /\ items_ahead m tag (unread (st_el s')) = cs
    | [] => o = Ok VNone /\ st_sm s' = st_sm s
    end.
  Proof.
    intros tag m f s o s' H Hf. pose proof (pop_items m (st_el s) tag) as P.
    pose proof (pop_element_takes m (st_el s) tag) as T.
    destruct (pop_element (st_el s) tag m) as [[|i|] e'] eqn:E; simpl in H.
    - rewrite P. simpl. now injection H as <- <-.
    - apply pop_element_found in E as [Hn Hl]. unfold on_child in H; simpl in H. simpl in P, T.
      destruct (nth_error (e_elems e') i) as [c|] eqn:Hc; [|apply nth_error_None in Hc; lia].
      rewrite P. specialize (Hf (St c (st_sm s))). destruct (f (St c (st_sm s))) as [o1 s1]. injection H as <- <-. split; auto. simpl.
      destruct T as (_ & _ & T & _). destruct (takes_some_last T) as [before Hb].
      destruct (@put_last_passed e' i c (st_el s1) before Hn Hl Hb) as [_ U]. now rewrite U.
    - destruct T as (T & _). congruence.
  Qed.

  Lemma noted_at : forall s, sget (LKey name :: rest) (st_sm (note_line (LKey name :: rest) s)) = Some (e_line (st_el s)).
  Proof.
    intros s. unfold note_line. cbn [st_sm]. rewrite sget_sset.
    destruct (loc_eqb (LKey name :: rest) (LKey name :: rest)) eqn:E; auto.
    assert (X : loc_eqb (LKey name :: rest) (LKey name :: rest) = true) by (now apply loc_eqb_eq). congruence.
  Qed.

  (** a field bound to one element, read at this very location *)
  Lemma bound_at : forall tag m s, bound_to ev tag m s -> not_root ev s -> name_unused ev name s ->
    forall n eas st0 o st1, read n ev s eas (LKey name :: rest) st0 = (o, st1) -> o <> Fuel ->
    match items_ahead m tag (unread (st_el st0)) with
    | c :: cs => sget (LKey name :: rest) (st_sm st1) = Some (e_line c) /\ items_ahead m tag (unread (st_el st1)) = cs
    | [] => o = Ok VNone /\ st_sm st1 = st_sm st0
    end.
  Proof.
    intros tag m s B Hroot Hu n eas st0 o st1 H Ho. destruct n as [|n]; [injection H as <- <-; congruence|].
    set (T := LKey name :: rest) in *.
    assert (Txt : forall nillable c, sget T (st_sm (snd (read_text false nillable eas T (note_line T c)))) = Some (e_line (st_el c))).
    { intros nillable c. rewrite <- (noted_at c). unfold read_text. destruct nillable; [|reflexivity].
      destruct (is_element_nill _) as [b e1]. destruct b; reflexivity. }
    destruct B as [nsm nillable|nsm nillable|a Ha| |cls nsm nillable md Hm]; cbn [read read_step] in H.
    - unfold read_elem in H. eapply found_at; eauto.
    - unfold read_union_prim in H. destruct n as [|n]; [injection H as <- <-; congruence|].
      cbn [read read_step] in H. unfold read_elem in H. eapply found_at; eauto.
    - unfold read_map_elem in H. rewrite Ha in H. eapply found_at; eauto. intros c. rewrite <- (noted_at c).
      unfold read_attrs. rewrite Ha. destruct (pop_attributes _) as [[d|] e]; reflexivity.
    - unfold read_raw in H. eapply found_at; eauto. intros c. rewrite <- (noted_at c). reflexivity.
    - unfold read_proxy in H. simpl in H. rewrite Hm in H. eapply found_at; eauto. intros c. cbv beta zeta.
      pose proof (noted_at c) as N. fold T in N. match goal with |- context [is_element_nill ?x] => destruct (is_element_nill x) as [nil e1] end.
      destruct nil; [exact N|].
      rewrite (@plain_keeps_at n cls md); auto; [].
      intros c' m' Hc. apply Hu. inversion Hc; subst; simpl in *; [apply (rc_model ev (Proxy cls tag nsm m false nillable))|].
        eapply rc_field; simpl; eauto.
  Qed.
End Entry.

(** ---- the items of a list ---- *)

Lemma items_keep : forall ev name n s eas loc, name_unused ev name s -> forall i st os st',
  item_outcomes (read n ev s) eas loc i st os st' ->
  forall rest, (forall k, i <= k -> away name rest (loc ++ [LIdx k])) ->
  sget (LKey name :: rest) (st_sm st') = sget (LKey name :: rest) (st_sm st).
Proof.
  intros ev name n s eas loc U i st os st' H.
  induction H as [i st st' E|i st v st1 os st' E V H IH|i st e st1 os st' E H IH]; intros rest A.
  - pose proof (@read_keeps_at ev name rest n s eas (loc ++ [LIdx i]) st U (A i (le_n _))) as K. now rewrite E in K.
  - pose proof (@read_keeps_at ev name rest n s eas (loc ++ [LIdx i]) st U (A i (le_n _))) as K. rewrite E in K. cbn [snd] in K.
    rewrite <- K. apply IH. intros; apply A; lia.
  - pose proof (@read_keeps_at ev name rest n s eas (loc ++ [LIdx i]) st U (A i (le_n _))) as K. rewrite E in K. cbn [snd] in K.
    rewrite <- K. apply IH. intros; apply A; lia.
Qed.

Lemma away_later : forall name pre i k, i < k -> away name (pre ++ [LIdx i]) ((LKey name :: pre) ++ [LIdx k]).
Proof.
  intros name pre i k L r E. simpl in E. injection E as E. rewrite <- app_assoc in E. apply app_inv_head in E.
  simpl in E. injection E as E. lia.
Qed.

Lemma item_lines : forall ev name n s eas pre tag md, bound_to ev tag md s -> not_root ev s -> name_unused ev name s ->
  forall i st os st', item_outcomes (read n ev s) eas (LKey name :: pre) i st os st' ->
  forall j, j < length os -> exists c, nth_error (items_ahead md tag (unread (st_el st))) j = Some c /\
    sget (LKey name :: pre ++ [LIdx (i + j)]) (st_sm st') = Some (e_line c).
Proof.
  intros ev name n s eas pre tag md B R U i st os st' H.
  assert (Step : forall i st o st1 os st', read n ev s eas ((LKey name :: pre) ++ [LIdx i]) st = (o, st1) ->
    o <> Fuel -> o <> Ok VNone -> item_outcomes (read n ev s) eas (LKey name :: pre) (S i) st1 os st' ->
    (forall j, j < length os -> exists c, nth_error (items_ahead md tag (unread (st_el st1))) j = Some c /\
      sget (LKey name :: pre ++ [LIdx (S i + j)]) (st_sm st') = Some (e_line c)) ->
    forall j, j < S (length os) -> exists c, nth_error (items_ahead md tag (unread (st_el st))) j = Some c /\
      sget (LKey name :: pre ++ [LIdx (i + j)]) (st_sm st') = Some (e_line c)).
  { clear i st os st' H. intros i st o st1 os st' E F V H IH j L.
    pose proof (@bound_at ev name (pre ++ [LIdx i]) tag md s B R U n eas st o st1 E F) as X.
    destruct (items_ahead md tag (unread (st_el st))) as [|c cs]; [destruct X; congruence|].
    destruct X as [X1 X2]. destruct j as [|j].
    - exists c. split; auto. rewrite Nat.add_0_r. rewrite <- X1.
      eapply items_keep; eauto. intros k Hk. apply away_later. lia.
    - destruct (IH j) as (c' & N & G); [lia|]. exists c'. rewrite X2 in N. split; auto.
      replace (i + S j) with (S i + j) by lia. exact G. }
  induction H as [i st st' E|i st v st1 os st' E V H IH|i st e st1 os st' E H IH]; intros j L; simpl in L.
  - lia.
  - eapply Step; eauto; congruence.
  - eapply Step; eauto; congruence.
Qed.

(** ---- one field among the others ---- *)

Lemma field_at : forall ev n m eas pre name s post st0 os st1,
  field_outcomes (read n ev) m eas (pre ++ (name, s) :: post) st0 os st1 -> md_cval m name = None ->
  Forall (fun kf => fst kf <> name /\ name_unused ev name (snd kf)) post ->
  exists os1 mid o s1, field_outcomes (read n ev) m eas pre st0 os1 mid /\
    read n ev s eas [LKey name] (note_line [LKey name] mid) = (o, s1) /\ orderly o /\
    forall rest, sget (LKey name :: rest) (st_sm st1) = sget (LKey name :: rest) (st_sm s1).
Proof.
  intros ev n m eas pre name s post st0 os st1 H C F.
  apply outcomes_app in H as (os1 & mid & os2 & -> & H1 & H2). inversion H2 as [|k f fs s0 o s1 os' s' Hr Ho Hrest]; subst.
  rewrite C in Hr. exists os1, mid, o, s1. split; auto. split; auto. split.
  - destruct Ho as [[v ->]|[e ->]]; exact I.
  - intros rest. eapply fields_keep_at; eauto.
Qed.

Lemma fields_bounds : forall U ev n m eas, (forall name f, md_cval m name = Some f -> good_custom any_tag U f) ->
  wf_env any_tag U ev -> forall fs s os s', field_outcomes (read n ev) m eas fs s os s' ->
  Forall (fun nf => wf_ser ev (snd nf)) fs -> in_bounds (st_el s) -> in_bounds (st_el s').
Proof.
  intros U ev n m eas C W fs s os s' H. induction H as [s|k f fs s o s1 os s' Hr Ho H IH]; intros F B; auto.
  inversion F; subst. apply IH; auto. specialize (C k). destruct (md_cval m k) as [g|].
  - unfold run_custom in Hr. destruct (C g eq_refl (st_el s)) as [X _]; [now apply in_bounds_sound|].
    cbn [st_el note_line] in Hr. destruct (g (st_el s)) as [o' e']. injection Hr as <- <-. cbn. now apply sound_in_bounds.
  - pose proof (@read_in_bounds U ev W n f eas [LKey k] (note_line [LKey k] s)) as X. rewrite Hr in X. apply X; auto.
Qed.

(** ---- wrappers ---- *)

Lemma find_sub_leads : forall (f : st -> rres val) sm m path, path <> [] -> forall e, in_bounds e ->
  match find_sub_element path m e with
  | (None, _) => False
  | (Some idxs, e') =>
      let (r, s') := if negb (Nat.eqb (length idxs) 0) && Nat.eqb (length idxs) (length path)
                     then on_path idxs f (St e' sm) else (Ok VNone, St e' sm) in
      (leads m path e None /\ r = Ok VNone /\ st_sm s' = sm) \/
      (exists d c', leads m path e (Some d) /\ f (St d sm) = (r, St c' (st_sm s')))
  end.
Proof.
  intros f sm m path; induction path as [|tag rest IH]; [congruence|]. intros _ e Hb.
  cbn [find_sub_element]. unfold find_element.
  pose proof (@enter_goes m e tag) as G. pose proof (@search_in_bounds m e tag true true Hb) as B.
  destruct (search m e tag true true) as [r e'].
  destruct G as (G1 & G2 & G3 & G4 & G5); [now apply in_bounds_inv in Hb|].
  destruct r as [|i|]; [| |congruence].
  - simpl. rewrite (G4 eq_refl) in *. left. repeat split. eapply ld_missing. exact G3.
  - destruct (G5 i eq_refl) as [Hn Hi]. simpl in G3.
    destruct (nth_error (e_elems e') i) as [c|] eqn:Hc; [|apply nth_error_None in Hc; lia].
    destruct rest as [|tag2 rest2].
    + simpl. unfold on_child; simpl. rewrite Hc. destruct (f (St c sm)) as [r s'] eqn:F. simpl. right.
      exists c, (st_el s'). split; [eapply ld_inside; eauto; constructor|]. rewrite F. now destruct s'.
    + assert (Bc : in_bounds c).
      { destruct B as (B & _). apply in_bounds_inv in B. destruct B as [_ B]. rewrite Forall_forall in B. apply B. eapply nth_error_In; eauto. }
      specialize (IH ltac:(discriminate) c Bc). set (path' := tag2 :: rest2) in *.
      destruct (find_sub_element path' m c) as [[idxs|] c'] eqn:Ef; [|contradiction].
      assert (C : negb (Nat.eqb (length (i :: idxs)) 0) && Nat.eqb (length (i :: idxs)) (length (tag :: path')) =
                  negb (Nat.eqb (length idxs) 0) && Nat.eqb (length idxs) (length path')).
      { simpl length. destruct (length idxs); simpl; auto. }
      rewrite C. destruct (negb _ && _).
      * cbn [on_path]. unfold on_child at 1. cbn [st_el st_sm]. rewrite put_nth by auto.
        destruct (on_path idxs f (St c' sm)) as [r s'] eqn:F. cbn [st_el st_sm].
        destruct IH as [(L & -> & E)|(d & c2 & L & E)].
        -- left. split; auto. eapply ld_inside; eauto.
        -- right. exists d, c2. split; auto. eapply ld_inside; eauto.
      * destruct IH as [(L & E & E')|(d & c2 & L & E)].
        -- left. split; auto. eapply ld_inside; eauto.
        -- right. exists d, c2. split; auto. eapply ld_inside; eauto.
Qed.

Lemma wrap_leads : forall n ev path ns m s, path <> [] -> forall eas loc st0 r st1, in_bounds (st_el st0) ->
  read (S n) ev (SWrap path ns m false s) eas loc st0 = (r, st1) ->
  (leads m path (st_el st0) None /\ r = Ok VNone /\ st_sm st1 = st_sm st0) \/
  (exists d st2, leads m path (st_el st0) (Some d) /\
     read n ev s eas loc (note_line loc (St d (st_sm st0))) = (r, st2) /\ st_sm st2 = st_sm st1).
Proof.
  intros n ev path ns m s Hp eas loc st0 r st1 Hb H. cbn [read read_step] in H. unfold read_wrap in H.
  pose proof (@find_sub_leads (fun c => read n ev s eas loc (note_line loc c)) (st_sm st0) m path Hp (st_el st0) Hb) as T.
  destruct (find_sub_element path m (st_el st0)) as [[idxs|] e']; [|contradiction].
  replace (set_el e' st0) with (St e' (st_sm st0)) in H by reflexivity.
  match type of T with let (_, _) := ?t in _ => replace t with (r, st1) in T end.
  destruct T as [T|(d & c' & L & E)]; [left; exact T|]. right. exists d, (St c' (st_sm st1)). auto.
Qed.

(** ---- the components of a tuple ---- *)

Lemma components_keep : forall ev name k eas loc l, Forall (name_unused ev name) l -> forall i st os st',
  component_outcomes eas loc i (map (read k ev) l) st os st' ->
  forall rest, (forall j, i <= j -> away name rest (loc ++ [LIdx j])) ->
  sget (LKey name :: rest) (st_sm st') = sget (LKey name :: rest) (st_sm st).
Proof.
  intros ev name k eas loc l; induction l as [|s l IH]; intros U i st os st' H rest A; inversion H as [|? ? ? ? o s1 os' ? Hr Ho H']; subst; auto.
  inversion U as [|? ? U1 U2]; subst.
  pose proof (@read_keeps_at ev name rest k s eas (loc ++ [LIdx i]) st U1 (A i (le_n _))) as K. rewrite Hr in K. cbn [snd] in K.
  rewrite <- K. eapply IH; eauto. intros; apply A; lia.
Qed.

Lemma components_app : forall eas loc rs1 rs2 i s os s', component_outcomes eas loc i (rs1 ++ rs2) s os s' ->
  exists os1 s1 os2, os = os1 ++ os2 /\ component_outcomes eas loc i rs1 s os1 s1 /\
    component_outcomes eas loc (i + length rs1) rs2 s1 os2 s'.
Proof.
  intros eas loc rs1; induction rs1 as [|r rs1 IH]; intros rs2 i s os s' H.
  - exists [], s, os. simpl. rewrite Nat.add_0_r. repeat split; auto. constructor.
  - inversion H as [|? ? ? ? o s1 os' ? Hr Ho H']; subst. destruct (IH _ _ _ _ _ H') as (os1 & s2 & os2 & -> & A & B).
    exists ((LIdx i, o) :: os1), s2, os2. split; [reflexivity|]. split; [econstructor; eauto|].
    replace (i + length (r :: rs1)) with (S i + length rs1) by (simpl; lia). exact B.
Qed.
