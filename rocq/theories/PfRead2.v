(** PfRead2.v -- wrapped fields, collections, tuples, unions: proofs. *)

From Verif Require Import Base Elem Native Errs Names Ser Read Api SpecElem SpecRead SpecSim SpecRead2
  PfElem PfField PfSim PfSim2.

(** ---- wrapped fields ---- *)

Lemma enter_goes : forall m e tag, e_next e <= length (e_elems e) ->
  let (r, e') := search m e tag true true in
  r <> IndexErr /\ same_shell e e' /\
  goes_into tag m (passed e, unread e) (handed r e') (passed e', unread e') /\
  (r = NotFound -> e' = e) /\ (forall i, r = Found i -> e_next e' = S i /\ i < length (e_elems e')).
Proof.
  intros m e tag Hb. unfold search, look_behind.
  assert (F : (forall q c, passed e = q ++ [c] -> ~ called tag c) ->
    let (r, e') := forward m e tag true in
    r <> IndexErr /\ same_shell e e' /\ goes_into tag m (passed e, unread e) (handed r e') (passed e', unread e') /\
    (r = NotFound -> e' = e) /\ (forall i, r = Found i -> e_next e' = S i /\ i < length (e_elems e'))).
  { intros Hl. pose proof (pop_element_takes m e tag) as T. pose proof (@pop_element_found m e tag) as G.
    unfold pop_element, search in T, G. destruct (forward m e tag true) as [r e'].
    destruct T as (T1 & T2 & T3 & T4). split; [auto|split; [auto|split; [|split; auto]]].
    - now apply go_on.
    - intros i ->. now apply G. }
  destruct (e_next e) as [|i] eqn:En.
  - apply F. intros q c H. unfold passed in H. rewrite En in H. simpl in H. destruct q; discriminate.
  - destruct (nth_error (e_elems e) i) as [c|] eqn:Hc; [|apply nth_error_None in Hc; lia].
    assert (P : passed e = firstn i (e_elems e) ++ [c]) by (unfold passed; rewrite En; now apply firstn_succ_nth).
    destruct (tag_is (e_tag c) tag) eqn:Ht.
    + split; [discriminate|]. split; [apply same_shell_refl|]. split; [|split; [discriminate|]].
      * simpl. rewrite Hc, P. apply go_again. now apply tag_is_called.
      * intros j [= ->]. split; auto.
    + apply F. intros q c' H. rewrite P in H. apply app_inj_tail in H as [_ <-]. now apply tag_is_not_called.
Qed.

Lemma goes_some_last : forall tag m pu c p' u',
  goes_into tag m pu (Some c) (p', u') -> exists before, p' = before ++ [c].
Proof. intros tag m pu c p' u' H; inv H; eauto. eapply takes_some_last; eauto. Qed.

Lemma put_put : forall i c c' e, put_child i c (put_child i c' e) = put_child i c e.
Proof.
  intros i c c' e; unfold put_child, set_elems; simpl. f_equal.
  generalize (e_elems e) as l. induction i; intros [|x l]; simpl; auto. now rewrite IHi.
Qed.

Lemma put_nth : forall i c e, i < length (e_elems e) -> nth_error (e_elems (put_child i c e)) i = Some c.
Proof. intros i c e H; unfold put_child; simpl. now apply nth_error_list_upd_same. Qed.

Lemma find_sub_through : forall (f : st -> rres val) sm m path, path <> [] -> forall e, in_bounds e ->
  match find_sub_element path m e with
  | (None, _) => False
  | (Some idxs, e') =>
      let (r, s') := if negb (Nat.eqb (length idxs) 0) && Nat.eqb (length idxs) (length path)
                     then on_path idxs f (St e' sm) else (Ok VNone, St e' sm) in
      through m (fun c r c' => exists sm', f (St c sm) = (r, St c' sm')) path e r (st_el s')
  end.
Proof.
  intros f sm m path; induction path as [|tag rest IH]; [congruence|]. intros _ e Hb.
  cbn [find_sub_element]. unfold find_element.
  pose proof (@enter_goes m e tag) as G. pose proof (@search_in_bounds m e tag true true Hb) as B.
  destruct (search m e tag true true) as [r e'].
  destruct G as (G1 & G2 & G3 & G4 & G5); [now apply in_bounds_inv in Hb|].
  destruct r as [|i|]; [| |congruence].
  - simpl. rewrite (G4 eq_refl) in *. apply th_missing. exact G3.
  - destruct (G5 i eq_refl) as [Hn Hi]. simpl in G3.
    destruct (nth_error (e_elems e') i) as [c|] eqn:Hc; [|apply nth_error_None in Hc; lia].
    destruct (goes_some_last G3) as [before Hp].
    destruct rest as [|tag2 rest2].
    + simpl. unfold on_child; simpl. rewrite Hc. destruct (f (St c sm)) as [r s'] eqn:F. simpl.
      destruct (@put_last_passed e' i c (st_el s') before Hn Hi Hp) as [P1 P2].
      rewrite Hp in G3. eapply th_inside; eauto. apply th_end. exists (st_sm s'). rewrite F. now destruct s'.
    + assert (Bc : in_bounds c).
      { destruct B as (B & _). apply in_bounds_inv in B. destruct B as [_ B]. rewrite Forall_forall in B. apply B. eapply nth_error_In; eauto. }
      specialize (IH ltac:(discriminate) c Bc). set (path' := tag2 :: rest2) in *.
      destruct (find_sub_element path' m c) as [[idxs|] c'] eqn:Ef; [|contradiction].
      assert (C : negb (Nat.eqb (length (i :: idxs)) 0) && Nat.eqb (length (i :: idxs)) (length (tag :: path')) =
                  negb (Nat.eqb (length idxs) 0) && Nat.eqb (length idxs) (length path')).
      { simpl length. destruct (length idxs); simpl; auto. }
      rewrite C. destruct (negb _ && _).
      * cbn [on_path]. unfold on_child at 1. cbn [st_el st_sm]. rewrite put_nth by auto.
        destruct (on_path idxs f (St c' sm)) as [r s'] eqn:F. cbn [st_el st_sm]. rewrite put_put.
        destruct (@put_last_passed e' i c (st_el s') before Hn Hi Hp) as [P1 P2].
        rewrite Hp in G3. eapply th_inside; eauto.
      * simpl. destruct (@put_last_passed e' i c c' before Hn Hi Hp) as [P1 P2].
        rewrite Hp in G3. eapply th_inside; eauto.
Qed.

Lemma through_mono : forall m (I J : elem -> out val -> elem -> Prop), (forall c r c', I c r c' -> J c r c') ->
  forall path e r e', through m I path e r e' -> through m J path e r e'.
Proof.
  intros m I J H path e r e' T. induction T; [apply th_end; auto|now apply th_missing|eapply th_inside; eauto].
Qed.

Lemma wrap_reads_path : forall n ev path ns m s, path <> [] -> forall eas loc st0 r st1, in_bounds (st_el st0) ->
  read (S n) ev (SWrap path ns m false s) eas loc st0 = (r, st1) ->
  through m (fun c r c' => exists sm sm', read n ev s eas loc (St c sm) = (r, St c' sm')) path (st_el st0) r (st_el st1).
Proof.
  intros n ev path ns m s Hp eas loc st0 r st1 Hb H. cbn [read read_step] in H. unfold read_wrap in H.
  pose proof (@find_sub_through (fun c => read n ev s eas loc (note_line loc c)) (st_sm st0) m path Hp (st_el st0) Hb) as T.
  destruct (find_sub_element path m (st_el st0)) as [[idxs|] e']; [|contradiction].
  replace (set_el e' st0) with (St e' (st_sm st0)) in H by reflexivity.
  match type of T with let (_, _) := ?t in _ => replace t with (r, st1) in T end. simpl in T.
  eapply through_mono; [|exact T]. intros c r' c' [sm' X]. unfold note_line in X; simpl in X. eauto.
Qed.

(** ---- collections, tuples, models ---- *)

Lemma into_lines_app : forall title hide l1 l2,
  ve_lines (into_validation_error title (l1 ++ l2) hide) =
  ve_lines (into_validation_error title l1 hide) ++ ve_lines (into_validation_error title l2 hide).
Proof. intros; simpl. apply flat_map_app. Qed.

Lemma into_lines_one : forall title hide k e,
  ve_lines (into_validation_error title [(Some k, e)] hide) = lines_under k e.
Proof. intros; simpl. now rewrite app_nil_r. Qed.

Lemma not_failed_ok : forall v : val, ~ failed (Ok v).
Proof. intros v [e H]; discriminate. Qed.

(** the accumulated errors [errors] come first, then those of the outcomes [os] *)
Definition acc_report (errors : list (option locitem * verr)) (os : list (locitem * out val)) (good : out val)
    (title : string) (hide : bool) (o : out val) : Prop :=
  (errors = [] /\ Forall (fun ko => ~ failed (snd ko)) os /\ o = good) \/
  ((errors <> [] \/ Exists (fun ko => failed (snd ko)) os) /\
   o = Raise (XValidation (VErr title (ve_lines (into_validation_error title errors hide) ++ lines_of os) hide))).

Lemma acc_nil : forall errors good title hide,
  acc_report errors [] good title hide
    (match errors with [] => good | _ => Raise (XValidation (into_validation_error title errors hide)) end).
Proof.
  intros errors good title hide; unfold acc_report. destruct errors as [|e errors].
  - left. repeat split; auto.
  - right. split; [left; discriminate|]. simpl lines_of. now rewrite app_nil_r.
Qed.

Lemma acc_ok : forall errors k v os good title hide o, acc_report errors os good title hide o ->
  acc_report errors ((k, Ok v) :: os) good title hide o.
Proof.
  intros errors k v os good title hide o [(-> & F & ->)|[D ->]].
  - left; repeat split; auto. constructor; auto. apply not_failed_ok.
  - right. split; [destruct D; auto|]. reflexivity.
Qed.

Lemma acc_err : forall errors k e os good title hide o,
  acc_report (errors ++ [(Some k, e)]) os good title hide o ->
  acc_report errors ((k, Raise (XValidation e)) :: os) good title hide o.
Proof.
  intros errors k e os good title hide o [(F & _)|[_ ->]].
  - destruct errors; discriminate.
  - right. split; [right; left; simpl; eexists; eauto|].
    rewrite into_lines_app, into_lines_one, <- app_assoc. reflexivity.
Qed.

Lemma acc_good : forall errors os g g' title hide o, (Forall (fun ko => ~ failed (snd ko)) os -> g = g') ->
  acc_report errors os g title hide o -> acc_report errors os g' title hide o.
Proof. intros errors os g g' title hide o H [(-> & F & ->)|R]; [left; auto|right; auto]. Qed.

Lemma acc_start : forall os g title hide o, acc_report [] os g title hide o -> reports os g title hide o.
Proof.
  intros os g title hide o [(_ & F & ->)|[[D|D] ->]]; [left; auto|congruence|right; auto].
Qed.

Lemma read_items_report : forall r title hide eas loc k idx result errors s o s',
  read_items k r title hide eas loc idx result errors s = (o, s') -> orderly o ->
  exists os, item_outcomes r eas loc idx s os s' /\
    acc_report errors os (Ok (list_value (result ++ values_of os))) title hide o.
Proof.
  intros r title hide eas loc k; induction k as [|k IH]; intros idx result errors s o s' H Ho; cbn [read_items] in H.
  { injection H as <- <-. contradiction. }
  destruct (r eas (loc ++ [LIdx idx]) s) as [[v|x|] s1] eqn:E.
  - destruct (is_none v) eqn:Hv.
    + destruct v; try discriminate Hv. exists []. split; [apply io_end; destruct errors; injection H as <- <-; auto|].
      simpl values_of. rewrite app_nil_r. unfold list_value.
      pose proof (@acc_nil errors (Ok (match result with [] => VNone | _ => VList result end)) title hide) as A.
      destruct errors; injection H as <- <-; exact A.
    + assert (H' : read_items k r title hide eas loc (S idx) (result ++ [v]) errors s1 = (o, s')) by (destruct v; auto; discriminate).
      destruct (IH _ _ _ _ _ _ H' Ho) as (os & I & A). exists ((LIdx idx, Ok v) :: os). split.
      * eapply io_value; eauto. intros ->; discriminate.
      * apply acc_ok. rewrite <- app_assoc in A. exact A.
  - destruct x; try (injection H as <- <-; contradiction).
    destruct (IH _ _ _ _ _ _ H Ho) as (os & I & A). exists ((LIdx idx, Raise (XValidation e)) :: os). split.
    + eapply io_error; eauto.
    + apply acc_err. exact A.
  - injection H as <- <-. contradiction.
Qed.

Lemma homo_report : forall n ev title s hide eas loc st0 o st1,
  read (S n) ev (SHomo title false s hide) eas loc st0 = (o, st1) -> orderly o ->
  exists os, item_outcomes (read n ev s) eas loc 0 st0 os st1 /\ reports os (Ok (list_value (values_of os))) title hide o.
Proof.
  intros n ev title s hide eas loc st0 o st1 H Ho. cbn [read read_step] in H. unfold read_homo in H.
  destruct (read_items_report _ _ _ _ _ _ _ _ _ _ H Ho) as (os & I & A). exists os. split; auto. apply acc_start. exact A.
Qed.

Lemma read_tuple_report : forall title hide eas loc rs idx result errors s o s',
  read_tuple rs title hide eas loc idx result errors s = (o, s') -> orderly o ->
  exists os, component_outcomes eas loc idx rs s os s' /\
    acc_report errors os (Ok (if forallb is_none (result ++ values_of os) then VNone else VList (result ++ values_of os))) title hide o.
Proof.
  intros title hide eas loc rs; induction rs as [|r rs IH]; intros idx result errors s o s' H Ho; cbn [read_tuple] in H.
  - exists []. split; [destruct errors; injection H as <- <-; constructor|]. simpl values_of. rewrite app_nil_r.
    pose proof (@acc_nil errors (Ok (if forallb is_none result then VNone else VList result)) title hide) as A.
    destruct errors; injection H as <- <-; exact A.
  - destruct (r eas (loc ++ [LIdx idx]) s) as [[v|x|] s1] eqn:E.
    + destruct (IH _ _ _ _ _ _ H Ho) as (os & I & A). exists ((LIdx idx, Ok v) :: os). split.
      * eapply co_next; eauto.
      * apply acc_ok. rewrite <- app_assoc in A. exact A.
    + destruct x; try (injection H as <- <-; contradiction).
      destruct (IH _ _ _ _ _ _ H Ho) as (os & I & A). exists ((LIdx idx, Raise (XValidation e)) :: os). split.
      * eapply co_next; eauto. right; eexists; eauto.
      * apply acc_err. exact A.
    + injection H as <- <-. contradiction.
Qed.

Lemma hetero_report : forall n ev title ss hide eas loc st0 o st1,
  read (S n) ev (SHetero title false ss hide) eas loc st0 = (o, st1) -> orderly o ->
  exists os, component_outcomes eas loc 0 (map (read n ev) ss) st0 os st1 /\
    reports os (Ok (if forallb is_none (values_of os) then VNone else VList (values_of os))) title hide o.
Proof.
  intros n ev title ss hide eas loc st0 o st1 H Ho. cbn [read read_step] in H. unfold read_hetero in H.
  destruct (read_tuple_report _ _ _ _ _ _ _ _ _ H Ho) as (os & I & A). exists os. split; auto. apply acc_start. exact A.
Qed.

Lemma dset_fresh : forall A k (v : A) d, ~ In k (dkeys d) -> dset k v d = d ++ [(k, v)].
Proof.
  intros A k v d; induction d as [|[k' v'] d IH]; simpl; intros H; auto.
  destruct (String.eqb_spec k k') as [->|N]; [tauto|]. f_equal. apply IH; auto.
Qed.

Definition as_keys (errors : dict verr) : list (option locitem * verr) :=
  map (fun kv => (Some (LKey (fst kv)), snd kv)) errors.

Lemma read_fields_report : forall r m eas fs result errors s p s',
  read_fields r m fs eas result errors s = (p, s') ->
  NoDup (map fst fs) -> (forall k, In k (dkeys errors) -> ~ In k (map fst fs)) ->
  match p with
  | Ok (result', errors') =>
      exists os, field_outcomes r m eas fs s os s' /\
        result' = dupdate result (given m os) /\
        ((Forall (fun ko => ~ failed (snd ko)) os /\ errors' = errors) \/
         (Exists (fun ko => failed (snd ko)) os /\ errors' <> [])) /\
        flat_map (fun kv => lines_under (LKey (fst kv)) (snd kv)) errors' =
        flat_map (fun kv => lines_under (LKey (fst kv)) (snd kv)) errors ++ lines_of os
  | Raise x => forall e, x <> XValidation e
  | Fuel => True
  end.
Proof.
  intros r m eas fs; induction fs as [|[name f] fs IH]; intros result errors s p s' H Hn Hd; cbn [read_fields] in H.
  - injection H as <- <-. exists []. split; [constructor|]. split; [reflexivity|]. split; [left; auto|]. simpl. now rewrite app_nil_r.
  - inversion Hn as [|? ? Hnew Hn']; subst.
    destruct (match md_cval m name with Some custom => run_custom custom (note_line [LKey name] s)
              | None => r f eas [LKey name] (note_line [LKey name] s) end) as [[v|x|] s2] eqn:E.
    + destruct (is_none v) eqn:Hv.
      * destruct v; try discriminate Hv. apply IH in H; auto; [|intros k Hk; specialize (Hd k Hk); simpl in Hd; tauto].
        destruct p as [[result' errors']|x|]; auto. destruct H as (os & F & R & D & L).
        exists ((LKey name, Ok VNone) :: os). split; [eapply fo_next; eauto|]. split; [exact R|].
        split; [|exact L]. destruct D as [[D ->]|[D D']]; [left; split; auto; constructor; auto; apply not_failed_ok|right; auto].
      * assert (H' : read_fields r m fs eas (dset (match dget name (md_valias m) with Some a => a | None => name end) v result) errors s2 = (p, s'))
          by (destruct v; auto; discriminate).
        apply IH in H'; auto; [|intros k Hk; specialize (Hd k Hk); simpl in Hd; tauto].
        destruct p as [[result' errors']|x|]; auto. destruct H' as (os & F & R & D & L).
        exists ((LKey name, Ok v) :: os). split; [eapply fo_next; eauto|]. split; [|split; [|exact L]].
        -- rewrite R. cbn [given]. destruct v; try reflexivity. discriminate.
        -- destruct D as [[D ->]|[D D']]; [left; split; auto; constructor; auto; apply not_failed_ok|right; auto].
    + destruct x; try (injection H as <- <-; discriminate).
      assert (Nk : ~ In name (dkeys errors)) by (intros Hk; specialize (Hd name Hk); simpl in Hd; tauto).
      apply IH in H; auto.
      * destruct p as [[result' errors']|x|]; auto. destruct H as (os & F & R & D & L).
        exists ((LKey name, Raise (XValidation e)) :: os). split; [eapply fo_next; eauto; right; eexists; eauto|].
        split; [exact R|]. split.
        -- right. split; [left; simpl; eexists; eauto|]. destruct D as [[D ->]|[D D']]; auto. destruct errors; simpl; [discriminate|]. destruct p, (String.eqb name s0); discriminate.
        -- rewrite L, dset_fresh, flat_map_app by auto. simpl. rewrite app_nil_r. now rewrite <- app_assoc.
      * intros k Hk. rewrite dset_fresh in Hk by auto. unfold dkeys in Hk. rewrite map_app in Hk. apply in_app_or in Hk as [Hk|[<-|[]]]; auto.
        specialize (Hd k Hk); simpl in Hd; tauto.
    + injection H as <- <-. exact I.
Qed.

Lemma model_report : forall r m eas loc s o s', md_root m = false -> NoDup (map fst (md_fields m)) ->
  read_model r m eas loc s = (o, s') -> orderly o ->
  exists os, field_outcomes r m eas (md_fields m) s os s' /\
    reports os (validate_result m (Some (VDict (dict_of (given m os)))) s') (md_name m) (md_hide m) o.
Proof.
  intros r m eas loc s o s' Hr Hn H Ho. unfold read_model in H. rewrite Hr in H. unfold read_plain_model in H.
  destruct (read_fields r m (md_fields m) eas [] [] s) as [p s1] eqn:E.
  apply read_fields_report in E; auto.
  destruct p as [[result errors]|x|].
  - destruct E as (os & F & -> & D & L). simpl in L. exists os.
    destruct D as [[D ->]|[D D']].
    + injection H as <- <-. split; auto. left. split; auto.
    + destruct errors as [|e errors]; [congruence|]. injection H as <- <-. split; auto. right. split; auto.
      f_equal. f_equal. unfold into_validation_error. f_equal. rewrite <- L. clear. simpl. f_equal.
      induction errors as [|[k x] l IH]; simpl; auto. now rewrite IH.
  - injection H as <- <-. destruct x; try contradiction. exfalso. eapply E; eauto.
  - injection H as <- <-. contradiction.
Qed.

(** ---- collections of plain values ---- *)

Lemma items_skip : forall m tag skip l, m <> Strict -> Forall (fun x => ~ called tag x) skip ->
  items_ahead m tag (skip ++ l) = items_ahead m tag l.
Proof.
  intros m tag skip l Hm F; induction F as [|x skip Hx F IH]; simpl; auto.
  rewrite (proj2 (tag_is_not_called x tag) Hx). destruct m; auto; congruence.
Qed.

Lemma items_none : forall m tag l, Forall (fun x => ~ called tag x) l -> items_ahead m tag l = [].
Proof.
  intros m tag l F; induction F as [|x l Hx F IH]; simpl; auto.
  rewrite (proj2 (tag_is_not_called x tag) Hx). destruct m; auto.
Qed.

Lemma pop_items : forall m e tag, let (r, e') := pop_element e tag m in
  items_ahead m tag (unread e) = match handed r e' with Some c => c :: items_ahead m tag (unread e') | None => [] end.
Proof.
  intros m e tag. destruct m.
  - pose proof (pop_element_takes Strict e tag) as T. destruct (pop_element e tag Strict) as [r e'].
    destruct T as (_ & _ & T & _). inversion T as [p c rest Hc|p c rest Hc|p| | | |]; subst; simpl.
    + rewrite (proj2 (tag_is_called c tag) Hc). auto.
    + rewrite (proj2 (tag_is_not_called c tag) Hc). auto.
    + auto.
  - pose proof (pop_element_takes Ordered e tag) as T. destruct (pop_element e tag Ordered) as [r e'].
    destruct T as (_ & _ & T & _). inversion T as [| | |p skip c rest Hc Hs|p u Hs| |]; subst.
    + rewrite items_skip by (auto; discriminate). simpl. rewrite (proj2 (tag_is_called c tag) Hc). auto.
    + now apply items_none.
  - unfold pop_element, search, forward, unordered_forward. fold (unread e).
    pose proof (find_from_spec tag (unread e) (e_next e)) as F.
    destruct (find_from (e_next e) (unread e) tag) as [i|].
    + destruct F as (skip & c & rest & Hu & Hi & Hc & Hs).
      destruct skip as [|x skip'].
      * simpl in *. replace i with (e_next e) by lia. rewrite list_swap_same.
        unfold handed. cbn [set_next set_elems e_elems e_next].
        destruct (unread_cons_next e Hu) as [L _]. destruct (skipn_nth (e_elems e) L) as (y & Hy & Hsk).
        fold (unread e) in Hsk. rewrite Hu in Hsk. pose proof (f_equal (@tl elem) Hsk) as Hr. cbn [tl] in Hr.
        assert (y = c) as -> by congruence. rewrite Hy, Hu.
        unfold unread; cbn [set_next set_elems e_elems e_next]. rewrite <- Hr.
        simpl. rewrite (proj2 (tag_is_called c tag) Hc). auto.
      * destruct (unread_cons_next e Hu) as [L Lp].
        assert (El : e_elems e = passed e ++ (x :: skip') ++ c :: rest) by (rewrite <- Hu; apply split_at_cursor).
        assert (Sw : list_swap (e_next e) i (e_elems e) = passed e ++ c :: skip' ++ x :: rest).
        { rewrite El, <- Lp. replace i with (length (passed e) + length (x :: skip')) by (rewrite Lp; simpl in *; lia).
          rewrite list_swap_cursor. reflexivity. }
        unfold handed. cbn [set_next set_elems e_elems e_next]. rewrite Sw, <- Lp.
        rewrite nth_error_app2, Nat.sub_diag by lia. cbn [nth_error].
        unfold unread at 2; cbn [set_next set_elems e_elems e_next].
        rewrite skipn_app, skipn_all2 by lia. replace (S (length (passed e)) - length (passed e)) with 1 by lia.
        cbn [app skipn]. rewrite Hu, items_skip by (auto; discriminate).
        simpl. rewrite (proj2 (tag_is_called c tag) Hc). f_equal.
        inversion Hs; subst. rewrite items_skip by (auto; discriminate). simpl.
        rewrite (proj2 (tag_is_not_called x tag)) by auto. auto.
    + simpl. apply items_none. auto.
Qed.

Lemma read_elem_item : forall tag m eas loc s o s', read_elem tag m false false eas loc s = (o, s') ->
  match items_ahead m tag (unread (st_el s)) with
  | [] => o = Ok VNone
  | c :: cs => o = Ok (text_or_default eas (e_text c)) /\ items_ahead m tag (unread (st_el s')) = cs
  end.
Proof.
  intros tag m eas loc s o s' H. unfold read_elem in H. pose proof (pop_items m (st_el s) tag) as P.
  pose proof (pop_element_takes m (st_el s) tag) as T.
  destruct (pop_element (st_el s) tag m) as [[|i|] e'] eqn:E; simpl in H.
  - rewrite P. simpl. now injection H as <- <-.
  - apply pop_element_found in E as [Hn Hl]. unfold on_child in H; simpl in H. simpl in P, T.
    destruct (nth_error (e_elems e') i) as [c|] eqn:Hc; [|apply nth_error_None in Hc; lia].
    rewrite P. simpl in H. injection H as <- <-. split; auto. simpl.
    destruct T as (_ & _ & T & _). destruct (takes_some_last T) as [before Hb].
    destruct (@put_last_passed e' i c (set_text_o None c) before Hn Hl Hb) as [_ U]. now rewrite U.
  - destruct T as (T & _). congruence.
Qed.

Lemma prim_items : forall tag m eas loc title hide k idx result s o s',
  read_items k (read_elem tag m false false) title hide eas loc idx result [] s = (o, s') -> o <> Fuel ->
  exists ts, texts eas (items_ahead m tag (unread (st_el s))) ts /\ o = Ok (list_value (result ++ map VStr ts)).
Proof.
  intros tag m eas loc title hide k; induction k as [|k IH]; intros idx result s o s' H N; cbn [read_items] in H.
  { injection H as <- <-. congruence. }
  destruct (read_elem tag m false false eas (loc ++ [LIdx idx]) s) as [o1 s1] eqn:E. apply read_elem_item in E.
  destruct (items_ahead m tag (unread (st_el s))) as [|c cs].
  - subst o1. injection H as <- <-. exists []. split; [constructor|]. simpl. now rewrite app_nil_r.
  - destruct E as [-> E]. unfold text_or_default, str_truthy in H.
    assert (G : forall t, read_items k (read_elem tag m false false) title hide eas loc (S idx) (result ++ [VStr t]) [] s1 = (o, s') ->
                exists ts, texts eas cs ts /\ o = Ok (list_value (result ++ map VStr (t :: ts)))).
    { intros t H'. destruct (IH _ _ _ _ _ H' N) as (ts & T & ->). rewrite E in T. exists ts. split; auto. now rewrite <- app_assoc. }
    destruct (e_text c) as [t|] eqn:Et; [destruct (String.eqb_spec t "") as [->|Ht]|]; simpl in H.
    + destruct eas; [destruct (G "" H) as (ts & T & ->); exists ("" :: ts); split; auto; apply tx_blank; auto|].
      injection H as <- <-. exists []. split; [apply tx_stop; auto|]. simpl. now rewrite app_nil_r.
    + destruct (G t H) as (ts & T & ->). exists (t :: ts). split; auto. apply tx_next; auto.
    + destruct eas; [destruct (G "" H) as (ts & T & ->); exists ("" :: ts); split; auto; apply tx_blank; auto|].
      injection H as <- <-. exists []. split; [apply tx_stop; auto|]. simpl. now rewrite app_nil_r.
Qed.

Lemma prim_list : forall n ev title hide tag ns m eas loc st0 o st1,
  read n ev (SHomo title false (SElem tag ns m false false) hide) eas loc st0 = (o, st1) -> o <> Fuel ->
  exists ts, texts eas (items_ahead m tag (unread (st_el st0))) ts /\ o = Ok (list_value (map VStr ts)).
Proof.
  intros n ev title hide tag ns m eas loc st0 o st1 H N.
  destruct n as [|[|n]]; [injection H as <- <-; congruence| |].
  - cbn in H. injection H as <- <-; congruence.
  - cbn [read read_step] in H. unfold read_homo in H. exact (prim_items _ _ _ _ _ _ _ _ _ _ H N).
Qed.
