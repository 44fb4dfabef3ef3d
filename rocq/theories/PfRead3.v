(** PfRead3.v -- unions, discriminated unions, error lines: proofs. *)

From Verif Require Import Base Elem Native Errs Names Ser Read Api SpecElem SpecRead SpecSim SpecRead2
  PfElem PfField PfSim PfSim2 PfRead2.

(** ---- the source map influences nothing but line numbers ---- *)

Lemma read_map_half : forall n ev s eas loc e sm1 sm2,
  fst (read n ev s eas loc (St e sm1)) = Fuel \/
  (orel eq same_verr (fst (read n ev s eas loc (St e sm1))) (fst (read n ev s eas loc (St e sm2))) /\
   st_el (snd (read n ev s eas loc (St e sm1))) = st_el (snd (read n ev s eas loc (St e sm2)))).
Proof.
  intros n ev s eas loc e sm1 sm2.
  assert (X : rsim (@eq elem) (@eq val) same_verr (fun _ _ => True) (read n ev s) (read n ev s)).
  { apply read_sim; auto.
    - intros e1 e2 <-; auto.
    - intros e1 e2 <- i. destruct (nth_error _ _); auto.
    - intros; subst; auto.
    - intros; subst; auto.
    - intros; subst; auto.
    - intros e1 e2 <- a. split; auto. destruct (e_attrib e1); auto.
    - intros; subst; auto.
    - intros; subst; auto.
    - intros; subst; auto.
    - intros e1 e2 <-. split; auto. destruct (to_native _ _); auto.
    - intros e1 e2 <- title hide. apply extra_refl.
    - intros; subst; auto.
    - intros l1 l2 F. f_equal. apply Forall2_eq; auto.
    - intros d1 d2 F. f_equal. apply Forall2_eq_vals; auto.
    - intros a b F; apply F.
    - apply same_verr_into.
    - intros c. destruct (en_model ev c) as [m|]; auto. split; auto.
      + apply drops_refl.
      + intros name. destruct (md_cval m name) as [f|]; auto. intros e1 e2 <-. right. split; auto. apply orel_refl.
      + intros i1 i2 I. assert (i1 = i2) as <- by (destruct i1, i2; simpl in I; try contradiction; subst; auto).
        destruct (md_validate m i1); auto. intros. apply same_verr_lines. }
  destruct (X eas loc (St e sm1) (St e sm2)) as [F|[O [Se _]]]; [split; simpl; auto|auto|auto].
Qed.

Lemma read_map_irrelevant : forall n ev s eas loc e sm1 sm2,
  same_out (fst (read n ev s eas loc (St e sm1))) (fst (read n ev s eas loc (St e sm2))) /\
  (fst (read n ev s eas loc (St e sm1)) <> Fuel ->
   st_el (snd (read n ev s eas loc (St e sm1))) = st_el (snd (read n ev s eas loc (St e sm2)))).
Proof.
  intros n ev s eas loc e sm1 sm2. pose proof (read_map_half n ev s eas loc e sm1 sm2) as A.
  pose proof (read_map_half n ev s eas loc e sm2 sm1) as B. split; [|tauto].
  apply same_out_sym_fuel; tauto.
Qed.

Lemma same_out_none : forall o, same_out (Ok VNone) o -> o = Ok VNone.
Proof. intros [v|x|]; simpl; intros H; subst; auto; contradiction. Qed.

Lemma same_out_ok : forall v o, same_out (Ok v) o -> o = Ok v.
Proof. intros v [w|x|]; simpl; intros H; subst; auto; contradiction. Qed.

(** ---- unions ---- *)

(** what a variant read in the course of the union says about the variant alone *)
Lemma variant_attempt : forall n ev eas loc p e sm o s', read (S n) ev (SProxy p) eas loc (St e sm) = (o, s') ->
  same_out o (fst (variant_alone (S n) ev eas loc p e)) /\
  (o <> Fuel -> st_el s' = snd (variant_alone (S n) ev eas loc p e)).
Proof.
  intros n ev eas loc p e sm o s' H. unfold variant_alone.
  destruct (read_map_irrelevant (S n) ev (SProxy p) eas loc e sm []) as [A B]. rewrite H in A, B.
  destruct (read (S n) ev (SProxy p) eas loc (St e [])) as [o2 s2]. simpl in *. auto.
Qed.

Lemma on_found_line : forall tag m f e sm o s', with_found (pop_element e tag m) f (St e sm) = (o, s') ->
  e_line (st_el s') = e_line e.
Proof.
  intros tag m f e sm o s' H. pose proof (pop_element_takes m e tag) as T.
  destruct (pop_element e tag m) as [[|i|] e']; destruct T as (_ & T & _); simpl in H.
  - injection H as <- <-. apply T.
  - unfold on_child in H; simpl in H. destruct (nth_error _ _).
    + destruct (f _) as [o' s1]. injection H as <- <-. simpl. apply T.
    + injection H as <- <-. apply T.
  - injection H as <- <-. apply T.
Qed.

Lemma proxy_line : forall n ev p eas loc e sm o s', read (S n) ev (SProxy p) eas loc (St e sm) = (o, s') ->
  e_line (st_el s') = e_line e.
Proof.
  intros n ev p eas loc e sm o s' H. cbn [read read_step] in H. unfold read_proxy in H.
  destruct (en_model ev (px_model p)); [|injection H as <- <-; auto].
  destruct (px_computed p); [injection H as <- <-; auto|]. cbn [st_el] in H. eapply on_found_line; eauto.
Qed.

Lemma same_out_failed : forall e o, same_out (Raise (XValidation e)) o -> exists f, o = Raise (XValidation f) /\ same_verr e f.
Proof. intros e [v|[]|]; simpl; intros H; try contradiction; try discriminate; eauto. Qed.

Lemma dset_app : forall A k (v : A) d, ~ In k (dkeys d) -> dset k v d = d ++ [(k, v)].
Proof. exact dset_fresh. Qed.

Definition like_errors (errors : dict verr) (fs : list verr) : Prop :=
  Forall2 (fun kv f => fst kv = ve_title f /\ same_verr (snd kv) f) errors fs.

Lemma like_keys : forall errors fs, like_errors errors fs -> dkeys errors = map ve_title fs.
Proof. intros errors fs H; induction H as [|[k v] f errors fs [E _] H IH]; simpl; auto. simpl in E. now rewrite E, IH. Qed.

Lemma like_lines : forall title hide errors fs, like_errors errors fs ->
  Forall2 same_lerr (ve_lines (into_validation_error title (map (fun kv => (Some (LKey (fst kv)), snd kv)) errors) hide))
    (flat_map (fun f => lines_under (LKey (ve_title f)) f) fs).
Proof.
  intros title hide errors fs H; simpl. induction H as [|[k v] f errors fs [E Sv] H IH]; simpl; [constructor|].
  apply Forall2_app; auto. simpl in E. subst k. destruct Sv as (_ & Sv & _). unfold lines_under. simpl in Sv.
  clear - Sv. induction Sv as [|a b la lb (Sa & Sb & Sc & Sd) Sv IH]; simpl; constructor; auto. repeat split; simpl; auto. now rewrite Sc.
Qed.

Lemma variants_report : forall n ev title hide eas loc vs errors fs s o s',
  read_variants (map (read_proxy ev (read n ev)) vs) title hide eas loc errors s = (o, s') -> o <> Fuel ->
  like_errors errors fs ->
  exists tried rest, vs = tried ++ rest /\ Forall (unfit (S n) ev eas loc (st_el s)) tried /\
  ((exists p rest' v, rest = p :: rest' /\ v <> VNone /\ o = Ok v /\ variant_alone (S n) ev eas loc p (st_el s) = (Ok v, st_el s'))
   \/ (exists p rest' x, rest = p :: rest' /\ (forall e, x <> XValidation e) /\ o = Raise x /\
         fst (variant_alone (S n) ev eas loc p (st_el s)) = Raise x /\ st_el s' = st_el s)
   \/ (rest = [] /\ errors = [] /\ failures (alone_all (S n) ev eas loc (st_el s) vs) = [] /\ o = Ok VNone /\ st_el s' = st_el s)
   \/ (rest = [] /\ (errors <> [] \/ failures (alone_all (S n) ev eas loc (st_el s) vs) <> []) /\
       st_el s' = step_forward (st_el s) /\
       exists err, o = Raise (XValidation err) /\ ve_title err = title /\ ve_hide err = hide /\
         (NoDup (map ve_title (fs ++ failures (alone_all (S n) ev eas loc (st_el s) vs))) ->
          Forall2 same_lerr (ve_lines err)
            (flat_map (fun f => lines_under (LKey (ve_title f)) f) (fs ++ failures (alone_all (S n) ev eas loc (st_el s) vs)))))).
Proof.
  intros n ev title hide eas loc vs; induction vs as [|p vs IH]; intros errors fs s o s' H N L; cbn [map read_variants] in H.
  - exists [], []. split; auto. split; auto. destruct errors as [|e errors]; injection H as <- <-.
    + right; right; left. repeat split; auto.
    + right; right; right. split; auto. split; [left; discriminate|]. split; auto.
      eexists; split; [reflexivity|]. split; [auto|]. split; [auto|]. intros _. simpl failures. rewrite app_nil_r.
      exact (like_lines title hide L).
  - destruct (read_proxy ev (read n ev) p eas loc (set_el (create_snapshot (st_el s)) s)) as [o1 s1] eqn:E.
    rewrite create_snapshot_id in E. unfold set_el in E.
    destruct (@variant_attempt n ev eas loc p (st_el s) (st_sm s) o1 s1 E) as [A B].
    pose proof (@proxy_line n ev p eas loc (st_el s) (st_sm s) o1 s1 E) as Hl.
    destruct o1 as [v|x|].
    + destruct (is_none v) eqn:Hv.
      * destruct v; try discriminate Hv. apply same_out_none in A.
        destruct (IH _ fs _ _ _ H N L) as (tried & rest & -> & F & C). simpl in F, C.
        exists (p :: tried), rest. split; auto. split; [constructor; auto; left; auto|].
        assert (Fl : failures (alone_all (S n) ev eas loc (st_el s) (p :: tried ++ rest)) =
                     failures (alone_all (S n) ev eas loc (st_el s) (tried ++ rest))) by (unfold alone_all; simpl; now rewrite A).
        rewrite Fl. exact C.
      * assert (H' : (Ok v, St (apply_snapshot (st_el s) (st_el s1)) (st_sm s1)) = (o, s')) by (destruct v; auto; discriminate).
        injection H' as <- <-. apply same_out_ok in A. exists [], (p :: vs). split; auto. split; auto. left.
        exists p, vs, v. split; auto. split; [intros ->; discriminate|]. split; auto. simpl.
        rewrite apply_snapshot_id by auto. rewrite B by discriminate.
        destruct (variant_alone (S n) ev eas loc p (st_el s)); simpl in *; subst; auto.
    + match goal with |- ?G => assert (Other : (forall e, x <> XValidation e) -> (Raise x, St (st_el s) (st_sm s1)) = (o, s') -> G) end.
      { intros Nx H'. injection H' as <- <-. exists [], (p :: vs). split; auto. split; auto. right; left.
        exists p, vs, x. split; [reflexivity|]. split; [auto|]. split; [reflexivity|]. split; [|reflexivity].
        destruct (fst (variant_alone (S n) ev eas loc p (st_el s))) as [|y|]; simpl in A; destruct x; try contradiction; try congruence;
          exfalso; eapply Nx; eauto. }
      destruct x; try (apply Other; [discriminate|exact H]). clear Other.
      apply same_out_failed in A. destruct A as (f & A & Sv).
      assert (T : ve_title e = ve_title f) by apply Sv.
      assert (Fl : forall vs', failures (alone_all (S n) ev eas loc (st_el s) (p :: vs')) =
                   f :: failures (alone_all (S n) ev eas loc (st_el s) vs')) by (intros; unfold alone_all; simpl; now rewrite A).
      destruct (in_dec string_dec (ve_title e) (dkeys errors)) as [Dup|Fresh].
      * (* the title occurs twice: nothing is claimed about the lines *)
        assert (G : exists fs', like_errors (dset (ve_title e) e errors) fs').
        { clear - L Sv T Dup. revert fs L. induction errors as [|[k v] errors IHe]; intros fs L; [contradiction|].
          inversion L as [|? g ? fs2 [Eg Sg] L2]; subst. simpl in *. subst k.
          destruct (String.eqb_spec (ve_title e) (ve_title g)) as [E|Ne].
          - exists (f :: fs2). constructor; auto. simpl. split; [congruence|auto].
          - destruct Dup as [Dup|Dup]; [congruence|]. destruct (IHe Dup fs2 L2) as [fs' L']. exists (g :: fs'). constructor; auto. }
        destruct G as [fs' G]. destruct (IH _ fs' _ _ _ H N G) as (tried & rest & -> & F & C). simpl in F, C.
        exists (p :: tried), rest. split; auto. split; [constructor; auto; right; exists f; auto|].
        destruct C as [C|[C|[C|C]]]; auto.
        -- destruct C as (_ & C & _). destruct errors as [|[k v] errors]; simpl in C; [discriminate|]. destruct (String.eqb _ _); discriminate.
        -- right; right; right. destruct C as (C1 & _ & C3 & err & C4 & C5 & C6 & _). split; auto.
           split; [right; rewrite Fl; discriminate|]. split; auto. exists err. repeat split; auto.
           rewrite Fl, map_app. intros ND. exfalso. simpl in ND. apply NoDup_remove_2 in ND. apply ND.
           apply in_or_app. left. rewrite (like_keys L) in Dup. congruence.
      * rewrite dset_app in H by auto.
        destruct (IH _ (fs ++ [f]) _ _ _ H N) as (tried & rest & -> & F & C).
        { apply Forall2_app; auto. }
        simpl in F, C. exists (p :: tried), rest. split; auto. split; [constructor; auto; right; exists f; auto|].
        destruct C as [C|[C|[C|C]]]; auto.
        -- destruct C as (_ & C & _). destruct errors; discriminate.
        -- right; right; right. destruct C as (C1 & _ & C3 & err & C4 & C5 & C6 & C7). split; auto.
           split; [right; rewrite Fl; discriminate|]. split; auto. exists err. repeat split; auto.
           rewrite Fl. replace (fs ++ f :: failures (alone_all (S n) ev eas loc (st_el s) (tried ++ rest)))
             with ((fs ++ [f]) ++ failures (alone_all (S n) ev eas loc (st_el s) (tried ++ rest))) by (rewrite <- app_assoc; auto).
           exact C7.
    + injection H as <- <-. congruence.
Qed.

(** ---- discriminated unions ---- *)

Lemma search_peeks : forall m e tag, let (r, e1) := search m e tag false false in
  r <> IndexErr /\ peeks tag m e (handed r e1) e1 /\ (forall i, r = Found i -> i < length (e_elems e1)).
Proof.
  intros m e tag. pose proof (pop_element_takes m e tag) as T. pose proof (@pop_element_found m e tag) as G.
  unfold pop_element in T, G. destruct m; unfold search, forward in *.
  - unfold strict_forward in *. destruct (nth_error (e_elems e) (e_next e)) as [c|] eqn:Hc.
    + destruct (tag_is (e_tag c) tag) eqn:Ht.
      * destruct T as (_ & _ & T & _). split; [discriminate|]. simpl in *. rewrite Hc in *.
        split; [eapply pk_some; [discriminate|exact T]|]. intros i [= <-]. apply nth_error_Some; congruence.
      * destruct T as (_ & _ & T & _). split; [discriminate|]. split; [eapply pk_none; exact T|discriminate].
    + destruct T as (_ & _ & T & _). split; [discriminate|]. split; [eapply pk_none; exact T|discriminate].
  - unfold ordered_forward in *. destruct (find_from _ _ _) as [i|] eqn:F.
    + destruct (G i _ eq_refl) as [_ Gi]. simpl in Gi. destruct T as (_ & _ & T & _). split; [discriminate|]. simpl in T |- *.
      destruct (nth_error (e_elems e) i) as [c|] eqn:Hc; [|apply nth_error_None in Hc; lia].
      split; [eapply pk_some; [discriminate|exact T]|]. intros j [= <-]. exact Gi.
    + destruct T as (_ & _ & T & _). split; [discriminate|]. split; [eapply pk_none; exact T|discriminate].
  - unfold unordered_forward in *. destruct (find_from _ _ _) as [i|] eqn:F.
    + destruct (G (e_next e) _ eq_refl) as [_ Gi]. cbn [set_next set_elems e_elems] in Gi.
      destruct T as (_ & _ & T & _). split; [discriminate|].
      set (e1 := set_elems (list_swap (e_next e) i (e_elems e)) e) in *.
      change (e_elems (set_next (S (e_next e)) e1)) with (e_elems e1) in Gi.
      assert (El : e_elems e1 = passed (set_next (S (e_next e)) e1) ++ unread (set_next (S (e_next e)) e1))
        by (rewrite <- split_at_cursor; reflexivity).
      unfold handed in *. change (e_elems (set_next (S (e_next e)) e1)) with (e_elems e1) in T.
      destruct (nth_error (e_elems e1) (e_next e)) as [c|] eqn:Hc; [|apply nth_error_None in Hc; exfalso; unfold e1 in Gi, Hc; cbn [set_elems e_elems] in Gi, Hc; lia].
      split; [|intros j [= <-]; exact Gi].
      assert (Lp : length (passed e) = e_next e).
      { apply find_from_range in F. rewrite skipn_length in F. unfold passed. rewrite firstn_length. lia. }
      remember (passed e) as p. remember (unread e) as u. remember (passed (set_next (S (e_next e)) e1)) as p'.
      remember (unread (set_next (S (e_next e)) e1)) as u'.
      inversion T as [| | | | |p0 skip c0 rest0 left0 Hc0 Hs Hp|]; subst p0 left0.
      rewrite <- H2, <- app_assoc in El. cbn [app] in El.
      eapply pk_moved with (rest := u'); [reflexivity|rewrite <- Heqp, <- Hequ; exact T| | | |].
      * unfold same_shell, e1; simpl; auto 10.
      * unfold passed. change (e_next e1) with (e_next e). rewrite El. rewrite firstn_app_len; auto.
      * unfold unread. change (e_next e1) with (e_next e). rewrite El. rewrite skipn_app_len; auto.
      * rewrite <- Hequ, <- H0, H1. rewrite <- Permutation_middle. constructor. exact Hp.
    + destruct T as (_ & _ & T & _). split; [discriminate|]. split; [eapply pk_none; exact T|discriminate].
Qed.

Lemma tagged_dispatches : forall n ev attr m vs eas loc s o s',
  read_tagged (read_proxy ev (read n ev)) attr m vs eas loc s = (o, s') ->
  exists r e1, dispatches attr m vs (st_el s) r e1 /\
    match r with
    | None => o = Ok VNone /\ st_el s' = e1
    | Some (p, _) => exists sm, read (S n) ev (SProxy p) eas loc (St e1 sm) = (o, s')
    end.
Proof.
  intros n ev attr m vs eas loc; induction vs as [|[tag p] vs IH]; intros s o s' H; cbn [read_tagged] in H.
  - injection H as <- <-. exists None, (st_el s). split; [constructor|auto].
  - unfold find_element in H. pose proof (search_peeks m (st_el s) (px_name p)) as P.
    destruct (search m (st_el s) (px_name p) false false) as [[|i|] e1]; destruct P as (P1 & P2 & P3); [| |congruence].
    + apply IH in H. destruct H as (r & e2 & D & C). exists r, e2. split; auto. eapply di_miss; eauto. simpl; discriminate.
    + simpl in P2. destruct (nth_error (e_elems e1) i) as [c|] eqn:Hc; [|apply nth_error_None in Hc; specialize (P3 i eq_refl); lia].
      unfold get_attrib in H. fold (attr_of c attr) in H. destruct (attr_of c attr) as [t|] eqn:Ha.
      * destruct (String.eqb_spec t tag) as [->|Nt].
        -- exists (Some (p, c)), e1. split; [eapply di_hit; eauto|]. eauto.
        -- apply IH in H. destruct H as (r & e2 & D & C). exists r, e2. split; auto. eapply di_miss; eauto.
           intros c' [= <-]. congruence.
      * apply IH in H. destruct H as (r & e2 & D & C). exists r, e2. split; auto. eapply di_miss; eauto.
        intros c' [= <-]. congruence.
Qed.

Lemma tagged_reads : forall n ev disc attr vs m eas loc st0 o st1,
  read (S n) ev (STagged false disc attr vs m) eas loc st0 = (o, st1) ->
  exists r e1, dispatches attr m vs (st_el st0) r e1 /\
    match r with
    | None => o = Ok VNone /\ st_el st1 = e1
    | Some (p, _) => same_out o (fst (variant_alone (S n) ev eas loc p e1)) /\
                     (o <> Fuel -> st_el st1 = snd (variant_alone (S n) ev eas loc p e1))
    end.
Proof.
  intros n ev disc attr vs m eas loc st0 o st1 H. cbn [read read_step] in H. apply tagged_dispatches in H.
  destruct H as (r & e1 & D & C). exists r, e1. split; auto. destruct r as [[p c]|]; auto.
  destruct C as [sm C]. apply variant_attempt in C. exact C.
Qed.

Lemma peeks_keeps : forall tag m e h e1, peeks tag m e h e1 ->
  same_shell e e1 /\ passed e1 = passed e /\ Permutation (unread e1) (unread e) /\ (m <> Unordered -> e1 = e).
Proof.
  intros tag m e h e1 H. destruct H as [after T|c after N T|c after e1 rest E T Sh P U Pm].
  - split; [apply same_shell_refl|auto].
  - split; [apply same_shell_refl|auto].
  - split; auto. split; auto. rewrite U. split; auto. congruence.
Qed.

Lemma dispatches_keeps : forall attr m vs e r e1, dispatches attr m vs e r e1 ->
  same_shell e e1 /\ passed e1 = passed e /\ Permutation (unread e1) (unread e) /\ (m <> Unordered -> e1 = e).
Proof.
  intros attr m vs e r e1 H. induction H as [e|tag p vs e c e1 P A|tag p vs e h e1 r e2 P A D IH].
  - split; [apply same_shell_refl|auto].
  - eapply peeks_keeps; eauto.
  - apply peeks_keeps in P. destruct P as (P1 & P2 & P3 & P4), IH as (I1 & I2 & I3 & I4). split.
    + unfold same_shell in *. intuition congruence.
    + split; [congruence|]. split; [eapply perm_trans; eauto|]. intros N. rewrite I4; auto.
Qed.

(** what is peeked at is what a subsequent take hands out *)
Lemma peeks_then_takes : forall tag m e c e1, peeks tag m e (Some c) e1 ->
  exists after, takes tag m (passed e1, unread e1) (Some c) after.
Proof.
  intros tag m e c e1 H. inversion H as [|c0 after N T|c0 after e0 rest E T Sh P U Pm]; subst.
  - eauto.
  - rewrite U. exists (passed e1 ++ [c], rest). apply (@takes_unordered tag (passed e1) [] c rest rest); auto.
    eapply takes_some_called; eauto.
Qed.

Lemma dispatches_hit : forall attr m vs e p c e1, dispatches attr m vs e (Some (p, c)) e1 ->
  exists tag after, In (tag, p) vs /\ attr_of c attr = Some tag /\ takes (px_name p) m (passed e1, unread e1) (Some c) after.
Proof.
  intros attr m vs e p c e1 H. remember (Some (p, c)) as r. revert p c Heqr.
  induction H as [e|tag p vs e c e1 P A|tag p vs e h e1 r e2 P A D IH]; intros q d E; try discriminate.
  - injection E as <- <-. destruct (peeks_then_takes P) as [after T]. exists tag, after. simpl; auto.
  - subst r. destruct (IH _ _ eq_refl) as (t & after & I & B & T). exists t, after. simpl; auto.
Qed.

Lemma takes_functional : forall tag m pu h1 a1 h2 a2, takes tag m pu h1 a1 -> takes tag m pu h2 a2 -> h1 = h2.
Proof.
  assert (Two : forall tag (s1 s2 : list elem) c1 c2 r1 r2, s1 ++ c1 :: r1 = s2 ++ c2 :: r2 ->
    called tag c1 -> called tag c2 -> Forall (fun x => ~ called tag x) s1 -> Forall (fun x => ~ called tag x) s2 -> c1 = c2).
  { intros tag s1; induction s1 as [|x s1 IH]; intros [|y s2] c1 c2 r1 r2 E H1 H2 F1 F2; simpl in E; injection E as E1 E2; auto.
    - subst y. inversion F2; contradiction.
    - subst x. inversion F1; contradiction.
    - inversion F1; inversion F2; subst. eapply IH; eauto. }
  assert (One : forall tag (s : list elem) c r, Forall (fun x => ~ called tag x) (s ++ c :: r) -> called tag c -> False).
  { intros tag s c r F H. apply Forall_app in F. destruct F as [_ F]. inversion F; contradiction. }
  intros tag m pu h1 a1 h2 a2 H1 H2. destruct H1; inversion H2; subst; auto; try contradiction; try (exfalso; eapply One; eauto; fail).
  - f_equal. eapply Two; [symmetry|..]; eauto.
  - f_equal. eapply Two; [symmetry|..]; eauto.
Qed.

(** variants that share the element name: the discriminator of the next such element decides *)
Lemma dispatches_shared : forall attr m t vs e r e1, dispatches attr m vs e r e1 ->
  Forall (fun kv => px_name (snd kv) = t) vs ->
  forall c after, takes t m (passed e, unread e) (Some c) after ->
  r = match attr_of c attr with
      | Some tag => match dget tag vs with Some p => Some (p, c) | None => None end
      | None => None
      end.
Proof.
  intros attr m t vs e r e1 H. induction H as [e|tag p vs e c e1 P A|tag p vs e h e1 r e2 P A D IH]; intros F d after T.
  - simpl. destruct (attr_of d attr); auto.
  - inversion F as [|? ? Hp F']; subst. simpl in *.
    assert (Some c = Some d) as [= ->].
    { inversion P; subst; eapply takes_functional; eauto. }
    rewrite A. simpl. now rewrite String.eqb_refl.
  - inversion F as [|? ? Hp F']; subst. simpl in *.
    assert (h = Some d) as ->.
    { inversion P; subst; eapply takes_functional; eauto. }
    destruct (peeks_then_takes P) as [after' T']. rewrite (IH F' _ _ T').
    specialize (A _ eq_refl). destruct (attr_of d attr) as [t|]; auto. simpl.
    destruct (String.eqb_spec t tag); [congruence|auto].
Qed.

(** ---- error lines ---- *)

Lemma locitem_eqb_eq : forall a b, locitem_eqb a b = true <-> a = b.
Proof.
  intros [s|i] [t|j]; simpl; split; intros H; try discriminate.
  - apply String.eqb_eq in H. now subst.
  - injection H as ->. apply String.eqb_refl.
  - apply Nat.eqb_eq in H. now subst.
  - injection H as ->. apply Nat.eqb_refl.
Qed.

Lemma loc_eqb_eq : forall a b, loc_eqb a b = true <-> a = b.
Proof.
  intros a; induction a as [|x a IH]; intros [|y b]; simpl; split; intros H; try discriminate; auto.
  - apply andb_true_iff in H as [H1 H2]. apply locitem_eqb_eq in H1. apply IH in H2. now subst.
  - injection H as -> ->. apply andb_true_iff. split; [now apply locitem_eqb_eq|now apply IH].
Qed.

Lemma sget_recorded : forall loc sm z, sget loc sm = Some z <-> recorded sm loc z.
Proof.
  intros loc sm z; induction sm as [|[l y] sm IH]; simpl.
  - split; [discriminate|]. intros (o & nw & H & _). destruct nw; discriminate.
  - destruct (loc_eqb loc l) eqn:E.
    + apply loc_eqb_eq in E; subst l. split.
      * intros [= ->]. exists sm, []. auto.
      * intros (o & nw & H & N). destruct nw as [|[l' y'] nw]; simpl in H; injection H as H1 H2; [congruence|].
        exfalso. apply N. simpl. left. congruence.
    + assert (Ne : loc <> l) by (intros ->; rewrite (proj2 (loc_eqb_eq l l) eq_refl) in E; discriminate).
      rewrite IH. split.
      * intros (o & nw & -> & N). exists o, ((l, y) :: nw). split; auto. simpl. intros [H|H]; congruence || contradiction.
      * intros (o & nw & H & N). destruct nw as [|[l' y'] nw]; simpl in H; injection H as H1 H2; [congruence|].
        exists o, nw. split; auto. simpl in N. tauto.
Qed.

Lemma sget_none : forall loc sm, sget loc sm = None -> forall z, ~ recorded sm loc z.
Proof. intros loc sm H z R. apply sget_recorded in R. congruence. Qed.

Lemma nearest_reported : forall sm rloc,
  let z := nearest_line sm rloc (-1) in
  (exists pre post, rev rloc = pre ++ post /\ pre <> [] /\ useful sm pre z /\
     forall more rest z', post = more ++ rest -> more <> [] -> ~ useful sm (pre ++ more) z') \/
  ((forall pre post z', rev rloc = pre ++ post -> pre <> [] -> ~ useful sm pre z') /\ z = (-1)%Z).
Proof.
  intros sm rloc. induction rloc as [|x rloc IH]; cbn [nearest_line].
  - right. split; auto. intros pre post z' H N. symmetry in H. apply app_eq_nil in H as [-> _]. congruence.
  - set (loc := rev (x :: rloc)) in *.
    assert (Skip : (forall z', ~ useful sm loc z') ->
      let z := nearest_line sm rloc (-1) in
      (exists pre post, loc = pre ++ post /\ pre <> [] /\ useful sm pre z /\
         forall more rest z', post = more ++ rest -> more <> [] -> ~ useful sm (pre ++ more) z') \/
      ((forall pre post z', loc = pre ++ post -> pre <> [] -> ~ useful sm pre z') /\ z = (-1)%Z)).
    { intros Hu z. unfold loc in *. simpl in *. destruct IH as [(pre & post & E & Np & U & M)|[M Ez]].
      - left. exists pre, (post ++ [x]). rewrite E, <- app_assoc. split; auto. split; auto. split; auto.
        intros more rest z' Em Nm. destruct (rev rest) as [|y rrest] eqn:Er.
        + assert (rest = []) as -> by (apply (f_equal (@rev locitem)) in Er; rewrite rev_involutive in Er; auto).
          rewrite app_nil_r in Em. subst more. rewrite app_assoc, <- E. apply Hu.
        + assert (rest = rev rrest ++ [y]) as -> by (apply (f_equal (@rev locitem)) in Er; rewrite rev_involutive in Er; auto).
          rewrite app_assoc in Em. apply app_inj_tail in Em as [Em _]. eapply M; eauto.
      - right. split; auto. intros pre post z' E Np. destruct (rev post) as [|y rpost] eqn:Er.
        + assert (post = []) as -> by (apply (f_equal (@rev locitem)) in Er; rewrite rev_involutive in Er; auto).
          rewrite app_nil_r in E. subst pre. apply Hu.
        + assert (post = rev rpost ++ [y]) as -> by (apply (f_equal (@rev locitem)) in Er; rewrite rev_involutive in Er; auto).
          rewrite app_assoc in E. apply app_inj_tail in E as [E _]. eapply M; eauto. }
    destruct (sget loc sm) as [z|] eqn:G.
    + destruct (Z.eqb_spec z (-1)) as [->|Nz].
      * apply Skip. intros z' [R Nz]. apply sget_recorded in R. congruence.
      * left. exists loc, []. rewrite app_nil_r. split; auto. split; [unfold loc; simpl; destruct (rev rloc); discriminate|].
        split; [split; auto; now apply sget_recorded|]. intros more rest z' E N. symmetry in E. apply app_eq_nil in E as [-> _]. congruence.
    + cbn. apply Skip. intros z' [R _]. eapply sget_none; eauto.
Qed.

Lemma lines_reported : forall err sm hide, let err' := set_validation_error_sourceline err sm hide in
  ve_title err' = ve_title err /\ ve_hide err' = hide /\
  Forall2 (fun l l' => le_type l' = le_type l /\ le_loc l' = le_loc l /\ le_input l' = le_input l /\
             exists z, le_msg l' = MLine z (le_msg l) /\ reported sm (le_loc l) z) (ve_lines err) (ve_lines err').
Proof.
  intros err sm hide; simpl. split; auto. split; auto. induction (ve_lines err) as [|l ls IH]; simpl; constructor; auto.
  simpl. repeat split; auto. eexists; split; [reflexivity|]. unfold reported.
  pose proof (nearest_reported sm (rev (le_loc l))) as N. rewrite rev_involutive in N. exact N.
Qed.

Lemma reported_unique : forall sm loc z1 z2, reported sm loc z1 -> reported sm loc z2 -> z1 = z2.
Proof.
  assert (Uf : forall sm loc z1 z2, useful sm loc z1 -> useful sm loc z2 -> z1 = z2).
  { intros sm loc z1 z2 [R1 _] [R2 _]. apply sget_recorded in R1, R2. congruence. }
  assert (Cmp : forall (a b c d : location), a ++ b = c ++ d -> (exists m, c = a ++ m /\ b = m ++ d) \/ (exists m, a = c ++ m /\ d = m ++ b)).
  { intros a; induction a as [|x a IH]; intros b c d E.
    - left. exists c. auto.
    - destruct c as [|y c]; simpl in E.
      + right. exists (x :: a). auto.
      + injection E as -> E. destruct (IH _ _ _ E) as [(m & -> & ->)|(m & -> & ->)]; [left|right]; exists m; auto. }
  intros sm loc z1 z2 [(p1 & q1 & E1 & N1 & U1 & M1)|[M1 ->]] [(p2 & q2 & E2 & N2 & U2 & M2)|[M2 ->]]; auto.
  - rewrite E1 in E2. destruct (Cmp _ _ _ _ E2) as [(m & -> & ->)|(m & -> & ->)].
    + destruct m; [rewrite app_nil_r in U2; eauto|]. exfalso. eapply M1; eauto. discriminate.
    + destruct m; [rewrite app_nil_r in U1; eauto|]. exfalso. eapply M2; eauto. discriminate.
  - exfalso. eapply M2; eauto.
  - exfalso. eapply M1; eauto.
Qed.
