(** PfErrors.v -- proofs for C81: a ValidationError passes on what the calls of user code have complained about. *)

From Verif Require Import Base Elem Native Errs Names Ser Read Api Calls SpecCalls SpecWCalls SpecErrors PfRead2.

Local Ltac inv H := inversion H; subst; clear H.

Section Told.
  Variable ev : env.
  Notation pairs := (all_complaints ev).

  Lemma pairs_app : forall a b, pairs (a ++ b) = pairs a ++ pairs b.
  Proof. intros; apply flat_map_app. Qed.

  Lemma tells_app : forall to ps ls ps' ls', tells ev to ps ls -> tells ev to ps' ls' -> tells ev to (ps ++ ps') (ls ++ ls').
  Proof. intros to ps ls ps' ls' H H'; induction H; simpl; auto; [apply tells_complaint|apply tells_extra]; auto. Qed.

  Definition prefixed (k : option locitem) (l : lerr) : lerr := LErr (le_type l) (le_msg l) (prefix_loc k (le_loc l)) (le_input l).

  Lemma tells_prefix : forall (to to' : location -> string -> Prop) k, (forall pl c, to pl c -> to' (prefix_loc k pl) c) ->
    forall ps ls, tells ev to ps ls -> tells ev to' ps (map (prefixed k) ls).
  Proof.
    intros to to' k K ps ls H.
    assert (A : forall a b, prefix_loc k (a ++ b) = prefix_loc k a ++ b) by (intros; destruct k; auto).
    induction H as [|[c l0] l cls ls P _ IH|l cls ls X _ IH]; simpl; [constructor|apply tells_complaint|apply tells_extra]; auto.
    - destruct P as (T & I & P). split; [exact T|split; [exact I|]].
      destruct c; [destruct P as (place & line & L & E & M); exists (prefix_loc k place), line|destruct P as (place & L & E & M); exists (prefix_loc k place)];
        (split; [auto|split; [|exact M]]); cbn [prefixed le_loc]; rewrite E; auto.
    - destruct X as (place & cls0 & m & line & ins & L & Em & Ef & T & E & M). exists (prefix_loc k place), cls0, m, line, ins.
      repeat split; auto. cbn [prefixed le_loc]. rewrite E; auto.
  Qed.

  Lemma tells_weaken : forall (to to' : location -> string -> Prop), (forall pl c, to pl c -> to' pl c) ->
    forall ps ls, tells ev to ps ls -> tells ev to' ps ls.
  Proof.
    intros to to' K ps ls H. apply (tells_prefix to' None K) in H. replace (map (prefixed None) ls) with ls in H; auto.
    clear. induction ls as [|[] ls IH]; simpl; f_equal; auto.
  Qed.

  (** what an outcome says about the calls made on the way *)
  Definition told {A} (to : location -> string -> Prop) (u : Prop) (tr : list call) (o : out A) : Prop :=
    match o with
    | Ok _ => u -> Forall (accepted ev) tr
    | Raise (XValidation err) =>
        (exists ps, incl ps (pairs tr) /\ tells ev to ps (ve_lines err)) /\ (u -> tells ev to (pairs tr) (ve_lines err))
    | _ => True
    end.
  Definition reader_told (to : location -> string -> Prop) (u : Prop) (r : reader) (t : tracer) : Prop :=
    forall eas loc s, told to u (t eas loc s) (fst (r eas loc s)).

  Lemma told_nil : forall A to u (o : out A), (forall err, o <> Raise (XValidation err)) -> told to u [] o.
  Proof. intros A to u [a|[]|] H; simpl; auto. destruct (H e); auto. Qed.

  Lemma told_weaken : forall A (to to' : location -> string -> Prop) (u u' : Prop) tr (o : out A), (forall pl c, to pl c -> to' pl c) -> (u' -> u) ->
    told to u tr o -> told to' u' tr o.
  Proof.
    intros A to to' u u' tr [a|[]|] K Ku H; simpl in *; auto.
    destruct H as [(ps & I & T) Q]. split; [exists ps; split; auto|intros X]; eapply tells_weaken; eauto.
  Qed.

  (** ---- accumulated errors ---- *)
  Definition lines_at (kv : option locitem * verr) : list lerr := map (prefixed (fst kv)) (ve_lines (snd kv)).

  Lemma into_lines : forall title es hide, ve_lines (into_validation_error title es hide) = flat_map lines_at es.
  Proof. reflexivity. Qed.

  Record gathered (to : location -> string -> Prop) (u : Prop) (tr : list call) (es : list (option locitem * verr)) : Prop := Gathered {
    ga_some : Forall (fun e => exists ps, incl ps (pairs tr) /\ tells ev to ps (lines_at e)) es;
    ga_all : u -> tells ev to (pairs tr) (flat_map lines_at es);
    ga_none : u -> es = [] -> Forall (accepted ev) tr }.

  Lemma gathered_start : forall to u, gathered to u [] [].
  Proof. intros to u; split; auto. constructor. Qed.

  Lemma accepted_no_pairs : forall tr, Forall (accepted ev) tr -> pairs tr = [].
  Proof.
    intros tr F; induction F as [|c tr (a & v & An & E) _ IH]; auto. unfold all_complaints in *. cbn [flat_map]. rewrite IH, app_nil_r.
    destruct c as [cls i|cls f e]; simpl in *.
    - destruct An as (m & -> & ->). destruct E as [E|(e & E)]; [injection E as ->; auto|discriminate].
    - destruct An as (m & g & -> & -> & ->). destruct E as [E|(e' & E)]; [discriminate|]. injection E as -> _. auto.
  Qed.

  Lemma more_calls : forall to u tr tr' es, gathered to u tr es -> (u -> Forall (accepted ev) tr') -> gathered to u (tr ++ tr') es.
  Proof.
    intros to u tr tr' es [S A N] H. split.
    - eapply Forall_impl; [|exact S]. intros e (ps & I & T). exists ps; split; auto. rewrite pairs_app. apply incl_appl; auto.
    - intros U. rewrite pairs_app, (accepted_no_pairs (H U)), app_nil_r. auto.
    - intros U E. apply Forall_app; auto.
  Qed.

  (** new errors, already under the key they are kept under *)
  Definition told_at (to : location -> string -> Prop) (u : Prop) (tr : list call) (k : option locitem) (err : verr) : Prop :=
    (exists ps, incl ps (pairs tr) /\ tells ev to ps (lines_at (k, err))) /\ (u -> tells ev to (pairs tr) (lines_at (k, err))).

  Lemma told_told_at : forall A (to to0 : location -> string -> Prop) u tr k err, (forall pl c, to0 pl c -> to (prefix_loc k pl) c) ->
    told (A := A) to0 u tr (Raise (XValidation err)) -> told_at to u tr k err.
  Proof.
    intros A to to0 u tr k err K [(ps & I & T) Q]. split; [exists ps; split; auto|intros U]; eapply tells_prefix; eauto.
  Qed.

  Lemma still_some : forall to tr tr' es, Forall (fun e => exists ps, incl ps (pairs tr) /\ tells ev to ps (lines_at e)) es ->
    Forall (fun e => exists ps, incl ps (pairs (tr ++ tr')) /\ tells ev to ps (lines_at e)) es.
  Proof.
    intros to tr tr' es S. eapply Forall_impl; [|exact S]. intros e (ps & I & T). exists ps; split; auto. rewrite pairs_app. apply incl_appl; auto.
  Qed.

  Lemma more_errors : forall (to : location -> string -> Prop) u tr tr' es k err, gathered to u tr es ->
    told_at to u tr' k err -> gathered to u (tr ++ tr') (es ++ [(k, err)]).
  Proof.
    intros to u tr tr' es k err [S A N] [(ps & I & T) Q]. split.
    - apply Forall_app; split; [apply still_some; auto|].
      constructor; [|constructor]. exists ps; split; [rewrite pairs_app; apply incl_appr; auto|]. auto.
    - intros U. rewrite pairs_app, flat_map_app. apply tells_app; auto. simpl. rewrite app_nil_r. auto.
    - intros _ E. destruct es; discriminate.
  Qed.

  Definition keyed (es : dict verr) : list (option locitem * verr) := map (fun kv => (Some (LKey (fst kv)), snd kv)) es.

  (** errors under a key that may be there already: the old ones are lost *)
  Lemma more_keyed : forall (to : location -> string -> Prop) u tr tr' (es : dict verr) k err, told_at to u tr' (Some (LKey k)) err ->
    Forall (fun e => exists ps, incl ps (pairs tr) /\ tells ev to ps (lines_at e)) (keyed es) ->
    Forall (fun e => exists ps, incl ps (pairs (tr ++ tr')) /\ tells ev to ps (lines_at e)) (keyed (dset k err es)).
  Proof.
    intros to u tr tr' es k err [(ps & I & T) _] F.
    assert (X : exists ps, incl ps (pairs (tr ++ tr')) /\ tells ev to ps (lines_at (Some (LKey k), err))).
    { exists ps; split; auto. rewrite pairs_app; apply incl_appr; auto. }
    apply still_some with (tr' := tr') in F. unfold keyed in *.
    induction es as [|[k' e'] es IH]; simpl in *; [constructor; auto|]. inv F.
    destruct (String.eqb_spec k k'); simpl; constructor; subst; auto.
  Qed.

  Lemma gathered_keyed : forall (to : location -> string -> Prop) (u : Prop) tr tr' (es : dict verr) k err, gathered to u tr (keyed es) ->
    (u -> ~ In k (dkeys es)) -> told_at to u tr' (Some (LKey k)) err -> gathered to u (tr ++ tr') (keyed (dset k err es)).
  Proof.
    intros to u tr tr' es k err G Fr T.
    assert (X : u -> gathered to u (tr ++ tr') (keyed (dset k err es))).
    { intros U. rewrite (dset_fresh _ _ _ (Fr U)). unfold keyed. rewrite map_app. simpl. apply more_errors; auto. }
    split.
    - eapply more_keyed; eauto. apply (ga_some G).
    - intros U. apply (ga_all (X U) U).
    - intros U. apply (ga_none (X U) U).
  Qed.

  Lemma gathered_error : forall A to u tr es title hide, gathered to u tr es -> told (A := A) to u tr (Raise (XValidation (into_validation_error title es hide))).
  Proof.
    intros A to u tr es title hide [S Al _]. split; [|intros U; rewrite into_lines; auto]. rewrite into_lines.
    clear Al. induction S as [|e es (ps & I & T) _ IH]; simpl; [exists []; split; [intros ? []|constructor]|].
    destruct IH as (ps' & I' & T'). exists (ps ++ ps'); split; [apply incl_app; auto|apply tells_app; auto].
  Qed.

  (** ---- the readers ---- *)
  Lemma on_child_told : forall A to u i (f : st -> rres A) t s, (forall c, told to u (t c) (fst (f c))) ->
    told to u (t_on_child i t s) (fst (on_child i f s)).
  Proof.
    intros A to u i f t s H; unfold t_on_child, on_child. destruct (nth_error _ i) as [c|]; [|apply told_nil; discriminate].
    specialize (H (St c (st_sm s))). destruct (f (St c (st_sm s))); auto.
  Qed.

  Lemma with_found_told : forall to u p (f : st -> rres val) t s, (forall c, told to u (t c) (fst (f c))) ->
    told to u (t_with_found p t s) (fst (with_found p f s)).
  Proof.
    intros to u [f0 e] f t s H. unfold t_with_found, with_found. destruct f0; try (apply on_child_told; auto; fail); apply told_nil; discriminate.
  Qed.

  Lemma on_path_told : forall A to u path (f : st -> rres A) t s, (forall c, told to u (t c) (fst (f c))) ->
    told to u (t_on_path path t s) (fst (on_path path f s)).
  Proof.
    intros A to u path f t; induction path as [|i path IH]; intros s H; cbn [t_on_path on_path]; auto. apply on_child_told; auto.
  Qed.

  Lemma items_told : forall (to to0 : location -> string -> Prop) u r t, reader_told to0 u r t -> (forall i pl c, to0 pl c -> to (LIdx i :: pl) c) ->
    forall k title hide eas loc idx result errors s tr, gathered to u tr errors ->
    told to u (tr ++ t_items k r t eas loc idx s) (fst (read_items k r title hide eas loc idx result errors s)).
  Proof.
    intros to to0 u r t Hr K k; induction k as [|k IH]; intros title hide eas loc idx result errors s tr G; [exact I|].
    cbn [t_items read_items]. specialize (Hr eas (loc ++ [LIdx idx]) s). destruct (r eas (loc ++ [LIdx idx]) s) as [[v|x|] s']; cbn [fst] in Hr.
    - destruct v; try (rewrite app_assoc; apply IH, more_calls; [exact G|exact Hr]; fail).
      rewrite app_nil_r. destruct errors as [|e es]; cbn [fst].
      + intros U. apply Forall_app; split; [apply (ga_none G U); auto|apply Hr; auto].
      + apply gathered_error, more_calls; [exact G|exact Hr].
    - destruct x; try exact I. rewrite app_assoc. apply IH. eapply more_errors; eauto. eapply told_told_at; [|exact Hr]. intros; simpl; apply K; auto.
    - exact I.
  Qed.

  Lemma tuple_told : forall (to : location -> string -> Prop) u (ss : list ser) (rt : ser -> reader * tracer) (F : ser -> location -> string -> Prop),
    forall rest idx, (forall i s, nth_error rest i = Some s -> reader_told (F s) u (fst (rt s)) (snd (rt s)) /\
                        forall pl c, F s pl c -> to (LIdx (idx + i) :: pl) c) ->
    forall title hide eas loc result errors s tr, gathered to u tr errors ->
    told to u (tr ++ t_tuple (map rt rest) eas loc idx s) (fst (read_tuple (map fst (map rt rest)) title hide eas loc idx result errors s)).
  Proof.
    intros to u _ rt F rest; induction rest as [|s0 rest IH]; intros idx H title hide eas loc result errors s tr G; cbn [map t_tuple read_tuple].
    - rewrite app_nil_r. destruct errors as [|e es]; cbn [fst]; [intros U; apply (ga_none G U); auto|apply gathered_error; auto].
    - destruct (H 0 s0 eq_refl) as [Hr K]. rewrite Nat.add_0_r in K.
      assert (H' : forall i s, nth_error rest i = Some s -> reader_told (F s) u (fst (rt s)) (snd (rt s)) /\ forall pl c, F s pl c -> to (LIdx (S idx + i) :: pl) c).
      { intros i s1 N. destruct (H (S i) s1 N) as [A B]. rewrite Nat.add_succ_r in B. auto. }
      destruct (rt s0) as [r t]. cbn [fst snd] in *. specialize (Hr eas (loc ++ [LIdx idx]) s).
      destruct (r eas (loc ++ [LIdx idx]) s) as [[v|x|] s']; cbn [fst] in Hr.
      + rewrite app_assoc. apply IH; auto. apply more_calls; [exact G|exact Hr].
      + destruct x; try exact I. rewrite app_assoc. apply IH; auto. eapply more_errors; eauto. eapply told_told_at; [|exact Hr]. intros; simpl; apply K; auto.
      + exact I.
  Qed.

  (** unions: only that nothing is made up *)
  Lemma variants_told : forall (to : location -> string -> Prop) rts,
    Forall (fun rt : reader * tracer => exists to0 u, reader_told to0 u (fst rt) (snd rt) /\
              forall eas loc s err s', fst rt eas loc s = (Raise (XValidation err), s') ->
                forall pl c, to0 pl c -> to (LKey (ve_title err) :: pl) c) rts ->
    forall title hide eas loc errors s tr,
    Forall (fun e => exists ps, incl ps (pairs tr) /\ tells ev to ps (lines_at e)) (keyed errors) ->
    told to False (tr ++ t_variants rts eas loc s) (fst (read_variants (map fst rts) title hide eas loc errors s)).
  Proof.
    intros to rts H; induction H as [|[r t] rts (to0 & u & Hr & K) _ IH]; intros title hide eas loc errors s tr G; cbn [map t_variants read_variants fst].
    - rewrite app_nil_r. destruct errors as [|e es]; cbn [fst]; [intros []|]. apply gathered_error. split; [auto|intros []|intros []].
    - cbn [fst snd] in *. specialize (Hr eas loc (set_el (create_snapshot (st_el s)) s)). specialize (K eas loc (set_el (create_snapshot (st_el s)) s)).
      destruct (r eas loc (set_el (create_snapshot (st_el s)) s)) as [[v|x|] s']; cbn [fst] in Hr.
      + destruct v; try (intros []). rewrite app_assoc. apply IH. apply still_some; auto.
      + destruct x; try exact I. rewrite app_assoc. apply IH. eapply more_keyed; eauto. eapply told_told_at; [|exact Hr]. eapply K; eauto.
      + exact I.
  Qed.

  Lemma tagged_told : forall to u (rp : proxy -> reader) (tp : proxy -> tracer) a mode vs,
    (forall tag p, In (tag, p) vs -> reader_told to u (rp p) (tp p)) -> forall eas loc s,
    told to u (t_tagged tp a mode vs eas loc s) (fst (read_tagged rp a mode vs eas loc s)).
  Proof.
    intros to u rp tp a mode vs; induction vs as [|[tag p] vs IH]; intros H eas loc s; cbn [t_tagged read_tagged]; [apply told_nil; discriminate|].
    assert (H' : forall tag p, In (tag, p) vs -> reader_told to u (rp p) (tp p)) by (intros; eapply H; right; eauto).
    destruct (find_element _ _ _ _ _) as [[|i|] e']; try (apply told_nil; discriminate); try (apply IH; auto).
    destruct (nth_error (e_elems e') i) as [c|]; [|apply told_nil; discriminate].
    destruct (match get_attrib a c with Some t => _ | None => _ end); [apply (H tag p); left; auto|apply IH; auto].
  Qed.

  (** ---- models ---- *)
  Lemma validate_told : forall cls m i s u, en_model ev cls = Some m -> told (class_leads ev cls) u (t_validate cls m i s) (validate_result m i s).
  Proof.
    intros cls m i s u Em. unfold t_validate, validate_result.
    destruct (if md_forbid m then _ else _) as [err|] eqn:Ef.
    - destruct (md_forbid m) eqn:Eb; [|discriminate]. unfold check_extra in Ef. destruct (get_unbound [] (st_el s)) as [|x xs]; [discriminate|].
      injection Ef as <-.
      assert (T : tells ev (class_leads ev cls) [] (map extra_error (x :: xs))).
      { generalize (x :: xs) as l. clear x xs. intros l. induction l as [|x l IH]; simpl; [constructor|]. apply tells_extra; auto.
        exists [], cls, m, (u_line x), (unbound_loc x). repeat split; auto. constructor. }
      split; [exists []; split; [intros ? []|]|intros _]; exact T.
    - destruct (md_validate m i) as [v|err|what] eqn:Ev; simpl; auto.
      + intros _. constructor; [|constructor]. exists (AVerdict (Valid v)), v. split; auto. simpl. exists m. rewrite Ev. auto.
      + assert (T : tells ev (class_leads ev cls) (pairs [CValidate cls i])
                      (map (fun l => LErr (le_type l) (MLine (nearest_line (st_sm s) (rev (le_loc l)) (-1)) (le_msg l)) (le_loc l) (le_input l)) (ve_lines err))).
        { unfold all_complaints. cbn [flat_map complaints]. rewrite Em, Ev, app_nil_r. induction (ve_lines err) as [|l ls IH]; simpl; [constructor|].
          apply tells_complaint; auto. simpl. split; [reflexivity|split; [reflexivity|]]. exists [], (nearest_line (st_sm s) (rev (le_loc l)) (-1)).
          split; [constructor|auto]. }
        split; [exists (pairs [CValidate cls i]); split; [apply incl_refl|]|intros _]; exact T.
  Qed.

  Lemma fields_told : forall (r : ser -> reader) (t : ser -> tracer) cls m (u : Prop), en_model ev cls = Some m -> md_root m = false ->
    forall fs, (forall name s, In (name, s) fs -> In (name, s) (md_fields m) /\ reader_told (leads ev s) u (r s) (t s)) ->
    (u -> NoDup (map fst fs)) -> forall eas result errors s tr, (u -> forall name, In name (dkeys errors) -> ~ In name (map fst fs)) ->
    gathered (class_leads ev cls) u tr (keyed errors) ->
    match read_fields r m fs eas result errors s with
    | (Ok (_, es), _) => gathered (class_leads ev cls) u (tr ++ t_fields r t cls m fs eas s) (keyed es)
    | (Raise (XValidation _), _) => False
    | _ => True
    end.
  Proof.
    intros r t cls m u Em Hr fs; induction fs as [|[name fser] fs IH]; intros H Nd eas result errors s tr Fr G; cbn [read_fields t_fields].
    - rewrite app_nil_r. auto.
    - destruct (H name fser (or_introl eq_refl)) as [Hin Hf]. cbn zeta.
      assert (H' : forall name s, In (name, s) fs -> In (name, s) (md_fields m) /\ reader_told (leads ev s) u (r s) (t s)) by (intros; apply H; right; auto).
      assert (Nd' : u -> NoDup (map fst fs)) by (intros U; specialize (Nd U); inv Nd; auto).
      assert (Fr' : u -> forall n0, In n0 (dkeys errors) -> ~ In n0 (map fst fs)) by (intros U n0 I0 I1; apply (Fr U n0 I0); right; auto).
      assert (T : match match md_cval m name with Some custom => run_custom custom (note_line [LKey name] s) | None => r fser eas [LKey name] (note_line [LKey name] s) end with
                  | (Ok _, _) => u -> Forall (accepted ev) (t_field t cls m name fser eas (note_line [LKey name] s))
                  | (Raise (XValidation err), _) => told_at (class_leads ev cls) u (t_field t cls m name fser eas (note_line [LKey name] s)) (Some (LKey name)) err
                  | _ => True
                  end).
      { unfold t_field. destruct (md_cval m name) as [f|] eqn:Ec.
        - unfold run_custom. cbn [note_line st_el]. destruct (f (st_el s)) as [[v|x|] e'] eqn:Ef; auto.
          + intros _. constructor; [|constructor]. exists (AField (Ok v) e'), v. split; eauto. simpl. exists m, f. rewrite Ef. auto.
          + destruct x; auto.
            assert (T : tells ev (class_leads ev cls) (pairs [CField cls name (st_el s)]) (lines_at (Some (LKey name), e))).
            { unfold all_complaints. cbn [flat_map complaints]. rewrite Em, Ec, Ef, app_nil_r. cbn [fst]. unfold lines_at. cbn [fst snd].
              induction (ve_lines e) as [|l ls IHl]; simpl; [constructor|]. apply tells_complaint; auto. simpl.
              split; [reflexivity|split; [reflexivity|]]. exists []. split; [constructor|auto]. }
            split; [exists (pairs [CField cls name (st_el s)]); split; [apply incl_refl|]|intros _]; exact T.
        - specialize (Hf eas [LKey name] (note_line [LKey name] s)). destruct (r fser eas [LKey name] (note_line [LKey name] s)) as [[v|x|] s2]; auto.
          destruct x; auto. eapply told_told_at; [|exact Hf]. intros pl c L. eapply cl_field; eauto. }
      destruct (match md_cval m name with Some custom => _ | None => _ end) as [[v|x|] s2]; auto.
      + destruct v; rewrite app_assoc; apply IH; auto; apply more_calls; auto.
      + destruct x; auto. rewrite app_assoc. apply IH; auto.
        * intros U n0 I0 I1. specialize (Nd U). inv Nd. rewrite dkeys_dset in I0.
          assert (I2 : In n0 (dkeys errors) \/ n0 = name) by (destruct (dmem name errors); auto; apply in_app_iff in I0 as [I0|[I0|[]]]; auto).
          destruct I2 as [I2| ->]; [apply (Fr' U n0); auto|contradiction].
        * apply gathered_keyed; auto. intros U I0. apply (Fr U name I0). left; auto.
  Qed.

  Definition U : Prop := distinct_fields ev /\ no_unions ev.

  Lemma model_told : forall (r : ser -> reader) (t : ser -> tracer) cls m, en_model ev cls = Some m ->
    (forall s, reader_told (leads ev s) (U /\ unions_upto 0 s) (r s) (t s)) -> reader_told (class_leads ev cls) U (read_model r m) (t_model r t cls m).
  Proof.
    intros r t cls m Em H eas loc s. unfold read_model, t_model. destruct (md_root m) eqn:Hr.
    - unfold read_root_model, t_root_model. destruct (md_fields m) as [|[name rs] rest] eqn:Ef; [apply told_nil; discriminate|].
      specialize (H rs eas loc s). apply (@told_weaken _ _ (class_leads ev cls) _ U) in H.
      + destruct (r rs eas loc s) as [[v|x|] s']; cbn [fst] in *; auto.
        2:{ destruct x; auto. rewrite app_nil_r. cbn [fst]. apply gathered_error. apply (@more_errors _ _ [] _ [] None e (gathered_start _ _)).
            eapply told_told_at; [|exact H]. auto. }
        pose proof (@validate_told cls m (if is_none v then None else Some v) s' U Em) as V.
        destruct (validate_result m _ s') as [w|x|]; auto; [intros X; apply Forall_app; split; auto|].
        destruct x; auto. destruct V as [(ps & I & T) Q]. split.
        * exists ps. split; auto. rewrite pairs_app. apply incl_appr; auto.
        * intros X. rewrite pairs_app, (accepted_no_pairs (H X)). apply Q; auto.
      + intros pl c L. eapply cl_root; eauto.
      + intros X. split; auto. destruct X as [_ X]. specialize (X _ _ Em). rewrite Ef in X. inv X. auto.
    - unfold read_plain_model, t_plain_model.
      pose proof (@fields_told r t cls m U Em Hr (md_fields m)) as F.
      assert (F1 : forall name s, In (name, s) (md_fields m) -> In (name, s) (md_fields m) /\ reader_told (leads ev s) U (r s) (t s)).
      { intros name s0 I. split; auto. intros eas0 loc0 s1. eapply told_weaken; [| |apply H]; auto. intros X. split; auto.
        destruct X as [_ X]. specialize (X _ _ Em). rewrite Forall_forall in X. apply (X _ I). }
      specialize (F F1 (fun X : U => proj1 X cls m Em) eas [] [] s [] (fun _ _ (x : False) => match x with end) (gathered_start _ _)).
      cbn [app] in F.
      destruct (read_fields r m (md_fields m) eas [] [] s) as [[[res errs]|x|] s']; cbn [fst]; auto; [|destruct x; auto; contradiction].
      destruct errs as [|e errs].
      + cbn [fst]. pose proof (@validate_told cls m (Some (VDict res)) s' U Em) as V.
        destruct (validate_result m _ s') as [w|x|]; auto; [intros X; apply Forall_app; split; auto; apply (ga_none F X); auto|].
        destruct x; auto. destruct V as [(ps & I & T) Q]. split.
        * exists ps. split; auto. rewrite pairs_app. apply incl_appr; auto.
        * intros X. rewrite pairs_app, (accepted_no_pairs (ga_none F X eq_refl)). apply Q; auto.
      + rewrite app_nil_r. cbn [fst]. apply gathered_error. exact F.
  Qed.

  Lemma proxy_told : forall (r : ser -> reader) (t : ser -> tracer), (forall s, reader_told (leads ev s) (U /\ unions_upto 0 s) (r s) (t s)) ->
    forall p, reader_told (class_leads ev (px_model p)) U (read_proxy ev r p) (t_proxy ev r t p).
  Proof.
    intros r t H p eas loc s. unfold read_proxy, t_proxy. destruct (en_model ev (px_model p)) as [m|] eqn:Em; [|apply told_nil; discriminate].
    destruct (px_computed p); [apply told_nil; discriminate|]. apply with_found_told. intros c. cbn zeta.
    destruct (is_element_nill _) as [nil e1]. destruct nil; [apply told_nil; discriminate|]. apply model_told; auto.
  Qed.

  Lemma model_title : forall r m eas loc s err s', read_model r m eas loc s = (Raise (XValidation err), s') -> titled m (ve_title err).
  Proof.
    intros r m eas loc s err s' H.
    assert (V : forall i s0, validate_result m i s0 = Raise (XValidation err) -> titled m (ve_title err)).
    { intros i s0 V. unfold validate_result in V. destruct (if md_forbid m then _ else _) as [e|] eqn:Ef.
      - injection V as ->. destruct (md_forbid m); [|discriminate]. unfold check_extra in Ef. destruct (get_unbound _ _); [discriminate|]. injection Ef as <-. left; auto.
      - destruct (md_validate m i) as [v|e|w] eqn:Ev; try discriminate. injection V as <-. right. exists i, e. auto. }
    unfold read_model in H. destruct (md_root m).
    - unfold read_root_model in H. destruct (md_fields m) as [|[name rs] rest]; [discriminate|].
      destruct (r rs eas loc s) as [[v|x|] s1]; try discriminate; [injection H as H _; eauto|]. destruct x; try discriminate. injection H as <- _. left; auto.
    - unfold read_plain_model in H. destruct (read_fields r m (md_fields m) eas [] [] s) as [[[res errs]|x|] s1] eqn:E; try discriminate.
      + destruct errs; injection H as H _; [eauto|]. subst err. left; auto.
      + injection H as -> _. exfalso. revert E. clear. generalize (@nil (string * val)) (@nil (string * verr)). revert s.
        induction (md_fields m) as [|[name fser] fs IH]; intros s res errs E; cbn [read_fields] in E; [discriminate|].
        destruct (match md_cval m name with Some custom => _ | None => _ end) as [[v|x|] s2]; try discriminate; [destruct v; eauto|]. destruct x; try discriminate; eauto.
  Qed.

  Lemma proxy_title : forall r p m eas loc s err s', en_model ev (px_model p) = Some m ->
    read_proxy ev r p eas loc s = (Raise (XValidation err), s') -> titled m (ve_title err).
  Proof.
    intros r p m eas loc s err s' Em H. unfold read_proxy in H. rewrite Em in H. destruct (px_computed p); [discriminate|].
    unfold with_found in H. destruct (pop_element _ _ _) as [f0 e']. destruct f0; try discriminate.
    unfold on_child in H. destruct (nth_error _ _) as [c|]; [|discriminate]. cbn zeta in H.
    destruct (is_element_nill _) as [nil e1]. destruct nil; [discriminate|].
    destruct (read_model r m eas loc _) as [o s1] eqn:E. injection H as -> _. eapply model_title; eauto.
  Qed.

  Lemma read_told : forall n s, reader_told (leads ev s) (U /\ unions_upto 0 s) (read n ev s) (trace n ev s).
  Proof.
    induction n as [|n IH]; intros s eas loc st0; [exact I|].
    destruct s; cbn [read read_step trace trace_step].
    - unfold read_text. destruct computed; [apply told_nil; discriminate|]. destruct (if nillable then _ else _) as [nil e1].
      destruct nil; [apply told_nil; discriminate|]. destruct (pop_text e1). apply told_nil; discriminate.
    - unfold read_attr. destruct computed; [apply told_nil; discriminate|]. destruct (pop_attrib _ _). apply told_nil; discriminate.
    - unfold read_elem. destruct computed; [apply told_nil; discriminate|].
      replace (@nil call) with (t_with_found (pop_element (st_el st0) name mode) (fun _ => []) st0).
      2:{ unfold t_with_found, t_on_child. destruct (pop_element _ _ _) as [[] ?]; auto. destruct (nth_error _ _); auto. }
      apply with_found_told. intros c. unfold read_text. destruct (if nillable then _ else _) as [nil e1].
      destruct nil; [apply told_nil; discriminate|]. destruct (pop_text e1). apply told_nil; discriminate.
    - unfold read_attrs. destruct (as_computed a); [apply told_nil; discriminate|]. destruct (pop_attributes _) as [[d|] e]; apply told_nil; discriminate.
    - unfold read_map_elem. destruct (as_computed a) eqn:Ea; [apply told_nil; discriminate|].
      replace (@nil call) with (t_with_found (pop_element (st_el st0) name mode) (fun _ => []) st0).
      2:{ unfold t_with_found, t_on_child. destruct (pop_element _ _ _) as [[] ?]; auto. destruct (nth_error _ _); auto. }
      apply with_found_told. intros c. unfold read_attrs. rewrite Ea. destruct (pop_attributes _) as [[d|] e]; apply told_nil; discriminate.
    - unfold read_homo. destruct computed; [apply told_nil; discriminate|].
      apply (@items_told (leads ev (SHomo title false s hide)) (leads ev s) (U /\ unions_upto 0 (SHomo title false s hide)) (read n ev s) (trace n ev s)) with (tr := []).
      + intros eas0 loc0 s0. eapply told_weaken; [| |apply IH]; auto. intros [X Y]. inv Y. auto.
      + intros. constructor; auto.
      + apply gathered_start.
    - unfold read_hetero. destruct computed; [apply told_nil; discriminate|].
      replace (map (read n ev) inners) with (map fst (map (fun i => (read n ev i, trace n ev i)) inners)) by (rewrite map_map; auto).
      apply (@tuple_told (leads ev (SHetero title false inners hide)) (U /\ unions_upto 0 (SHetero title false inners hide)) inners
               (fun i => (read n ev i, trace n ev i)) (leads ev) inners 0) with (tr := []); [|apply gathered_start].
      intros i s N. split; [|intros; econstructor; eauto].
      intros eas0 loc0 s0. cbn [fst snd]. eapply told_weaken; [| |apply IH]; auto. intros [X Y]. split; auto. inv Y.
      rewrite Forall_forall in *. eapply H0, nth_error_In; eauto.
    - unfold read_union_prim. destruct computed; [apply told_nil; discriminate|]. eapply told_weaken; [| |apply IH].
      + intros; constructor; auto.
      + intros [X Y]. inv Y. auto.
    - unfold read_union_model. destruct computed; [apply told_nil; discriminate|].
      replace (map (read_proxy ev (read n ev)) variants) with (map fst (map (fun p => (read_proxy ev (read n ev) p, t_proxy ev (read n ev) (trace n ev) p)) variants)) by (rewrite map_map; auto).
      destruct variants as [|p0 ps]; [apply told_nil; discriminate|].
      eapply (@told_weaken _ _ _ False); [intros pl c L; exact L|intros [_ Y]; inv Y; simpl in *; lia|].
      apply variants_told with (tr := []); [|constructor]. apply Forall_forall. intros rt I. apply in_map_iff in I as (p & <- & I).
      exists (fun pl c => class_leads ev (px_model p) pl c /\ exists m, en_model ev (px_model p) = Some m), U. split.
      + intros eas0 loc0 s0. cbn [fst snd]. pose proof (@proxy_told (read n ev) (trace n ev) IH p eas0 loc0 s0) as T.
        destruct (en_model ev (px_model p)) as [m|] eqn:Em.
        * eapply told_weaken; [| |exact T]; eauto.
        * unfold read_proxy, t_proxy. rewrite Em. exact Logic.I.
      + intros eas0 loc0 s0 err s' H pl c (L & m & Em). eapply l_variant; eauto. eapply proxy_title; eauto.
    - destruct computed; [apply told_nil; discriminate|]. apply tagged_told. intros tag p I.
      intros eas0 loc0 s0. eapply told_weaken; [| |apply (@proxy_told _ _ IH)]; [|tauto]. intros pl c L. eapply l_tagged; eauto.
    - unfold read_wrap, t_wrap. destruct computed; [apply told_nil; discriminate|].
      destruct (find_sub_element path mode (st_el st0)) as [[idxs|] e']; [|apply told_nil; discriminate].
      destruct (_ && _); [|apply told_nil; discriminate]. apply on_path_told. intros c.
      eapply told_weaken; [| |apply IH]; [intros; constructor; auto|intros [X Y]; inv Y; auto].
    - unfold read_raw. destruct computed; [apply told_nil; discriminate|].
      replace (@nil call) with (t_with_found (pop_element (st_el st0) name mode) (fun _ => []) st0).
      2:{ unfold t_with_found, t_on_child. destruct (pop_element _ _ _) as [[] ?]; auto. destruct (nth_error _ _); auto. }
      apply with_found_told. intros c. destruct (extract (st_el c)) as [fresh c']. destruct (to_native _ fresh); apply told_nil; discriminate.
    - eapply told_weaken; [| |apply (@proxy_told _ _ IH)]; [|tauto]. intros; constructor; auto.
  Qed.

  Lemma from_xml_told : forall n cls root eas, told (class_leads ev cls) U (calls n ev cls root eas) (from_xml_tree n ev cls root eas).
  Proof.
    intros n cls root eas. unfold calls, from_xml_tree. destruct (en_model ev cls) as [m|] eqn:Em; [|exact I].
    destruct (tag_is _ _); [|exact I]. apply model_told; auto. apply read_told.
  Qed.
End Told.
