(** PfCount.v -- every datum of the document is bound at most once. *)

From Verif Require Import Base Elem Native Errs Names Ser Read Api SpecElem SpecRead PfElem PfField PfTerm.

Arguments count_elem : simpl never.

Section Count.
  Variable X : string.
  Hypothesis HX : X <> "".

  Definition ecount (l : list elem) : nat := fold_right (fun c n => count_elem X c + n) 0 l.
  Definition vcount (l : list val) : nat := fold_right (fun y n => count_val X y + n) 0 l.
  Definition dcount (d : list (string * val)) : nat :=
    fold_right (fun (kv : string * val) n => (let (_, y) := kv in count_val X y) + n) 0 d.
  Definition acount (a : option (dict string)) : nat := match a with Some d => hits X d | None => 0 end.

  Lemma count_eq : forall e, count_elem X e =
    hit X (e_text e) + hit X (e_tail e) + acount (e_attrib e) + ecount (e_elems e).
  Proof. intros [? ? ? ? ? ? ? ?]; reflexivity. Qed.

  Lemma ecount_upd : forall i c c' l, nth_error l i = Some c ->
    ecount (list_upd i c' l) + count_elem X c = ecount l + count_elem X c'.
  Proof.
    intros i; induction i as [|i IH]; intros c c' [|x l] H; simpl in H; try discriminate.
    - injection H as ->. unfold ecount; cbn [list_upd fold_right]. lia.
    - specialize (IH c c' l H). unfold ecount in *; cbn [list_upd fold_right]. lia.
  Qed.

  Lemma ecount_perm : forall l l', Permutation l l' -> ecount l = ecount l'.
  Proof. intros l l' H; induction H; unfold ecount in *; cbn [fold_right] in *; lia. Qed.

  Lemma put_child_count : forall i c c' e, nth_error (e_elems e) i = Some c ->
    count_elem X (put_child i c' e) + count_elem X c = count_elem X e + count_elem X c'.
  Proof.
    intros i c c' e H. rewrite (count_eq (put_child i c' e)), (count_eq e). simpl.
    pose proof (ecount_upd i c' _ H). lia.
  Qed.

  Lemma search_count : forall m e tag behind step r e', search m e tag behind step = (r, e') ->
    count_elem X e' = count_elem X e.
  Proof.
    intros m e tag behind step r e' H. apply search_cases in H as (l & n & P & -> & _).
    rewrite !count_eq. simpl. rewrite (ecount_perm P). auto.
  Qed.

  Lemma hits_ddel : forall k (d : dict string) v, dget k d = Some v -> hits X (ddel k d) + hit X (Some v) <= hits X d.
  Proof.
    intros k d v; induction d as [|[x w] d IH]; intros H; [discriminate|]. cbn [dget ddel filter fst] in *.
    unfold hits in *.
    assert (Le : forall d', fold_right (fun kv n => hit X (Some (snd kv)) + n) 0 (ddel k d') <=
      fold_right (fun kv n => hit X (Some (snd kv)) + n) 0 d').
    { intros d'; induction d' as [|[y z] d' IHd]; cbn [ddel filter fold_right]; auto.
      unfold ddel in *. cbn [filter fst]. destruct (String.eqb k y); cbn [negb fold_right]; lia. }
    destruct (String.eqb k x) eqn:E; cbn [negb fold_right snd].
    - injection H as ->. specialize (Le d). lia.
    - specialize (IH H). lia.
  Qed.

  Definition weight (o : out val) : nat := match o with Ok v => count_val X v | _ => 0 end.

  Definition conserves (s : st) (p : rres val) : Prop :=
    weight (fst p) + count_elem X (st_el (snd p)) <= count_elem X (st_el s).
  Definition reader_conserves (r : reader) : Prop := forall eas loc s, conserves s (r eas loc s).

  Lemma conserves_none : forall s, conserves s (Ok VNone, s).
  Proof. intros s; unfold conserves; simpl; lia. Qed.

  Lemma on_child_conserves : forall i (f : st -> rres val) s, (forall c, conserves c (f c)) ->
    conserves s (on_child i f s).
  Proof.
    intros i f s H; unfold conserves, on_child. destruct (nth_error _ i) as [c|] eqn:E; [|simpl; lia].
    specialize (H (St c (st_sm s))). unfold conserves in H. destruct (f _) as [o s']; simpl in *.
    pose proof (put_child_count i (st_el s') (st_el s) E). lia.
  Qed.

  Lemma with_found_conserves : forall tag m (f : st -> rres val) s, (forall c, conserves c (f c)) ->
    conserves s (with_found (pop_element (st_el s) tag m) f s).
  Proof.
    intros tag m f s H. unfold pop_element. destruct (search _ _ _ _ _) as [[|i|] e'] eqn:E; apply search_count in E.
    - unfold conserves; simpl; lia.
    - pose proof (@on_child_conserves i f (set_el e' s) H) as G. unfold conserves in *; simpl in *; lia.
    - unfold conserves; simpl; lia.
  Qed.

  Lemma pop_attrib_count : forall k e v e', pop_attrib k e = (v, e') -> hit X v + count_elem X e' <= count_elem X e.
  Proof.
    intros k e v e' H; unfold pop_attrib in H. destruct (e_attrib e) as [d|] eqn:A.
    - destruct (dget k d) as [x|] eqn:G; injection H as <- <-.
      + rewrite !count_eq. cbn [e_text e_tail e_attrib e_elems set_attrib_o]. rewrite A. cbn [acount].
        pose proof (hits_ddel k d G). lia.
      + simpl; lia.
    - injection H as <- <-. simpl; lia.
  Qed.

  Lemma count_str_or_none : forall o, count_val X (str_or_none o) = hit X o.
  Proof. intros [t|]; reflexivity. Qed.

  Lemma read_text_conserves : forall c n, reader_conserves (read_text c n).
  Proof.
    intros c n eas loc s; unfold read_text. destruct c; [apply conserves_none|].
    assert (P : forall e1, count_elem X e1 <= count_elem X (st_el s) ->
      conserves s (Ok (text_or_default eas (e_text e1)), set_el (set_text_o None e1) s)).
    { intros e1 L. unfold conserves; simpl. rewrite (count_eq e1) in L. rewrite count_eq; simpl.
      assert (count_val X (text_or_default eas (e_text e1)) <= hit X (e_text e1)); [|lia].
      unfold text_or_default. destruct (str_truthy (e_text e1)); [rewrite count_str_or_none; auto|].
      destruct eas; simpl; [|lia]. destruct X; [congruence|simpl; lia]. }
    destruct n; [|apply P; auto].
    unfold is_element_nill. destruct (pop_attrib xsi_nil (st_el s)) as [v e1] eqn:E. apply pop_attrib_count in E.
    destruct (match v with Some s => _ | None => _ end); [unfold conserves; simpl; lia|]. apply P; lia.
  Qed.

  Lemma dcount_dset : forall k v d, dcount (dset k v d) <= dcount d + count_val X v.
  Proof.
    intros k v d; induction d as [|[x w] d IH]; unfold dcount in *; cbn [dset fold_right]; [lia|].
    destruct (String.eqb k x); cbn [fold_right]; lia.
  Qed.

  Lemma dcount_dict_of : forall l, dcount (dict_of l) <= dcount l.
  Proof.
    intros l. assert (G : forall acc, dcount (fold_left (fun d kv => dset (fst kv) (snd kv) d) l acc) <= dcount acc + dcount l).
    { induction l as [|[k v] l IH]; intros acc; [unfold dcount; simpl; lia|]. cbn [fold_left fst snd].
      specialize (IH (dset k v acc)). pose proof (dcount_dset k v acc).
      assert (dcount ((k, v) :: l) = count_val X v + dcount l) by reflexivity. lia. }
    exact (G []).
  Qed.

  Lemma read_attrs_conserves : forall a, reader_conserves (read_attrs a).
  Proof.
    intros a eas loc s; unfold read_attrs. destruct (as_computed a); [apply conserves_none|].
    unfold pop_attributes. destruct (e_attrib (st_el s)) as [d|] eqn:A; unfold conserves; cbn [fst snd weight st_el set_el].
    - rewrite !count_eq. cbn [e_text e_tail e_attrib e_elems set_attrib_o]. rewrite A. cbn [acount].
      change (count_val X (VDict ?l)) with (dcount l).
      pose proof (dcount_dict_of (map (fun kv => (attrs_key a (fst kv), VStr (snd kv))) d)) as L.
      assert (E : dcount (map (fun kv => (attrs_key a (fst kv), VStr (snd kv))) d) = hits X d).
      { clear. induction d as [|[k v] d IH]; [reflexivity|]. unfold dcount, hits in *. cbn [map fold_right fst snd count_val hit] in *. lia. }
      match goal with |- ?x + _ <= _ => change x with (dcount (dict_of (map (fun kv => (attrs_key a (fst kv), VStr (snd kv))) d))) end. lia.
    - rewrite !count_eq. cbn [e_text e_tail e_attrib e_elems set_attrib_o count_val]. rewrite A. simpl; lia.
  Qed.

  Lemma vcount_app : forall l1 l2, vcount (l1 ++ l2) = vcount l1 + vcount l2.
  Proof. intros l1 l2; induction l1 as [|x l1 IH]; unfold vcount in *; cbn [app fold_right]; lia. Qed.

  Lemma read_items_conserves : forall r, reader_conserves r -> forall k title hide eas loc idx result errors s,
    weight (fst (read_items k r title hide eas loc idx result errors s)) +
    count_elem X (st_el (snd (read_items k r title hide eas loc idx result errors s))) <=
    vcount result + count_elem X (st_el s).
  Proof.
    intros r Hr k; induction k as [|k IH]; intros title hide eas loc idx result errors s; cbn [read_items]; [simpl; lia|].
    specialize (Hr eas (loc ++ [LIdx idx]) s). unfold conserves in Hr.
    destruct (r eas (loc ++ [LIdx idx]) s) as [[v|x|] s']; cbn [fst snd weight] in Hr; [| |simpl; lia].
    - assert (G : v <> VNone -> weight (fst (read_items k r title hide eas loc (S idx) (result ++ [v]) errors s')) +
          count_elem X (st_el (snd (read_items k r title hide eas loc (S idx) (result ++ [v]) errors s'))) <= vcount result + count_elem X (st_el s)).
      { intros _. specialize (IH title hide eas loc (S idx) (result ++ [v]) errors s'). rewrite vcount_app in IH.
        assert (vcount [v] = count_val X v) by (unfold vcount; cbn [fold_right]; lia). lia. }
      destruct v; try (apply G; discriminate). destruct errors as [|er errors]; cbn [fst snd weight]; [|lia].
      destruct result; [simpl in *; lia|]. simpl in Hr. 
      match goal with |- count_val X (VList ?l) + _ <= _ => change (count_val X (VList l)) with (vcount l) end. lia.
    - destruct x; cbn [fst snd weight]; try lia.
      specialize (IH title hide eas loc (S idx) result (errors ++ [(Some (LIdx idx), e)]) s'). lia.
  Qed.

  Lemma read_tuple_conserves : forall rs, Forall reader_conserves rs -> forall title hide eas loc idx result errors s,
    weight (fst (read_tuple rs title hide eas loc idx result errors s)) +
    count_elem X (st_el (snd (read_tuple rs title hide eas loc idx result errors s))) <=
    vcount result + count_elem X (st_el s).
  Proof.
    intros rs Hrs; induction Hrs as [|r rs Hr Hrs IH]; intros title hide eas loc idx result errors s; cbn [read_tuple].
    - destruct errors; cbn [fst snd weight]; [|lia]. destruct (forallb is_none result); [simpl; lia|].
      match goal with |- count_val X (VList ?l) + _ <= _ => change (count_val X (VList l)) with (vcount l) end. lia.
    - specialize (Hr eas (loc ++ [LIdx idx]) s). unfold conserves in Hr.
      destruct (r eas (loc ++ [LIdx idx]) s) as [[v|x|] s']; cbn [fst snd weight] in Hr; [| |simpl; lia].
      + specialize (IH title hide eas loc (S idx) (result ++ [v]) errors s'). rewrite vcount_app in IH.
        assert (vcount [v] = count_val X v) by (unfold vcount; cbn [fold_right]; lia). lia.
      + destruct x; cbn [fst snd weight]; try lia.
        specialize (IH title hide eas loc (S idx) result (errors ++ [(Some (LIdx idx), e)]) s'). lia.
  Qed.

  Lemma read_variants_conserves : forall rs, Forall reader_conserves rs -> forall title hide eas loc errors s,
    conserves s (read_variants rs title hide eas loc errors s).
  Proof.
    intros rs Hrs; induction Hrs as [|r rs Hr Hrs IH]; intros title hide eas loc errors s; cbn [read_variants].
    - destruct errors; unfold conserves; cbn [fst snd weight st_el set_el]; [simpl; lia|].
      rewrite !count_eq; simpl; lia.
    - rewrite create_snapshot_id. specialize (Hr eas loc (set_el (st_el s) s)). unfold conserves in Hr.
      destruct (r eas loc (set_el (st_el s) s)) as [[v|x|] s']; cbn [fst snd weight st_el set_el] in Hr;
        [| |unfold conserves; simpl; lia].
      + assert (G : conserves s (Ok v, St (apply_snapshot (st_el s) (st_el s')) (st_sm s'))).
        { unfold conserves; cbn [fst snd weight st_el]. rewrite (count_eq (apply_snapshot _ _)); simpl.
          rewrite (count_eq (st_el s')) in Hr. lia. }
        destruct v; auto. apply (IH title hide eas loc errors (St (st_el s) (st_sm s'))).
      + destruct x; try (unfold conserves; simpl; lia).
        apply (IH title hide eas loc (dset (ve_title e) e errors) (St (st_el s) (st_sm s'))).
  Qed.

  Lemma read_tagged_conserves : forall rp, (forall p, reader_conserves (rp p)) -> forall a mode vs eas loc s,
    conserves s (read_tagged rp a mode vs eas loc s).
  Proof.
    intros rp Hrp a mode vs; induction vs as [|[tag p] vs IH]; intros eas loc s; cbn [read_tagged]; [apply conserves_none|].
    unfold find_element. destruct (search _ _ _ _ _) as [[|i|] e'] eqn:E; apply search_count in E;
      [| |unfold conserves; simpl; lia].
    - specialize (IH eas loc (set_el e' s)). unfold conserves in *; simpl in *; lia.
    - destruct (nth_error (e_elems e') i) as [c|]; [|unfold conserves; simpl; lia].
      destruct (match get_attrib a c with Some t => _ | None => _ end).
      + specialize (Hrp p eas loc (St e' (sset loc (e_line c) (st_sm s)))). unfold conserves in *; simpl in *; lia.
      + specialize (IH eas loc (set_el e' s)). unfold conserves in *; simpl in *; lia.
  Qed.

  Lemma find_sub_count : forall path m e, count_elem X (snd (find_sub_element path m e)) = count_elem X e.
  Proof.
    intros path m; induction path as [|tag rest IH]; intros e; cbn [find_sub_element]; [reflexivity|].
    unfold find_element. destruct (search m e tag true true) as [[|i|] e1] eqn:E; apply search_count in E; auto.
    destruct rest as [|t2 rest]; auto. destruct (nth_error (e_elems e1) i) as [c|] eqn:N; auto.
    specialize (IH c). destruct (find_sub_element (t2 :: rest) m c) as [o c']; cbn [snd] in *.
    pose proof (put_child_count i c' e1 N). lia.
  Qed.

  Lemma on_path_conserves : forall path (f : st -> rres val) s, (forall c, conserves c (f c)) -> conserves s (on_path path f s).
  Proof.
    intros path f; induction path as [|i path IH]; intros s H; cbn [on_path]; auto. apply on_child_conserves; auto.
  Qed.

  Lemma read_wrap_conserves : forall path mode c r, reader_conserves r -> reader_conserves (read_wrap path mode c r).
  Proof.
    intros path mode c r Hr eas loc s; unfold read_wrap. destruct c; [apply conserves_none|].
    pose proof (find_sub_count path mode (st_el s)) as F.
    destruct (find_sub_element path mode (st_el s)) as [[idxs|] e']; simpl in F; [|unfold conserves; simpl; lia].
    destruct (_ && _); [|unfold conserves; simpl; lia].
    pose proof (@on_path_conserves idxs (fun c => r eas loc (note_line loc c)) (set_el e' s)
      (fun c => Hr eas loc (note_line loc c))) as G. unfold conserves in *; simpl in *; lia.
  Qed.

  Lemma to_native_count : forall b e n, to_native b e = Some n -> count_native X n <= count_elem X e.
  Proof.
    intros b e; induction e as [tag ns text tail attrib elements next line IH] using elem_ind'.
    intros n H. rewrite count_eq; cbn [e_text e_tail e_attrib e_elems]. simpl in H.
    assert (A : hits X match attrib with Some d => d | None => [] end = acount attrib) by (destruct attrib; reflexivity).
    destruct tag as [t|].
    - destruct (map_opt (to_native b) elements) as [cs|] eqn:M; [|discriminate]. injection H as <-. cbn [count_native]. rewrite A.
      assert (E : fold_right (fun c n => count_native X c + n) 0 cs <= ecount elements); [|lia].
      revert cs M; induction IH as [|c l Hc _ IHl]; intros cs M; simpl in M; [injection M as <-; simpl; lia|].
      destruct (to_native b c) as [y|] eqn:Ec; [|discriminate]. destruct (map_opt (to_native b) l) as [ys|]; [|discriminate].
      injection M as <-. unfold ecount in *. cbn [fold_right]. specialize (Hc y eq_refl). specialize (IHl ys eq_refl). lia.
    - destruct b; [discriminate|]. injection H as <-. cbn [count_native]. rewrite A. lia.
  Qed.

  Lemma read_raw_conserves : forall b name mode c, reader_conserves (read_raw b name mode c).
  Proof.
    intros b name mode c eas loc s; unfold read_raw. destruct c; [apply conserves_none|].
    apply with_found_conserves. intros c.
    assert (F : count_elem X (fst (extract (st_el c))) + count_elem X (snd (extract (st_el c))) = count_elem X (st_el c)).
    { rewrite !count_eq. simpl. lia. }
    destruct (extract (st_el c)) as [fresh c']; cbn [fst snd] in F. unfold conserves; cbn [fst snd st_el].
    destruct (to_native b fresh) as [n|] eqn:E; cbn [weight count_val]; [apply to_native_count in E|]; lia.
  Qed.

  Variable ev : env.
  Hypothesis Hev : copies_nothing X ev.

  Lemma read_fields_conserves : forall r cls m, en_model ev cls = Some m -> (forall s, reader_conserves (r s)) ->
    forall fs eas result errors s,
    match fst (read_fields r m fs eas result errors s) with Ok (d, _) => dcount d | _ => 0 end +
    count_elem X (st_el (snd (read_fields r m fs eas result errors s))) <= dcount result + count_elem X (st_el s).
  Proof.
    intros r cls m Hm Hr fs; induction fs as [|[name fser] fs IH]; intros eas result errors s; cbn [read_fields]; [simpl; lia|].
    assert (G : conserves s (match md_cval m name with
                                | Some custom => run_custom custom (note_line [LKey name] s)
                                | None => r fser eas [LKey name] (note_line [LKey name] s)
                                end)).
    { destruct (md_cval m name) as [f|] eqn:E; [|apply (Hr fser eas [LKey name] (note_line [LKey name] s))].
      destruct (Hev cls Hm) as [_ Hc]. specialize (Hc name f E (st_el s)). unfold run_custom, conserves; simpl.
      destruct (f (st_el s)) as [o e']; simpl in *; auto. }
    unfold conserves in G.
    destruct (match md_cval m name with Some custom => _ | None => _ end) as [[v|x|] s2]; cbn [fst snd weight] in G; [| |simpl; lia].
    - assert (K : forall key, match fst (read_fields r m fs eas (dset key v result) errors s2) with Ok (d, _) => dcount d | _ => 0 end +
          count_elem X (st_el (snd (read_fields r m fs eas (dset key v result) errors s2))) <= dcount result + count_elem X (st_el s)).
      { intros key. specialize (IH eas (dset key v result) errors s2). pose proof (dcount_dset key v result). lia. }
      destruct v; try apply K. specialize (IH eas result errors s2). lia.
    - destruct x; cbn [fst snd]; try lia. specialize (IH eas result (dset name e errors) s2). lia.
  Qed.

  Lemma validate_count : forall cls m i s, en_model ev cls = Some m ->
    weight (validate_result m i s) <= match i with Some w => count_val X w | None => 0 end.
  Proof.
    intros cls m i s Hm; unfold validate_result. destruct (if md_forbid m then _ else _); [simpl; lia|].
    destruct (Hev cls Hm) as [Hv _]. specialize (Hv i). destruct (md_validate m i); simpl; [auto|lia|lia].
  Qed.

  Lemma read_model_conserves : forall r cls m, en_model ev cls = Some m -> (forall s, reader_conserves (r s)) ->
    reader_conserves (read_model r m).
  Proof.
    intros r cls m Hm Hr eas loc s; unfold read_model. destruct (md_root m).
    - unfold read_root_model. destruct (md_fields m) as [|[name rser] fs]; [unfold conserves; simpl; lia|].
      specialize (Hr rser eas loc s). unfold conserves in *. destruct (r rser eas loc s) as [[v|x|] s']; cbn [fst snd weight] in *.
      + pose proof (@validate_count cls m (if is_none v then None else Some v) s' Hm) as V.
        destruct v; simpl in *; lia.
      + destruct x; cbn [fst snd weight]; lia.
      + lia.
    - unfold read_plain_model. pose proof (@read_fields_conserves r cls m Hm Hr (md_fields m) eas [] [] s) as F.
      unfold conserves. destruct (read_fields _ _ _ _ _ _ _) as [[[d errors]|x|] s']; cbn [fst snd weight] in *; try (simpl in *; lia).
      destruct errors; cbn [fst snd weight]; [|simpl in *; lia].
      pose proof (@validate_count cls m (Some (VDict d)) s' Hm) as V.
      change (weight (validate_result m (Some (VDict d)) s') <= dcount d) in V. change (dcount []) with 0 in F. lia.
  Qed.

  Lemma read_proxy_conserves : forall r p, (forall s, reader_conserves (r s)) -> reader_conserves (read_proxy ev r p).
  Proof.
    intros r p Hr eas loc s; unfold read_proxy. destruct (en_model ev (px_model p)) as [m|] eqn:Em; [|unfold conserves; simpl; lia].
    destruct (px_computed p); [apply conserves_none|]. apply with_found_conserves. intros c. cbv zeta. simpl.
    unfold is_element_nill. destruct (pop_attrib xsi_nil (st_el c)) as [v e1] eqn:E. apply pop_attrib_count in E.
    destruct (match v with Some s => _ | None => _ end); [unfold conserves; simpl; lia|].
    pose proof (@read_model_conserves r (px_model p) m Em Hr eas loc (set_el e1 (note_line loc c))) as G.
    unfold conserves in *; simpl in *; lia.
  Qed.

  Lemma read_conserves : forall n s, reader_conserves (read n ev s).
  Proof.
    intros n; induction n as [|n IH]; intros s; cbn [read].
    - intros eas loc s0; unfold conserves; simpl; lia.
    - destruct s; cbn [read_step]; try (intros eas loc s0; unfold read_attr, read_elem, read_map_elem, read_homo, read_hetero, read_union_prim, read_union_model).
      + apply read_text_conserves.
      + destruct computed; [apply conserves_none|]. destruct (pop_attrib name (st_el s0)) as [v e'] eqn:E. apply pop_attrib_count in E.
        unfold conserves; cbn [fst snd weight st_el set_el]. rewrite count_str_or_none. auto.
      + destruct computed; [apply conserves_none|]. apply with_found_conserves. intros c; apply (read_text_conserves false nillable eas loc (note_line loc c)).
      + apply read_attrs_conserves.
      + destruct (as_computed a); [apply conserves_none|]. apply with_found_conserves. intros c; apply (read_attrs_conserves a eas loc (note_line loc c)).
      + destruct computed; [apply conserves_none|]. pose proof (@read_items_conserves (read n ev s) (IH s) n title hide eas loc 0 [] [] s0) as G.
        unfold conserves; simpl in *; lia.
      + destruct computed; [apply conserves_none|].
        pose proof (@read_tuple_conserves (map (read n ev) inners)) as G. unfold conserves.
        specialize (G ltac:(rewrite Forall_map; rewrite Forall_forall; intros; apply IH) title hide eas loc 0 [] [] s0). simpl in *; lia.
      + destruct computed; [apply conserves_none|]. apply IH.
      + destruct computed; [apply conserves_none|]. apply read_variants_conserves. rewrite Forall_map; rewrite Forall_forall; intros.
        apply read_proxy_conserves; auto.
      + destruct computed; [apply conserves_none|]. apply read_tagged_conserves. intros p; apply read_proxy_conserves; auto.
      + apply read_wrap_conserves; auto.
      + apply read_raw_conserves.
      + apply read_proxy_conserves; auto.
  Qed.

  Lemma read_field_conserves : forall n s eas loc st0 r st1, read n ev s eas loc st0 = (r, st1) ->
    match r with Ok v => count_val X v | _ => 0 end + count_elem X (st_el st1) <= count_elem X (st_el st0).
  Proof.
    intros n s eas loc st0 r st1 E. pose proof (@read_conserves n s eas loc st0) as G. unfold conserves in G.
    rewrite E in G. exact G.
  Qed.

  Lemma from_native_count : forall b n, count_elem X (from_native b n) <= count_native X n.
  Proof.
    intros b n; induction n as [tag ns text tail attrib children line IH| |] using native_ind'; rewrite count_eq;
      cbn [from_native new_elem e_text e_tail e_attrib e_elems count_native].
    - assert (E : ecount (flat_map (fun c => if is_xml_comment c then [] else [from_native b c]) children) <=
                  fold_right (fun c n => count_native X c + n) 0 children); [|unfold acount; lia].
      induction IH as [|c l Hc _ IHl]; [simpl; lia|]. cbn [flat_map fold_right].
      destruct (is_xml_comment c); cbn [app]; [lia|]. unfold ecount in *. cbn [fold_right]. lia.
    - simpl; lia.
    - simpl; lia.
  Qed.

  Lemma from_xml_conserves : forall n cls root eas v, from_xml_tree n ev cls root eas = Ok v ->
    count_val X v <= count_native X root.
  Proof.
    intros n cls root eas v; unfold from_xml_tree. destruct (en_model ev cls) as [m|] eqn:Em; [|discriminate].
    destruct (tag_is _ _); [|discriminate]. intros E.
    pose proof (@read_model_conserves (read n ev) cls m Em (read_conserves n) eas [] (St (from_native (en_backend ev) root) [])) as G.
    unfold conserves in G. rewrite E in G. cbn [weight st_el] in G. pose proof (from_native_count (en_backend ev) root). lia.
  Qed.
End Count.
