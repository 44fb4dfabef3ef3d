(** PfMoved2.v -- proofs for C89: reading. *)

From Verif Require Import Base Elem Native Errs Names Ser Write Read Api SpecElem SpecRead SpecSim SpecMoved PfSim2 PfRead3 PfFuel PfMoved.

Local Ltac inv H := inversion H; subst; clear H.

(** ---- readers of fields on the element itself and on sub-elements ---- *)

Lemma own_read : forall n ev s, on_own s = true ->
  (exists h, forall eas loc st0, read (S (S n)) ev s eas loc st0 = (Ok (fst (h eas (own_of (st_el st0)))), St (put_own (snd (h eas (own_of (st_el st0)))) (st_el st0)) (st_sm st0)) /\
   forall n' ev', fst (read n' ev' s eas loc st0) = Fuel \/ read n' ev' s eas loc st0 = read (S (S n)) ev s eas loc st0).
Proof.
  assert (T : forall c nil, exists h, forall eas loc st0, read_text c nil eas loc st0 = (Ok (fst (h eas (own_of (st_el st0)))), St (put_own (snd (h eas (own_of (st_el st0)))) (st_el st0)) (st_sm st0))).
  { intros c nil. destruct c.
    - exists (fun _ o => (VNone, o)). intros eas loc [e sm]. simpl. rewrite put_own_own. auto.
    - destruct nil.
      + exists (fun eas o => match snd o with
          | Some d => match dget xsi_nil d with
                      | Some t => if String.eqb t "true" then (VNone, (fst o, Some (ddel xsi_nil d))) else (text_or_default eas (fst o), (None, Some (ddel xsi_nil d)))
                      | None => (text_or_default eas (fst o), (None, Some d)) end
          | None => (text_or_default eas (fst o), (None, None)) end).
        intros eas loc [[tg ns tx tl at' els nx ln] sm]. unfold read_text, is_element_nill, pop_attrib; simpl. destruct at' as [d|]; [|reflexivity].
        destruct (dget xsi_nil d) as [t|]; [|reflexivity]. destruct (String.eqb t "true"); reflexivity.
      + exists (fun eas o => (text_or_default eas (fst o), (None, snd o))). intros eas loc [[] sm]. reflexivity. }
  assert (A : forall name c, exists h, forall eas loc st0, read_attr name c eas loc st0 = (Ok (fst (h eas (own_of (st_el st0)))), St (put_own (snd (h eas (own_of (st_el st0)))) (st_el st0)) (st_sm st0))).
  { intros name c. destruct c.
    - exists (fun (_ : bool) o => (VNone, o)). intros eas loc [e sm]. simpl. rewrite put_own_own. auto.
    - exists (fun (_ : bool) o => match snd o with
          | Some d => match dget name d with Some t => (VStr t, (fst o, Some (ddel name d))) | None => (VNone, (fst o, Some d)) end
          | None => (VNone, (fst o, None)) end).
      intros eas loc [[tg ns tx tl at' els nx ln] sm]. unfold read_attr, pop_attrib; simpl. destruct at' as [d|]; [|reflexivity]. destruct (dget name d); reflexivity. }
  assert (M : forall a, exists h, forall eas loc st0, read_attrs a eas loc st0 = (Ok (fst (h eas (own_of (st_el st0)))), St (put_own (snd (h eas (own_of (st_el st0)))) (st_el st0)) (st_sm st0))).
  { intros a. unfold read_attrs. destruct (as_computed a).
    - exists (fun (_ : bool) o => (VNone, o)). intros eas loc [e sm]. simpl. rewrite put_own_own. auto.
    - exists (fun (_ : bool) o => match snd o with
          | Some d => (VDict (dict_of (map (fun kv => (attrs_key a (fst kv), VStr (snd kv))) d)), (fst o, None))
          | None => (VNone, (fst o, None)) end).
      intros eas loc [[tg ns tx tl at' els nx ln] sm]. simpl. destruct at' as [d|]; reflexivity. }
  assert (K : forall s, match s with SText _ _ | SAttr _ _ | SAttrs _ => True | _ => False end ->
    exists h, forall eas loc st0 n ev, read (S n) ev s eas loc st0 = (Ok (fst (h eas (own_of (st_el st0)))), St (put_own (snd (h eas (own_of (st_el st0)))) (st_el st0)) (st_sm st0))).
  { intros s H. destruct s; try contradiction.
    - destruct (T computed nillable) as [h Hh]. exists h. intros. apply Hh.
    - destruct (A name computed) as [h Hh]. exists h. intros. apply Hh.
    - destruct (M a) as [h Hh]. exists h. intros. apply Hh. }
  assert (L : forall s, match s with SText _ _ | SAttr _ _ | SAttrs _ => True | _ => False end -> forall n ev,
    (exists h, forall eas loc st0, read (S (S n)) ev s eas loc st0 = (Ok (fst (h eas (own_of (st_el st0)))), St (put_own (snd (h eas (own_of (st_el st0)))) (st_el st0)) (st_sm st0)) /\
     forall n' ev', fst (read n' ev' s eas loc st0) = Fuel \/ read n' ev' s eas loc st0 = read (S (S n)) ev s eas loc st0)).
  { intros s H n ev. destruct (K s H) as [h Hh]. exists h. intros eas loc st0. split; auto.
    intros [|n'] ev'; [left; reflexivity|right]. rewrite (Hh eas loc st0 (S n) ev), (Hh eas loc st0 n' ev'). auto. }
  intros n ev s H. destruct s; try discriminate H; try (apply L; exact I).
  destruct computed.
  - exists (fun _ o => (VNone, o)). intros eas loc st0. split; [destruct st0 as [e sm]; cbn [read read_step read_union_prim]; unfold read_union_prim; cbn [st_el st_sm fst snd]; rewrite put_own_own; auto|].
    intros [|n'] ev'; [left; reflexivity|right; reflexivity].
  - assert (H' : match s with SText _ _ | SAttr _ _ | SAttrs _ => True | _ => False end) by (destruct s; try discriminate H; exact I).
    destruct (K s H') as [h Hh]. exists h. intros eas loc st0. change (read (S (S n)) ev (SUnionPrim false s) eas loc st0) with (read (S n) ev s eas loc st0).
    split; [apply Hh|]. intros [|[|n']] ev'; [left; reflexivity|left; reflexivity|right].
    change (read (S (S n')) ev' (SUnionPrim false s) eas loc st0) with (read (S n') ev' s eas loc st0).
    rewrite (Hh eas loc st0 n ev), (Hh eas loc st0 n' ev'). auto.
Qed.

(** [r] neither reads nor changes the text and the attributes *)
Definition child_reader (r : reader) : Prop := forall eas loc o e sm,
  r eas loc (St (put_own o e) sm) = (fst (r eas loc (St e sm)), St (put_own o (st_el (snd (r eas loc (St e sm))))) (st_sm (snd (r eas loc (St e sm))))).

Lemma put_note : forall o loc e sm, note_line loc (St (put_own o e) sm) = St (put_own o e) (st_sm (note_line loc (St e sm))).
Proof. intros o loc [] sm; reflexivity. Qed.

Lemma on_child_put : forall A i (f : st -> rres A) o e sm, on_child i f (St (put_own o e) sm) =
  (fst (on_child i f (St e sm)), St (put_own o (st_el (snd (on_child i f (St e sm))))) (st_sm (snd (on_child i f (St e sm))))).
Proof.
  intros A i f o e sm. unfold on_child. cbn [st_el st_sm]. rewrite put_elems. destruct (nth_error (e_elems e) i); auto.
  destruct (f _) as [r s']. cbn [fst snd st_el st_sm]. rewrite put_put_child. auto.
Qed.

Lemma found_put : forall tag m f o e sm, with_found (pop_element (put_own o e) tag m) f (St (put_own o e) sm) =
  (fst (with_found (pop_element e tag m) f (St e sm)), St (put_own o (st_el (snd (with_found (pop_element e tag m) f (St e sm)))))
     (st_sm (snd (with_found (pop_element e tag m) f (St e sm))))).
Proof.
  intros tag m f o e sm. unfold pop_element. rewrite put_search. destruct (search m e tag false true) as [[|i|] e']; cbn [fst snd with_found]; auto.
  unfold set_el; cbn [st_sm]. apply on_child_put.
Qed.

Lemma put_snapshot : forall o e, create_snapshot (put_own o e) = put_own o (create_snapshot e).
Proof. intros o []; reflexivity. Qed.

Lemma items_read_put : forall r, child_reader r -> forall k title hide eas loc idx res es, child_reader (fun _ _ => read_items k r title hide eas loc idx res es).
Proof.
  intros r H k. induction k as [|k IH]; intros title hide eas loc idx res es eas' loc' o e sm; cbn [read_items]; auto.
  rewrite H. destruct (r eas (loc ++ [LIdx idx]) (St e sm)) as [[v|x|] s']; cbn [fst snd]; auto.
  - assert (X : forall l, read_items k r title hide eas loc (S idx) l es (St (put_own o (st_el s')) (st_sm s')) =
      (fst (read_items k r title hide eas loc (S idx) l es s'), St (put_own o (st_el (snd (read_items k r title hide eas loc (S idx) l es s')))) (st_sm (snd (read_items k r title hide eas loc (S idx) l es s'))))).
    { intros l. destruct s' as [e' sm']. apply (IH title hide eas loc (S idx) l es eas loc). }
    destruct v; auto. destruct es; auto.
  - destruct s' as [e' sm']. destruct x; auto. apply (IH title hide eas loc (S idx) res _ eas loc).
Qed.

Lemma tuple_read_put : forall rs, Forall child_reader rs -> forall title hide eas loc idx res es, child_reader (fun _ _ => read_tuple rs title hide eas loc idx res es).
Proof.
  intros rs Hs. induction Hs as [|r rs H Hs IH]; intros title hide eas loc idx res es eas' loc' o e sm; cbn [read_tuple].
  - destruct es; auto.
  - rewrite H. destruct (r eas (loc ++ [LIdx idx]) (St e sm)) as [[v|x|] [e' sm']]; cbn [fst snd st_el st_sm]; auto.
    + apply (IH title hide eas loc (S idx) _ es eas loc).
    + destruct x; auto. apply (IH title hide eas loc (S idx) res _ eas loc).
Qed.

Lemma variants_read_put : forall rs, Forall child_reader rs -> forall title hide eas loc es, child_reader (fun _ _ => read_variants rs title hide eas loc es).
Proof.
  intros rs Hs. induction Hs as [|r rs H Hs IH]; intros title hide eas loc es eas' loc' o e sm; cbn [read_variants].
  - destruct es; auto.
  - unfold set_el; cbn [st_el st_sm]. rewrite put_snapshot, H. destruct (r eas loc (St (create_snapshot e) sm)) as [[v|x|] [e' sm']]; cbn [fst snd st_el st_sm]; auto.
    + assert (X : apply_snapshot (put_own o e) (put_own o e') = put_own o (apply_snapshot e e')) by (destruct e, e'; reflexivity).
      destruct v; rewrite ?X; auto. apply (IH title hide eas loc es eas loc).
    + destruct x; auto. apply (IH title hide eas loc _ eas loc).
Qed.

Lemma proxy_read_put : forall ev r p, child_reader (read_proxy ev r p).
Proof.
  intros ev r p eas loc o e sm. unfold read_proxy. destruct (en_model ev (px_model p)); auto. destruct (px_computed p); auto. apply found_put.
Qed.

Lemma tagged_read_put : forall rp attr mode vs, (forall p, child_reader (rp p)) -> child_reader (read_tagged rp attr mode vs).
Proof.
  intros rp attr mode vs H. induction vs as [|[t p] vs IH]; intros eas loc o e sm; cbn [read_tagged]; auto.
  unfold find_element; cbn [st_el st_sm]. rewrite put_search. destruct (search mode e (px_name p) false false) as [[|i|] e']; cbn [fst snd]; auto.
  - unfold set_el; cbn [st_sm]. apply IH.
  - rewrite put_elems. destruct (nth_error (e_elems e') i) as [c|]; auto. unfold set_el; cbn [st_sm].
    destruct (match get_attrib attr c with Some _ => _ | None => _ end); [apply H|apply IH].
Qed.

Lemma sub_put : forall path m o e, path <> [] -> find_sub_element path m (put_own o e) = (fst (find_sub_element path m e), put_own o (snd (find_sub_element path m e))).
Proof.
  intros [|a path] m o e N; [congruence|]. cbn [find_sub_element]. unfold find_element. rewrite put_search.
  destruct (search m e a true true) as [[|i|] e']; cbn [fst snd]; auto. destruct path; auto. rewrite put_elems. destruct (nth_error (e_elems e') i); auto.
  destruct (find_sub_element (s :: path) m e0) as [r c']. cbn [fst snd]. rewrite put_put_child. auto.
Qed.

Lemma sub_empty : forall path m e idxs e', find_sub_element path m e = (Some idxs, e') -> idxs = [] \/ path <> [].
Proof. intros [|a path] m e idxs e' H; simpl in H; [injection H as <- <-; auto|right; discriminate]. Qed.

Lemma child_read : forall n ev s, on_children s = true -> child_reader (read n ev s).
Proof.
  induction n as [|n IH]; intros ev s H eas loc o e sm; [reflexivity|]. destruct s; try discriminate H; cbn [read read_step].
  - unfold read_elem. destruct computed; auto. apply found_put.
  - unfold read_map_elem. destruct (as_computed a); auto. apply found_put.
  - unfold read_homo. destruct computed; auto. apply (@items_read_put _ (IH ev s H) n title hide eas loc 0 [] [] eas loc).
  - unfold read_hetero. destruct computed; auto. apply (@tuple_read_put (map (read n ev) inners)) with (title := title) (hide := hide) (idx := 0) (res := []) (es := []); auto.
    simpl in H. rewrite forallb_forall in H. apply Forall_forall. intros w Iw. apply in_map_iff in Iw. destruct Iw as (s & <- & Is). apply IH; auto.
  - unfold read_union_prim. destruct computed; auto. apply IH; auto.
  - unfold read_union_model. destruct computed; auto. apply (@variants_read_put (map (read_proxy ev (read n ev)) variants)) with (title := title) (hide := hide) (es := []); auto.
    apply Forall_forall. intros w Iw. apply in_map_iff in Iw. destruct Iw as (s & <- & Is). apply proxy_read_put.
  - destruct computed; auto. apply (@tagged_read_put (read_proxy ev (read n ev)) attr_name mode variants); auto. intros; apply proxy_read_put.
  - unfold read_wrap. destruct computed; auto. assert (N : path <> []) by (intros ->; discriminate H). cbn [st_el st_sm]. rewrite (sub_put _ _ _ N).
    destruct (find_sub_element path mode e) as [[idxs|] e'] eqn:F; cbn [fst snd]; auto. 
    destruct (negb (Nat.eqb (length idxs) 0) && Nat.eqb (length idxs) (length path)) eqn:B; auto.
    destruct idxs as [|i idxs]; [discriminate B|]. cbn [on_path set_el st_sm]. apply on_child_put.
  - unfold read_raw. destruct computed; auto. apply found_put.
  - apply proxy_read_put.
Qed.

(** ---- the outcomes of the fields, one by one ---- *)

Definition result := (val + verr)%type.

Definition one (r : ser -> reader) (m : mdef) (eas : bool) (f : string * ser) (s : st) : rres val :=
  match md_cval m (fst f) with
  | Some custom => run_custom custom (note_line [LKey (fst f)] s)
  | None => r (snd f) eas [LKey (fst f)] (note_line [LKey (fst f)] s)
  end.

Fixpoint run (r : ser -> reader) (m : mdef) (eas : bool) (fs : list (string * ser)) (s : st) : rres (list (string * result)) :=
  match fs with
  | [] => (Ok [], s)
  | f :: fs' =>
      match one r m eas f s with
      | (Ok v, s') => let (o, s2) := run r m eas fs' s' in (obind o (fun t => Ok ((fst f, inl v) :: t)), s2)
      | (Raise (XValidation x), s') => let (o, s2) := run r m eas fs' s' in (obind o (fun t => Ok ((fst f, inr x) :: t)), s2)
      | (Raise x, s') => (Raise x, s')
      | (Fuel, s') => (Fuel, s')
      end
  end.

Definition vals (m : mdef) (t : list (string * result)) : list (string * val) :=
  flat_map (fun a => match snd a with inl v => if is_none v then [] else [(key_of m (fst a), v)] | inr _ => [] end) t.
Definition errs (t : list (string * result)) : list (string * verr) :=
  flat_map (fun a => match snd a with inl _ => [] | inr x => [(fst a, x)] end) t.

Lemma run_names : forall r m eas fs s t s', run r m eas fs s = (Ok t, s') -> map fst t = map fst fs.
Proof.
  intros r m eas fs. induction fs as [|f fs IH]; intros s t s' H; cbn [run] in H; [injection H as <- <-; auto|].
  destruct (one r m eas f s) as [[v|x|] s1]; try discriminate H.
  - destruct (run r m eas fs s1) as [[t1|y|] s2] eqn:R; simpl in H; try discriminate H. injection H as <- <-. simpl. f_equal. eauto.
  - destruct x; try discriminate H. destruct (run r m eas fs s1) as [[t1|y|] s2] eqn:R; simpl in H; try discriminate H. injection H as <- <-. simpl. f_equal. eauto.
Qed.

Lemma dset_new : forall A k (v : A) d, ~ In k (map fst d) -> dset k v d = d ++ [(k, v)].
Proof.
  intros A k v d. induction d as [|[a x] d IH]; intros N; simpl in *; auto. destruct (String.eqb_spec k a) as [->|_]; [exfalso; auto|]. rewrite IH; auto.
Qed.

Lemma key_nodup : forall m l, NoDup (map (key_of m) l) -> NoDup l.
Proof. intros m l H. apply (NoDup_map_inv _ _ H). Qed.

Lemma read_fields_run : forall r m eas fs d es s,
  NoDup (map fst d ++ map (fun f => key_of m (fst f)) fs) -> NoDup (map fst es ++ map fst fs) ->
  read_fields r m fs eas d es s =
  (obind (fst (run r m eas fs s)) (fun t => Ok (d ++ vals m t, es ++ errs t)), snd (run r m eas fs s)).
Proof.
  intros r m eas fs. induction fs as [|[n f] fs IH]; intros d es s Nd Ne.
  - simpl. rewrite !app_nil_r. auto.
  - cbn [read_fields run]. unfold one. cbn [fst snd].
    destruct (match md_cval m n with Some custom => run_custom custom (note_line [LKey n] s) | None => r f eas [LKey n] (note_line [LKey n] s) end) as [[v|x|] s1]; auto.
    + assert (Nd' : NoDup (map fst d ++ map (fun f0 => key_of m (fst f0)) fs)) by (simpl in Nd; apply NoDup_remove_1 in Nd; exact Nd).
      assert (Ne' : NoDup (map fst es ++ map fst fs)) by (simpl in Ne; apply NoDup_remove_1 in Ne; exact Ne).
      destruct (is_none v) eqn:Nv.
      * destruct v; try discriminate Nv. rewrite IH; auto. destruct (run r m eas fs s1) as [[t|y|] s2]; simpl; auto.
      * assert (X : read_fields r m fs eas (dset (key_of m n) v d) es s1 =
          (let (o, s2) := run r m eas fs s1 in (obind (obind o (fun t => Ok ((n, inl v) :: t))) (fun t => Ok (d ++ vals m t, es ++ errs t)), s2))).
        { assert (Nk : ~ In (key_of m n) (map fst d)).
          { simpl in Nd. apply NoDup_remove_2 in Nd. intros I. apply Nd. apply in_or_app; auto. }
          rewrite dset_new; auto. rewrite IH; auto.
          - destruct (run r m eas fs s1) as [[t|y|] s2]; simpl; auto. unfold vals; simpl. rewrite Nv. simpl. rewrite <- app_assoc. reflexivity.
          - rewrite map_app, <- app_assoc. exact Nd. }
        destruct (run r m eas fs s1) as [o s2]. cbn [fst snd]. destruct v; try discriminate Nv; exact X.
    + destruct x; auto.
      assert (Nd' : NoDup (map fst d ++ map (fun f0 => key_of m (fst f0)) fs)) by (simpl in Nd; apply NoDup_remove_1 in Nd; exact Nd).
      assert (Nk : ~ In n (map fst es)).
      { simpl in Ne. apply NoDup_remove_2 in Ne. intros I. apply Ne. apply in_or_app; auto. }
      rewrite dset_new; auto. rewrite IH; auto.
      * destruct (run r m eas fs s1) as [[t|y|] s2]; simpl; auto. rewrite <- app_assoc. reflexivity.
      * rewrite map_app, <- app_assoc. exact Ne.
Qed.

(** outcomes of fields that agree *)
Definition res_like (P : val -> val -> Prop) (Q : verr -> verr -> Prop) (a b : string * result) : Prop :=
  fst a = fst b /\ match snd a, snd b with inl v, inl w => P v w | inr x, inr y => Q x y | _, _ => False end.

Section Apart.
  Variables (n : nat) (ev : env) (m : mdef) (eas : bool).
  Local Notation R := (read n ev).

  Lemma child_one : forall f s o b, on_children (snd f) = true -> md_cval m (fst f) = None -> st_el s = put_own o (st_el b) ->
    same_out (fst (one R m eas f s)) (fst (one R m eas f b)) /\
    (fst (one R m eas f s) <> Fuel -> st_el (snd (one R m eas f s)) = put_own o (st_el (snd (one R m eas f b)))).
  Proof.
    intros [name f] [e sm] o [e' sm'] C N E. cbn [fst snd st_el] in *. subst e. unfold one. cbn [fst snd]. rewrite N. unfold note_line; cbn [st_el st_sm].
    rewrite (@child_read n ev f C). cbn [fst snd st_el]. 
    destruct (read_map_irrelevant n ev f eas [LKey name] e' (sset [LKey name] (e_line (put_own o e')) sm) (sset [LKey name] (e_line e') sm')) as [A B].
    split; auto. intros F. rewrite B; auto.
  Qed.

  Lemma own_one : forall f s a b, on_own (snd f) = true -> md_cval m (fst f) = None -> st_el s = put_own (own_of (st_el a)) (st_el b) ->
    (n <= 1 /\ fst (one R m eas f s) = Fuel) \/
    exists v, fst (one R m eas f s) = Ok v /\ fst (one R m eas f a) = Ok v /\
      st_el (snd (one R m eas f s)) = put_own (own_of (st_el (snd (one R m eas f a)))) (st_el b).
  Proof.
    intros [name f] [e sm] [e1 sm1] [e2 sm2] C N E. cbn [fst snd st_el] in *. subst e. unfold one. cbn [fst snd]. rewrite N. unfold note_line; cbn [st_el st_sm].
    assert (L : fst (R f eas [LKey name] (St (put_own (own_of e1) e2) (sset [LKey name] (e_line (put_own (own_of e1) e2)) sm))) = Fuel -> n <= 1).
    { destruct n as [|[|k]]; auto. destruct (@own_read k ev f C) as [h Hh]. rewrite (proj1 (Hh _ _ _)). discriminate. }
    destruct (@own_read 0 ev f C) as [h Hh].
    destruct (Hh eas [LKey name] (St (put_own (own_of e1) e2) (sset [LKey name] (e_line (put_own (own_of e1) e2)) sm))) as [H1 H2].
    destruct (H2 n ev) as [F|F]; [left; auto|right]. clear H2.
    destruct (Hh eas [LKey name] (St e1 (sset [LKey name] (e_line e1) sm1))) as [G1 G2]. clear Hh.
    assert (G : fst (R f eas [LKey name] (St e1 (sset [LKey name] (e_line e1) sm1))) <> Fuel).
    { intros G. assert (Q : n <= 1 -> False).
      { intros Q. rewrite H1 in F. destruct n as [|[|k]]; [discriminate F| |lia].
        destruct f; try discriminate C; cbn [read read_step] in F, G.
        - unfold read_text in G. destruct computed; [discriminate G|]. destruct (if nillable then _ else _) as [[] e3]; [discriminate G|]. discriminate G.
        - unfold read_attr in G. destruct computed; [discriminate G|]. destruct (pop_attrib _ _); discriminate G.
        - unfold read_attrs in G. destruct (as_computed a); [discriminate G|]. destruct (pop_attributes _) as [[d|] e3]; discriminate G.
        - unfold read_union_prim in F, G. destruct computed; [discriminate G|]. cbn [read] in F. discriminate F. }
      destruct n as [|[|k]]; [apply Q; lia|apply Q; lia|].
      destruct (@own_read k ev f C) as [h' Hh']. rewrite (proj1 (Hh' _ _ _)) in G. discriminate G. }
    destruct (G2 n ev) as [X|X]; [contradiction|]. rewrite F, X, H1, G1. cbn [fst snd st_el st_sm]. rewrite !own_put.
    eexists. split; [reflexivity|]. split; [reflexivity|]. rewrite put_put. reflexivity.
  Qed.

  Definition tidy_fields (fs : list (string * ser)) : Prop :=
    forall f, In f fs -> (on_own (snd f) = true \/ on_children (snd f) = true) /\ md_cval m (fst f) = None.

  Definition agree (s a b : st) : Prop := st_el s = put_own (own_of (st_el a)) (st_el b).
  Definition same_res := res_like (@eq val) same_verr.
  Definition merged (t to tc : list (string * result)) : Prop := exists tc1, Permutation t (to ++ tc1) /\ Forall2 same_res tc1 tc.

  Lemma merged_own : forall x t to tc, merged t to tc -> merged (x :: t) (x :: to) tc.
  Proof. intros x t to tc (tc1 & P & F). exists tc1. split; auto. simpl. constructor; auto. Qed.

  Lemma merged_child : forall x x' t to tc, same_res x x' -> merged t to tc -> merged (x :: t) to (x' :: tc).
  Proof. intros x x' t to tc H (tc1 & P & F). exists (x :: tc1). split; [|constructor; auto]. apply Permutation_cons_app. auto. Qed.

  Lemma run_apart : forall fs, tidy_fields fs -> forall s a b, agree s a b ->
    match run R m eas fs s with
    | (Ok t, s') => exists to a' tc b', run R m eas (owns fs) a = (Ok to, a') /\ run R m eas (kids fs) b = (Ok tc, b') /\ merged t to tc /\ agree s' a' b'
    | (Raise x, _) => (exists b', run R m eas (kids fs) b = (Raise x, b')) /\ forall e, x <> XValidation e
    | (Fuel, _) => True
    end.
  Proof.
    induction fs as [|f fs IH]; intros T s a b A.
    - simpl. exists [], a, [], b. repeat split; auto. exists []. split; constructor.
    - assert (T' : tidy_fields fs) by (intros g Ig; apply T; simpl; auto). specialize (IH T').
      destruct (T f (or_introl eq_refl)) as [C N]. unfold owns, kids in *. cbn [run filter]. destruct C as [C|C].
      + rewrite C, (@own_not_child _ C). cbn [run]. destruct (@own_one f s a b C N A) as [[_ F]|(v & O1 & O2 & E)].
        * destruct (one R m eas f s) as [o s1]. simpl in F. subst o. exact I.
        * destruct (one R m eas f s) as [o s1], (one R m eas f a) as [o' a1]. cbn [fst snd] in O1, O2, E. subst o o'. specialize (IH s1 a1 b E).
          destruct (run R m eas fs s1) as [[t|x|] s2]; cbn [obind]; auto.
          destruct IH as (to & a' & tc & b' & E1 & E2 & M & A'). rewrite E1. cbn [obind]. do 4 eexists. split; [reflexivity|]. split; [exact E2|]. split; [apply merged_own; auto|auto].
      + assert (C' : on_own (snd f) = false) by (destruct (on_own (snd f)) eqn:Q; auto; apply own_not_child in Q; congruence).
        rewrite C, C'. cbn [run]. destruct (@child_one f s (own_of (st_el a)) b C N A) as [O E].
        destruct (one R m eas f s) as [o s1], (one R m eas f b) as [o' b1]. cbn [fst snd] in O, E.
        destruct o as [v|x|], o' as [v'|x'|]; simpl in O; try contradiction; try (destruct x; contradiction); auto.
        * subst v'. specialize (IH s1 a b1 (E ltac:(discriminate))).
          destruct (run R m eas fs s1) as [[t|x|] s2]; cbn [obind]; auto.
          -- destruct IH as (to & a' & tc & b' & E1 & E2 & M & A'). rewrite E2. cbn [obind]. exists to, a', ((fst f, inl v) :: tc), b'. split; [exact E1|]. split; [reflexivity|].
             split; [|auto]. apply merged_child; auto. split; simpl; auto.
          -- destruct IH as [[b' E2] X]. rewrite E2. cbn [obind]. split; eauto.
        * destruct x, x'; try contradiction; try discriminate O; try (split; [injection O as <-; eauto|discriminate]); try (split; [eauto|discriminate]).
          specialize (IH s1 a b1 (E ltac:(discriminate))).
          destruct (run R m eas fs s1) as [[t|x|] s2]; cbn [obind]; auto.
          -- destruct IH as (to & a' & tc & b' & E1 & E2 & M & A'). rewrite E2. cbn [obind]. do 4 eexists. split; [exact E1|]. split; [reflexivity|].
             split; [|auto]. apply merged_child; auto. split; simpl; auto.
          -- destruct IH as [[b' E2] X]. rewrite E2. cbn [obind]. split; eauto.
  Qed.

  (** the converse, when the fuel is enough for the fields on the element itself *)
  Lemma run_together : 2 <= n -> forall fs, tidy_fields fs -> forall s a b, agree s a b ->
    match run R m eas (kids fs) b with
    | (Ok tc, b') => exists to a' t s', run R m eas (owns fs) a = (Ok to, a') /\ run R m eas fs s = (Ok t, s') /\ merged t to tc /\ agree s' a' b'
    | (Raise x, _) => exists s', run R m eas fs s = (Raise x, s')
    | (Fuel, _) => True
    end.
  Proof.
    intros L. induction fs as [|f fs IH]; intros T s a b A.
    - simpl. exists [], a, [], s. repeat split; auto. exists []. split; constructor.
    - assert (T' : tidy_fields fs) by (intros g Ig; apply T; simpl; auto). specialize (IH T').
      destruct (T f (or_introl eq_refl)) as [C N]. unfold owns, kids in *. cbn [run filter]. destruct C as [C|C].
      + rewrite C, (@own_not_child _ C). cbn [run]. destruct (@own_one f s a b C N A) as [[F _]|(v & O1 & O2 & E)]; [lia|].
        destruct (one R m eas f s) as [o s1], (one R m eas f a) as [o' a1]. cbn [fst snd] in O1, O2, E. subst o o'. specialize (IH s1 a1 b E).
        destruct (run R m eas (filter _ fs) b) as [[tc|x|] b2]; cbn [obind]; auto.
        * destruct IH as (to & a' & t & s' & E1 & E2 & M & A'). rewrite E1, E2. cbn [obind]. do 4 eexists. split; [reflexivity|]. split; [reflexivity|]. split; [apply merged_own; auto|auto].
        * destruct IH as [s' E2]. rewrite E2. cbn [obind]. eauto.
      + assert (C' : on_own (snd f) = false) by (destruct (on_own (snd f)) eqn:Q; auto; apply own_not_child in Q; congruence).
        rewrite C, C'. cbn [run]. destruct (@child_one f s (own_of (st_el a)) b C N A) as [O E].
        destruct (one R m eas f s) as [o s1], (one R m eas f b) as [o' b1]. cbn [fst snd] in O, E.
        destruct o as [v|x|], o' as [v'|x'|]; simpl in O; try contradiction; try (destruct x; contradiction); auto.
        * subst v'. specialize (IH s1 a b1 (E ltac:(discriminate))).
          destruct (run R m eas (filter _ fs) b1) as [[tc|x|] b2]; cbn [obind]; auto.
          -- destruct IH as (to & a' & t & s' & E1 & E2 & M & A'). rewrite E2. cbn [obind]. do 4 eexists. split; [exact E1|]. split; [reflexivity|].
             split; [|eauto]. apply merged_child; auto. split; simpl; auto.
          -- destruct IH as [s' E2]. rewrite E2. cbn [obind]. eauto.
        * destruct x, x'; try contradiction; try discriminate O; try (injection O as <-; eauto; fail); try (eauto; fail).
          specialize (IH s1 a b1 (E ltac:(discriminate))).
          destruct (run R m eas (filter _ fs) b1) as [[tc|x|] b2]; cbn [obind]; auto.
          -- destruct IH as (to & a' & t & s' & E1 & E2 & M & A'). rewrite E2. cbn [obind]. do 4 eexists. split; [exact E1|]. split; [reflexivity|].
             split; [|eauto]. apply merged_child; auto. split; simpl; auto.
          -- destruct IH as [s' E2]. rewrite E2. cbn [obind]. eauto.
  Qed.
End Apart.

(** ---- relations on errors ---- *)

Lemma perm_forall2 : forall A B (P : A -> B -> Prop) l l' k', Forall2 P l l' -> Permutation l' k' -> exists k, Permutation l k /\ Forall2 P k k'.
Proof.
  intros A B P l l' k' F H. revert l F. induction H as [|y l' k' H IH|y z l'|l1 l2 l3 H1 IH1 H2 IH2]; intros l F.
  - inv F. exists []. split; constructor.
  - inv F. match goal with X : Forall2 P _ l' |- _ => destruct (IH _ X) as (k & P1 & F1) end. eexists (_ :: k). split; constructor; eauto.
  - inv F. match goal with X : Forall2 P _ (_ :: _) |- _ => inv X end. eexists. split; [apply perm_swap|]. repeat constructor; auto.
  - destruct (IH1 _ F) as (k & P1 & F1). destruct (IH2 _ F1) as (k2 & P2 & F2). exists k2. split; auto. eapply Permutation_trans; eauto.
Qed.

Lemma forall2_comp : forall A B C (P : A -> B -> Prop) (Q : B -> C -> Prop) (S0 : A -> C -> Prop), (forall a b c, P a b -> Q b c -> S0 a c) ->
  forall l l' l'', Forall2 P l l' -> Forall2 Q l' l'' -> Forall2 S0 l l''.
Proof. intros A B C P Q S0 H l l' l'' F. revert l''. induction F; intros l'' G; inv G; constructor; eauto. Qed.

Lemma forall2_flip : forall A B (P : A -> B -> Prop) l l', Forall2 P l l' -> Forall2 (fun b a => P a b) l' l.
Proof. intros A B P l l' F. induction F; constructor; auto. Qed.

Lemma same_msg_sym : forall a b, same_msg a b -> same_msg b a.
Proof. intros a b H; induction H; constructor; auto. Qed.

Lemma same_msg_trans : forall a b, same_msg a b -> forall c, same_msg b c -> same_msg a c.
Proof. intros a b H; induction H; intros c G; inv G; constructor; auto. Qed.

Lemma same_then_moved : forall a b c, same_verr a b -> moved_error b c -> moved_error a c.
Proof.
  intros a b c (T & F & _) (T' & l & P & G). split; [congruence|]. destruct (perm_forall2 F P) as (k & P1 & F1). exists k. split; auto.
  eapply forall2_comp; [|exact F1|exact G]. intros x y z (A1 & A2 & A3 & _) (B1 & B2 & B3). repeat split; [congruence| |congruence]. eapply same_msg_trans; eauto.
Qed.

Lemma moved_then_same : forall a b c, moved_error a b -> same_verr c b -> moved_error a c.
Proof.
  intros a b c (T & l & P & F) (T' & G & _). split; [congruence|]. exists l. split; auto. apply forall2_flip in G.
  eapply forall2_comp; [|exact F|exact G]. intros x y z (A1 & A2 & A3) (B1 & B2 & B3 & _). repeat split; [congruence| |congruence]. eapply same_msg_trans; eauto. apply same_msg_sym; auto.
Qed.

Definition moved_res := res_like moved_val moved_error.

(** outcomes that agree up to order *)
Definition moved_trace (t t' : list (string * result)) : Prop := exists t1, Permutation t t1 /\ Forall2 moved_res t1 t'.

Lemma merged_moved : forall t to tc t' to' tc', merged t to tc -> merged t' to' tc' -> Forall2 moved_res to to' -> Forall2 moved_res tc tc' -> moved_trace t t'.
Proof.
  intros t to tc t' to' tc' (k & P & F) (k' & P' & F') O C.
  assert (X : Forall2 moved_res k k').
  { assert (Y : Forall2 moved_res k tc').
    { eapply forall2_comp; [|exact F|exact C]. intros [n1 r1] [n2 r2] [n3 r3] [A1 A2] [B1 B2]. cbn [fst snd] in *. split; [simpl; congruence|]. cbn [snd].
      destruct r1, r2, r3; try contradiction; [congruence|eapply same_then_moved; eauto]. }
    apply forall2_flip in F'. eapply forall2_comp; [|exact Y|exact F']. intros [n1 r1] [n2 r2] [n3 r3] [A1 A2] [B1 B2]. cbn [fst snd] in *. split; [simpl; congruence|]. cbn [snd].
    destruct r1, r2, r3; try contradiction; [congruence|eapply moved_then_same; eauto]. }
  destruct (@perm_forall2 _ _ moved_res (to ++ k) (to' ++ k') t') as (t1 & P1 & F1); [apply Forall2_app; auto|apply Permutation_sym; auto|].
  exists t1. split; auto. eapply Permutation_trans; eauto.
Qed.

Lemma moved_vals : forall m t t', moved_trace t t' -> moved_data (vals m t) (vals m t').
Proof.
  intros m t t' (t1 & P & F). exists (vals m t1). split; [apply Permutation_flat_map; auto|]. clear P.
  induction F as [|[n1 r1] [n2 r2] t1 t' [A1 A2] F IH]; simpl in *; [constructor|]. subst n2. apply Forall2_app; auto.
  destruct r1, r2; try contradiction; [|constructor]. assert (N : is_none v = is_none v0) by (inv A2; auto). rewrite <- N. destruct (is_none v); repeat constructor; auto.
Qed.

(** errors collected under the same keys, in any order *)
Lemma errors_moved : forall title hide hide' (es es1 es' : list (option locitem * verr)), Permutation es es1 ->
  Forall2 (fun a b => fst a = fst b /\ moved_error (snd a) (snd b)) es1 es' ->
  moved_error (into_validation_error title es hide) (into_validation_error title es' hide').
Proof.
  intros title hide hide' es es1 es' P F. split; auto. unfold into_validation_error. cbn [ve_lines].
  set (g := fun kv : option locitem * verr => map (fun l => LErr (le_type l) (le_msg l) (prefix_loc (fst kv) (le_loc l)) (le_input l)) (ve_lines (snd kv))).
  assert (X : exists l, Permutation (flat_map g es1) l /\ Forall2 moved_line l (flat_map g es')).
  { clear P. induction F as [|[k e] [k' e'] es1 es' [K (_ & l & P & F0)] F (l2 & P2 & F2)]; [exists []; split; constructor|]. simpl in K, P, F0. subst k'.
    exists (map (fun l => LErr (le_type l) (le_msg l) (prefix_loc k (le_loc l)) (le_input l)) l ++ l2). split.
    - cbn [flat_map]. apply Permutation_app; auto. unfold g. cbn [fst snd]. apply Permutation_map. auto.
    - cbn [flat_map]. apply Forall2_app; auto. unfold g. cbn [fst snd]. clear -F0. induction F0 as [|x y l l' (A & B & C) F0 IH]; simpl; constructor; auto.
      repeat split; simpl; auto. congruence. }
  destruct X as (l & P1 & F1). exists l. split; auto. eapply Permutation_trans; [|exact P1]. apply Permutation_flat_map. auto.
Qed.

Lemma moved_errs : forall t t' title hide hide', moved_trace t t' ->
  (errs t = [] <-> errs t' = []) /\
  moved_error (into_validation_error title (map (fun kv => (Some (LKey (fst kv)), snd kv)) (errs t)) hide)
              (into_validation_error title (map (fun kv => (Some (LKey (fst kv)), snd kv)) (errs t')) hide').
Proof.
  intros t t' title hide hide' (t1 & P & F).
  assert (P1 : Permutation (errs t) (errs t1)) by (apply Permutation_flat_map; auto).
  assert (F1 : Forall2 (fun a b : string * verr => fst a = fst b /\ moved_error (snd a) (snd b)) (errs t1) (errs t')).
  { clear P P1. induction F as [|[n1 r1] [n2 r2] t1 t' [A1 A2] F IH]; simpl in *; [constructor|]. subst n2. apply Forall2_app; auto.
    destruct r1, r2; try contradiction; constructor; auto. }
  split.
  - split; intros E; rewrite E in *.
    + apply Permutation_nil in P1. rewrite P1 in F1. inv F1. auto.
    + inv F1. match goal with X : [] = errs t1 |- _ => rewrite <- X in P1 end. apply Permutation_sym, Permutation_nil in P1. auto.
  - eapply errors_moved; [apply Permutation_map; exact P1|]. clear -F1. induction F1 as [|[k e] [k' e'] l l' [K M] F1 IH]; simpl in *; constructor; auto.
    simpl. split; auto. congruence.
Qed.
