(** PfSim.v -- two runs of from_xml side by side: a relation between elements that is respected by the
    primitive element operations is respected by reading, and the outcomes are related. *)

From Verif Require Import Base Elem Native Errs Names Ser Read Api SpecElem SpecRead SpecSim PfElem PfField.

Ltac inv H := inversion H; subst; clear H.

Lemma computed_reads_nothing : forall ev s, computed ev s -> forall n eas loc st0,
  read (S n) ev s eas loc st0 = (Ok VNone, st0).
Proof.
  intros ev s H n eas loc st0; destruct H; cbn [read read_step]; try reflexivity.
  - unfold read_attrs. rewrite H; auto.
  - unfold read_map_elem. rewrite H; auto.
  - unfold read_proxy. unfold known in H0. destruct (en_model ev (px_model p)); [|congruence]. rewrite H; auto.
Qed.

Lemma drops_le : forall ev m fs fs', drops_computed ev m fs fs' -> length fs' <= length fs.
Proof. intros ev m fs fs' H; induction H; simpl; lia. Qed.

Lemma drops_refl : forall ev m fs, drops_computed ev m fs fs.
Proof. intros ev m fs; induction fs as [|[k s] fs IH]; constructor; auto. Qed.

Section Sim.
  Variable E : elem -> elem -> Prop.
  Variable V : val -> val -> Prop.
  Variable ER : verr -> verr -> Prop.
  Variable SM : smap -> smap -> Prop.
  Variables ev1 ev2 : env.

  Hypothesis Esearch : forall e1 e2, E e1 e2 -> forall m tag behind step,
    fst (search m e1 tag behind step) = fst (search m e2 tag behind step) /\
    E (snd (search m e1 tag behind step)) (snd (search m e2 tag behind step)).
  Hypothesis Echild : forall e1 e2, E e1 e2 -> forall i,
    match nth_error (e_elems e1) i, nth_error (e_elems e2) i with
    | Some c1, Some c2 => E c1 c2 | None, None => True | _, _ => False
    end.
  Hypothesis Eput : forall e1 e2 c1 c2 i, E e1 e2 -> E c1 c2 -> E (put_child i c1 e1) (put_child i c2 e2).
  Hypothesis Etext : forall e1 e2, E e1 e2 ->
    (forall eas, text_or_default eas (e_text e1) = text_or_default eas (e_text e2)) /\
    E (set_text_o None e1) (set_text_o None e2).
  Hypothesis Eattr : forall e1 e2, E e1 e2 -> forall k, attr_of e1 k = attr_of e2 k /\
    E (snd (pop_attrib k e1)) (snd (pop_attrib k e2)).
  Hypothesis Eattrs : forall e1 e2, E e1 e2 -> forall a,
    (match e_attrib e1, e_attrib e2 with
     | Some d1, Some d2 => V (VDict (dict_of (map (fun kv => (attrs_key a (fst kv), VStr (snd kv))) d1)))
                             (VDict (dict_of (map (fun kv => (attrs_key a (fst kv), VStr (snd kv))) d2)))
     | None, None => True | _, _ => False end) /\
    E (set_attrib_o None e1) (set_attrib_o None e2).
  Hypothesis Estep : forall e1 e2, E e1 e2 -> E (step_forward e1) (step_forward e2).
  Hypothesis Esnap : forall e1 e2, E e1 e2 -> E (create_snapshot e1) (create_snapshot e2).
  Hypothesis Eapply : forall e1 e2 s1 s2, E e1 e2 -> E s1 s2 -> E (apply_snapshot e1 s1) (apply_snapshot e2 s2).
  Hypothesis Eextract : forall e1 e2, E e1 e2 ->
    (match to_native (en_backend ev1) (fst (extract e1)), to_native (en_backend ev2) (fst (extract e2)) with
     | Some n1, Some n2 => V (VRaw n1) (VRaw n2) | None, None => True | _, _ => False end) /\
    E (snd (extract e1)) (snd (extract e2)).
  Hypothesis Eextra : forall e1 e2, E e1 e2 -> forall title hide,
    match check_extra title e1 hide, check_extra title e2 hide with
    | Some r1, Some r2 => ER r1 r2 | None, None => True | _, _ => False end.

  Hypothesis SMnil : SM [] [].
  Hypothesis SMset : forall e1 e2 loc m1 m2, E e1 e2 -> SM m1 m2 -> SM (sset loc (e_line e1) m1) (sset loc (e_line e2) m2).

  Hypothesis Vstr : forall s, V (VStr s) (VStr s).
  Hypothesis Vnone : V VNone VNone.
  Hypothesis Vnone_inv : forall v1 v2, V v1 v2 -> is_none v1 = is_none v2.
  Hypothesis Vlist : forall l1 l2, Forall2 V l1 l2 -> V (VList l1) (VList l2).
  Hypothesis Vdict : forall d1 d2, Forall2 (fun a b : string * val => fst a = fst b /\ V (snd a) (snd b)) d1 d2 ->
    V (VDict d1) (VDict d2).

  Hypothesis ERtitle : forall a b, ER a b -> ve_title a = ve_title b.
  Hypothesis ERinto : forall title hide l1 l2,
    Forall2 (fun a b : option locitem * verr => fst a = fst b /\ ER (snd a) (snd b)) l1 l2 ->
    ER (into_validation_error title l1 hide) (into_validation_error title l2 hide).

  Definition orel (o1 o2 : out val) : Prop :=
    match o1, o2 with
    | Ok v1, Ok v2 => V v1 v2
    | Raise (XValidation a), Raise (XValidation b) => ER a b
    | Raise x, Raise y => x = y
    | Fuel, _ => True
    | _, _ => False
    end.

  Definition srel (s1 s2 : st) : Prop := E (st_el s1) (st_el s2) /\ SM (st_sm s1) (st_sm s2).

  (** fuel may run out in the first run only *)
  Definition sim (p1 p2 : rres val) : Prop :=
    fst p1 = Fuel \/ (orel (fst p1) (fst p2) /\ srel (snd p1) (snd p2)).

  Definition vrel (o1 o2 : option val) : Prop :=
    match o1, o2 with Some v1, Some v2 => V v1 v2 | None, None => True | _, _ => False end.

  Definition crel (f1 f2 : elem -> out val * elem) : Prop :=
    forall e1 e2, E e1 e2 -> fst (f1 e1) = Fuel \/ (orel (fst (f1 e1)) (fst (f2 e2)) /\ E (snd (f1 e1)) (snd (f2 e2))).

  Record mrel (m1 m2 : mdef) : Prop := {
    mr_name : md_name m1 = md_name m2;
    mr_root : md_root m1 = md_root m2;
    mr_valias : md_valias m1 = md_valias m2;
    mr_hide : md_hide m1 = md_hide m2;
    mr_forbid : md_forbid m1 = md_forbid m2;
    mr_fields : drops_computed ev1 m1 (md_fields m1) (md_fields m2);
    mr_same : md_fields m1 = md_fields m2 \/ forall sm1 sm2, SM sm1 sm2;
    mr_root_fields : md_root m1 = true -> md_fields m1 = md_fields m2;
    mr_cval : forall name, match md_cval m1 name, md_cval m2 name with
                           | Some f1, Some f2 => crel f1 f2 | None, None => True | _, _ => False end;
    mr_validate : forall i1 i2, vrel i1 i2 ->
      match md_validate m1 i1, md_validate m2 i2 with
      | Valid v1, Valid v2 => V v1 v2
      | Invalid x1, Invalid x2 => forall sm1 sm2, SM sm1 sm2 -> ER (set_validation_error_sourceline x1 sm1 (md_hide m1))
                                             (set_validation_error_sourceline x2 sm2 (md_hide m2))
      | Crashed w1, Crashed w2 => w1 = w2
      | _, _ => False
      end
  }.

  Hypothesis Hev : forall cls, match en_model ev1 cls, en_model ev2 cls with
    | Some m1, Some m2 => mrel m1 m2 | None, None => True | _, _ => False end.

  Definition rsim (r1 r2 : reader) : Prop :=
    forall eas loc s1 s2, srel s1 s2 -> sim (r1 eas loc s1) (r2 eas loc s2).

  Lemma sim_ok : forall v1 v2 s1 s2, V v1 v2 -> srel s1 s2 -> sim (Ok v1, s1) (Ok v2, s2).
  Proof. intros; right; simpl; auto. Qed.

  Lemma sim_exn : forall x s1 s2, (forall e, x <> XValidation e) -> srel s1 s2 -> sim (Raise x, s1) (Raise x, s2).
  Proof. intros x s1 s2 H Sr; right; simpl; split; auto. destruct x; auto. exfalso; eapply H; eauto. Qed.

  Lemma sim_err : forall a b s1 s2, ER a b -> srel s1 s2 -> sim (Raise (XValidation a), s1) (Raise (XValidation b), s2).
  Proof. intros; right; simpl; auto. Qed.

  Lemma srel_el : forall s1 s2, srel s1 s2 -> E (st_el s1) (st_el s2).
  Proof. intros s1 s2 H; apply H. Qed.

  Lemma srel_set : forall e1 e2 s1 s2, E e1 e2 -> srel s1 s2 -> srel (set_el e1 s1) (set_el e2 s2).
  Proof. intros e1 e2 s1 s2 H [H1 H2]; split; auto. Qed.

  Lemma srel_st : forall e1 e2 s1 s2, E e1 e2 -> srel s1 s2 -> srel (St e1 (st_sm s1)) (St e2 (st_sm s2)).
  Proof. intros e1 e2 s1 s2 H [H1 H2]; split; auto. Qed.

  Lemma srel_note : forall loc s1 s2, srel s1 s2 -> srel (note_line loc s1) (note_line loc s2).
  Proof. intros loc s1 s2 [H1 H2]; split; simpl; auto. Qed.

  Hint Resolve srel_el srel_set srel_st srel_note : core.

  Lemma on_child_sim : forall i (f1 f2 : st -> rres val) s1 s2, srel s1 s2 ->
    (forall c1 c2, srel c1 c2 -> sim (f1 c1) (f2 c2)) -> sim (on_child i f1 s1) (on_child i f2 s2).
  Proof.
    intros i f1 f2 s1 s2 Sr H; unfold on_child. pose proof (Echild (srel_el Sr) i) as C.
    destruct (nth_error (e_elems (st_el s1)) i) as [c1|], (nth_error (e_elems (st_el s2)) i) as [c2|]; try contradiction.
    - specialize (H (St c1 (st_sm s1)) (St c2 (st_sm s2)) (srel_st C Sr)).
      destruct (f1 _) as [o1 t1], (f2 _) as [o2 t2]. destruct H as [H|[H1 H2]]; simpl in *; [left; auto|].
      right; simpl; split; auto.
    - apply sim_exn; [discriminate|auto].
  Qed.

  Lemma with_found_sim : forall tag m (f1 f2 : st -> rres val) s1 s2, srel s1 s2 ->
    (forall c1 c2, srel c1 c2 -> sim (f1 c1) (f2 c2)) ->
    sim (with_found (pop_element (st_el s1) tag m) f1 s1) (with_found (pop_element (st_el s2) tag m) f2 s2).
  Proof.
    intros tag m f1 f2 s1 s2 Sr H. unfold pop_element. destruct (Esearch (srel_el Sr) m tag false true) as [R Es].
    destruct (search m (st_el s1) tag false true) as [r1 e1], (search m (st_el s2) tag false true) as [r2 e2]. simpl in *. subst r2.
    destruct r1 as [|i|]; simpl.
    - apply sim_ok; auto.
    - apply on_child_sim; auto.
    - apply sim_exn; [discriminate|auto].
  Qed.

  Lemma nill_rel2 : forall e1 e2, E e1 e2 -> fst (is_element_nill e1) = fst (is_element_nill e2) /\
    E (snd (is_element_nill e1)) (snd (is_element_nill e2)).
  Proof.
    intros e1 e2 H. destruct (Eattr H xsi_nil) as [A Ea]. unfold is_element_nill, pop_attrib, attr_of in *.
    destruct (e_attrib e1) as [d1|], (e_attrib e2) as [d2|]; simpl in *;
      repeat match goal with |- context[dget ?k ?d] => destruct (dget k d) end; simpl in *; try discriminate; auto;
      try (injection A as ->; auto).
  Qed.

  Lemma pop_attrib_rel : forall e1 e2 k, E e1 e2 -> fst (pop_attrib k e1) = fst (pop_attrib k e2) /\
    E (snd (pop_attrib k e1)) (snd (pop_attrib k e2)).
  Proof.
    intros e1 e2 k H. destruct (Eattr H k) as [A Ea]. split; auto. unfold pop_attrib, attr_of in *.
    destruct (e_attrib e1) as [d1|], (e_attrib e2) as [d2|]; simpl in *;
      repeat match goal with |- context[dget ?k ?d] => destruct (dget k d) end; simpl in *; try discriminate; auto.
  Qed.

  Lemma Vstr_or_none : forall o, V (str_or_none o) (str_or_none o).
  Proof. intros [s|]; simpl; auto. Qed.

  Lemma Vtext : forall eas o, V (text_or_default eas o) (text_or_default eas o).
  Proof. intros eas o; unfold text_or_default. destruct (str_truthy o); [apply Vstr_or_none|destruct eas; auto]. Qed.

  Lemma read_text_sim : forall c n, rsim (read_text c n) (read_text c n).
  Proof.
    intros c n eas loc s1 s2 Sr; unfold read_text. destruct c; [apply sim_ok; auto|].
    assert (X : forall e1 e2, E e1 e2 -> sim (let (t, e2) := pop_text e1 in (Ok (text_or_default eas t), set_el e2 s1))
                                          (let (t, e2) := pop_text e2 in (Ok (text_or_default eas t), set_el e2 s2))).
    { intros e1 e2 He. unfold pop_text. destruct (Etext He) as [T Et]. rewrite T. apply sim_ok; [apply Vtext|auto]. }
    destruct n; simpl; [|apply X; auto].
    destruct (nill_rel2 (srel_el Sr)) as [N En]. destruct (is_element_nill (st_el s1)) as [b1 e1], (is_element_nill (st_el s2)) as [b2 e2].
    simpl in *. subst b2. destruct b1; [apply sim_ok; auto|apply X; auto].
  Qed.

  Lemma read_attr_sim : forall k c, rsim (read_attr k c) (read_attr k c).
  Proof.
    intros k c eas loc s1 s2 Sr; unfold read_attr. destruct c; [apply sim_ok; auto|].
    destruct (pop_attrib_rel k (srel_el Sr)) as [P Ep]. destruct (pop_attrib k (st_el s1)) as [v1 e1], (pop_attrib k (st_el s2)) as [v2 e2].
    simpl in *. subst v2. apply sim_ok; [apply Vstr_or_none|auto].
  Qed.

  Lemma read_attrs_sim : forall a, rsim (read_attrs a) (read_attrs a).
  Proof.
    intros a eas loc s1 s2 Sr; unfold read_attrs. destruct (as_computed a); [apply sim_ok; auto|].
    destruct (Eattrs (srel_el Sr) a) as [A Ea]. unfold pop_attributes.
    destruct (e_attrib (st_el s1)) as [d1|], (e_attrib (st_el s2)) as [d2|]; try contradiction; apply sim_ok; auto.
  Qed.

  Lemma note_srel : forall loc s1 s2, srel s1 s2 -> srel (note_line loc s1) (note_line loc s2).
  Proof. auto. Qed.

  Definition errs_rel (l1 l2 : list (option locitem * verr)) : Prop :=
    Forall2 (fun a b : option locitem * verr => fst a = fst b /\ ER (snd a) (snd b)) l1 l2.

  Lemma errs_rel_app : forall l1 l2 k a b, errs_rel l1 l2 -> ER a b -> errs_rel (l1 ++ [(k, a)]) (l2 ++ [(k, b)]).
  Proof. intros l1 l2 k a b H1 H2; apply Forall2_app; [exact H1|]. constructor; [simpl; auto|constructor]. Qed.

  Lemma V_none_cases : forall v1 v2, V v1 v2 -> (v1 = VNone /\ v2 = VNone) \/ (is_none v1 = false /\ is_none v2 = false).
  Proof.
    intros v1 v2 H. pose proof (Vnone_inv H) as N. destruct v1; simpl in N; try (right; split; auto; congruence).
    left. destruct v2; simpl in N; try discriminate; auto.
  Qed.

  Lemma read_items_sim : forall r1 r2, rsim r1 r2 -> forall k title hide eas loc idx res1 res2 errs1 errs2 s1 s2,
    Forall2 V res1 res2 -> errs_rel errs1 errs2 -> srel s1 s2 ->
    sim (read_items k r1 title hide eas loc idx res1 errs1 s1) (read_items k r2 title hide eas loc idx res2 errs2 s2).
  Proof.
    intros r1 r2 Hr k; induction k as [|k IH]; intros title hide eas loc idx res1 res2 errs1 errs2 s1 s2 Hv He Sr; cbn [read_items].
    - left; auto.
    - specialize (Hr eas (loc ++ [LIdx idx]) s1 s2 Sr).
      destruct (r1 eas (loc ++ [LIdx idx]) s1) as [o1 t1], (r2 eas (loc ++ [LIdx idx]) s2) as [o2 t2].
      destruct Hr as [Hr|[O Es]]; simpl in *; [subst; left; auto|].
      destruct o1 as [v1|x1|]; destruct o2 as [v2|x2|]; simpl in O; try contradiction; try (destruct x1; contradiction).
      + destruct (V_none_cases O) as [[-> ->]|[N1 N2]].
        * inv He; [inv Hv; apply sim_ok; auto|apply sim_err; auto].
        * assert (X : sim (read_items k r1 title hide eas loc (S idx) (res1 ++ [v1]) errs1 t1)
                          (read_items k r2 title hide eas loc (S idx) (res2 ++ [v2]) errs2 t2)).
          { apply IH; auto. apply Forall2_app; auto. }
          destruct v1; try discriminate; destruct v2; try discriminate; exact X.
      + destruct x1; destruct x2; try contradiction; try discriminate; try (injection O as ->); try (apply sim_exn; [discriminate|exact Es]).
        apply IH; auto. apply errs_rel_app; auto.
      + left; auto.
      + left; auto.
      + left; auto.
  Qed.

  Lemma forallb_none : forall l1 l2, Forall2 V l1 l2 -> forallb is_none l1 = forallb is_none l2.
  Proof. intros l1 l2 H; induction H; simpl; auto. rewrite (Vnone_inv H), IHForall2; auto. Qed.

  Lemma read_tuple_sim : forall rs1 rs2, Forall2 rsim rs1 rs2 -> forall title hide eas loc idx res1 res2 errs1 errs2 s1 s2,
    Forall2 V res1 res2 -> errs_rel errs1 errs2 -> srel s1 s2 ->
    sim (read_tuple rs1 title hide eas loc idx res1 errs1 s1) (read_tuple rs2 title hide eas loc idx res2 errs2 s2).
  Proof.
    intros rs1 rs2 H; induction H as [|r1 r2 rs1 rs2 Hr H IH]; intros title hide eas loc idx res1 res2 errs1 errs2 s1 s2 Hv He Sr; cbn [read_tuple].
    - inv He; [|apply sim_err; auto]. rewrite (forallb_none Hv). apply sim_ok; auto.
      destruct (forallb is_none res2); auto.
    - specialize (Hr eas (loc ++ [LIdx idx]) s1 s2 Sr).
      destruct (r1 eas (loc ++ [LIdx idx]) s1) as [o1 t1], (r2 eas (loc ++ [LIdx idx]) s2) as [o2 t2].
      destruct Hr as [Hr|[O Es]]; simpl in *; [subst; left; auto|].
      destruct o1 as [v1|x1|]; destruct o2 as [v2|x2|]; simpl in O; try contradiction; try (destruct x1; contradiction); try (left; reflexivity).
      + apply IH; auto. apply Forall2_app; auto.
      + destruct x1; destruct x2; try contradiction; try discriminate; try (injection O as ->); try (apply sim_exn; [discriminate|exact Es]).
        apply IH; auto. apply errs_rel_app; auto.
  Qed.

  Definition derrs_rel (l1 l2 : dict verr) : Prop :=
    Forall2 (fun a b : string * verr => fst a = fst b /\ ER (snd a) (snd b)) l1 l2.

  Lemma derrs_set : forall k a b l1 l2, derrs_rel l1 l2 -> ER a b -> derrs_rel (dset k a l1) (dset k b l2).
  Proof.
    intros k a b l1 l2 H Hab; induction H as [|[k1 x1] [k2 x2] l1 l2 [Hk Hx] H IH]; simpl in *.
    - constructor; [simpl; auto|constructor].
    - subst k2. destruct (String.eqb k k1); constructor; auto.
  Qed.

  Lemma derrs_into : forall l1 l2, derrs_rel l1 l2 ->
    errs_rel (map (fun kv : string * verr => (Some (LKey (fst kv)), snd kv)) l1) (map (fun kv => (Some (LKey (fst kv)), snd kv)) l2).
  Proof. intros l1 l2 H; induction H as [|[k1 x1] [k2 x2] l1 l2 [Hk Hx] H IH]; simpl in *; constructor; auto. simpl. subst; auto. Qed.

  Lemma read_variants_sim : forall rs1 rs2, Forall2 rsim rs1 rs2 -> forall title hide eas loc errs1 errs2 s1 s2,
    derrs_rel errs1 errs2 -> srel s1 s2 ->
    sim (read_variants rs1 title hide eas loc errs1 s1) (read_variants rs2 title hide eas loc errs2 s2).
  Proof.
    intros rs1 rs2 H; induction H as [|r1 r2 rs1 rs2 Hr H IH]; intros title hide eas loc errs1 errs2 s1 s2 He Sr; cbn [read_variants].
    - pose proof (derrs_into He) as Hi. inv He; [apply sim_ok; auto|]. apply sim_err; [apply ERinto; exact Hi|]. apply srel_set; auto.
    - specialize (Hr eas loc (set_el (create_snapshot (st_el s1)) s1) (set_el (create_snapshot (st_el s2)) s2) (srel_set (Esnap (srel_el Sr)) Sr)).
      destruct (r1 eas loc _) as [o1 t1], (r2 eas loc _) as [o2 t2].
      destruct Hr as [Hr|[O Es]]; simpl in *; [subst; left; auto|].
      destruct o1 as [v1|x1|]; destruct o2 as [v2|x2|]; simpl in O; try contradiction; try (destruct x1; contradiction); try (left; reflexivity).
      + destruct (V_none_cases O) as [[-> ->]|[N1 N2]].
        * apply IH; auto.
        * assert (X : sim (Ok v1, St (apply_snapshot (st_el s1) (st_el t1)) (st_sm t1)) (Ok v2, St (apply_snapshot (st_el s2) (st_el t2)) (st_sm t2))).
          { apply sim_ok; auto. }
          destruct v1; try discriminate; destruct v2; try discriminate; exact X.
      + destruct x1; destruct x2; try contradiction; try discriminate; try (injection O as ->); try (apply sim_exn; [discriminate|auto]).
        apply IH; auto. rewrite (ERtitle O). apply derrs_set; auto.
  Qed.

  Lemma get_attrib_rel : forall e1 e2 k, E e1 e2 -> get_attrib k e1 = get_attrib k e2.
  Proof. intros e1 e2 k H. apply (Eattr H k). Qed.

  Lemma read_tagged_sim : forall rp1 rp2, (forall p, rsim (rp1 p) (rp2 p)) -> forall a mode vs eas loc s1 s2, srel s1 s2 ->
    sim (read_tagged rp1 a mode vs eas loc s1) (read_tagged rp2 a mode vs eas loc s2).
  Proof.
    intros rp1 rp2 H a mode vs eas loc; induction vs as [|[tag p] vs IH]; intros s1 s2 Sr; cbn [read_tagged]; [apply sim_ok; auto|].
    unfold find_element. destruct (Esearch (srel_el Sr) mode (px_name p) false false) as [R Es].
    destruct (search mode (st_el s1) (px_name p) false false) as [q1 e1], (search mode (st_el s2) (px_name p) false false) as [q2 e2].
    simpl in *. subst q2. destruct q1 as [|i|].
    - apply IH; auto.
    - pose proof (Echild Es i) as C. destruct (nth_error (e_elems e1) i) as [c1|], (nth_error (e_elems e2) i) as [c2|]; try contradiction.
      + rewrite (get_attrib_rel a C). destruct (match get_attrib a c2 with Some t => String.eqb t tag | None => false end).
        * apply H. split; simpl; auto. apply SMset; [exact C|apply Sr].
        * apply IH; auto.
      + apply sim_exn; [discriminate|auto].
    - apply sim_exn; [discriminate|auto].
  Qed.

  Lemma on_path_sim : forall path (f1 f2 : st -> rres val), (forall c1 c2, srel c1 c2 -> sim (f1 c1) (f2 c2)) -> forall s1 s2, srel s1 s2 ->
    sim (on_path path f1 s1) (on_path path f2 s2).
  Proof. intros path f1 f2 H; induction path as [|i path IH]; intros s1 s2 Sr; cbn [on_path]; auto. apply on_child_sim; auto. Qed.

  Lemma find_sub_sim : forall path m e1 e2, E e1 e2 -> fst (find_sub_element path m e1) = fst (find_sub_element path m e2) /\
    E (snd (find_sub_element path m e1)) (snd (find_sub_element path m e2)).
  Proof.
    intros path m; induction path as [|tag rest IH]; intros e1 e2 H; cbn [find_sub_element]; auto.
    unfold find_element. destruct (Esearch H m tag true true) as [R Es].
    destruct (search m e1 tag true true) as [q1 t1], (search m e2 tag true true) as [q2 t2]. simpl in *. subst q2.
    destruct q1 as [|i|]; auto. destruct rest as [|r rest']; auto.
    pose proof (Echild Es i) as C. destruct (nth_error (e_elems t1) i) as [c1|], (nth_error (e_elems t2) i) as [c2|]; try contradiction; auto.
    destruct (IH c1 c2 C) as [F Ef]. destruct (find_sub_element (r :: rest') m c1) as [o1 d1], (find_sub_element (r :: rest') m c2) as [o2 d2].
    simpl in *. subst o2. split; auto.
  Qed.

  Lemma read_wrap_sim : forall path mode c r1 r2, rsim r1 r2 -> rsim (read_wrap path mode c r1) (read_wrap path mode c r2).
  Proof.
    intros path mode c r1 r2 H eas loc s1 s2 Sr; unfold read_wrap. destruct c; [apply sim_ok; auto|].
    destruct (find_sub_sim path mode (srel_el Sr)) as [F Ef].
    destruct (find_sub_element path mode (st_el s1)) as [o1 e1], (find_sub_element path mode (st_el s2)) as [o2 e2]. simpl in *. subst o2.
    destruct o1 as [idxs|]; [|apply sim_exn; [discriminate|auto]]. destruct (_ && _); [|apply sim_ok; auto].
    apply on_path_sim; auto.
  Qed.

  Lemma read_raw_sim : forall name mode c, rsim (read_raw (en_backend ev1) name mode c) (read_raw (en_backend ev2) name mode c).
  Proof.
    intros name mode c eas loc s1 s2 Sr; unfold read_raw. destruct c; [apply sim_ok; auto|].
    apply with_found_sim; auto. intros c1 c2 C. destruct (Eextract (srel_el C)) as [X Ex].
    destruct (extract (st_el c1)) as [f1 d1], (extract (st_el c2)) as [f2 d2]. simpl in *.
    assert (Y : srel (St d1 (sset loc (e_line (st_el c1)) (st_sm c1))) (St d2 (sset loc (e_line (st_el c2)) (st_sm c2)))).
    { split; simpl; auto. apply SMset; apply C. }
    destruct (to_native (en_backend ev1) f1), (to_native (en_backend ev2) f2); try contradiction.
    - apply sim_ok; auto.
    - apply sim_exn; [discriminate|auto].
  Qed.

  Lemma validate_sim : forall m1 m2, mrel m1 m2 -> forall i1 i2 s1 s2, vrel i1 i2 -> srel s1 s2 ->
    orel (validate_result m1 i1 s1) (validate_result m2 i2 s2).
  Proof.
    intros m1 m2 M i1 i2 s1 s2 I Sr; unfold validate_result. rewrite (mr_forbid M), (mr_name M), (mr_hide M).
    pose proof (Eextra (srel_el Sr) (md_name m2) (md_hide m2)) as X.
    assert (Y : orel match md_validate m1 i1 with
                     | Valid v => Ok v
                     | Invalid err => Raise (XValidation (set_validation_error_sourceline err (st_sm s1) (md_hide m2)))
                     | Crashed w => Raise (XUser w)
                     end
                     match md_validate m2 i2 with
                     | Valid v => Ok v
                     | Invalid err => Raise (XValidation (set_validation_error_sourceline err (st_sm s2) (md_hide m2)))
                     | Crashed w => Raise (XUser w)
                     end).
    { pose proof (mr_validate M i1 i2 I) as Vd. destruct (md_validate m1 i1), (md_validate m2 i2); try contradiction; auto; [|subst; simpl; auto].
      simpl. specialize (Vd (st_sm s1) (st_sm s2) ltac:(apply Sr)). rewrite (mr_hide M) in Vd. auto. }
    destruct (md_forbid m2); auto.
    destruct (check_extra (md_name m2) (st_el s1) (md_hide m2)), (check_extra (md_name m2) (st_el s2) (md_hide m2)); try contradiction; auto.
  Qed.

  Definition vals_rel (l1 l2 : list (string * val)) : Prop :=
    Forall2 (fun a b : string * val => fst a = fst b /\ V (snd a) (snd b)) l1 l2.

  Lemma vals_set : forall k a b l1 l2, vals_rel l1 l2 -> V a b -> vals_rel (dset k a l1) (dset k b l2).
  Proof.
    intros k a b l1 l2 H Hab; induction H as [|[k1 x1] [k2 x2] l1 l2 [Hk Hx] H IH]; simpl in *.
    - constructor; [simpl; auto|constructor].
    - subst k2. destruct (String.eqb k k1); constructor; auto.
  Qed.

  Definition fsim (p1 p2 : rres (list (string * val) * dict verr)) : Prop :=
    fst p1 = Fuel \/
    (match fst p1, fst p2 with
     | Ok (v1, x1), Ok (v2, x2) => vals_rel v1 v2 /\ derrs_rel x1 x2
     | Raise x, Raise y => x = y /\ forall e, x <> XValidation e
     | _, _ => False
     end /\ srel (snd p1) (snd p2)).

  Lemma read_fields_sim : forall n m1 m2, mrel m1 m2 ->
    (forall s, rsim (read n ev1 s) (read n ev2 s)) ->
    forall fs1 fs2, drops_computed ev1 m1 fs1 fs2 -> fs1 = fs2 \/ (forall sm1 sm2, SM sm1 sm2) -> forall eas res1 res2 errs1 errs2 s1 s2,
    vals_rel res1 res2 -> derrs_rel errs1 errs2 -> srel s1 s2 ->
    fsim (read_fields (read n ev1) m1 fs1 eas res1 errs1 s1) (read_fields (read n ev2) m2 fs2 eas res2 errs2 s2).
  Proof.
    intros n m1 m2 M Hr fs1 fs2 D; induction D as [|name s fs1 fs2 D IH|name s fs1 fs2 C Cv D IH]; intros Sm eas res1 res2 errs1 errs2 s1 s2 Hv He Sr; cbn [read_fields].
    - right; simpl; auto.
    - assert (X : sim (match md_cval m1 name with
                       | Some custom => run_custom custom (note_line [LKey name] s1)
                       | None => read n ev1 s eas [LKey name] (note_line [LKey name] s1) end)
                      (match md_cval m2 name with
                       | Some custom => run_custom custom (note_line [LKey name] s2)
                       | None => read n ev2 s eas [LKey name] (note_line [LKey name] s2) end)).
      { clear IH. pose proof (mr_cval M name) as Cv. destruct (md_cval m1 name) as [f1|], (md_cval m2 name) as [f2|]; try contradiction.
        - unfold run_custom. simpl. specialize (Cv _ _ (srel_el Sr)). destruct (f1 (st_el s1)) as [o1 e1], (f2 (st_el s2)) as [o2 e2].
          destruct Cv as [Cv|[C1 C2]]; simpl in *; [left; auto|right; simpl; split; auto].
        - apply Hr; auto. }
      assert (Sm' : fs1 = fs2 \/ (forall sm1 sm2, SM sm1 sm2)) by (destruct Sm as [Sm|Sm]; [left; congruence|right; exact Sm]).
      specialize (IH Sm').
      destruct (match md_cval m1 name with Some _ => _ | None => _ end) as [o1 t1].
      destruct (match md_cval m2 name with Some _ => _ | None => _ end) as [o2 t2].
      destruct X as [X|[O Es]]; simpl in *; [subst; left; auto|].
      destruct o1 as [v1|x1|]; destruct o2 as [v2|x2|]; simpl in O; try contradiction; try (destruct x1; contradiction); try (left; reflexivity).
      + destruct (V_none_cases O) as [[-> ->]|[N1 N2]].
        * apply IH; auto.
        * rewrite (mr_valias M).
          assert (Y : let key := match dget name (md_valias m2) with Some a => a | None => name end in
             fsim (read_fields (read n ev1) m1 fs1 eas (dset key v1 res1) errs1 t1) (read_fields (read n ev2) m2 fs2 eas (dset key v2 res2) errs2 t2)).
          { simpl. apply IH; auto. apply vals_set; auto. }
          destruct v1; try discriminate; destruct v2; try discriminate; exact Y.
      + destruct x1; destruct x2; try contradiction; try discriminate; try (injection O as ->); try (right; simpl; split; [split; [auto|discriminate]|auto]).
        apply IH; auto. apply derrs_set; auto.
    - rewrite Cv. destruct n as [|n]; [left; reflexivity|]. rewrite (computed_reads_nothing C).
      destruct Sm as [Sm|Sm]; [exfalso; apply drops_le in D; rewrite <- Sm in D; simpl in D; lia|].
      apply IH; auto. split; [apply Sr|apply Sm].
  Qed.

  Lemma read_model_sim : forall n m1 m2, mrel m1 m2 ->
    (forall s, rsim (read n ev1 s) (read n ev2 s)) ->
    rsim (read_model (read n ev1) m1) (read_model (read n ev2) m2).
  Proof.
    intros n m1 m2 M Hr eas loc s1 s2 Sr; unfold read_model. rewrite <- (mr_root M). destruct (md_root m1) eqn:R.
    - unfold read_root_model. rewrite <- (mr_root_fields M R). destruct (md_fields m1) as [|[nm s] fs].
      + apply sim_exn; [discriminate|auto].
      + specialize (Hr s eas loc s1 s2 Sr). destruct (read n ev1 s eas loc s1) as [o1 t1], (read n ev2 s eas loc s2) as [o2 t2].
        destruct Hr as [Hr|[O Es]]; simpl in *; [subst; left; auto|].
        destruct o1 as [v1|x1|]; destruct o2 as [v2|x2|]; simpl in O; try contradiction; try (destruct x1; contradiction); try (left; reflexivity).
        * right; simpl. split; auto. apply validate_sim; auto. rewrite (Vnone_inv O). destruct (is_none v2); simpl; auto.
        * destruct x1; destruct x2; try contradiction; try discriminate; try (injection O as ->); try (apply sim_exn; [discriminate|exact Es]).
          rewrite (mr_name M), (mr_hide M). apply sim_err; auto.
    - unfold read_plain_model.
      pose proof (@read_fields_sim n m1 m2 M Hr _ _ (mr_fields M) (mr_same M) eas [] [] [] [] s1 s2 ltac:(constructor) ltac:(constructor) Sr) as F.
      destruct (read_fields (read n ev1) m1 (md_fields m1) eas [] [] s1) as [o1 t1].
      destruct (read_fields (read n ev2) m2 (md_fields m2) eas [] [] s2) as [o2 t2].
      destruct F as [F|[O Es]]; simpl in *; [subst; left; auto|].
      destruct o1 as [[v1 x1]|x1|]; destruct o2 as [[v2 x2]|x2|]; simpl in O; try contradiction; try (destruct x1; contradiction); try (left; reflexivity).
      + destruct O as [Ov Ox]. pose proof (derrs_into Ox) as Hi. inv Ox.
        * right; simpl. split; auto. apply validate_sim; auto. simpl. apply Vdict; auto.
        * rewrite (mr_name M), (mr_hide M). apply sim_err; auto.
      + destruct O as [<- Ox]. apply sim_exn; auto.
  Qed.

  Lemma read_proxy_sim : forall n, (forall s, rsim (read n ev1 s) (read n ev2 s)) ->
    forall p, rsim (read_proxy ev1 (read n ev1) p) (read_proxy ev2 (read n ev2) p).
  Proof.
    intros n Hr p eas loc s1 s2 Sr; unfold read_proxy. pose proof (Hev (px_model p)) as M.
    destruct (en_model ev1 (px_model p)) as [m1|], (en_model ev2 (px_model p)) as [m2|]; try contradiction.
    - destruct (px_computed p); [apply sim_ok; auto|]. apply with_found_sim; auto. intros c1 c2 C.
      simpl. destruct (nill_rel2 (srel_el C)) as [N En].
      destruct (is_element_nill (st_el c1)) as [b1 e1], (is_element_nill (st_el c2)) as [b2 e2]. simpl in *. subst b2.
      destruct b1; [apply sim_ok; auto|]. apply read_model_sim; auto.
    - apply sim_exn; [discriminate|auto].
  Qed.

  Lemma Forall2_map_same : forall A B C (R : B -> C -> Prop) (f : A -> B) (g : A -> C) l, (forall x, R (f x) (g x)) -> Forall2 R (map f l) (map g l).
  Proof. intros; induction l; simpl; constructor; auto. Qed.

  Lemma read_sim : forall n s, rsim (read n ev1 s) (read n ev2 s).
  Proof.
    intros n; induction n as [|n IH]; intros s eas loc s1 s2 Sr; [left; reflexivity|]. cbn [read]. destruct s; cbn [read_step].
    - apply read_text_sim; auto.
    - apply read_attr_sim; auto.
    - unfold read_elem. destruct computed; [apply sim_ok; auto|]. apply with_found_sim; auto.
      intros c1 c2 C. apply read_text_sim; auto.
    - apply read_attrs_sim; auto.
    - unfold read_map_elem. destruct (as_computed a); [apply sim_ok; auto|]. apply with_found_sim; auto.
      intros c1 c2 C. apply read_attrs_sim; auto.
    - unfold read_homo. destruct computed; [apply sim_ok; auto|]. apply read_items_sim; auto. constructor.
    - unfold read_hetero. destruct computed; [apply sim_ok; auto|]. apply read_tuple_sim; auto; [|constructor].
      apply Forall2_map_same; auto.
    - unfold read_union_prim. destruct computed; [apply sim_ok; auto|]. apply IH; auto.
    - unfold read_union_model. destruct computed; [apply sim_ok; auto|]. apply read_variants_sim; auto; [|constructor].
      apply Forall2_map_same. intros p. apply read_proxy_sim; auto.
    - destruct computed; [apply sim_ok; auto|]. apply read_tagged_sim; auto. intros p. apply read_proxy_sim; auto.
    - apply read_wrap_sim; auto.
    - apply read_raw_sim; auto.
    - apply read_proxy_sim; auto.
  Qed.

  Lemma from_xml_sim : forall n cls root1 root2 eas,
    (forall m1 m2, en_model ev1 cls = Some m1 -> en_model ev2 cls = Some m2 -> md_elem_name m1 = md_elem_name m2) ->
    native_tag root1 = native_tag root2 ->
    E (from_native (en_backend ev1) root1) (from_native (en_backend ev2) root2) ->
    from_xml_tree n ev1 cls root1 eas = Fuel \/ orel (from_xml_tree n ev1 cls root1 eas) (from_xml_tree n ev2 cls root2 eas).
  Proof.
    intros n cls root1 root2 eas Hn T He; unfold from_xml_tree. pose proof (Hev cls) as M.
    destruct (en_model ev1 cls) as [m1|] eqn:H1, (en_model ev2 cls) as [m2|] eqn:H2; try contradiction; [|right; reflexivity].
    rewrite T, (Hn m1 m2 eq_refl eq_refl). destruct (tag_is (native_tag root2) (md_elem_name m2)); [|right; reflexivity].
    pose proof (@read_model_sim n m1 m2 M (read_sim n) eas [] (St (from_native (en_backend ev1) root1) []) (St (from_native (en_backend ev2) root2) []) (conj He SMnil)) as X.
    destruct X as [X|[X _]]; auto.
  Qed.
End Sim.
