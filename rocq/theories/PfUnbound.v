(** PfUnbound.v -- get_unbound lists exactly the unbound data. *)

From Verif Require Import Base Elem SpecElem.

Lemma is_space_white : forall c, is_space c = white c.
Proof. destruct c as [[] [] [] [] [] [] [] []]; reflexivity. Qed.

Lemma blank_all_space : forall s, all_space s = true <-> blank s.
Proof.
  intros s; induction s as [|c s IH]; simpl; rewrite ?is_space_white; split; intros H; auto using blank.
  - apply andb_true_iff in H as [Hc Hs]. constructor; auto. apply IH; auto.
  - inversion H; subst. apply andb_true_iff; split; auto. apply IH; auto.
Qed.

Lemma blank_app : forall a b, blank a -> blank b -> blank (a ++ b).
Proof. intros a b Ha Hb; induction Ha; simpl; auto using blank. Qed.

Lemma blank_app_inv : forall a b, blank (a ++ b) -> blank a /\ blank b.
Proof.
  intros a; induction a as [|c a IH]; simpl; intros b H; auto using blank.
  inversion H; subst. destruct (IH b) as [Ha Hb]; auto. split; auto using blank.
Qed.

Lemma lstrip_spec : forall s, exists l, s = (l ++ lstrip s)%string /\ blank l /\
  (forall c u, lstrip s = String c u -> white c = false).
Proof.
  intros s; induction s as [|c s IH].
  - exists ""; simpl; repeat split; auto using blank; discriminate.
  - simpl. rewrite is_space_white. destruct (white c) eqn:Hc.
    + destruct IH as (l & Hs & Hl & Hf). exists (String c l); simpl.
      repeat split; auto using blank. rewrite <- Hs; auto.
    + exists ""; simpl; repeat split; auto using blank.
      intros c' u H; injection H as <- <-; auto.
Qed.

Lemma append_nil_r : forall s, (s ++ "")%string = s.
Proof. intros s; induction s; simpl; congruence. Qed.

Lemma append_assoc_s : forall a b c, ((a ++ b) ++ c = a ++ (b ++ c))%string.
Proof. intros a b c; induction a as [|x a IH]; simpl; congruence. Qed.

Lemma rstrip_spec : forall s, exists r, s = (rstrip s ++ r)%string /\ blank r /\
  (forall c u, rstrip s = (u ++ String c "")%string -> white c = false).
Proof.
  intros s; induction s as [|c s IH].
  - exists ""; simpl; repeat split; auto using blank. intros c [|? ?]; discriminate.
  - cbn [rstrip]. destruct (all_space (String c s)) eqn:Ha.
    + exists (String c s); simpl; repeat split; auto.
      * apply blank_all_space; auto.
      * intros c' [|? ?]; discriminate.
    + destruct IH as (r & Hs & Hr & Hl). exists r; simpl; repeat split; auto.
      * rewrite <- Hs; auto.
      * intros c' [|d u] H; simpl in H.
        -- injection H as <- Hn. rewrite Hn in Hs; simpl in Hs. subst s.
           simpl in Ha. apply blank_all_space in Hr. rewrite is_space_white, Hr, andb_true_r in Ha. auto.
        -- injection H as <- Hn. eapply Hl; eauto.
Qed.

Lemma rstrip_head : forall c s, white c = false -> exists t, rstrip (String c s) = String c t.
Proof. intros c s H; simpl. rewrite is_space_white, H; simpl. eauto. Qed.

Lemma py_strip_trimmed : forall s, trimmed s (py_strip s).
Proof.
  intros s; unfold trimmed, py_strip.
  destruct (lstrip_spec s) as (l & Hs & Hl & Hf).
  destruct (rstrip_spec (lstrip s)) as (r & Hs' & Hr & Hl').
  exists l, r; repeat split; auto.
  - rewrite <- Hs'; auto.
  - intros c u Hc. destruct (lstrip s) as [|c0 t] eqn:E; [discriminate|].
    specialize (Hf c0 t eq_refl). destruct (@rstrip_head c0 t Hf) as [t' Ht']. 
    rewrite Ht' in Hc; injection Hc as <- _; auto.
Qed.

Lemma py_strip_blank : forall s, py_strip s = "" <-> blank s.
Proof.
  intros s; destruct (py_strip_trimmed s) as (l & r & Hs & Hl & Hr & Hf & _); split; intros H.
  - rewrite Hs, H; simpl. apply blank_app; auto.
  - destruct (py_strip s) as [|c t]; auto.
    rewrite Hs in H. apply blank_app_inv in H as [_ H]. apply blank_app_inv in H as [H _].
    inversion H; subst. rewrite (Hf c t eq_refl) in *; discriminate.
Qed.

(** trimming is a function *)
Lemma blank_no_ns : forall l c u, blank (l ++ String c u) -> white c = true.
Proof. intros l c u H; apply blank_app_inv in H as [_ H]; inversion H; auto. Qed.

Lemma trim_left_unique : forall l1 l2 a b, blank l1 -> blank l2 ->
  (forall c u, a = String c u -> white c = false) ->
  (forall c u, b = String c u -> white c = false) ->
  (l1 ++ a)%string = (l2 ++ b)%string -> a = b \/ (blank a /\ blank b).
Proof.
  intros l1 l2 a b H1; revert l2; induction H1 as [|c l1 Hc H1 IH]; intros l2 H2 Ha Hb E; simpl in E.
  - destruct H2 as [|c l2 Hc H2]; simpl in E; [auto|].
    rewrite (Ha c (l2 ++ b)%string E) in Hc; discriminate.
  - destruct H2 as [|c2 l2 Hc2 H2]; simpl in E.
    + rewrite (Hb c (l1 ++ a)%string (eq_sym E)) in Hc; discriminate.
    + injection E as <- E. eapply IH; eauto.
Qed.

(** ---- positions of unbound data ---- *)

Definition opos {A} (p : place) (o : option A) : list (list nat * place) :=
  match o with Some _ => [([], p)] | None => [] end.

Definition attr_list (e : elem) : dict string :=
  match e_attrib e with Some d => d | None => [] end.

Fixpoint positions (e : elem) : list (list nat * place) :=
  match e with
  | Elem _ _ text tail attrib elements _ _ =>
      opos PText (nonblank text) ++ opos PTail (nonblank tail) ++
      map (fun i => ([], PAttr i))
          (seq 0 (length (match attrib with Some d => d | None => [] end))) ++
      (fix go (i : nat) (l : list elem) : list (list nat * place) :=
         match l with
         | [] => []
         | c :: l' => map (fun p => (i :: fst p, snd p)) (positions c) ++ go (S i) l'
         end) 0 elements
  end.

Fixpoint child_positions (i : nat) (l : list elem) : list (list nat * place) :=
  match l with
  | [] => []
  | c :: l' => map (fun p => (i :: fst p, snd p)) (positions c) ++ child_positions (S i) l'
  end.

Lemma positions_eq : forall e,
  positions e =
  opos PText (nonblank (e_text e)) ++ opos PTail (nonblank (e_tail e)) ++
  map (fun i => ([], PAttr i)) (seq 0 (length (attr_list e))) ++ child_positions 0 (e_elems e).
Proof.
  intros [tag ns text tail attrib elements next line]; unfold attr_list; cbn [positions e_text e_tail e_attrib e_elems].
  do 3 f_equal.
Qed.

Lemma get_unbound_eq : forall path e,
  get_unbound path e =
  map (fun t => Unbound path None t (e_line e)) (opt_list (nonblank (e_text e))) ++
  map (fun t => Unbound path None t (e_line e)) (opt_list (nonblank (e_tail e))) ++
  map (fun kv => Unbound path (Some (fst kv)) (snd kv) (e_line e)) (attr_list e) ++
  flat_map (fun c => get_unbound (path ++ [e_tag c]) c) (e_elems e).
Proof. intros path [tag ns text tail attrib elements next line]; reflexivity. Qed.

(** [u] describes the datum at position [p] of [e]; [pre] is the path already walked *)
Definition describes (pre : list xtag) (e : elem) (p : list nat * place) (u : unbound) : Prop :=
  exists path d a v, reach e (fst p) path d /\ loose_at d (snd p) a v /\
    u = Unbound (pre ++ path) a v (e_line d).

Lemma nonblank_some : forall o t, nonblank o = Some t ->
  exists s, o = Some s /\ ~ blank s /\ trimmed s t.
Proof.
  intros [s|] t H; simpl in H; [|discriminate].
  destruct (String.eqb_spec (py_strip s) "") as [E|E]; [discriminate|].
  injection H as <-. exists s; split; [auto|split; [|apply py_strip_trimmed]].
  intros B; apply E, py_strip_blank; auto.
Qed.

Lemma nonblank_none : forall o s, nonblank o = None -> o = Some s -> blank s.
Proof.
  intros o s H ->; simpl in H. destruct (String.eqb_spec (py_strip s) "") as [E|E]; [|discriminate].
  apply py_strip_blank; auto.
Qed.

Lemma Forall2_app3 : forall A B (R : A -> B -> Prop) a1 a2 b1 b2,
  Forall2 R a1 b1 -> Forall2 R a2 b2 -> Forall2 R (a1 ++ a2) (b1 ++ b2).
Proof. intros; apply Forall2_app; auto. Qed.

Lemma attrs_describe : forall pre e l0 l1, attr_list e = l0 ++ l1 ->
  Forall2 (describes pre e) (map (fun i => ([], PAttr i)) (seq (length l0) (length l1)))
          (map (fun kv => Unbound pre (Some (fst kv)) (snd kv) (e_line e)) l1).
Proof.
  intros pre e l0 l1; revert l0; induction l1 as [|[k v] l1 IH]; intros l0 H; simpl; constructor.
  - exists [], e, (Some k), v; repeat split; [constructor| |rewrite app_nil_r; auto].
    unfold attr_list in H. destruct (e_attrib e) as [d|] eqn:Ha; [|destruct l0; discriminate].
    eapply loose_attr; eauto. rewrite H, nth_error_app2, Nat.sub_diag by lia; auto.
  - replace (S (length l0)) with (length (l0 ++ [(k, v)])) by (rewrite app_length; simpl; lia).
    apply IH. rewrite <- app_assoc; auto.
Qed.

Lemma unbound_described : forall e pre, Forall2 (describes pre e) (positions e) (get_unbound pre e).
Proof.
  intros e; induction e as [tag ns text tail attrib elements next line IH] using elem_ind'.
  intros pre. set (e := Elem tag ns text tail attrib elements next line).
  rewrite positions_eq, get_unbound_eq.
  apply Forall2_app; [|apply Forall2_app; [|apply Forall2_app]].
  - destruct (nonblank (e_text e)) as [t|] eqn:E; simpl; constructor; auto.
    apply nonblank_some in E as (s & Hs & Hb & Ht).
    exists [], e, None, t; repeat split; [constructor|eapply loose_text; eauto|rewrite app_nil_r; auto].
  - destruct (nonblank (e_tail e)) as [t|] eqn:E; simpl; constructor; auto.
    apply nonblank_some in E as (s & Hs & Hb & Ht).
    exists [], e, None, t; repeat split; [constructor|eapply loose_tail; eauto|rewrite app_nil_r; auto].
  - apply (attrs_describe pre e [] (attr_list e)); auto.
  - change (e_elems e) with elements.
    assert (G : forall l0 l1, elements = l0 ++ l1 -> Forall (fun c => forall pre, Forall2 (describes pre c) (positions c) (get_unbound pre c)) l1 ->
      Forall2 (describes pre e) (child_positions (length l0) l1) (flat_map (fun c => get_unbound (pre ++ [e_tag c]) c) l1)).
    { intros l0 l1 Heq HF; revert l0 Heq; induction HF as [|c l1 Hc HF IHl]; intros l0 Heq; simpl; [constructor|].
      apply Forall2_app.
      - specialize (Hc (pre ++ [e_tag c])).
        assert (Hn : nth_error (e_elems e) (length l0) = Some c).
        { change (e_elems e) with elements. rewrite Heq, nth_error_app2, Nat.sub_diag by lia; auto. }
        clear - Hc Hn. induction Hc as [|p u ps us (path & d & a & v & Hr & Hl & Hu) HF IH]; simpl; constructor; auto.
        exists (e_tag c :: path), d, a, v; simpl; split; [|split; auto].
        + econstructor; eauto.
        + rewrite Hu, <- app_assoc; auto.
      - replace (S (length l0)) with (length (l0 ++ [c])) by (rewrite app_length; simpl; lia).
        apply IHl. rewrite <- app_assoc; auto. }
    apply (G []); auto.
Qed.

Lemma in_child_positions : forall l i0 idxs p,
  In (idxs, p) (child_positions i0 l) <->
  exists i c rest, nth_error l i = Some c /\ idxs = (i0 + i) :: rest /\ In (rest, p) (positions c).
Proof.
  intros l; induction l as [|c l IH]; intros i0 idxs p; simpl.
  - split; [tauto|]. intros ([|i] & c & rest & H & _); discriminate.
  - rewrite in_app_iff, in_map_iff, IH; split.
    + intros [([rest q] & E & Hin)|(i & d & rest & Hn & E & Hin)].
      * simpl in E; injection E as <- <-. exists 0, c, rest; rewrite Nat.add_0_r; auto.
      * exists (S i), d, rest; repeat split; auto. rewrite E; f_equal; lia.
    + intros ([|i] & d & rest & Hn & E & Hin); simpl in Hn.
      * injection Hn as <-. left. exists (rest, p); rewrite E, Nat.add_0_r; auto.
      * right. exists i, d, rest; repeat split; auto. rewrite E; f_equal; lia.
Qed.

Lemma positions_complete : forall e idxs path d p a v,
  reach e idxs path d -> loose_at d p a v -> In (idxs, p) (positions e).
Proof.
  intros e idxs path d p a v Hr; induction Hr as [e|e i c idxs path d Hn Hr IH]; intros Hl;
    rewrite positions_eq, !in_app_iff.
  - destruct Hl as [s t Hs Hb Ht|s t Hs Hb Ht|attrs i k v Ha Hn].
    + left. destruct (nonblank (e_text e)) eqn:E; [simpl; auto|].
      exfalso; apply Hb. eapply nonblank_none; eauto.
    + right; left. destruct (nonblank (e_tail e)) eqn:E; [simpl; auto|].
      exfalso; apply Hb. eapply nonblank_none; eauto.
    + right; right; left. apply in_map_iff. exists i; split; auto. apply in_seq.
      unfold attr_list; rewrite Ha. assert (i < length attrs) by (apply nth_error_Some; congruence). lia.
  - right; right; right. apply in_child_positions. exists i, c, idxs; auto.
Qed.

Lemma nodup_app_intro : forall A (l1 l2 : list A), NoDup l1 -> NoDup l2 ->
  (forall x, In x l1 -> ~ In x l2) -> NoDup (l1 ++ l2).
Proof.
  intros A l1 l2 H1 H2 Hd; induction H1 as [|x l1 Hx H1 IH]; simpl; auto.
  constructor.
  - rewrite in_app_iff; intros [H|H]; auto. apply (Hd x); simpl; auto.
  - apply IH; intros y Hy; apply Hd; simpl; auto.
Qed.

Lemma nodup_map_inj : forall A B (f : A -> B) l, (forall x y, f x = f y -> x = y) -> NoDup l -> NoDup (map f l).
Proof.
  intros A B f l Hf H; induction H as [|x l Hx H IH]; simpl; constructor; auto.
  rewrite in_map_iff; intros (y & Hy & Hin); apply Hf in Hy; subst; auto.
Qed.

Lemma positions_nodup : forall e, NoDup (positions e).
Proof.
  intros e; induction e as [tag ns text tail attrib elements next line IH] using elem_ind'.
  set (e := Elem tag ns text tail attrib elements next line).
  rewrite positions_eq.
  assert (Hc : forall l i0, Forall (fun c => NoDup (positions c)) l -> NoDup (child_positions i0 l)).
  { intros l; induction l as [|c l IHl]; intros i0 H; simpl; [constructor|].
    inversion H; subst. apply nodup_app_intro; auto.
    - apply nodup_map_inj; auto. intros [x1 x2] [y1 y2] E; simpl in E; congruence.
    - intros [idxs p] Hin. rewrite in_map_iff in Hin. destruct Hin as ([r q] & E & _).
      simpl in E; injection E as <- <-. rewrite in_child_positions.
      intros (i & d & rest & _ & E & _). injection E as E _; lia. }
  assert (Hempty : forall p, ~ In ([], p) (child_positions 0 elements)).
  { intros p H; apply in_child_positions in H as (i & c & rest & _ & E & _); discriminate. }
  apply nodup_app_intro; [destruct (nonblank (e_text e)); simpl; repeat constructor; auto| |].
  - apply nodup_app_intro; [destruct (nonblank (e_tail e)); simpl; repeat constructor; auto| |].
    + apply nodup_app_intro; [apply nodup_map_inj; [congruence|apply seq_NoDup]|apply Hc; auto|].
      intros [idxs p] Hin; apply in_map_iff in Hin as (i & E & _). injection E as <- <-. apply Hempty.
    + intros [idxs p] Hin. destruct (nonblank (e_tail e)); simpl in Hin; [|tauto].
      destruct Hin as [E|[]]; injection E as <- <-. rewrite in_app_iff, in_map_iff.
      intros [(i & E & _)|H]; [discriminate|]. eapply Hempty; eauto.
  - intros [idxs p] Hin. destruct (nonblank (e_text e)); simpl in Hin; [|tauto].
    destruct Hin as [E|[]]; injection E as <- <-. rewrite !in_app_iff, in_map_iff.
    intros [H|[(i & E & _)|H]]; [|discriminate|eapply Hempty; eauto].
    destruct (nonblank (e_tail e)); simpl in H; [destruct H as [H|[]]; discriminate|tauto].
Qed.

Lemma positions_sound : forall e idxs p, In (idxs, p) (positions e) ->
  exists path d a v, reach e idxs path d /\ loose_at d p a v.
Proof.
  intros e idxs p Hin. pose proof (unbound_described e []) as F.
  clear - F Hin. induction F as [|q u ps us (path & d & a & v & Hr & Hl & _) F IH]; simpl in Hin; [tauto|].
  destruct Hin as [->|Hin]; auto. exists path, d, a, v; auto.
Qed.

Lemma get_unbound_exact : forall e,
  exists ps, NoDup ps /\
    (forall idxs p, In (idxs, p) ps <-> exists path d a v, reach e idxs path d /\ loose_at d p a v) /\
    Forall2 (fun p u => exists path d a v, reach e (fst p) path d /\ loose_at d (snd p) a v /\
                        u = Unbound path a v (e_line d)) ps (get_unbound [] e).
Proof.
  intros e; exists (positions e); split; [apply positions_nodup|split].
  - intros idxs p; split; [apply positions_sound|].
    intros (path & d & a & v & Hr & Hl); eapply positions_complete; eauto.
  - apply (unbound_described e []).
Qed.

Lemma no_loose_no_unbound : forall c pre,
  (forall idxs path d p a v, reach c idxs path d -> ~ loose_at d p a v) -> get_unbound pre c = [].
Proof.
  intros c pre H. pose proof (unbound_described c pre) as F.
  destruct (get_unbound pre c) as [|u us]; auto.
  inversion F as [|p u' ps us' (path & d & a & v & Hr & Hl & _)]; subst. exfalso; eapply H; eauto.
Qed.

Lemma flat_map_app_s : forall A B (f : A -> list B) l1 l2, flat_map f (l1 ++ l2) = flat_map f l1 ++ flat_map f l2.
Proof. intros A B f l1 l2; induction l1 as [|x l1 IH]; simpl; auto. rewrite IH, app_assoc; auto. Qed.

Lemma insert_silent_child : forall e c l1 l2,
  (forall idxs path d p a v, reach c idxs path d -> ~ loose_at d p a v) ->
  get_unbound [] (set_elems (l1 ++ c :: l2) e) = get_unbound [] (set_elems (l1 ++ l2) e).
Proof.
  intros e c l1 l2 H. rewrite !get_unbound_eq; simpl. do 3 f_equal.
  rewrite !flat_map_app_s; simpl. rewrite (no_loose_no_unbound (c := c)); auto.
Qed.
