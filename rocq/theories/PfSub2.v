(** PfSub2.v -- every value comes from its place in the document. *)

From Verif Require Import Base Elem Native Errs Names Ser Read Api SpecElem SpecRead SpecSub.
From Verif Require Import PfElem PfField PfTerm PfSub.

Local Ltac inv H := inversion H; subst; clear H.

Lemma nth_skipn : forall A n (l : list A) i, nth_error (skipn n l) i = nth_error l (n + i).
Proof.
  intros A n; induction n as [|n IH]; intros [|x l] i; simpl; auto. destruct i; reflexivity.
Qed.

Section Made.
  Variable b : backend.
  Notation made := (made_from b).

  Lemma made_inv : forall d e, made d e -> e_tag e = native_tag d /\ (e_text e = None \/ e_text e = own_text d) /\
    (forall a, e_attrib e = Some a -> incl a (own_attributes d)) /\
    (forall i c, nth_error (e_elems e) i = Some c -> exists k, below d k /\ made k c /\ (e_next e <= i -> c = from_native b k)).
  Proof. intros d e H; inv H; auto. Qed.

  Lemma children_below : forall tag ns text tail a cs line c, In c (e_elems (from_native b (NElem tag ns text tail a cs line))) ->
    exists k, below (NElem tag ns text tail a cs line) k /\ In k cs /\ c = from_native b k.
  Proof.
    intros tag ns text tail a cs line c I. simpl in I. apply in_flat_map in I as (k & I & H). destruct (is_xml_comment k) eqn:C; [contradiction|].
    destruct H as [<-|[]]. exists k; simpl; auto.
  Qed.

  Lemma made_fresh : forall d, made d (from_native b d).
  Proof.
    induction d as [tag ns text tail a cs line IH|text tail|text tail a line] using native_ind'.
    - constructor; simpl; auto; [intros a' [= <-]; apply incl_refl|].
      intros i c N. apply nth_error_In in N. apply children_below with (ns := ns) (text := text) (tail := tail) (tag := tag) (a := a) (line := line) in N as (k & Bk & Ik & ->).
      exists k. split; auto. split; auto. rewrite Forall_forall in IH. apply IH; auto.
    - constructor; simpl; auto; [intros a' [= <-]; apply incl_refl|intros [|i] c N; discriminate].
    - constructor; simpl; auto; [intros a' [= <-]; apply incl_refl|intros [|i] c N; discriminate].
  Qed.

  Lemma made_text : forall d e, made d e -> made d (set_text_o None e).
  Proof. intros d e H. apply made_inv in H as (T & X & A & C). destruct e; constructor; simpl in *; auto. Qed.

  Lemma ddel_incl : forall k (d : dict string), incl (ddel k d) d.
  Proof. intros k d; induction d as [|[x y] d IH]; simpl; [apply incl_refl|]. destruct (String.eqb k x); [apply incl_tl; auto using incl_refl|apply incl_cons; [left; auto|apply incl_tl; auto]]. Qed.

  Lemma made_attrib : forall d e o, made d e -> (forall a, o = Some a -> incl a (own_attributes d)) -> made d (set_attrib_o o e).
  Proof. intros d e o H Ho. apply made_inv in H as (T & X & A & C). destruct e; constructor; simpl in *; auto. Qed.

  Lemma made_pop : forall d e k, made d e -> made d (snd (pop_attrib k e)) /\
    (forall v, fst (pop_attrib k e) = Some v -> In (k, v) (own_attributes d)).
  Proof.
    intros d e k H. pose proof (made_inv H) as (_ & _ & A & _). unfold pop_attrib. destruct (e_attrib e) as [a|] eqn:Ea; [|split; [auto|discriminate]].
    specialize (A a eq_refl). destruct (dget k a) as [v|] eqn:D; [|split; [auto|discriminate]]. split.
    - apply made_attrib; auto. intros a' [= <-]. eapply incl_tran; [apply ddel_incl|auto].
    - intros v' [= <-]. apply A. clear -D. induction a as [|[x y] a IH]; simpl in *; [discriminate|].
      destruct (String.eqb_spec k x) as [->|]; [injection D as ->; auto|auto].
  Qed.

  Lemma made_nill : forall d e, made d e -> made d (snd (is_element_nill e)).
  Proof. intros d e H. unfold is_element_nill. destruct (made_pop xsi_nil H) as [P _]. destruct (pop_attrib xsi_nil e); auto. Qed.

  Lemma made_next : forall d e n, e_next e <= n -> made d e -> made d (set_next n e).
  Proof.
    intros d e n L H. apply made_inv in H as (T & X & A & C). destruct e; constructor; simpl in *; auto.
    intros i c N. destruct (C i c N) as (k & K1 & K2 & K3). exists k. split; auto. split; auto. intros; apply K3; lia.
  Qed.

  Lemma made_put : forall d e i c c' k, made d e -> i < e_next e -> nth_error (e_elems e) i = Some c -> below d k -> made k c' -> made d (put_child i c' e).
  Proof.
    intros d e i c c' k H L Hi Bk K. apply made_inv in H as (T & X & A & C). destruct e as [tag ns text tail at0 es nx ln]; constructor; simpl in *; auto.
    intros j x N. destruct (Nat.eq_dec i j) as [<-|D].
    - rewrite nth_error_list_upd_same in N; [|apply nth_error_Some; congruence]. injection N as <-. exists k. split; auto. split; auto. lia.
    - rewrite nth_error_list_upd_other in N; auto.
  Qed.

  Lemma swap_nth : forall A i j (l : list A) x y q z, nth_error l i = Some x -> nth_error l j = Some y -> nth_error (list_swap i j l) q = Some z ->
    (q = i /\ z = y) \/ (q <> i /\ q = j /\ z = x) \/ (q <> i /\ q <> j /\ nth_error l q = Some z).
  Proof.
    intros A i j l x y q z Hi Hj H. unfold list_swap in H. rewrite Hi, Hj in H.
    assert (Li : i < length l) by (apply nth_error_Some; congruence). assert (Lj : j < length l) by (apply nth_error_Some; congruence).
    destruct (Nat.eq_dec q i) as [->|D].
    - rewrite nth_error_list_upd_same in H; [|rewrite list_upd_length; auto]. injection H as <-; auto.
    - rewrite nth_error_list_upd_other in H; auto. destruct (Nat.eq_dec q j) as [->|D'].
      + rewrite nth_error_list_upd_same in H; auto. injection H as <-; auto.
      + rewrite nth_error_list_upd_other in H; auto.
  Qed.

  Lemma swap_first : forall A i j (l : list A) x y, nth_error l i = Some x -> nth_error l j = Some y -> nth_error (list_swap i j l) i = Some y.
  Proof.
    intros A i j l x y Hi Hj. unfold list_swap. rewrite Hi, Hj. apply nth_error_list_upd_same. rewrite list_upd_length. apply nth_error_Some; congruence.
  Qed.

  Lemma find_from_nth : forall tag l i j, find_from i l tag = Some j -> exists c, nth_error l (j - i) = Some c /\ i <= j /\ tag_is (e_tag c) tag = true.
  Proof.
    intros tag l; induction l as [|c l IH]; intros i j H; simpl in H; [discriminate|].
    destruct (tag_is (e_tag c) tag) eqn:T.
    - injection H as <-. rewrite Nat.sub_diag. exists c; simpl; auto.
    - destruct (IH _ _ H) as (x & N & L & X). exists x. split; [|split; [lia|auto]].
      replace (j - i) with (S (j - S i)) by lia. auto.
  Qed.

  Lemma tag_is_eq : forall t s, tag_is t s = true -> t = TName s.
  Proof. intros [x|] s H; simpl in H; [apply String.eqb_eq in H; congruence|discriminate]. Qed.

  (** what a search finds *)
  Lemma search_made : forall m d e tag behind step r e', made d e -> search m e tag behind step = (r, e') ->
    made d e' /\ forall i, r = Found i -> exists c k, nth_error (e_elems e') i = Some c /\ below d k /\ made k c /\ native_tag k = TName tag /\
      (behind = false -> c = from_native b k) /\ (step = true -> i < e_next e').
  Proof.
    intros m d e tag behind step r e' H S. pose proof (made_inv H) as (T & X & A & C).
    assert (F : forall r e', forward m e tag step = (r, e') -> made d e' /\ forall i, r = Found i ->
      exists c k, nth_error (e_elems e') i = Some c /\ below d k /\ made k c /\ native_tag k = TName tag /\ c = from_native b k /\ (step = true -> i < e_next e')).
    { clear S r e'. intros r e' F. destruct m; simpl in F; unfold strict_forward, ordered_forward, unordered_forward in F.
      - destruct (nth_error (e_elems e) (e_next e)) as [c|] eqn:N; [|injection F as <- <-; split; [auto|discriminate]].
        destruct (tag_is (e_tag c) tag) eqn:Tg; [|injection F as <- <-; split; [auto|discriminate]].
        destruct (C _ _ N) as (k & K1 & K2 & K3).
        assert (Tk : native_tag k = TName tag) by (apply tag_is_eq in Tg; apply made_inv in K2 as [K2 _]; congruence).
        destruct step; injection F as <- <-; split; auto; try (apply made_next; auto; lia); intros i [= <-]; exists c, k; destruct e; simpl in *;
          (split; [auto|split; [auto|split; [auto|split; [auto|split; [apply K3; lia|try discriminate; lia]]]]]).
      - destruct (find_from (e_next e) (skipn (e_next e) (e_elems e)) tag) as [j|] eqn:N; [|injection F as <- <-; split; [auto|discriminate]].
        destruct (@find_from_nth _ _ _ _ N) as (c & Nc & L & Tg). rewrite nth_skipn in Nc. replace (e_next e + (j - e_next e)) with j in Nc by lia.
        destruct (C _ _ Nc) as (k & K1 & K2 & K3).
        assert (Tk : native_tag k = TName tag) by (apply tag_is_eq in Tg; apply made_inv in K2 as [K2 _]; congruence).
        destruct step; injection F as <- <-; split; auto; try (apply made_next; auto; lia); intros i [= <-]; exists c, k; destruct e; simpl in *;
          (split; [auto|split; [auto|split; [auto|split; [auto|split; [apply K3; lia|try discriminate; lia]]]]]).
      - destruct (find_from (e_next e) (skipn (e_next e) (e_elems e)) tag) as [j|] eqn:N; [|injection F as <- <-; split; [auto|discriminate]].
        destruct (@find_from_nth _ _ _ _ N) as (c & Nc & L & Tg). rewrite nth_skipn in Nc. replace (e_next e + (j - e_next e)) with j in Nc by lia.
        destruct (C _ _ Nc) as (k & K1 & K2 & K3).
        assert (Tk : native_tag k = TName tag) by (apply tag_is_eq in Tg; apply made_inv in K2 as [K2 _]; congruence).
        assert (exists x, nth_error (e_elems e) (e_next e) = Some x) as (x & Nx).
        { destruct (nth_error (e_elems e) (e_next e)) as [x|] eqn:Nx; [eauto|]. apply nth_error_None in Nx.
          assert (j < length (e_elems e)) by (apply nth_error_Some; congruence). lia. }
        assert (Q : made d (set_elems (list_swap (e_next e) j (e_elems e)) e)).
        { destruct e as [tag0 ns text tail at0 es nx ln]; constructor; simpl in *; auto. intros q z Hz.
          destruct (@swap_nth _ _ _ _ _ _ _ _ Nx Nc Hz) as [(-> & ->)|[(D & -> & ->)|(D1 & D2 & Nz)]].
          - exists k; auto.
          - destruct (C _ _ Nx) as (k' & Q1 & Q2 & Q3). exists k'; auto.
          - auto. }
        destruct step; injection F as <- <-; split; auto; try (apply made_next; auto; destruct e; simpl; lia); intros i [= <-]; exists c, k;
          (split; [destruct e; simpl in *; eapply swap_first; eauto|]); (split; [auto|split; [auto|split; [auto|split; [apply K3; lia|try discriminate; destruct e; simpl in *; lia]]]]). }
    unfold search in S. destruct behind.
    - destruct (look_behind e tag) as [|i|] eqn:Lb.
      + destruct (F _ _ S) as [F1 F2]. split; auto. intros i ->. destruct (F2 i eq_refl) as (c & k & H1 & H2 & H3 & H4 & H5 & H6). exists c, k; auto 10.
      + injection S as <- <-. split; auto. intros j [= <-]. unfold look_behind in Lb. destruct (e_next e) as [|q] eqn:Nx; [discriminate|].
        destruct (nth_error (e_elems e) q) as [c|] eqn:N; [|discriminate]. destruct (tag_is (e_tag c) tag) eqn:Tg; [|discriminate]. injection Lb as <-.
        destruct (C _ _ N) as (k & K1 & K2 & K3). apply tag_is_eq in Tg. pose proof (made_inv K2) as [K4 _].
        exists c, k. split; [auto|split; [auto|split; [auto|split; [congruence|split; [discriminate|lia]]]]].
      + injection S as <- <-. split; auto. discriminate.
    - destruct (F _ _ S) as [F1 F2]. split; auto. intros i ->. destruct (F2 i eq_refl) as (c & k & H1 & H2 & H3 & H4 & H5 & H6). exists c, k; auto 10.
  Qed.
End Made.

Section Parts.
  Variable ev : env.
  Hypothesis VR : validators_read ev.
  Notation b := (en_backend ev).
  Notation made := (made_from b).

  (** what running [f] on an element made from [d] leaves and gives *)
  Definition fine (d : native) (Q : val -> Prop) (p : rres val) : Prop :=
    made d (st_el (snd p)) /\ forall v, fst p = Ok v -> v = VNone \/ Q v.

  Definition reads (r : reader) (eas : bool) (Q : native -> val -> Prop) : Prop :=
    forall loc s d, made d (st_el s) -> fine d (Q d) (r eas loc s).

  Lemma fine_none : forall d Q s, made d (st_el s) -> fine d Q (Ok VNone, s).
  Proof. intros d Q s H; split; auto. intros v [= <-]; auto. Qed.

  Lemma fine_raise : forall d Q x s, made d (st_el s) -> fine d Q (Raise x, s).
  Proof. intros d Q x s H; split; auto. discriminate. Qed.

  Lemma fine_fuel : forall d Q s, made d (st_el s) -> fine d Q (Fuel, s).
  Proof. intros d Q s H; split; auto. discriminate. Qed.

  Hint Resolve fine_none fine_raise fine_fuel : core.

  Lemma fine_impl : forall d (Q Q' : val -> Prop) p, fine d Q p -> (forall v, Q v -> Q' v) -> fine d Q' p.
  Proof. intros d Q Q' p [A B] H; split; auto. intros v E; destruct (B v E); auto. Qed.

  Lemma on_child_fine : forall i (f : st -> rres val) s d k c (Q : val -> Prop), made d (st_el s) -> nth_error (e_elems (st_el s)) i = Some c ->
    i < e_next (st_el s) -> below d k -> fine k Q (f (St c (st_sm s))) -> fine d Q (on_child i f s).
  Proof.
    intros i f s d k c Q H N L Bk F. unfold on_child. rewrite N. destruct (f (St c (st_sm s))) as [o s1]. destruct F as [F1 F2]. split; auto.
    simpl in *. eapply made_put; eauto.
  Qed.

  Lemma with_found_fine : forall m tag (f : st -> rres val) s d (Q : val -> Prop), made d (st_el s) ->
    (forall k sm, below d k -> native_tag k = TName tag -> fine k Q (f (St (from_native b k) sm))) ->
    fine d Q (with_found (pop_element (st_el s) tag m) f s).
  Proof.
    intros m tag f s d Q H F. unfold pop_element. destruct (search m (st_el s) tag false true) as [r e'] eqn:S.
    destruct (@search_made b _ _ _ _ _ _ _ _ H S) as [H' Fd]. destruct r as [|i|]; simpl; auto.
    destruct (Fd i eq_refl) as (c & k & N & Bk & Mk & Tk & Ck & Lk). apply (@on_child_fine i f (set_el e' s) d k c); simpl; auto.
    rewrite Ck; auto.
  Qed.

  Lemma text_fine : forall c n eas loc s d, made d (st_el s) -> fine d (text_of eas d) (read_text c n eas loc s).
  Proof.
    intros c n eas loc s d H. unfold read_text. destruct c; auto.
    assert (X : forall e, made d e -> fine d (text_of eas d) (let (t, e2) := pop_text e in (Ok (text_or_default eas t), set_el e2 s))).
    { intros e He. unfold pop_text. split; [simpl; apply made_text; auto|]. simpl. intros v [= <-]. unfold text_or_default.
      apply made_inv in He as (_ & [E|E] & _); rewrite E; [simpl; destruct eas; auto; right; exists ""; auto|].
      destruct (own_text d) as [t|] eqn:T; simpl; [|destruct eas; auto; right; exists ""; auto].
      destruct (String.eqb_spec t ""); simpl; [|right; exists t; auto]. destruct eas; auto. right; exists ""; auto. }
    destruct n; [|apply X; auto]. pose proof (made_nill H) as N. destruct (is_element_nill (st_el s)) as [nil e1]. simpl in N.
    destruct nil; auto.
  Qed.

  Lemma dict_of_in : forall A (l : list (string * A)) k v, In (k, v) (dict_of l) -> In (k, v) l.
  Proof.
    assert (D : forall A k (v : A) d x y, In (x, y) (dset k v d) -> (x, y) = (k, v) \/ In (x, y) d).
    { intros A k v d; induction d as [|[a c] d IH]; simpl; intros x y H; [destruct H as [H|[]]; auto|]. destruct (String.eqb_spec k a); simpl in *.
      - destruct H as [H|H]; [left; congruence|auto].
      - destruct H; auto. apply IH in H; tauto. }
    intros A l k v. unfold dict_of.
    assert (G : forall l acc, In (k, v) (fold_left (fun d kv => dset (fst kv) (snd kv) d) l acc) -> In (k, v) l \/ In (k, v) acc).
    { clear l. intros l; induction l as [|[x y] l IH]; intros acc H; cbn [fold_left] in H; auto. apply IH in H as [H|H]; [left; right; auto|].
      apply D in H as [H|H]; auto. left; left; auto. }
    intros H. apply G in H as [H|[]]; auto.
  Qed.

  Lemma attrs_fine : forall a eas loc s d, made d (st_el s) -> fine d (attributes_of (as_namespaced a) d) (read_attrs a eas loc s).
  Proof.
    intros a eas loc s d H. unfold read_attrs. destruct (as_computed a); auto. unfold pop_attributes.
    assert (X : made d (set_attrib_o None (st_el s))) by (apply made_attrib; auto; discriminate).
    destruct (e_attrib (st_el s)) as [at0|] eqn:E; auto. split; auto. simpl. intros v [= <-]. right. eexists; split; [reflexivity|].
    split; [apply nodup_dict_of|]. intros key x I. apply dict_of_in in I. apply in_map_iff in I as ([name t] & [= <- <-] & I). exists name, t. split; [|split; auto].
    apply made_inv in H as (_ & _ & H & _). apply (H at0 E); auto.
  Qed.

  Lemma items_fine : forall r eas (Q : native -> val -> Prop), reads r eas Q -> forall k t h loc i vs es s d, made d (st_el s) -> Forall (Q d) vs -> Forall (fun v => v <> VNone) vs ->
    fine d (fun v => exists l, v = VList l /\ l <> [] /\ Forall (fun v => v <> VNone) l /\ Forall (Q d) l) (read_items k r t h eas loc i vs es s).
  Proof.
    intros r eas Q H k; induction k as [|k IH]; intros t h loc i vs es s d Md F Nn; cbn [read_items]; auto.
    specialize (H (loc ++ [LIdx i]) s d Md). destruct (r eas (loc ++ [LIdx i]) s) as [o s1]. destruct H as [H1 H2]; simpl in H1, H2.
    destruct o as [v|x|]; auto.
    - specialize (H2 v eq_refl).
      assert (X : v <> VNone -> fine d (fun v => exists l, v = VList l /\ l <> [] /\ Forall (fun v => v <> VNone) l /\ Forall (Q d) l) (read_items k r t h eas loc (S i) (vs ++ [v]) es s1)).
      { intros N. apply IH; auto; apply Forall_app; split; auto; constructor; auto. destruct H2; congruence. }
      destruct v; try (apply X; discriminate). destruct es; auto. split; auto. simpl. intros v [= <-]. destruct vs as [|w vs']; auto. right. exists (w :: vs'); repeat split; auto; discriminate.
    - destruct x; auto.
  Qed.

  Lemma tuple_fine : forall (Q : ser -> native -> val -> Prop) r eas, (forall s d, Q s d VNone) -> forall ss,
    Forall (fun s => reads (r s) eas (Q s)) ss -> forall done t h loc i vs es s d,
    made d (st_el s) -> (es = [] -> Forall2 (fun x v => Q x d v) done vs) ->
    fine d (fun v => exists l, v = VList l /\ Exists (fun v => v <> VNone) l /\ Forall2 (fun x v => Q x d v) (done ++ ss) l) (read_tuple (map r ss) t h eas loc i vs es s).
  Proof.
    intros Q r eas QN ss F; induction F as [|x ss R F IH]; intros done t h loc i vs es s d Md Fd; cbn [map read_tuple].
    - rewrite app_nil_r. destruct es; auto. split; auto. simpl. intros v [= <-]. destruct (forallb is_none vs) eqn:Fn; auto. right. exists vs; split; auto. split; auto.
      clear - Fn. induction vs as [|w vs IH]; [discriminate|]. simpl in Fn. destruct w; try (left; discriminate). right; apply IH; auto.
    - specialize (R (loc ++ [LIdx i]) s d Md). destruct (r x eas (loc ++ [LIdx i]) s) as [o s1]. destruct R as [R1 R2]; simpl in R1, R2.
      replace (done ++ x :: ss) with ((done ++ [x]) ++ ss) by (rewrite <- app_assoc; auto).
      destruct o as [v|y|]; auto.
      + apply IH; auto. intros E. apply Forall2_app; auto. constructor; auto. destruct (R2 v eq_refl) as [->|R3]; auto.
      + destruct y; auto. apply IH; auto. intros E. apply app_eq_nil in E as [_ E]; discriminate.
  Qed.

  Lemma apply_made : forall d e s, made d s -> made d (apply_snapshot e s).
  Proof. intros d e s H. apply made_inv in H as (T & X & A & C). destruct s; constructor; simpl in *; auto. Qed.

  Lemma variants_fine : forall (Q : proxy -> native -> val -> Prop) r eas ps, Forall (fun p => reads (r p) eas (Q p)) ps -> forall t h loc es s d,
    made d (st_el s) -> fine d (fun v => exists p, In p ps /\ Q p d v) (read_variants (map r ps) t h eas loc es s).
  Proof.
    intros Q r eas ps F; induction F as [|p ps R F IH]; intros t h loc es s d Md; cbn [map read_variants].
    - destruct es; auto. split; [|discriminate]. simpl. unfold step_forward. apply made_next; auto.
    - rewrite create_snapshot_id. specialize (R loc (set_el (st_el s) s) d Md). destruct (r p eas loc (set_el (st_el s) s)) as [o s1]. destruct R as [R1 R2]; simpl in R1, R2.
      assert (X : forall es s2, made d (st_el s2) -> fine d (fun v => exists p0, In p0 (p :: ps) /\ Q p0 d v) (read_variants (map r ps) t h eas loc es s2)).
      { intros es' s2 M2. eapply fine_impl; [apply IH; auto|]. intros v (q & I & Hq). exists q; split; [right; auto|auto]. }
      destruct o as [v|y|]; auto.
      + assert (Y : v <> VNone -> fine d (fun v => exists p0, In p0 (p :: ps) /\ Q p0 d v) (Ok v, St (apply_snapshot (st_el s) (st_el s1)) (st_sm s1))).
        { intros N. split; [simpl; apply apply_made; auto|]. simpl. intros w [= <-]. right. exists p. split; [left; auto|]. destruct (R2 v eq_refl); congruence. }
        destruct v; try (apply Y; discriminate). apply X; auto.
      + destruct y; auto.
  Qed.

  Lemma tagged_fine : forall (Q : proxy -> native -> val -> Prop) rp eas a m vs, (forall p, reads (rp p) eas (Q p)) -> forall loc s d,
    made d (st_el s) -> fine d (fun v => exists tag p, In (tag, p) vs /\ Q p d v) (read_tagged rp a m vs eas loc s).
  Proof.
    intros Q rp eas a m vs H loc; induction vs as [|[t p] vs IH]; intros s d Md; cbn [read_tagged]; auto.
    unfold find_element. destruct (search m (st_el s) (px_name p) false false) as [r e'] eqn:S. destruct (@search_made b _ _ _ _ _ _ _ _ Md S) as [M' _].
    assert (X : fine d (fun v => exists tag p0, In (tag, p0) ((t, p) :: vs) /\ Q p0 d v) (read_tagged rp a m vs eas loc (set_el e' s))).
    { eapply fine_impl; [apply IH; auto|]. intros v (t' & q & I & Hq). exists t', q; split; [right; auto|auto]. }
    destruct r as [|i|]; auto. destruct (nth_error (e_elems e') i) as [c|]; auto.
    destruct (match get_attrib a c with Some t0 => _ | None => _ end); auto.
    eapply fine_impl; [apply (H p loc (St e' (sset loc (e_line c) (st_sm s))) d); auto|]. intros v Hv. exists t, p; split; [left; auto|auto].
  Qed.

  (** the way through wrappers *)
  Lemma find_sub_made : forall m path d e idxs e', made d e -> find_sub_element path m e = (idxs, e') ->
    made d e' /\ forall l, idxs = Some l -> length l = length path -> forall (f : st -> rres val) (Q : val -> Prop) s, st_el s = e' ->
      (forall k c sm, reached path d k -> made k c -> fine k Q (f (St c sm))) -> fine d Q (on_path l f s).
  Proof.
    intros m path; induction path as [|tag rest IH]; intros d e idxs e' Md F; cbn [find_sub_element] in F.
    - injection F as <- <-. split; auto. intros l [= <-] _ f Q s E Hf. simpl. destruct s as [e1 sm]; simpl in E; subst. apply (Hf d); simpl; auto.
    - unfold find_element in F. destruct (search m e tag true true) as [r e1] eqn:S. destruct (@search_made b _ _ _ _ _ _ _ _ Md S) as [M1 Fd].
      destruct r as [|i|]; [injection F as <- <-; split; [auto|intros l [= <-]; simpl; discriminate]| |injection F as <- <-; split; [auto|discriminate]].
      destruct (Fd i eq_refl) as (c & k & N & Bk & Mk & Tk & _ & Lk). specialize (Lk eq_refl).
      destruct rest as [|t rest].
      + injection F as <- <-. split; auto. intros l [= <-] _ f Q s E Hf. cbn [on_path]. subst e1. eapply on_child_fine; eauto.
        apply (Hf k); auto. exists k; simpl; auto.
      + rewrite N in F. destruct (find_sub_element (t :: rest) m c) as [idx c'] eqn:F'. destruct (IH k c idx c' Mk F') as [Mc R].
        injection F as <- <-. split; [eapply made_put; eauto|]. intros l E1 Len f Q s E Hf.
        destruct idx as [l'|]; [|discriminate]. injection E1 as <-. simpl in Len. injection Len as Len.
        cbn [on_path]. eapply (@on_child_fine i _ s d k c').
        * rewrite E. eapply made_put; eauto.
        * rewrite E. simpl. apply nth_error_list_upd_same. apply nth_error_Some; congruence.
        * rewrite E. destruct e1; simpl in *; auto.
        * auto.
        * apply (R l' eq_refl Len); auto. intros k0 c0 sm Rk Mk0. apply Hf; auto. exists k; auto.
  Qed.

  Lemma wrap_fine : forall path m c r eas (Q : native -> val -> Prop), reads r eas Q ->
    forall loc s d, made d (st_el s) -> fine d (fun v => exists k, reached path d k /\ Q k v) (read_wrap path m c r eas loc s).
  Proof.
    intros path m c r eas Q H loc s d Md. unfold read_wrap. destruct c; auto.
    destruct (find_sub_element path m (st_el s)) as [[idxs|] e'] eqn:F; destruct (@find_sub_made _ _ _ _ _ _ Md F) as [M' R]; auto.
    destruct (negb (Nat.eqb (length idxs) 0) && Nat.eqb (length idxs) (length path)) eqn:L; auto.
    apply andb_true_iff in L as [_ L]. apply Nat.eqb_eq in L. apply (R idxs eq_refl L); auto.
    intros k c sm Rk Mk. eapply fine_impl; [apply (H loc (note_line loc (St c sm)) k); auto|]. intros v Hv; eauto.
  Qed.

  Lemma raw_fine : forall name m c eas loc s d, made d (st_el s) ->
    fine d (fun v => exists k x, below d k /\ native_tag k = TName name /\ to_native b (from_native b k) = Some x /\ v = VRaw x) (read_raw b name m c eas loc s).
  Proof.
    intros name m c eas loc s d Md. unfold read_raw. destruct c; auto. apply with_found_fine; auto. intros k sm Bk Tk.
    assert (X : fst (extract (from_native b k)) = from_native b k).
    { destruct k; reflexivity. }
    assert (Y : made k (snd (extract (from_native b k)))).
    { destruct k; simpl; (constructor; simpl; auto; [discriminate|intros [|i] c' Hc; discriminate]). }
    cbn [st_el st_sm]. destruct (extract (from_native b k)) as [fr c']. simpl in X, Y. subst fr.
    destruct (to_native b (from_native b k)) as [x|] eqn:E; split; auto; simpl; [intros v [= <-]; right; exists k, x; auto|discriminate].
  Qed.

  Lemma without_nil_from : forall k, from_native b (without_nil k) = set_attrib_o (Some (ddel xsi_nil (own_attributes k))) (from_native b k).
  Proof. intros [tag ns text tail a cs line|text tail|text tail a line]; reflexivity. Qed.

  Lemma ddel_absent : forall (d : dict string) k, dget k d = None -> ddel k d = d.
  Proof. intros d k; induction d as [|[x y] d IH]; simpl; intros H; auto. destruct (String.eqb k x); [discriminate|]. f_equal; auto. Qed.

  Lemma nill_from : forall k, snd (is_element_nill (from_native b k)) = from_native b (without_nil k).
  Proof.
    intros k. rewrite without_nil_from.
    assert (A : e_attrib (from_native b k) = Some (own_attributes k)) by (destruct k; auto).
    unfold is_element_nill, pop_attrib. rewrite A. destruct (dget xsi_nil (own_attributes k)) as [v|] eqn:D; [reflexivity|]. simpl.
    rewrite (ddel_absent _ _ D). destruct k; reflexivity.
  Qed.

  Lemma with_tag_renamed : forall t cls c, match en_model ev c, en_model (with_tag t cls ev) c with
    | Some m, Some m' => renamed m m' | None, None => True | _, _ => False end.
  Proof.
    intros t cls c. simpl. destruct (en_model ev c) as [m|]; auto. destruct (String.eqb c cls); [exists t; auto|].
    exists (md_elem_name m). destruct m; auto.
  Qed.

  (** the sub-model, read on its own *)
  Lemma model_alone : forall n p m k eas loc sm v, en_model ev (px_model p) = Some m -> native_tag k = TName (px_name p) ->
    fst (read_model (read n ev) m eas loc (St (from_native b (without_nil k)) sm)) = Ok v ->
    from_xml_tree n (with_tag (px_name p) (px_model p) ev) (px_model p) (without_nil k) eas = Ok v.
  Proof.
    intros n p m k eas loc sm v Em Tk R. unfold from_xml_tree. cbn [with_tag en_model en_backend]. rewrite Em, String.eqb_refl.
    replace (native_tag (without_nil k)) with (TName (px_name p)) by (destruct k; auto). cbn [tag_is tagged_class md_elem_name]. rewrite String.eqb_refl.
    assert (X := @model_both (read n ev) (read n (with_tag (px_name p) (px_model p) ev))
      (@read_both ev (with_tag (px_name p) (px_model p) ev) eq_refl (with_tag_renamed (px_name p) (px_model p)) n) m (tagged_class (px_name p) m) (ex_intro _ _ eq_refl)
      eas loc [] (St (from_native b (without_nil k)) sm) (St (from_native b (without_nil k)) []) eq_refl).
    destruct X as [X _]. rewrite R in X. simpl in X. auto.
  Qed.

  Lemma given_snoc : forall m found name v, v <> VNone -> given m (found ++ [(name, v)]) = dset (input_key m name) v (given m found).
  Proof.
    intros m found name v N. unfold given. rewrite filter_app, map_app. simpl. destruct v; try congruence;
      simpl; unfold dict_of; rewrite fold_left_app; reflexivity.
  Qed.

  Lemma given_none : forall m found name, given m (found ++ [(name, VNone)]) = given m found.
  Proof. intros. unfold given. rewrite filter_app. simpl. rewrite app_nil_r. reflexivity. Qed.

  Lemma dset_some : forall A k (v : A) d, dset k v d <> [].
  Proof. intros A k v [|[a c] d]; simpl; [discriminate|]. destruct (String.eqb k a); discriminate. Qed.

  Lemma fields_fine : forall (r : ser -> reader) eas, (forall s, reads (r s) eas (fun d v => part ev eas d s v)) ->
    forall cls m, en_model ev cls = Some m -> forall fs done res es s d, made d (st_el s) ->
    (es = [] -> exists found, Forall2 (field_from ev m eas d) done found /\ res = given m found) ->
    made d (st_el (snd (read_fields r m fs eas res es s))) /\
    forall vs, fst (read_fields r m fs eas res es s) = Ok (vs, []) -> exists found, Forall2 (field_from ev m eas d) (done ++ fs) found /\ vs = given m found.
  Proof.
    intros r eas H cls m Em fs; induction fs as [|[name fser] fs IH]; intros done res es s d Md F; cbn [read_fields].
    - split; auto. simpl. rewrite app_nil_r. intros vs [= <- ->]; auto.
    - replace (done ++ (name, fser) :: fs) with ((done ++ [(name, fser)]) ++ fs) by (rewrite <- app_assoc; auto).
      assert (X : fine d (fun v => md_cval m name = None -> part ev eas d fser v)
        (match md_cval m name with Some custom => run_custom custom (note_line [LKey name] s) | None => r fser eas [LKey name] (note_line [LKey name] s) end)).
      { destruct (md_cval m name) as [f|] eqn:Ec.
        - unfold run_custom. cbn [note_line st_el]. assert (V : made d (snd (f (st_el s)))) by (eapply VR; eauto). destruct (f (st_el s)) as [o e]. split; auto.
          intros v _. right. discriminate.
        - eapply fine_impl; [apply (H fser [LKey name] (note_line [LKey name] s) d); auto|]. auto. }
      destruct (match md_cval m name with Some _ => _ | None => _ end) as [o s1]. destruct X as [X1 X2]; simpl in X1, X2.
      destruct o as [v|x|]; [|destruct x; try (split; [auto|discriminate]); apply IH; auto; intros E; apply dset_some in E; tauto|split; [auto|discriminate]].
      assert (Fv : es = [] -> exists found, Forall2 (field_from ev m eas d) (done ++ [(name, fser)]) (found ++ [(name, v)]) /\ res = given m found).
      { intros E. destruct (F E) as (found & F1 & F2). exists found. split; auto. apply Forall2_app; auto. constructor; auto. split; auto. simpl.
        intros C. destruct (X2 v eq_refl) as [->|X3]; [constructor|auto]. }
      assert (Y : v <> VNone -> let key := match dget name (md_valias m) with Some a => a | None => name end in
        made d (st_el (snd (read_fields r m fs eas (dset key v res) es s1))) /\
        forall vs, fst (read_fields r m fs eas (dset key v res) es s1) = Ok (vs, []) -> exists found, Forall2 (field_from ev m eas d) ((done ++ [(name, fser)]) ++ fs) found /\ vs = given m found).
      { intros N key. apply IH; auto. intros E. destruct (Fv E) as (found & F1 & ->). eexists; split; [exact F1|]. rewrite given_snoc; auto. }
      destruct v; try (apply Y; discriminate). apply IH; auto. intros E. destruct (Fv E) as (found & F1 & ->). eexists; split; [exact F1|]. rewrite given_none; auto.
  Qed.

  Lemma model_fine : forall (r : ser -> reader) eas, (forall s, reads (r s) eas (fun d v => part ev eas d s v)) ->
    forall cls m, en_model ev cls = Some m -> forall loc s d, made d (st_el s) ->
    made d (st_el (snd (read_model r m eas loc s))) /\
    forall v, fst (read_model r m eas loc s) = Ok v -> exists input, input_from ev m eas d input /\ md_validate m input = Valid v.
  Proof.
    intros r eas H cls m Em loc s d Md.
    assert (V : forall i s v, validate_result m i s = Ok v -> md_validate m i = Valid v).
    { intros i s0 v E. unfold validate_result in E. destruct (if md_forbid m then _ else _); [discriminate|]. destruct (md_validate m i); congruence. }
    unfold read_model, input_from. destruct (md_root m).
    - unfold read_root_model. destruct (md_fields m) as [|[nm rs] fs]; [split; [auto|discriminate]|].
      specialize (H rs loc s d Md). destruct (r rs eas loc s) as [o s1]. destruct H as [H1 H2]; simpl in H1, H2.
      destruct o as [v|x|]; [|destruct x; (split; [auto|discriminate])|split; [auto|discriminate]].
      split; auto. simpl. intros w E. apply V in E. eexists; split; [|exact E]. destruct (is_none v) eqn:N; auto. right.
      exists nm, rs, fs, v. split; auto. split; auto. split; [intros ->; discriminate|]. destruct (H2 v eq_refl) as [->|]; [discriminate|auto].
    - unfold read_plain_model. destruct (@fields_fine r eas H cls m Em (md_fields m) [] [] [] s d Md) as [F1 F2]; [intros _; exists []; auto|].
      destruct (read_fields r m (md_fields m) eas [] [] s) as [o s1]. simpl in F1, F2.
      destruct o as [[vs xs]|x|]; [|split; [auto|discriminate]|split; [auto|discriminate]].
      destruct xs; [|split; [auto|discriminate]]. split; auto. simpl. intros w E. apply V in E. eexists; split; [|exact E].
      destruct (F2 vs eq_refl) as (found & F3 & ->). exists found; auto.
  Qed.

  Lemma proxy_fine : forall n eas, (forall s, reads (read n ev s) eas (fun d v => part ev eas d s v)) ->
    forall p, reads (read_proxy ev (read n ev) p) eas (fun d v => part ev eas d (SProxy p) v).
  Proof.
    intros n eas H p loc s d Md. unfold read_proxy. destruct (en_model ev (px_model p)) as [m|] eqn:Em; auto.
    destruct (px_computed p); auto. apply with_found_fine; auto. intros k sm Bk Tk.
    cbn zeta. cbn [note_line st_el].
    pose proof (made_nill (made_fresh b k)) as N. pose proof (nill_from k) as A.
    destruct (is_element_nill (from_native b k)) as [nil e1]. simpl in N, A. destruct nil; auto.
    subst e1. unfold set_el. cbn [st_sm note_line].
    destruct (@model_fine (read n ev) eas H (px_model p) m Em loc (St (from_native b (without_nil k)) (sset loc (e_line (from_native b k)) sm)) k N) as [M1 _].
    split; auto. intros v E. right. eapply pt_model; eauto. eapply model_alone; eauto.
  Qed.

  Lemma read_fine : forall n eas s, reads (read n ev s) eas (fun d v => part ev eas d s v).
  Proof.
    intros n; induction n as [|n IH]; intros eas s loc s0 d Md; [simpl; auto|]. cbn [read]. destruct s; cbn [read_step].
    - eapply fine_impl; [apply text_fine; auto|]. intros v V; constructor; auto.
    - unfold read_attr. destruct computed; auto. destruct (made_pop name Md) as [P1 P2]. destruct (pop_attrib name (st_el s0)) as [[v|] e]; simpl in *; auto.
      split; auto. simpl. intros w [= <-]. right. constructor; auto.
    - unfold read_elem. destruct computed; auto. apply with_found_fine; auto. intros k sm Bk Tk.
      eapply fine_impl; [apply text_fine; simpl; apply made_fresh|]. intros v V. eapply pt_elem; eauto.
    - eapply fine_impl; [apply attrs_fine; auto|]. intros v V; constructor; auto.
    - unfold read_map_elem. destruct (as_computed a); auto. apply with_found_fine; auto. intros k sm Bk Tk.
      eapply fine_impl; [apply attrs_fine; simpl; apply made_fresh|]. intros v V. eapply pt_map; eauto.
    - unfold read_homo. destruct computed; auto. eapply fine_impl; [eapply items_fine; [apply IH|auto|constructor|constructor]|].
      intros v (l & -> & Ne & Nn & F). constructor; auto.
    - unfold read_hetero. destruct computed; auto.
      eapply fine_impl; [apply (@tuple_fine (fun s d v => part ev eas d s v) (read n ev) eas) with (done := []) (es := []) (vs := []); auto|].
      + intros; constructor.
      + rewrite Forall_forall; intros x _; apply IH.
      + intros v (l & -> & Ex & F). constructor; auto.
    - unfold read_union_prim. destruct computed; auto. eapply fine_impl; [apply IH; auto|]. intros v V; constructor; auto.
    - unfold read_union_model. destruct computed; auto.
      eapply fine_impl; [apply (@variants_fine (fun p d v => part ev eas d (SProxy p) v)); auto|].
      + rewrite Forall_forall; intros p _; apply proxy_fine; auto.
      + intros v (p & I & V). eapply pt_union; eauto.
    - destruct computed; auto. eapply fine_impl; [apply (@tagged_fine (fun p d v => part ev eas d (SProxy p) v)); auto|].
      + intros p; apply proxy_fine; auto.
      + intros v (t & p & I & V). eapply pt_tagged; eauto.
    - eapply fine_impl; [eapply wrap_fine; [apply IH|auto]|]. intros v (k & R & V). eapply pt_wrap; eauto.
    - eapply fine_impl; [apply raw_fine; auto|]. intros v (k & x & B1 & T & X & ->). eapply pt_raw; eauto.
    - apply proxy_fine; auto.
  Qed.

  Lemma from_xml_fine : forall n cls m d eas v, en_model ev cls = Some m -> from_xml_tree n ev cls d eas = Ok v ->
    exists input, input_from ev m eas d input /\ md_validate m input = Valid v.
  Proof.
    intros n cls m d eas v Em E. unfold from_xml_tree in E. rewrite Em in E. destruct (tag_is _ _); [|discriminate].
    destruct (@model_fine (read n ev) eas (read_fine n eas) cls m Em [] (St (from_native b d) []) d (made_fresh b d)) as [_ X]. auto.
  Qed.
End Parts.
