(** PfGrow.v -- reading with classes that have new fields. *)

From Verif Require Import Base Elem Native Errs Names Ser Read Api SpecElem SpecRead SpecGrow.
From Verif Require Import PfElem PfField PfRel PfFuel PfTerm.

Local Ltac inv H := inversion H; subst; clear H.

Section Grow.
  Variables U A : string -> bool.
  Variable new : string -> string -> bool.
  Variables ev ev' : env.
  Hypothesis G : grown U A new ev ev'.

  Notation old := (old_only U A).
  Notation like := (same_but_new new).

  Lemma old_inv : forall e, old e -> e_next e <= length (e_elems e) /\
    (forall d, e_attrib e = Some d -> Forall (fun kv : string * string => A (fst kv) = false) d) /\
    (forall c, In c (e_elems e) -> (forall t, e_tag c = TName t -> U t = false)) /\
    (forall c, In c (e_elems e) -> old c).
  Proof. intros e H; inv H; auto. Qed.

  Lemma old_child : forall e i c, old e -> nth_error (e_elems e) i = Some c -> old c.
  Proof. intros e i c H N. apply old_inv in H as (_ & _ & _ & H). apply H. eapply nth_error_In; eauto. Qed.

  Definition kept (e e' : elem) : Prop := e_tag e' = e_tag e /\ (old e -> old e').

  Lemma kept_refl : forall e, kept e e. Proof. split; auto. Qed.
  Lemma kept_trans : forall a b c, kept a b -> kept b c -> kept a c.
  Proof. intros a b c (A1 & B1) (A2 & B2); split; [congruence|auto]. Qed.

  Lemma kept_attr : forall e o, (old e -> forall d, o = Some d -> Forall (fun kv : string * string => A (fst kv) = false) d) -> kept e (set_attrib_o o e).
  Proof.
    intros e o H; split; [destruct e; auto|]. intros O. specialize (H O). apply old_inv in O as (a & b & c & d). destruct e; simpl in *.
    constructor; simpl; auto.
  Qed.

  Lemma search_kept : forall m e tag behind step, kept e (snd (search m e tag behind step)).
  Proof.
    intros m e tag behind step.
    assert (X : e_tag (snd (search m e tag behind step)) = e_tag e /\ e_attrib (snd (search m e tag behind step)) = e_attrib e /\
      Permutation (e_elems (snd (search m e tag behind step))) (e_elems e) /\
      (e_next e <= length (e_elems e) -> e_next (snd (search m e tag behind step)) <= length (e_elems e))).
    { destruct (search m e tag behind step) as [r e'] eqn:S.
      destruct (@search_cases m e tag behind step r e' S) as (l & n & P & E & _). subst e'.
      split; [destruct e; auto|split; [destruct e; auto|split; [destruct e; auto|]]]. intros L. simpl.
      unfold search in S. assert (F : forward m e tag step = (r, set_next n (set_elems l e)) -> n <= length (e_elems e)).
      { clear S. destruct m; simpl; unfold strict_forward, ordered_forward, unordered_forward; intros F.
        - destruct (nth_error _ _) as [c|] eqn:N; [destruct (tag_is _ _); [destruct step|]|].
          all: apply (f_equal snd) in F; apply (f_equal e_next) in F; simpl in F; subst; auto.
          apply nth_error_Some. congruence.
        - destruct (find_from _ _ _) as [i|] eqn:N; [destruct step|].
          all: apply (f_equal snd) in F; apply (f_equal e_next) in F; simpl in F; subst; auto.
          apply find_from_range in N. rewrite skipn_length in N. lia.
        - destruct (find_from _ _ _) as [i|] eqn:N; [destruct step|].
          all: apply (f_equal snd) in F; apply (f_equal e_next) in F; simpl in F; subst; auto.
          apply find_from_range in N. rewrite skipn_length in N. lia. }
      destruct behind; auto. destruct (look_behind e tag); auto; apply (f_equal snd) in S; apply (f_equal e_next) in S; simpl in S; subst; auto. }
    destruct X as (T & At & P & N). split; auto. intros O. apply old_inv in O as (a & b & c & d).
    constructor; [rewrite (Permutation_length P); auto|rewrite At; auto| |]; intros x I; apply (Permutation_in _ P) in I; [apply (c x I)|apply (d x I)].
  Qed.

  Lemma child_kept : forall i c c' e, nth_error (e_elems e) i = Some c -> kept c c' -> kept e (put_child i c' e).
  Proof.
    intros i c c' e N (T & K). split; [destruct e; auto|]. intros O. pose proof (old_child _ O N) as Oc. apply old_inv in O as (a & b & cc & d).
    assert (In c (e_elems e)) as Ic by (eapply nth_error_In; eauto).
    constructor; simpl; auto.
    - rewrite list_upd_length; auto.
    - intros x I. apply In_nth_error in I as (j & I). destruct (Nat.eq_dec i j) as [<-|D].
      + rewrite nth_error_list_upd_same in I; [|apply nth_error_Some; congruence]. injection I as <-. rewrite T. apply cc; auto.
      + rewrite nth_error_list_upd_other in I; auto. apply cc. eapply nth_error_In; eauto.
    - intros x I. apply In_nth_error in I as (j & I). destruct (Nat.eq_dec i j) as [<-|D].
      + rewrite nth_error_list_upd_same in I; [|apply nth_error_Some; congruence]. injection I as <-. auto.
      + rewrite nth_error_list_upd_other in I; auto. apply d. eapply nth_error_In; eauto.
  Qed.

  Lemma read_kept : forall n s eas loc st0, kept (st_el st0) (st_el (snd (read n ev s eas loc st0))).
  Proof.
    intros n s eas loc st0. apply (@read_rel kept).
    - apply kept_refl.
    - apply kept_trans.
    - intros e; split; [destruct e; auto|]. intros O. apply old_inv in O as (a & b & c & d). destruct e; constructor; auto.
    - intros k e. unfold pop_attrib. destruct (e_attrib e) as [d|] eqn:E; [|apply kept_refl]. destruct (dget k d); [|apply kept_refl].
      apply kept_attr. intros O d' [= <-]. apply old_inv in O as (_ & b & _). specialize (b d E). clear -b. induction b as [|[k' v'] d H b IH]; simpl; auto.
      destruct (String.eqb k k'); auto.
    - intros e; apply kept_attr. discriminate.
    - apply search_kept.
    - apply child_kept.
    - intros c; split; [destruct c; auto|]. intros _. constructor; simpl; auto; try discriminate; intros; contradiction.
    - intros e L; split; [destruct e; auto|]. intros O. apply old_inv in O as (a & b & c & d). destruct e; constructor; auto.
    - intros e s0 (T & K); split; [destruct s0; auto|]. intros O. apply K in O. apply old_inv in O as (a & b & c & d). destruct s0; constructor; auto.
    - intros cls m name f Hm Hf e. destruct G as (_ & Gc). specialize (Gc cls). rewrite Hm in Gc. destruct (en_model ev' cls); [|contradiction].
      destruct (gc_cval_old Gc _ Hf e). split; auto.
  Qed.

  (** ---- new fields read nothing ---- *)
  Lemma search_new : forall m e tag behind step, old e -> U tag = true -> search m e tag behind step = (NotFound, e).
  Proof.
    intros m e tag behind step O Ut. apply old_inv in O as (a & _ & c & _).
    assert (Ti : forall x, In x (e_elems e) -> tag_is (e_tag x) tag = false).
    { intros x I. specialize (c x I). destruct (e_tag x) as [t|] eqn:E; simpl; auto. specialize (c t eq_refl).
      destruct (String.eqb_spec t tag); [congruence|auto]. }
    assert (Ff : forall i, find_from i (skipn (e_next e) (e_elems e)) tag = None).
    { assert (Q : forall x, In x (skipn (e_next e) (e_elems e)) -> tag_is (e_tag x) tag = false).
      { intros x I. apply Ti. rewrite <- (firstn_skipn (e_next e) (e_elems e)). apply in_app_iff; auto. }
      induction (skipn (e_next e) (e_elems e)) as [|x l IH]; intros i; simpl; auto. rewrite Q by (simpl; auto). apply IH. intros; apply Q; simpl; auto. }
    assert (F : forward m e tag step = (NotFound, e)).
    { destruct m; simpl; unfold strict_forward, ordered_forward, unordered_forward; try rewrite Ff; auto.
      destruct (nth_error _ _) eqn:N; auto. apply nth_error_In in N. rewrite Ti; auto. }
    unfold search. destruct behind; auto. unfold look_behind. destruct (e_next e) as [|i] eqn:En; auto.
    destruct (nth_error (e_elems e) i) as [x|] eqn:N.
    - rewrite Ti; auto. eapply nth_error_In; eauto.
    - apply nth_error_None in N. lia.
  Qed.

  Definition silent (s : st) (p : rres val) : Prop := fst p = Fuel \/ (fst p = Ok VNone /\ st_el (snd p) = st_el s).

  Lemma pop_new : forall m tag f s, old (st_el s) -> U tag = true -> silent s (with_found (pop_element (st_el s) tag m) f s).
  Proof. intros m tag f s O Ut. unfold pop_element. rewrite search_new; auto. right; simpl; auto. Qed.

  Lemma proxy_new : forall r p eas loc s, old (st_el s) -> U (px_name p) = true -> known ev' p -> silent s (read_proxy ev' r p eas loc s).
  Proof.
    intros r p eas loc s O Ut K. unfold read_proxy. destruct (en_model ev' (px_model p)) eqn:E; [|contradiction].
    destruct (px_computed p); [right; auto|]. apply pop_new; auto.
  Qed.

  Lemma variants_new : forall r vs, Forall (fun p => U (px_name p) = true /\ known ev' p) vs -> forall t h eas loc s, old (st_el s) ->
    silent s (read_variants (map (read_proxy ev' r) vs) t h eas loc [] s).
  Proof.
    intros r vs F t h eas loc; induction F as [|p vs (Ut & K) F IH]; intros s O; cbn [map read_variants]; [right; auto|].
    rewrite create_snapshot_id. pose proof (@proxy_new r p eas loc (set_el (st_el s) s) O Ut K) as [E|(E & Q)].
    - destruct (read_proxy _ _ _ _ _ _) as [o s1]; simpl in *; subst. left; auto.
    - destruct (read_proxy _ _ _ _ _ _) as [o s1]; simpl in *; subst. apply (IH (St (st_el s) (st_sm s1))); auto.
  Qed.

  Lemma tagged_new : forall rp a m vs, Forall (fun kv : string * proxy => U (px_name (snd kv)) = true) vs -> forall eas loc s, old (st_el s) ->
    silent s (read_tagged rp a m vs eas loc s).
  Proof.
    intros rp a m vs F eas loc; induction F as [|[t p] vs Ut F IH]; intros s O; cbn [read_tagged]; [right; auto|].
    unfold find_element. rewrite search_new; auto. apply (IH (set_el (st_el s) s)); auto.
  Qed.

  Lemma tuple_new : forall (rs : list reader) t h eas loc, Forall (fun r : reader => forall l s, old (st_el s) -> silent s (r eas l s)) rs ->
    forall i vs s, old (st_el s) -> forallb is_none vs = true -> silent s (read_tuple rs t h eas loc i vs [] s).
  Proof.
    intros rs t h eas loc F; induction F as [|r rs R F IH]; intros i vs s O V; cbn [read_tuple].
    - rewrite V. right; auto.
    - specialize (R (loc ++ [LIdx i]) s O). destruct (r eas (loc ++ [LIdx i]) s) as [o s1]. destruct R as [E|(E & Q)]; simpl in *; subst; [left; auto|].
      assert (O1 : old (st_el s1)) by (rewrite Q; auto).
      destruct (IH (S i) (vs ++ [VNone]) s1 O1) as [X|(X & Y)]; [rewrite forallb_app, V; auto|left; auto|right; split; auto; congruence].
  Qed.

  Fixpoint new_ind (P : ser -> Prop)
    (Hattr : forall n c, A n = true -> P (SAttr n c))
    (Helem : forall n ns m c ni, U n = true -> P (SElem n ns m c ni))
    (Hmap : forall n m a, U n = true -> P (SMapElem n m a))
    (Hraw : forall n m c, U n = true -> P (SRaw n m c))
    (Hmodel : forall p, U (px_name p) = true -> known ev' p -> P (SProxy p))
    (Hlist : forall t c s h, P s -> P (SHomo t c s h))
    (Htuple : forall t c l h, Forall P l -> P (SHetero t c l h))
    (Hprim : forall c s, P s -> P (SUnionPrim c s))
    (Hunion : forall t c vs h, Forall (fun p => U (px_name p) = true /\ known ev' p) vs -> P (SUnionModel t c vs h))
    (Htagged : forall c d a vs m, Forall (fun kv : string * proxy => U (px_name (snd kv)) = true) vs -> P (STagged c d a vs m))
    (Hwrap : forall p path ns m c s, U p = true -> P (SWrap (p :: path) ns m c s))
    s (H : new_field U A ev' s) {struct H} : P s :=
    match H in new_field _ _ _ s return P s with
    | @nf_attr _ _ _ n c H => Hattr n c H
    | @nf_elem _ _ _ n ns m c ni H => Helem n ns m c ni H
    | @nf_map _ _ _ n m a H => Hmap n m a H
    | @nf_raw _ _ _ n m c H => Hraw n m c H
    | @nf_model _ _ _ p H K => Hmodel p H K
    | @nf_list _ _ _ t c s h H => Hlist t c s h (new_ind Hattr Helem Hmap Hraw Hmodel Hlist Htuple Hprim Hunion Htagged Hwrap H)
    | @nf_tuple _ _ _ t c l h F => Htuple t c l h
        ((fix go l (F : Forall (new_field U A ev') l) : Forall P l :=
            match F with
            | Forall_nil _ => Forall_nil _
            | Forall_cons x X F' => Forall_cons x (new_ind Hattr Helem Hmap Hraw Hmodel Hlist Htuple Hprim Hunion Htagged Hwrap X) (go _ F')
            end) _ F)
    | @nf_prim _ _ _ c s H => Hprim c s (new_ind Hattr Helem Hmap Hraw Hmodel Hlist Htuple Hprim Hunion Htagged Hwrap H)
    | @nf_union _ _ _ t c vs h F => Hunion t c vs h F
    | @nf_tagged _ _ _ c d a vs m F => Htagged c d a vs m F
    | @nf_wrap _ _ _ p path ns m c s H => Hwrap p path ns m c s H
    end.

  Lemma read_new : forall s, new_field U A ev' s -> forall n eas loc st0, old (st_el st0) -> silent st0 (read n ev' s eas loc st0).
  Proof.
    intros s0 H0. refine (@new_ind (fun s => forall n eas loc st0, old (st_el st0) -> silent st0 (read n ev' s eas loc st0)) _ _ _ _ _ _ _ _ _ _ _ s0 H0); clear s0 H0.
    - intros n c H [|k] eas loc st0 O; [left; reflexivity|]; cbn [read read_step].
      unfold read_attr. destruct c; [right; auto|]. unfold pop_attrib. apply old_inv in O as (_ & b & _).
      destruct (e_attrib (st_el st0)) as [d|] eqn:E; [|right; auto]. specialize (b d eq_refl).
      destruct (dget n d) as [v|] eqn:D; [|right; auto]. exfalso. clear -b D H. induction b as [|[k v'] d Hk b IH]; simpl in *; [discriminate|].
      destruct (String.eqb_spec n k); [congruence|auto].
    - intros n ns m c ni H [|k] eas loc st0 O; [left; reflexivity|]; cbn [read read_step].
      unfold read_elem. destruct c; [right; auto|]. apply pop_new; auto.
    - intros n m a H [|k] eas loc st0 O; [left; reflexivity|]; cbn [read read_step].
      unfold read_map_elem. destruct (as_computed a); [right; auto|]. apply pop_new; auto.
    - intros n m c H [|k] eas loc st0 O; [left; reflexivity|]; cbn [read read_step].
      unfold read_raw. destruct c; [right; auto|]. apply pop_new; auto.
    - intros p H K [|k] eas loc st0 O; [left; reflexivity|]; cbn [read read_step]. apply proxy_new; auto.
    - intros t c s h IH [|k] eas loc st0 O; [left; reflexivity|]; cbn [read read_step].
      unfold read_homo. destruct c; [right; auto|]. destruct k as [|k]; [left; auto|]. cbn [read_items].
      specialize (IH (S k) eas (loc ++ [LIdx 0]) st0 O). destruct (read (S k) ev' s eas (loc ++ [LIdx 0]) st0) as [o s1].
      destruct IH as [E|(E & Q)]; simpl in *; subst; [left; auto|right; auto].
    - intros t c l h F [|k] eas loc st0 O; [left; reflexivity|]; cbn [read read_step].
      unfold read_hetero. destruct c; [right; auto|]. apply tuple_new; auto. rewrite Forall_map. eapply Forall_impl; [|exact F]. intros s IH lc s1 O1. apply IH; auto.
    - intros c s IH [|k] eas loc st0 O; [left; reflexivity|]; cbn [read read_step].
      unfold read_union_prim. destruct c; [right; auto|]. apply IH; auto.
    - intros t c vs h F [|k] eas loc st0 O; [left; reflexivity|]; cbn [read read_step].
      unfold read_union_model. destruct c; [right; auto|]. apply variants_new; auto.
    - intros c d a vs m F [|k] eas loc st0 O; [left; reflexivity|]; cbn [read read_step].
      destruct c; [right; auto|]. apply tagged_new; auto.
    - intros p path ns m c s H [|k] eas loc st0 O; [left; reflexivity|]; cbn [read read_step].
      unfold read_wrap. destruct c; [right; auto|]. cbn [find_sub_element]. unfold find_element. rewrite search_new; auto. right; simpl; auto.
  Qed.

  (** ---- values ---- *)
  Lemma like_none : forall v w, like v w -> is_none v = is_none w.
  Proof. intros v w H; inv H; auto. Qed.

  Lemma none_cases : forall v, v = VNone \/ is_none v = false.
  Proof. destruct v; auto. Qed.

  Definition dlike (a b : string * val) : Prop := fst a = fst b /\ like (snd a) (snd b).

  Lemma dset_like : forall k v w d d', like v w -> Forall2 dlike d d' -> Forall2 dlike (dset k v d) (dset k w d').
  Proof.
    intros k v w d d' L F; induction F as [|[a x] [b y] d d' (E & X) F IH]; simpl in *; subst.
    - constructor; auto. split; auto.
    - destruct (String.eqb k b); constructor; auto; split; auto.
  Qed.

  Lemma dset_some : forall B k (v : B) d, dset k v d <> [].
  Proof. intros B k v [|[a b] d]; simpl; [discriminate|]. destruct (String.eqb k a); discriminate. Qed.

  (** ---- the two readings ---- *)
  Definition agree (p q : rres val) : Prop :=
    fst p = Fuel \/ fst q = Fuel \/ (same_outcome new (fst p) (fst q) /\ st_el (snd p) = st_el (snd q)).

  Definition both (f f' : st -> rres val) : Prop :=
    forall s s', st_el s = st_el s' -> old (st_el s) -> agree (f s) (f' s').

  Definition rboth (r r' : reader) : Prop := forall eas loc, both (r eas loc) (r' eas loc).

  Definition rkept (r : reader) : Prop := forall eas loc s, kept (st_el s) (st_el (snd (r eas loc s))).

  Lemma same_outcome_refl : forall o, o <> Fuel -> same_outcome new o o.
  Proof. intros [v|x|] H; simpl; [constructor| |congruence]. destruct x; simpl; auto. Qed.

  Lemma agree_val : forall v w s s', like v w -> st_el s = st_el s' -> agree (Ok v, s) (Ok w, s').
  Proof. intros; right; right; simpl; auto. Qed.

  Lemma on_child_both : forall i f f', both f f' -> both (on_child i f) (on_child i f').
  Proof.
    intros i f f' H s s' E O. unfold on_child. rewrite <- E. destruct (nth_error (e_elems (st_el s)) i) as [c|] eqn:N.
    - specialize (H (St c (st_sm s)) (St c (st_sm s')) eq_refl (old_child _ O N)).
      destruct (f (St c (st_sm s))) as [o s1], (f' (St c (st_sm s'))) as [o' s1'].
      destruct H as [X|[X|(X & Y)]]; simpl in *; [left; auto|right; left; auto|right; right]. simpl. split; auto. rewrite Y; auto.
    - right; right; simpl; auto.
  Qed.

  Lemma with_found_both : forall m tag f f', both f f' -> both (fun s => with_found (pop_element (st_el s) tag m) f s)
                                                              (fun s => with_found (pop_element (st_el s) tag m) f' s).
  Proof.
    intros m tag f f' H s s' E O. rewrite <- E. unfold pop_element. destruct (search_kept m (st_el s) tag false true) as [_ K]. specialize (K O).
    destruct (search m (st_el s) tag false true) as [[|i|] e']; simpl in *.
    - apply agree_val; auto. constructor.
    - apply (@on_child_both i f f' H (set_el e' s) (set_el e' s')); auto.
    - right; right; simpl; auto.
  Qed.

  Lemma text_both : forall c n, rboth (read_text c n) (read_text c n).
  Proof.
    intros c n eas loc s s' E O. unfold read_text. rewrite <- E. destruct c; [apply agree_val; auto; constructor|].
    destruct (if n then _ else _) as [nil e1]. destruct nil; [apply agree_val; auto; constructor|].
    destruct (pop_text e1) as [t e2]. apply agree_val; auto. constructor.
  Qed.

  Lemma attrs_both : forall a, rboth (read_attrs a) (read_attrs a).
  Proof.
    intros a eas loc s s' E O. unfold read_attrs. rewrite <- E. destruct (as_computed a); [apply agree_val; auto; constructor|].
    destruct (pop_attributes (st_el s)) as [[d|] e1]; apply agree_val; auto; constructor.
  Qed.

  Lemma items_both : forall r r', rboth r r' -> rkept r -> forall k t h eas loc i vs ws es es' s s', st_el s = st_el s' -> old (st_el s) ->
    Forall2 like vs ws -> (es = [] <-> es' = []) ->
    agree (read_items k r t h eas loc i vs es s) (read_items k r' t h eas loc i ws es' s').
  Proof.
    intros r r' H K k; induction k as [|k IH]; intros t h eas loc i vs ws es es' s s' E O V X; cbn [read_items]; [left; auto|].
    specialize (H eas (loc ++ [LIdx i]) s s' E O). specialize (K eas (loc ++ [LIdx i]) s).
    destruct (r eas (loc ++ [LIdx i]) s) as [o s1], (r' eas (loc ++ [LIdx i]) s') as [o' s1']. destruct K as [_ K]. specialize (K O). simpl in K.
    destruct H as [H|[H|(H & Q)]]; simpl in H.
    - subst o. left; auto.
    - subst o'. right; left; auto.
    - simpl in Q. destruct o as [v|x|], o' as [v'|x'|]; simpl in H; try contradiction.
      + pose proof (like_none H) as Nn. destruct (none_cases v) as [->|Nv].
        * assert (v' = VNone) as -> by (destruct v'; simpl in Nn; congruence).
          destruct es as [|x es], es' as [|x' es']; try (exfalso; destruct X as [X1 X2]; (discriminate (X1 eq_refl) || discriminate (X2 eq_refl))).
          -- apply agree_val; auto. destruct V; [constructor|]. constructor. constructor; auto.
          -- right; right; simpl; auto.
        * assert (Nv' : is_none v' = false) by congruence.
          assert (IHx : agree (read_items k r t h eas loc (S i) (vs ++ [v]) es s1) (read_items k r' t h eas loc (S i) (ws ++ [v']) es' s1')).
          { apply IH; auto. apply Forall2_app; auto. }
          destruct v; try discriminate Nv; destruct v'; try discriminate Nv'; exact IHx.
      + destruct x, x'; simpl in H; try contradiction; try discriminate H; try (right; right; simpl; auto; fail).
        apply IH; auto. split; intros Y; apply app_eq_nil in Y as [_ Y]; discriminate.
  Qed.

  Lemma none_same : forall vs ws, Forall2 like vs ws -> forallb is_none vs = forallb is_none ws.
  Proof. intros vs ws F; induction F; simpl; auto. rewrite (like_none H), IHF; auto. Qed.

  Lemma tuple_both : forall rs rs', Forall2 (fun r r' => rboth r r' /\ rkept r) rs rs' -> forall t h eas loc i vs ws es es' s s',
    st_el s = st_el s' -> old (st_el s) -> Forall2 like vs ws -> (es = [] <-> es' = []) ->
    agree (read_tuple rs t h eas loc i vs es s) (read_tuple rs' t h eas loc i ws es' s').
  Proof.
    intros rs rs' F; induction F as [|r r' rs rs' (H & K) F IH]; intros t h eas loc i vs ws es es' s s' E O V X; cbn [read_tuple].
    - destruct es as [|x es], es' as [|x' es']; try (exfalso; destruct X as [X1 X2]; (discriminate (X1 eq_refl) || discriminate (X2 eq_refl))).
      + rewrite <- (none_same V). apply agree_val; auto. destruct (forallb is_none vs); constructor; auto.
      + right; right; simpl; auto.
    - specialize (H eas (loc ++ [LIdx i]) s s' E O). specialize (K eas (loc ++ [LIdx i]) s).
      destruct (r eas (loc ++ [LIdx i]) s) as [o s1], (r' eas (loc ++ [LIdx i]) s') as [o' s1']. destruct K as [_ K]. specialize (K O). simpl in K.
      destruct H as [H|[H|(H & Q)]]; simpl in H.
      + subst o. left; auto.
      + subst o'. right; left; auto.
      + simpl in Q. destruct o as [v|x|], o' as [v'|x'|]; simpl in H; try contradiction.
        * apply IH; auto. apply Forall2_app; auto.
        * destruct x, x'; simpl in H; try contradiction; try discriminate H; try (right; right; simpl; auto; fail).
          apply IH; auto. split; intros Y; apply app_eq_nil in Y as [_ Y]; discriminate.
  Qed.

  Lemma variants_both : forall rs rs', Forall2 rboth rs rs' -> forall t h eas loc es es' s s',
    st_el s = st_el s' -> old (st_el s) -> (es = [] <-> es' = []) ->
    agree (read_variants rs t h eas loc es s) (read_variants rs' t h eas loc es' s').
  Proof.
    intros rs rs' F; induction F as [|r r' rs rs' H F IH]; intros t h eas loc es es' s s' E O X; cbn [read_variants].
    - destruct es as [|x es], es' as [|x' es']; try (exfalso; destruct X as [X1 X2]; (discriminate (X1 eq_refl) || discriminate (X2 eq_refl))).
      + apply agree_val; auto. constructor.
      + right; right; simpl; split; auto. congruence.
    - rewrite !create_snapshot_id. specialize (H eas loc (set_el (st_el s) s) (set_el (st_el s') s') E O).
      destruct (r eas loc (set_el (st_el s) s)) as [o s1], (r' eas loc (set_el (st_el s') s')) as [o' s1'].
      destruct H as [H|[H|(H & Q)]]; simpl in H.
      + subst o. left; auto.
      + subst o'. right; left; auto.
      + simpl in Q. destruct o as [v|x|], o' as [v'|x'|]; simpl in H; try contradiction.
        * pose proof (like_none H) as Nn. destruct (none_cases v) as [->|Nv].
          -- assert (v' = VNone) as -> by (destruct v'; simpl in Nn; congruence). apply IH; auto.
          -- assert (Nv' : is_none v' = false) by congruence.
             assert (Ax : agree (Ok v, St (apply_snapshot (st_el s) (st_el s1)) (st_sm s1)) (Ok v', St (apply_snapshot (st_el s') (st_el s1')) (st_sm s1')))
               by (apply agree_val; auto; simpl; congruence).
             destruct v; try discriminate Nv; destruct v'; try discriminate Nv'; exact Ax.
        * destruct x, x'; simpl in H; try contradiction; try discriminate H; try (right; right; simpl; auto; fail).
          apply IH; auto. split; intros Y; [apply dset_some in Y|apply dset_some in Y]; contradiction.
  Qed.

  Lemma tagged_both : forall rp rp', (forall p, rboth (rp p) (rp' p)) -> forall a m vs eas loc, both (read_tagged rp a m vs eas loc) (read_tagged rp' a m vs eas loc).
  Proof.
    intros rp rp' H a m vs eas loc; induction vs as [|[t p] vs IH]; intros s s' E O; cbn [read_tagged].
    - apply agree_val; auto. constructor.
    - unfold find_element. rewrite <- E. destruct (search_kept m (st_el s) (px_name p) false false) as [_ K]. specialize (K O).
      destruct (search m (st_el s) (px_name p) false false) as [[|i|] e']; simpl in K.
      + apply (IH (set_el e' s) (set_el e' s')); auto.
      + destruct (nth_error (e_elems e') i) as [c|]; [|right; right; simpl; auto].
        destruct (match get_attrib a c with Some t0 => _ | None => _ end); [apply H; auto|apply IH; auto].
      + right; right; simpl; auto.
  Qed.

  Lemma on_path_both : forall path f f', both f f' -> both (on_path path f) (on_path path f').
  Proof. intros path f f' H; induction path as [|i path IH]; simpl; auto. intros s s' E O. apply on_child_both; auto. Qed.

  Lemma find_sub_kept : forall path m e, kept e (snd (find_sub_element path m e)).
  Proof.
    apply find_sub_rel.
    - apply kept_refl.
    - apply kept_trans.
    - apply search_kept.
    - apply child_kept.
  Qed.

  Lemma wrap_both : forall path m c r r', rboth r r' -> rboth (read_wrap path m c r) (read_wrap path m c r').
  Proof.
    intros path m c r r' H eas loc s s' E O. unfold read_wrap. rewrite <- E. destruct c; [apply agree_val; auto; constructor|].
    destruct (find_sub_kept path m (st_el s)) as [_ K]. specialize (K O).
    destruct (find_sub_element path m (st_el s)) as [[idxs|] e']; simpl in K; [|right; right; simpl; auto].
    destruct (_ && _); [|apply agree_val; auto; constructor].
    apply (@on_path_both idxs (fun c => r eas loc (note_line loc c)) (fun c => r' eas loc (note_line loc c))); auto.
    intros x x' Ex Ox. apply H; auto.
  Qed.

  Lemma raw_both : forall b n m c, rboth (read_raw b n m c) (read_raw b n m c).
  Proof.
    intros b n m c eas loc s s' E O. unfold read_raw. destruct c; [apply agree_val; auto; constructor|].
    apply with_found_both; auto. intros x x' Ex Ox. rewrite <- Ex. destruct (extract (st_el x)) as [fresh c']. right; right; simpl. split; auto.
    destruct (to_native b fresh); simpl; auto. constructor.
  Qed.

  (** ---- classes ---- *)
  Definition fagree (asks : list (string * val) -> Prop) (p q : rres (list (string * val) * dict verr)) : Prop :=
    fst p = Fuel \/ fst q = Fuel \/
    (st_el (snd p) = st_el (snd q) /\ old (st_el (snd p)) /\
     match fst p, fst q with
     | Ok (d, es), Ok (d', es') => Forall2 dlike d d' /\ (es = [] <-> es' = []) /\ asks d
     | Raise x, Raise y => x = y /\ (forall e, x <> XValidation e)
     | _, _ => False
     end).

  Section Model.
    Variables r r' : ser -> reader.
    Hypothesis Hr : forall s, rboth (r s) (r' s).
    Hypothesis Hk : forall s, rkept (r s).
    Hypothesis Hn : forall s, new_field U A ev' s -> forall eas loc st0, old (st_el st0) -> silent st0 (r' s eas loc st0).
    Variables (cls : string) (m m' : mdef).
    Hypothesis C : grown_class U A ev' new cls m m'.

    Definition key_of (f : string) : string := match dget f (md_valias m) with Some a => a | None => f end.

    Definition asks (d : list (string * val)) : Prop :=
      Forall (fun kv : string * val => exists f, In f (map fst (md_fields m)) /\ fst kv = key_of f) d.

    Lemma asks_dset : forall f v d, In f (map fst (md_fields m)) -> asks d -> asks (dset (key_of f) v d).
    Proof.
      intros f v d I H; induction H as [|[k w] d (g & J & Q) H IH]; cbn [dset].
      - constructor; [|constructor]. exists f; auto.
      - simpl in Q. destruct (String.eqb_spec (key_of f) k) as [E|D]; constructor; eauto.
    Qed.

    Lemma fields_both : forall fs fs', more_fields U A ev' (new cls) fs fs' -> incl (map fst fs) (map fst (md_fields m)) ->
      forall eas d d' es es' s s', st_el s = st_el s' -> old (st_el s) ->
      Forall2 dlike d d' -> (es = [] <-> es' = []) -> asks d ->
      fagree asks (read_fields r m fs eas d es s) (read_fields r' m' fs' eas d' es' s').
    Proof.
      intros fs fs' F; induction F as [|[name f] fs fs' Nw F IH|[name f] fs fs' Nw Nf F IH]; intros Inc eas d d' es es' s s' E O V X Ak; try (simpl in Nw); cbn [read_fields].
      - right; right; simpl; auto.
      - pose proof (gc_cval C name) as Gv. rewrite Nw in Gv. rewrite Gv. rewrite (gc_aliases C name Nw).
        assert (Inc' : incl (map fst fs) (map fst (md_fields m))) by (intros z Iz; apply Inc; simpl; auto).
        assert (Iname : In name (map fst (md_fields m))) by (apply Inc; simpl; auto).
        specialize (IH Inc').
        assert (Q : forall p p', (match md_cval m name with Some custom => run_custom custom (note_line [LKey name] s) | None => r f eas [LKey name] (note_line [LKey name] s) end) = p ->
                          (match md_cval m name with Some custom => run_custom custom (note_line [LKey name] s') | None => r' f eas [LKey name] (note_line [LKey name] s') end) = p' ->
                    agree p p' /\ kept (st_el s) (st_el (snd p))).
        { intros p p' <- <-. destruct (md_cval m name) as [g|] eqn:Eg.
          - unfold run_custom. change (st_el (note_line [LKey name] s)) with (st_el s). change (st_el (note_line [LKey name] s')) with (st_el s'). rewrite <- E.
            destruct (gc_cval_old C _ Eg (st_el s)) as [K1 K2]. destruct (g (st_el s)) as [o e']; simpl in *. split; [|split; auto].
            destruct o as [v|x|]; [apply agree_val; auto; constructor| |left; auto]. right; right; simpl; split; auto. destruct x; simpl; auto.
          - split; [apply Hr; auto|]. apply (Hk f eas [LKey name] (note_line [LKey name] s)). }
        destruct (match md_cval m name with Some custom => run_custom custom (note_line [LKey name] s) | None => _ end) as [o s1].
        destruct (match md_cval m name with Some custom => run_custom custom (note_line [LKey name] s') | None => _ end) as [o' s1'].
        destruct (Q _ _ eq_refl eq_refl) as [H [_ K]]. specialize (K O). clear Q.
        destruct H as [H|[H|(H & Q)]]; simpl in H.
        + subst o. left; auto.
        + subst o'. right; left; auto.
        + simpl in Q, K. destruct o as [v|x|], o' as [v'|x'|]; simpl in H; try contradiction.
          * pose proof (like_none H) as Nn. destruct (none_cases v) as [->|Nv].
            -- assert (v' = VNone) as -> by (destruct v'; simpl in Nn; congruence). apply IH; auto.
            -- assert (Nv' : is_none v' = false) by congruence.
               pose proof (IH eas (dset (match dget name (md_valias m) with Some a => a | None => name end) v d)
                              (dset (match dget name (md_valias m) with Some a => a | None => name end) v' d') es es' s1 s1' Q K) as IHx.
               specialize (IHx (dset_like _ H V) X (@asks_dset name v d Iname Ak)).
               destruct v; try discriminate Nv; destruct v'; try discriminate Nv'; exact IHx.
          * destruct x, x'; simpl in H; try contradiction; try discriminate H; try (right; right; simpl; split; auto; split; auto; split; [congruence|discriminate]).
            apply IH; auto. split; intros Y; apply dset_some in Y; contradiction.
        - pose proof (gc_cval C name) as Gv. rewrite Nw in Gv. rewrite Gv.
        assert (O' : old (st_el (note_line [LKey name] s'))) by (simpl; rewrite <- E; auto).
        pose proof (@Hn f Nf eas [LKey name] (note_line [LKey name] s') O') as H. destruct (r' f eas [LKey name] (note_line [LKey name] s')) as [o s1'].
        destruct H as [H|(H & Q)]; simpl in H; subst o; [right; left; auto|]. simpl in Q. apply IH; auto. congruence.
    Qed.

    Lemma validate_both : forall i i' s s', oboth like i i' -> asked_for m i -> st_el s = st_el s' -> agree (validate_result m i s, s) (validate_result m' i' s', s').
    Proof.
      intros i i' s s' I Ai E. right; right; simpl; split; auto. unfold validate_result. rewrite (gc_forbid C), <- E.
      assert (Ce : (check_extra (md_name m) (st_el s) (md_hide m) = None <-> check_extra (md_name m') (st_el s) (md_hide m') = None)).
      { unfold check_extra. destruct (get_unbound [] (st_el s)); [tauto|split; discriminate]. }
      pose proof (@gc_validate _ _ _ _ _ _ _ C i i' I Ai) as Gv.
      destruct (md_forbid m).
      - destruct (check_extra (md_name m) (st_el s) (md_hide m)) eqn:E1, (check_extra (md_name m') (st_el s) (md_hide m')) eqn:E2; simpl; auto;
          try (exfalso; destruct Ce as [C1 C2]; (discriminate (C1 eq_refl) || discriminate (C2 eq_refl))).
        destruct (md_validate m i), (md_validate m' i'); simpl; auto; try contradiction; subst; auto.
      - destruct (md_validate m i), (md_validate m' i'); simpl; auto; try contradiction; subst; auto.
    Qed.

    Lemma model_both : rboth (read_model r m) (read_model r' m').
    Proof.
      intros eas loc s s' E O. unfold read_model. rewrite (gc_root C). destruct (md_root m) eqn:Rt.
      - unfold read_root_model. rewrite (gc_root_fields C Rt). destruct (md_fields m) as [|[name f] fs]; [right; right; simpl; auto|].
        pose proof (@Hr f eas loc s s' E O) as H.
        destruct (r f eas loc s) as [o s1], (r' f eas loc s') as [o' s1'].
        destruct H as [H|[H|(H & Q)]]; simpl in H.
        + subst o. left; auto.
        + subst o'. right; left; auto.
        + simpl in Q. destruct o as [v|x|], o' as [v'|x'|]; simpl in H; try contradiction.
          * apply validate_both; auto; [|intros Y; congruence]. rewrite <- (like_none H). destruct (is_none v); simpl; auto.
          * destruct x, x'; simpl in H; try contradiction; try discriminate H; try (right; right; simpl; auto; fail).
        - unfold read_plain_model. pose proof (@fields_both _ _ (gc_fields C) (fun x I => I) eas [] [] [] [] s s' E O) as H.
        specialize (H (Forall2_nil _) (conj (fun x => x) (fun x => x)) (Forall_nil _)).
        destruct (read_fields r m (md_fields m) eas [] [] s) as [o s1], (read_fields r' m' (md_fields m') eas [] [] s') as [o' s1'].
        destruct H as [H|[H|(Q & O1 & H)]]; simpl in H.
        + subst o. left; auto.
        + subst o'. right; left; auto.
        + simpl in Q. destruct o as [[d es]|x|], o' as [[d' es']|x'|]; try contradiction.
          * destruct H as (V & X & Ak). destruct es as [|x es], es' as [|x' es']; try (exfalso; destruct X as [X1 X2]; (discriminate (X1 eq_refl) || discriminate (X2 eq_refl))).
            -- apply validate_both; auto; [simpl; constructor; exact V|]. intros _. eauto.
            -- right; right; simpl; auto.
          * destruct H as [<- Nx]. right; right; simpl; split; auto. destruct x; simpl; auto.
    Qed.
  End Model.

  Lemma proxy_both : forall r r', (forall s, rboth (r s) (r' s)) -> (forall s, rkept (r s)) ->
    (forall s, new_field U A ev' s -> forall eas loc st0, old (st_el st0) -> silent st0 (r' s eas loc st0)) ->
    forall p, rboth (read_proxy ev r p) (read_proxy ev' r' p).
  Proof.
    intros r r' Hr Hk Hn p eas loc s s' E O. unfold read_proxy. destruct G as [_ Gc]. specialize (Gc (px_model p)).
    destruct (en_model ev (px_model p)) as [m|], (en_model ev' (px_model p)) as [m'|]; try contradiction; [|right; right; simpl; auto].
    destruct (px_computed p); [apply agree_val; auto; constructor|].
    apply with_found_both; auto. intros x x' Ex Ox. cbv zeta.
    change (st_el (note_line loc x)) with (st_el x). change (st_el (note_line loc x')) with (st_el x'). rewrite <- Ex.
    assert (K : kept (st_el x) (snd (is_element_nill (st_el x)))).
    { unfold is_element_nill. pose proof (@read_kept 1 (SAttr xsi_nil false) true [] x) as K. simpl in K. unfold read_attr in K.
      destruct (pop_attrib xsi_nil (st_el x)); simpl in *; auto. }
    destruct (is_element_nill (st_el x)) as [nil e1]. simpl in K. destruct nil; [apply agree_val; auto; constructor|].
    apply (@model_both r r' Hr Hk Hn _ _ _ Gc); auto. simpl. apply K; auto.
  Qed.

  Lemma read_both : forall n s, rboth (read n ev s) (read n ev' s).
  Proof.
    induction n as [|n IH]; intros s; [intros eas loc s1 s2 _ _; left; auto|].
    assert (Hk : forall s, rkept (read n ev s)) by (intros s0 eas loc st0; apply read_kept).
    assert (Hn : forall s, new_field U A ev' s -> forall eas loc st0, old (st_el st0) -> silent st0 (read n ev' s eas loc st0)) by (intros; apply read_new; auto).
    pose proof (@proxy_both _ _ IH Hk Hn) as Hp.
    destruct s; cbn [read read_step].
    - apply text_both.
    - intros eas loc s s' E O. unfold read_attr. rewrite <- E. destruct computed; [apply agree_val; auto; constructor|].
      destruct (pop_attrib name (st_el s)) as [o e']. apply agree_val; auto; constructor.
    - intros eas loc s s' E O. unfold read_elem. destruct computed; [apply agree_val; auto; constructor|].
      apply with_found_both; auto. intros x x' Ex Ox. apply text_both; auto.
    - apply attrs_both.
    - intros eas loc s s' E O. unfold read_map_elem. destruct (as_computed a); [apply agree_val; auto; constructor|].
      apply with_found_both; auto. intros x x' Ex Ox. apply attrs_both; auto.
    - intros eas loc s0 s' E O. unfold read_homo. destruct computed; [apply agree_val; auto; constructor|].
      apply items_both; auto. tauto.
    - intros eas loc s0 s' E O. unfold read_hetero. destruct computed; [apply agree_val; auto; constructor|].
      apply tuple_both; auto; [|tauto]. clear -IH Hk. induction inners; simpl; constructor; auto.
    - intros eas loc s0 s' E O. unfold read_union_prim. destruct computed; [apply agree_val; auto; constructor|]. apply IH; auto.
    - intros eas loc s0 s' E O. unfold read_union_model. destruct computed; [apply agree_val; auto; constructor|].
      apply variants_both; auto; [|tauto]. clear -Hp. induction variants; simpl; constructor; auto.
    - intros eas loc s0 s' E O. destruct computed; [apply agree_val; auto; constructor|]. apply tagged_both; auto.
    - apply wrap_both; auto.
    - destruct G as [Gb _]. rewrite Gb. apply raw_both.
    - apply Hp.
  Qed.

  Lemma doc_old : forall b d, without_new U A d -> old (from_native b d).
  Proof.
    intros b d H; induction H as [tag ns text tail attrib cs line Fa Ft Fc IH|text tail attrib line Fa]; simpl.
    - constructor; simpl; [lia| | |].
      + intros d [= <-]; auto.
      + intros c I t Et. apply in_flat_map in I as (x & Ix & I). destruct (is_xml_comment x) eqn:Cx; [contradiction|]. destruct I as [<-|[]].
        apply (Ft x Ix Cx). destruct x; simpl in *; congruence.
      + intros c I. apply in_flat_map in I as (x & Ix & I). destruct (is_xml_comment x) eqn:Cx; [contradiction|]. destruct I as [<-|[]]. auto.
    - constructor; simpl; [lia| | |]; try (intros; contradiction). intros d [= <-]; auto.
  Qed.

  Lemma grow : forall n n' cls root eas, without_new U A root ->
    from_xml_tree n ev cls root eas <> Fuel -> from_xml_tree n' ev' cls root eas <> Fuel ->
    same_outcome new (from_xml_tree n ev cls root eas) (from_xml_tree n' ev' cls root eas).
  Proof.
    intros n n' cls root eas W F F'.
    rewrite <- (@from_xml_stable ev n (Nat.max n n') cls root eas) in * by (auto; lia).
    rewrite <- (@from_xml_stable ev' n' (Nat.max n n') cls root eas) in * by (auto; lia).
    set (k := Nat.max n n') in *. unfold from_xml_tree in *. destruct G as [Gb Gc]. specialize (Gc cls).
    destruct (en_model ev cls) as [m|], (en_model ev' cls) as [m'|]; try contradiction; [|simpl; auto].
    rewrite (gc_elem_name Gc), Gb in *. destruct (tag_is _ _); [|simpl; auto].
    assert (H : rboth (read_model (read k ev) m) (read_model (read k ev') m')).
    { apply (@model_both _ _ (read_both k)) with (cls := cls); auto.
      - intros s0 eas0 loc st0; apply read_kept.
      - intros; apply read_new; auto. }
    destruct (H eas [] (St (from_native (en_backend ev) root) []) (St (from_native (en_backend ev) root) []) eq_refl) as [X|[X|(X & _)]]; auto; try contradiction.
    apply doc_old; auto.
  Qed.
End Grow.
