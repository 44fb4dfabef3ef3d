(** PfModes2.v -- fields read from one element, in strict mode and in the others. *)

From Verif Require Import Base Elem Native Errs Names Ser Read Api SpecElem SpecRead SpecStray SpecRound SpecModes.
From Verif Require Import PfElem PfField PfRel PfStray PfRound1 PfRound6 PfModes.

Local Ltac inv H := inversion H; subst; clear H.

Lemma ahead_all : forall N l u u1 t', in_turn (N :: l) -> parts l u1 ->
  (u = u1 \/ exists c t, u = c :: u1 /\ In t N /\ called t c) -> In t' N -> ahead t' u.
Proof.
  intros N l u u1 t' T P E I.
  assert (Hd : (exists c u', u = c :: u' /\ called t' c) \/ not_first t' u).
  { destruct u as [|c u]; [right; intros ? ? K; discriminate|]. destruct (tag_is (e_tag c) t') eqn:C.
    - apply tag_is_called in C. left; eauto.
    - apply tag_is_not_called in C. right. intros ? ? K. injection K as <- <-; auto. }
  destruct Hd as [Hd|Nf]; [left; auto|right]. destruct E as [->|(c & t & -> & It & C)].
  - eapply turn_none; eauto.
  - constructor.
    + intros t2 [<-|[]]. eapply Nf; reflexivity.
    + inversion T as [|N0 l0 Hn T0|n0 l0 T0]; subst.
      * eapply none_of; [apply Hn, I|apply parts_called; auto].
      * exfalso. destruct It as [<-|[]]. destruct I as [<-|[]]. eapply Nf; eauto.
Qed.

Lemma tidied_ext : forall e e', e_elems e' = e_elems e -> e_next e' = e_next e -> tidied e -> tidied e'.
Proof.
  intros e e' E N T. inversion T as [e0 S C]; subst. constructor; unfold unread, passed; rewrite E, N; auto.
Qed.

Definition same_children (e e' : elem) : Prop := e_elems e' = e_elems e /\ e_next e' = e_next e.

Lemma pop_attrib_children : forall k e, same_children e (snd (pop_attrib k e)).
Proof.
  intros k e; unfold pop_attrib, same_children. destruct (e_attrib e) as [d|]; simpl; auto. destruct (dget k d); simpl; auto.
Qed.

Lemma nill_children : forall e, same_children e (snd (is_element_nill e)).
Proof.
  intros e; unfold is_element_nill. pose proof (pop_attrib_children xsi_nil e) as P. destruct (pop_attrib xsi_nil e); auto.
Qed.

Lemma read_text_children : forall c n eas loc s, same_children (st_el s) (st_el (snd (read_text c n eas loc s))).
Proof.
  intros c n eas loc s. unfold read_text. destruct c; [split; auto|]. destruct n; [|split; auto].
  pose proof (nill_children (st_el s)) as [A B]. destruct (is_element_nill (st_el s)) as [[|] e1]; simpl in *; split; auto.
Qed.

Lemma read_attrs_children : forall a eas loc s, same_children (st_el s) (st_el (snd (read_attrs a eas loc s))).
Proof.
  intros a eas loc s. unfold read_attrs. destruct (as_computed a); [split; auto|].
  unfold pop_attributes. destruct (e_attrib (st_el s)); split; auto.
Qed.

Lemma still_content : forall f : st -> rres val, (forall s, same_children (st_el s) (st_el (snd (f s)))) -> content_same f f.
Proof.
  intros f H c v c' T E. split; auto. specialize (H c). rewrite E in H. destruct H. eapply tidied_ext; eauto.
Qed.

Definition lone_read (N : list string) (v : val) (e e' : elem) : Prop :=
  (v = VNone /\ unread e' = unread e /\ passed e' = passed e) \/ exists t, In t N /\ took t e e'.

Lemma took_front : forall t N e e', In t N -> took t e e' -> front [N] e e'.
Proof.
  intros t N e e' I (c & c1 & u & U & C & U1 & P1 & T1). exists [c], [c1].
  split; [rewrite U1; auto|]. split; auto. split; [|auto]. apply parts_one. constructor; auto. exists t; auto.
Qed.

Lemma lone_front : forall N v e e', lone_read N v e e' -> front [N] e e'.
Proof.
  intros N v e e' [(_ & U & P)|(t & I & T)]; [apply front_none; auto|eapply took_front; eauto].
Qed.

Lemma lone_ahead : forall N v e e' l, lone_read N v e e' -> in_turn (N :: l) -> parts l (unread e') ->
  forall t, In t N -> ahead t (unread e).
Proof.
  intros N v e e' l L T P t I. eapply ahead_all; eauto. destruct L as [(_ & U & _)|(t' & I' & c & c1 & u & U & C & U1 & _)].
  - left; auto.
  - right. exists c, t'. rewrite U1. auto.
Qed.

Section Lone.
  Variable ev : env.
  Variable n : nat.

  Definition model_same : Prop := forall cls m, en_model ev cls = Some m -> forall eas loc s v s', tidied (st_el s) ->
    read_model (read n (strict_env ev)) (strict_model m) eas loc s = (Ok v, s') ->
    tidied (st_el s') /\ read_model (read n ev) m eas loc s = (Ok v, s').

  Hypothesis HM : model_same.

  Let rp := read_proxy ev (read n ev).
  Let rs p := read_proxy (strict_env ev) (read n (strict_env ev)) (strict_proxy p).

  Lemma proxy_same : forall p eas loc s v s', tidied (st_el s) -> rs p eas loc s = (Ok v, s') ->
    ((v = VNone /\ s' = s) \/ took (px_name p) (st_el s) (st_el s')) /\
    (px_mode p = Strict \/ ahead (px_name p) (unread (st_el s)) -> rp p eas loc s = (Ok v, s')).
  Proof.
    intros p eas loc s v s' T H. unfold rs, rp, read_proxy in *. simpl in H.
    destruct (en_model ev (px_model p)) as [m|] eqn:M; simpl in H; [|discriminate].
    destruct (px_computed p).
    - injection H as <- <-. auto.
    - match type of H with with_found _ ?F _ = _ => set (f := F) in H end.
      match goal with |- _ /\ (_ -> with_found _ ?F _ = _) => set (f' := F) end.
      assert (Hf : content_same f f').
      { intros c v0 c' Tc E. unfold f, f' in *. clear f f' H.
        change (st_el (note_line loc c)) with (st_el c) in *. pose proof (nill_children (st_el c)) as [A B].
        destruct (is_element_nill (st_el c)) as [[|] e1]; simpl in A, B.
        - injection E as <- <-. split; auto. simpl. eapply tidied_ext; eauto.
        - eapply HM; eauto. simpl. eapply tidied_ext; eauto. }
      destruct (@pop_same (px_name p) (px_mode p) f f' s v s' Hf T H) as [D R]. split; auto.
      destruct D as [(? & ? & _)|D]; auto.
  Qed.

  Lemma proxy_error : forall p eas loc s err s', rs p eas loc s = (Raise (XValidation err), s') ->
    exists c u, unread (st_el s) = c :: u /\ called (px_name p) c.
  Proof.
    intros p eas loc s err s' H. unfold rs, read_proxy in H. simpl in H.
    destruct (en_model ev (px_model p)) as [m|] eqn:M; simpl in H; [|discriminate].
    destruct (px_computed p); [discriminate|]. unfold pop_element in H. simpl search in H.
    destruct (strict_forward (st_el s) (px_name p) true) as [r e'] eqn:E.
    destruct (strict_cases (st_el s) (px_name p) true E) as [(-> & -> & Nf)|(c & u & -> & U & C & _)]; [discriminate|eauto].
  Qed.

  Lemma proxy_other : forall p eas loc s o s', rs p eas loc s = (o, s') -> not_first (px_name p) (unread (st_el s)) ->
    o = Ok VNone /\ s' = s \/ exists x, o = Raise x /\ (forall err, x <> XValidation err).
  Proof.
    intros p eas loc s o s' H Nf. unfold rs, read_proxy in H. simpl in H.
    destruct (en_model ev (px_model p)) as [m|] eqn:M; simpl in H.
    - destruct (px_computed p); [injection H as <- <-; auto|]. unfold pop_element in H. simpl search in H.
      destruct (strict_forward (st_el s) (px_name p) true) as [r e'] eqn:E.
      destruct (strict_cases (st_el s) (px_name p) true E) as [(-> & -> & _)|(c & u & -> & U & C & _)].
      + simpl in H. injection H as <- <-. left. destruct s; auto.
      + exfalso. eapply Nf; eauto.
    - injection H as <- <-. right. eexists; split; eauto. discriminate.
  Qed.

  Lemma variants_fail : forall t vs title hide eas loc errors s c u v s', errors <> [] ->
    unread (st_el s) = c :: u -> called t c -> ~ In t (map px_name vs) ->
    read_variants (map rs vs) title hide eas loc errors s = (Ok v, s') -> False.
  Proof.
    intros t vs title hide eas loc; induction vs as [|p vs IH]; intros errors s c u v s' Er U C NI H; cbn [map read_variants] in H.
    - destruct errors; [auto|discriminate].
    - rewrite create_snapshot_id in H. assert (set_el (st_el s) s = s) as R by (destruct s; reflexivity). rewrite R in H.
      destruct (rs p eas loc s) as [o s1] eqn:E.
      destruct (@proxy_other p eas loc s o s1 E) as [(-> & ->)|(x & -> & Nv)].
      + intros c' u' K. rewrite U in K. injection K as <- <-. intros C'. apply NI. left. symmetry. eapply called_fun; eauto.
      + eapply (IH errors (St (st_el s) (st_sm s))); eauto. intros K; apply NI; right; auto.
      + destruct x; try discriminate. eapply Nv; eauto.
  Qed.

  Lemma variants_same : forall vs title hide eas loc s v s', NoDup (map px_name vs) -> tidied (st_el s) ->
    read_variants (map rs vs) title hide eas loc [] s = (Ok v, s') ->
    lone_read (map px_name vs) v (st_el s) (st_el s') /\
    ((forall p, In p vs -> px_mode p = Strict \/ ahead (px_name p) (unread (st_el s))) ->
     read_variants (map rp vs) title hide eas loc [] s = (Ok v, s')).
  Proof.
    intros vs title hide eas loc; induction vs as [|p vs IH]; intros s v s' ND T H; cbn [map read_variants] in H.
    - injection H as <- <-. split; [left; auto|auto].
    - cbn [map read_variants]. rewrite create_snapshot_id in *.
      assert (set_el (st_el s) s = s) as R by (destruct s; reflexivity). rewrite R in *. inversion ND as [|? ? NI ND']; subst.
      destruct (rs p eas loc s) as [o s1] eqn:E. destruct o as [v1|x|]; [| |discriminate].
      + destruct (@proxy_same p eas loc s v1 s1 T E) as [D Sm].
        assert (V : v1 = VNone \/ v1 <> VNone) by (destruct v1; auto; right; discriminate).
        destruct V as [->|V].
        * destruct (IH (St (st_el s) (st_sm s1)) v s' ND' T H) as [L Sm'].
          split.
          -- destruct L as [L|(t & I & L)]; [left; auto|right; exists t; simpl; auto].
          -- intros A. rewrite (Sm (A p (or_introl eq_refl))). apply Sm'. intros q I. apply A; simpl; auto.
        * assert (H2 : (Ok v1, St (apply_snapshot (st_el s) (st_el s1)) (st_sm s1)) = (Ok v, s')) by (destruct v1; auto; congruence).
          injection H2 as <- <-. split.
          -- destruct D as [(K & _)|(c & c1 & u & U & C & U1 & P1 & T1)]; [congruence|]. right. exists (px_name p). split; [left; auto|].
             exists c, c1, u. simpl. auto.
          -- intros A. rewrite (Sm (A p (or_introl eq_refl))). destruct v1; auto; congruence.
      + destruct x; try discriminate. exfalso. destruct (@proxy_error p eas loc s e s1 E) as (c & u & U & C).
        eapply (@variants_fail (px_name p) vs); [| | |exact NI|exact H]; eauto.
        destruct (ve_title e) eqn:Vt; simpl; discriminate.
  Qed.

  Lemma tagged_same : forall vs a mode eas loc s v s', tidied (st_el s) ->
    read_tagged (read_proxy (strict_env ev) (read n (strict_env ev))) a Strict (map (fun kv => (fst kv, strict_proxy (snd kv))) vs) eas loc s = (Ok v, s') ->
    lone_read (map (fun kv => px_name (snd kv)) vs) v (st_el s) (st_el s') /\
    ((forall kv, In kv vs -> (mode = Strict /\ px_mode (snd kv) = Strict) \/ ahead (px_name (snd kv)) (unread (st_el s))) ->
     read_tagged rp a mode vs eas loc s = (Ok v, s')).
  Proof.
    intros vs a mode eas loc; induction vs as [|[tag p] vs IH]; intros s v s' T H; cbn [map read_tagged fst snd] in H.
    - injection H as <- <-. split; [left; auto|auto].
    - cbn [map read_tagged fst snd]. change (px_name (strict_proxy p)) with (px_name p) in H.
      assert (Same : forall md, md = Strict \/ ahead (px_name p) (unread (st_el s)) -> find_element (st_el s) (px_name p) md false false =
        find_element (st_el s) (px_name p) Strict false false).
      { intros md A. unfold find_element, search. apply forward_same; auto. }
      assert (R : set_el (st_el s) s = s) by (destruct s; reflexivity).
      destruct (find_element (st_el s) (px_name p) Strict false false) as [r e'] eqn:F.
      destruct (strict_cases (st_el s) (px_name p) false F) as [(-> & -> & Nf)|(c & u & -> & U & C & N & ->)].
      + rewrite R in H. destruct (IH s v s' T H) as [L Sm]. split.
        * destruct L as [L|(t & I & L)]; [left; auto|right; exists t; simpl; auto].
        * intros A. rewrite Same by (destruct (A _ (or_introl eq_refl)) as [[? ?]|?]; auto). rewrite R. apply Sm. intros kv I. apply A; simpl; auto.
      + rewrite N in H. destruct (match get_attrib a c with Some t => String.eqb t tag | None => false end) eqn:G.
        * destruct (@proxy_same p eas loc (St (st_el s) (sset loc (e_line c) (st_sm s))) v s' T H) as [D Sm]. split.
          -- destruct D as [(-> & ->)|D]; [left; auto|right; exists (px_name p); split; [left; auto|exact D]].
          -- intros A. rewrite Same by (destruct (A _ (or_introl eq_refl)) as [[? ?]|?]; auto). rewrite N, G. apply Sm.
             destruct (A _ (or_introl eq_refl)) as [[? ?]|?]; auto.
        * rewrite R in H. destruct (IH s v s' T H) as [L Sm]. split.
          -- destruct L as [L|(t & I & L)]; [left; auto|right; exists t; simpl; auto].
          -- intros A. rewrite Same by (destruct (A _ (or_introl eq_refl)) as [[? ?]|?]; auto). rewrite N, G, R. apply Sm. intros kv I. apply A; simpl; auto.
  Qed.

  Lemma pop_lone : forall t m f f' s v s' (strict : Prop), content_same f f' -> tidied (st_el s) -> (strict -> m = Strict) ->
    with_found (pop_element (st_el s) t Strict) f s = (Ok v, s') ->
    lone_read [t] v (st_el s) (st_el s') /\
    (strict \/ (forall x, In x [t] -> ahead x (unread (st_el s))) -> with_found (pop_element (st_el s) t m) f' s = (Ok v, s')).
  Proof.
    intros t m f f' s v s' strict Hf T Hs H. destruct (@pop_same t m f f' s v s' Hf T H) as [D Sm]. split.
    - destruct D as [(-> & -> & _)|D]; [left; auto|right; exists t; simpl; auto].
    - intros A. apply Sm. destruct A as [A|A]; [auto|right; apply A; simpl; auto].
  Qed.

  (** a field of the same backend, read from one element *)
  Lemma elem_lone : forall k (nm : string) ns m c ni eas loc s v s', tidied (st_el s) ->
    read k (strict_env ev) (strictly (SElem nm ns m c ni)) eas loc s = (Ok v, s') ->
    lone_read [nm] v (st_el s) (st_el s') /\
    (strictly (SElem nm ns m c ni) = SElem nm ns m c ni \/ (forall t, In t [nm] -> ahead t (unread (st_el s))) ->
     read k ev (SElem nm ns m c ni) eas loc s = (Ok v, s')).
  Proof.
    intros k nm ns m c ni eas loc s v s' T H. destruct k as [|k]; [discriminate|]. simpl in *. unfold read_elem in *.
    destruct c; [injection H as <- <-; split; [left; auto|auto]|].
    apply (@pop_lone nm m _ _ s v s' (SElem nm ns Strict false ni = SElem nm ns m false ni)
             (still_content _ (fun c => read_text_children false ni eas loc (note_line loc c))) T); auto.
    intros K; congruence.
  Qed.

  Lemma lone_same : forall s0, lone s0 -> forall eas loc s v s', tidied (st_el s) ->
    read (S n) (strict_env ev) (strictly s0) eas loc s = (Ok v, s') ->
    lone_read (child_names s0) v (st_el s) (st_el s') /\
    (strictly s0 = s0 \/ (forall t, In t (child_names s0) -> ahead t (unread (st_el s))) ->
     read (S n) ev s0 eas loc s = (Ok v, s')).
  Proof.
    intros s0 L; destruct L as [nm ns m c ni|nm m a|nm m c|p|c nm ns m c' ni|t c vs h ND|c d a vs m]; intros eas loc s v s' T H.
    - apply elem_lone; auto.
    - simpl in *. unfold read_map_elem in *. destruct (as_computed a) eqn:Ca; [injection H as <- <-; split; [left; auto|auto]|].
      apply (@pop_lone nm m _ _ s v s' (SMapElem nm Strict a = SMapElem nm m a)
               (still_content _ (fun c => read_attrs_children a eas loc (note_line loc c))) T); auto.
      intros K; congruence.
    - simpl in *. unfold read_raw in *. destruct c; [injection H as <- <-; split; [left; auto|auto]|].
      match type of H with with_found _ ?F _ = _ => set (f := F) in * end.
      apply (@pop_lone nm m f f s v s' (SRaw nm Strict false = SRaw nm m false)); auto.
      + intros c w c' Tc E. split; auto. unfold f in E. destruct (extract (st_el c)) as [fresh c1] eqn:X.
        injection E as _ <-. simpl. unfold extract in X. simpl in X. injection X as _ <-. constructor; unfold unread, passed; simpl; auto. intros ? [].
      + intros K; congruence.
    - simpl in *. destruct (@proxy_same p eas loc s v s' T H) as [D Sm]. split.
      + destruct D as [(-> & ->)|D]; [left; auto|right; exists (px_name p); simpl; auto].
      + intros A. apply Sm. destruct A as [A|A]; [left; injection A as A; rewrite <- A; reflexivity|right; apply A; auto].
    - change (read (S n) (strict_env ev) (strictly (SUnionPrim c (SElem nm ns m c' ni))))
        with (read_union_prim c (read n (strict_env ev) (strictly (SElem nm ns m c' ni)))) in H.
      change (read (S n) ev (SUnionPrim c (SElem nm ns m c' ni))) with (read_union_prim c (read n ev (SElem nm ns m c' ni))).
      unfold read_union_prim in *. destruct c; [injection H as <- <-; split; [left; auto|auto]|].
      destruct (@elem_lone n nm ns m c' ni eas loc s v s' T H) as [L Sm]. split; [exact L|]. intros A. apply Sm.
      destruct A as [A|A]; [left; simpl in A |- *; congruence|right; auto].
    - simpl in *. unfold read_union_model in *. destruct c; [injection H as <- <-; split; [left; auto|auto]|].
      rewrite map_map in H. destruct (@variants_same vs t h eas loc s v s' ND T H) as [L Sm]. split; [exact L|]. intros A. apply Sm.
      intros p I. destruct A as [A|A].
      + left. injection A as A. assert (K : strict_proxy p = p); [|rewrite <- K; reflexivity].
        clear -A I. induction vs as [|q vs IH]; [destruct I|]. simpl in A. injection A as A1 A2. destruct I as [<-|I]; auto.
      + right. apply A. apply in_map; auto.
    - simpl in *. destruct c; [injection H as <- <-; split; [left; auto|auto]|].
      destruct (@tagged_same vs a m eas loc s v s' T H) as [L Sm]. split; [exact L|]. intros A. apply Sm.
      intros [k p] I. destruct A as [A|A].
      + left. injection A as A Am. split; [auto|]. assert (K : strict_proxy p = p); [|simpl; rewrite <- K; reflexivity].
        clear -A I. induction vs as [|[k' q] vs IH]; [destruct I|]. simpl in A. injection A as A1 A2. destruct I as [K|I]; auto.
        injection K as -> ->; auto.
      + right. apply A. apply (in_map (fun kv => px_name (snd kv)) _ _ I).
  Qed.
End Lone.
