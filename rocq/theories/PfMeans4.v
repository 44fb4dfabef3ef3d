(** PfMeans4.v -- a declaration has one meaning. *)

From Verif Require Import Base Elem Native Errs Names Fields Ser SpecNames SpecRead Build SpecBuild SpecMeans PfNames PfBuild PfMeans PfMeans2.

Lemma picks_unique : forall cands t t', picks cands t -> picks cands t' -> t = t'.
Proof.
  intros cands t t' (pre & post & E & N & F) (pre' & post' & E' & N' & F').
  subst cands. revert pre' E' F'. induction F as [|o pre Ho F IH]; intros [|o' pre'] E' F'; simpl in E'.
  - injection E'; auto.
  - injection E' as <- _. inversion F' as [|x y [H|H] F2]; subst; congruence.
  - injection E' as -> _. destruct Ho as [H|H]; congruence.
  - injection E' as _ E'. inversion F'; subst. eauto.
Qed.

Lemma first_nothing : forall p maps u, first_of (says p) maps u -> Forall declares_nothing maps -> False.
Proof.
  intros p maps u H F. induction H as [m l u E|m l u E H IH]; inversion F as [|? ? D F']; subst; auto.
  destruct D as [->| ->]; discriminate.
Qed.

Lemma resolves_unique : forall maps a ns u u', resolves_in maps a ns u -> resolves_in maps a ns u' -> u = u'.
Proof.
  intros maps a ns u u' H H'.
  inversion H as [a1 al v F|a1 al F|o F|]; subst; inversion H' as [a2 al2 v2 F2|a2 al2 F2|o2 F2|]; subst; auto.
  - exact (@is_first_unique _ _ (says al) maps (Some v) (Some v2) F F2).
  - exfalso. eapply first_nothing; eauto.
  - exfalso. eapply first_nothing; eauto.
  - eapply is_first_unique; eauto.
Qed.

Lemma element_unique : forall encl i t n n', element_name encl i t n -> element_name encl i t n' -> n = n'.
Proof.
  intros encl i t n n' (ns & u & F & R & ->) (ns' & u' & F' & R' & ->). rewrite (is_first_unique F' F) in R'.
  rewrite (resolves_unique R R'). reflexivity.
Qed.

Section Unique.
  Variable cl : classes.
  Variable ev : env.
  Variable defs : dict cschema.
  Variable am : ambient.

  Lemma attribute_unique : forall encl i t n n', attribute_name am encl i t n -> attribute_name am encl i t n' -> n = n'.
  Proof.
    intros encl i t n n' (ns & u & F & _ & R & ->) (ns' & u' & F' & _ & R' & ->). rewrite (is_first_unique F' F) in R'.
    rewrite (resolves_unique R R'). reflexivity.
  Qed.

  Lemma string_unique : forall encl i s s', string_at am encl i s -> string_at am encl i s' -> unmapped s = unmapped s'.
  Proof.
    intros encl i s s' H H'. destruct H as [encl i L|encl i t name L O N|encl i t name m L O N M];
      inversion H' as [e1 i1 L1|e1 i1 t1 name1 L1 O1 N1|e1 i1 t1 name1 m1 L1 O1 N1 M1]; subst; try congruence; simpl; auto.
    - rewrite (picks_unique O1 O) in N1. rewrite (attribute_unique N N1). reflexivity.
    - rewrite (picks_unique O1 O) in N1. rewrite (element_unique N N1). reflexivity.
  Qed.

  Lemma attributes_unique : forall encl i a a', attributes_of am encl i a -> attributes_of am encl i a' -> unmapped_attrs a = unmapped_attrs a'.
  Proof.
    intros encl i a a' (F & _ & N & C) (F' & _ & N' & C'). unfold unmapped_attrs. rewrite (is_first_unique F' F). congruence.
  Qed.

  Lemma mapping_unique : forall encl i s s', mapping_at am encl i s -> mapping_at am encl i s' -> unmapped s = unmapped s'.
  Proof.
    intros encl i s s' H H'. destruct H as [encl i a L A|encl i t name a L O N A];
      inversion H' as [e1 i1 a1 L1 A1|e1 i1 t1 name1 a1 L1 O1 N1 A1]; subst; try congruence; simpl.
    - rewrite (attributes_unique A A1). reflexivity.
    - rewrite (picks_unique O1 O) in N1. rewrite (element_unique N N1), (attributes_unique A A1). reflexivity.
  Qed.

  Lemma model_unique : forall encl i cls p p', model_at cl am encl i cls p -> model_at cl am encl i cls p' -> unmapped_proxy p = unmapped_proxy p'.
  Proof.
    intros encl i cls p p' (_ & E & k & t & ns & u & K & P & F & R & N & _ & M & C & Ni) (_ & E' & k' & t' & ns' & u' & K' & P' & F' & R' & N' & _ & M' & C' & Ni').
    unfold unmapped_proxy. rewrite E in K. rewrite E' in K'. rewrite K in K'. injection K' as <-.
    rewrite (is_first_unique F' F) in R'. rewrite (resolves_unique R' R) in N'. rewrite (picks_unique P' P) in N'. congruence.
  Qed.

  Lemma unmapped_dict : forall l, map (fun kv : string * proxy => (fst kv, unmapped_proxy (snd kv))) (dict_of l) =
    dict_of (map (fun kv => (fst kv, unmapped_proxy (snd kv))) l).
  Proof.
    intros l. unfold dict_of, dupdate.
    assert (G : forall l (acc : dict proxy), map (fun kv => (fst kv, unmapped_proxy (snd kv))) (fold_left (fun m kv => dset (fst kv) (snd kv) m) l acc) =
      fold_left (fun m kv => dset (fst kv) (snd kv) m) (map (fun kv => (fst kv, unmapped_proxy (snd kv))) l)
        (map (fun kv => (fst kv, unmapped_proxy (snd kv))) acc)).
    { clear. induction l as [|[k v] l IH]; intros acc; simpl; auto. rewrite IH. f_equal.
      induction acc as [|[k' v'] acc IHa]; simpl; auto. destruct (String.eqb k k'); simpl; congruence. }
    apply (G l []).
  Qed.

  Lemma shape_unique : forall encl i t s, shape cl ev defs am encl i t s -> forall s', shape cl ev defs am encl i t s' -> unmapped s = unmapped s'.
  Proof.
    intros encl i t s H. induction H using shape_ind'; intros s' H'.
    - inversion H'; subst; try congruence;
        try (match goal with Q : at_element_or_bare _ |- _ => destruct Q; congruence end).
      + simpl. match goal with Q : says_path i = Some path0 |- _ => rewrite Q in H0; injection H0 as -> end.
        assert (names = names0) as ->.
        { match goal with Q : Forall2 _ _ names0 |- _ => clear - H1 Q; revert names0 Q end.
          induction H1 as [|x y l l' Q1 Q2 IH]; intros names0 Q; inversion Q; subst; auto.
          f_equal; auto. eapply element_unique; eauto. }
        f_equal. apply IHshape. auto.
      + match goal with Q : string_at _ _ _ _ |- _ => inversion Q; congruence end.
      + match goal with Q : model_at _ _ _ _ _ _ |- _ => destruct Q as [[Q|Q] _]; congruence end.
      + match goal with Q : mapping_at _ _ _ _ |- _ => inversion Q; congruence end.
      + match goal with Q : mapping_at _ _ _ _ |- _ => inversion Q; congruence end.
      + match goal with Q : string_at _ _ _ _ |- _ => inversion Q; congruence end.
      + match goal with Q : Forall2 _ _ _ |- _ => destruct Q as [|? ? ? ? (? & ? & ? & _ & [[Q|Q] _]) _]; congruence end.
      + match goal with Q : Forall2 _ _ _ |- _ => destruct Q as [|? ? ? ? (_ & ? & ? & ? & ? & _ & [[Q|Q] _] & _) _]; congruence end.
    - inversion H'; subst; try (destruct H as [(ty & Q & _)|Q]; discriminate).
      + exfalso. inversion H0; congruence.
      + eapply string_unique; eauto.
    - inversion H'; subst; try (match goal with Q : at_element_or_bare _ |- _ => destruct Q; congruence end).
      + match goal with Q : stringlike _ |- _ => destruct Q as [(ty & Q & _)|Q]; discriminate end.
      + simpl. match goal with Q : own_name am i t0 |- _ => rewrite (picks_unique Q H0) in * end. f_equal. eapply element_unique; eauto.
    - inversion H'; subst.
      + exfalso. destruct H as [[Q|Q] _]; congruence.
      + match goal with Q : stringlike _ |- _ => destruct Q as [(ty & Q & _)|Q]; discriminate end.
      + simpl. f_equal. eapply model_unique; eauto.
    - inversion H'; subst.
      + destruct H; congruence.
      + match goal with Q : stringlike _ |- _ => destruct Q as [(ty & Q & _)|Q]; discriminate end.
      + simpl. match goal with Q : stands_for defs item _, R : stands_for defs item t |- _ => rewrite (stands_for_unique Q R) in * end.
        f_equal. apply IHshape. auto.
    - inversion H'; subst; try congruence; auto.
      match goal with Q : stringlike _ |- _ => destruct Q as [(ty & Q & _)|Q]; discriminate end.
    - inversion H'; subst.
      + destruct H; congruence.
      + match goal with Q : stringlike _ |- _ => destruct Q as [(ty & Q & _)|Q]; discriminate end.
      + simpl. f_equal.
        assert (ts0 = ts) as ->.
        { match goal with Q : Forall2 (stands_for defs) items ts0 |- _ => clear - H0 Q; revert ts0 Q end.
          induction H0 as [|x y l l' Q1 Q2 IH]; intros ts0 Q; inversion Q; subst; auto. f_equal; auto. eapply stands_for_unique; eauto. }
        match goal with Q : Forall2 (shape _ _ _ _ _ _) ts ?x, R : Forall2 (fun t s => forall s', _) ts l |- map unmapped l = map unmapped ?x =>
          clear - Q R; revert Q; generalize x as m end.
        induction H4 as [|x y l l' Q1 Q2 IH]; intros m Q; inversion Q; subst; simpl; auto. f_equal; auto.
    - inversion H'; subst; try congruence; auto.
      match goal with Q : stringlike _ |- _ => destruct Q as [(ty & Q & _)|Q]; discriminate end.
    - inversion H'; subst.
      + exfalso. match goal with Q : mapping_at _ _ _ _ |- _ => inversion Q; congruence end.
      + match goal with Q : stringlike _ |- _ => destruct Q as [(ty & Q & _)|Q]; discriminate end.
      + eapply mapping_unique; eauto.
    - inversion H'; subst.
      + exfalso. match goal with Q : mapping_at _ _ _ _ |- _ => inversion Q; congruence end.
      + match goal with Q : stringlike _ |- _ => destruct Q as [(ty & Q & _)|Q]; discriminate end.
      + eapply mapping_unique; eauto.
    - assert (NU : forall vs, ~ Forall2 (fun s p => exists cls root body, stands_for defs s (CModel cls root body) /\ model_at cl am encl i cls p) choices vs).
      { clear - H H0 H1. intros vs Q. revert ts H H0 H1. induction Q as [|x y l l' (cls & root & body & St & _) Q IH]; intros ts F Sl Ex; inversion F; subst.
        - inversion Ex.
        - inversion Sl as [|? ? S1 S2]; subst. match goal with R : stands_for defs x _ |- _ => rewrite (stands_for_unique R St) in S1 end.
          destruct S1 as [(ty & S1 & _)|S1]; discriminate. }
      inversion H'; subst.
      + exfalso. inversion H2; congruence.
      + match goal with Q : stringlike _ |- _ => destruct Q as [(ty & Q & _)|Q]; discriminate end.
      + simpl. f_equal. eapply string_unique; eauto.
      + exfalso. eapply NU; eauto.
    - inversion H'; subst.
      + exfalso. destruct H0 as [|? ? ? ? (? & ? & ? & _ & [[Q|Q] _]) _]; congruence.
      + match goal with Q : stringlike _ |- _ => destruct Q as [(ty & Q & _)|Q]; discriminate end.
      + exfalso. destruct H0 as [|x y l l' (cls & root & body & St & _) Q]; [congruence|].
        match goal with R : Forall2 (stands_for defs) _ ts |- _ => inversion R; subst end.
        match goal with R : Forall stringlike _ |- _ => inversion R as [|? ? S1 S2]; subst end.
        match goal with R : stands_for defs x y0 |- _ => rewrite (stands_for_unique R St) in S1 end.
        destruct S1 as [(ty & S1 & _)|S1]; discriminate.
      + simpl. f_equal.
        match goal with Q : Forall2 _ choices ?x |- map _ vs = map _ ?x => clear - H0 Q; revert Q; generalize x as m end.
        induction H0 as [|x y l l' (cls & root & body & St & M) Q2 IH]; intros m Q; inversion Q as [|? p ? m' (cls' & root' & body' & St' & M') Q']; subst; simpl; auto.
        f_equal; auto. pose proof (stands_for_unique St' St) as E. injection E as -> _ _. eapply model_unique; eauto.
    - inversion H'; subst.
      + exfalso. destruct H0 as [|? ? ? ? (_ & ? & ? & ? & ? & _ & [[Q|Q] _] & _) _]; congruence.
      + match goal with Q : stringlike _ |- _ => destruct Q as [(ty & Q & _)|Q]; discriminate end.
      + simpl. match goal with Q : Forall2 (variant_at _ _ _ _ _ _ d ?b) choices ?x |- _ => rename Q into F2; rename b into a'; rename x into vs' end.
        assert (E : forall c v v', variant_at cl ev defs am encl i d a c v -> variant_at cl ev defs am encl i d a' c v' ->
           a = a' /\ (fst v, unmapped_proxy (snd v)) = (fst v', unmapped_proxy (snd v'))).
        { intros c v v' (T & cls & body & m & k & St & M & Em & Rm & Dm) (T' & cls2 & body2 & m2 & k2 & St2 & M2 & Em2 & Rm2 & Dm2).
          pose proof (stands_for_unique St2 St) as E. injection E as -> _. rewrite Em in Em2. injection Em2 as <-.
          split; [congruence|]. f_equal; [congruence|]. eapply model_unique; eauto. }
        assert (Ea : a = a'). { destruct H0 as [|x y l l' V Q]; [congruence|]. inversion F2; subst. eapply E; eauto. }
        rewrite <- Ea. rewrite !unmapped_dict. f_equal. f_equal.
        clear - H0 F2 E. revert vs' F2. induction H0 as [|x y l l' V Q IH]; intros vs' F2; inversion F2; subst; simpl; auto.
        f_equal; auto. eapply E; eauto.
  Qed.

  Lemma means_unique : forall encl i s r r', means cl ev defs am encl i s r -> means cl ev defs am encl i s r' -> unmapped r = unmapped r'.
  Proof.
    intros encl i s r r' (t & St & H) (t' & St' & H'). rewrite (stands_for_unique St' St) in H'. eapply shape_unique; eauto.
  Qed.
End Unique.

Lemma class_means_unique : forall cl ev defs k fs cs b b', class_means cl ev defs k fs cs b -> class_means cl ev defs k fs cs b' ->
  map (fun nf => (fst nf, unmapped (snd nf))) b = map (fun nf => (fst nf, unmapped (snd nf))) b'.
Proof.
  intros cl ev defs k fs cs b b' (own & comp & -> & F1 & F2) (own' & comp' & -> & F1' & F2'). rewrite !map_app. f_equal.
  - clear F2 F2'. revert own' F1'. induction F1 as [|[n [e sa v s]] y l l' [N1 M1] Q IH]; intros own' Q'; inversion Q' as [|? y' ? l2 [N2 M2] Q2]; subst; simpl; auto.
    f_equal; auto. simpl in *. f_equal; [congruence|]. eapply means_unique; eauto.
  - clear F1 F1'. revert comp' F2'. induction F2 as [|[n [sa s]] y l l' [N1 M1] Q IH]; intros own2 Q'; inversion Q' as [|? y' ? l2 [N2 M2] Q2]; subst; simpl; auto.
    f_equal; auto. simpl in *. f_equal; [congruence|]. eapply means_unique; eauto.
Qed.
