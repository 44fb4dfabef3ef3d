(** PfModes3.v -- whole classes, in strict mode and in the others. *)

From Verif Require Import Base Elem Native Errs Names Ser Read Api SpecElem SpecRead SpecStray SpecRound SpecModes.
From Verif Require Import PfElem PfField PfRel PfUnbound PfStray PfRound1 PfRound6 PfModes PfModes2.

Local Ltac inv H := inversion H; subst; clear H.

Lemma is_none_dec : forall v, v = VNone \/ v <> VNone.
Proof. intros v; destruct v; auto; right; discriminate. Qed.

Lemma orderly_rest : forall ss, orderly ss -> forall a b, ss = a ++ b -> orderly b.
Proof.
  intros ss H; induction H as [ss F T C IH]; intros a b ->. constructor.
  - apply Forall_app in F; tauto.
  - rewrite flat_map_app in T. eapply in_turn_app_r; eauto.
  - intros p Np. eapply (IH p); [|apply inside_app]. rewrite inside_app. intros E. apply app_eq_nil in E. tauto.
Qed.

Section Whole.
  Variable ev : env.
  Hypothesis Ho : orderly_env ev.
  Hypothesis Hf : forbids_everything ev.

  Let sev := strict_env ev.

  Definition lone_ok (k : nat) (s0 : ser) : Prop := forall eas loc s v s', tidied (st_el s) ->
    read k sev (strictly s0) eas loc s = (Ok v, s') ->
    lone_read (child_names s0) v (st_el s) (st_el s') /\
    (strictly s0 = s0 \/ (forall t, In t (child_names s0) -> ahead t (unread (st_el s))) ->
     read k ev s0 eas loc s = (Ok v, s')).

  Lemma lone_all : forall k s0, (forall j, j < k -> model_same ev j) -> lone s0 -> lone_ok k s0.
  Proof.
    intros [|k] s0 HM L eas loc s v s' T H; [discriminate|]. apply (@lone_same ev k (HM k (Nat.lt_succ_diag_r k)) s0 L); auto.
  Qed.

  Lemma items_fail : forall r j title hide eas loc idx result errors s v s', errors <> [] ->
    read_items j r title hide eas loc idx result errors s = (Ok v, s') -> False.
  Proof.
    intros r j; induction j as [|j IH]; intros title hide eas loc idx result errors s v s' Er H; cbn [read_items] in H; [discriminate|].
    destruct (r eas (loc ++ [LIdx idx]) s) as [[w|x|] s1]; try discriminate.
    - destruct (is_none_dec w) as [->|W]; [destruct errors; [auto|discriminate]|]. destruct w; try congruence; eapply IH; eauto.
    - destruct x; try discriminate. eapply IH; [|exact H]. destruct errors; discriminate.
  Qed.

  Lemma items_same : forall k s0, lone_ok k s0 -> (exists n, Forall (eq n) (child_names s0)) \/ strictly s0 = s0 ->
    forall j title hide eas loc idx result s v s', tidied (st_el s) ->
    read_items j (read k sev (strictly s0)) title hide eas loc idx result [] s = (Ok v, s') ->
    front [child_names s0] (st_el s) (st_el s') /\
    (forall l, in_turn (child_names s0 :: l) -> parts l (unread (st_el s')) ->
       read_items j (read k ev s0) title hide eas loc idx result [] s = (Ok v, s')).
  Proof.
    intros k s0 L St j; induction j as [|j IH]; intros title hide eas loc idx result s v s' T H; cbn [read_items] in H; [discriminate|].
    cbn [read_items]. destruct (read k sev (strictly s0) eas (loc ++ [LIdx idx]) s) as [o s1] eqn:E.
    destruct o as [w|x|]; [| |discriminate].
    - destruct (L eas (loc ++ [LIdx idx]) s w s1 T E) as [Lr Sm].
      destruct (is_none_dec w) as [->|W].
      + injection H as <- <-. split; [eapply lone_front; eauto|]. intros l It P.
        rewrite Sm; auto. right. eapply lone_ahead; eauto.
      + assert (H2 : read_items j (read k sev (strictly s0)) title hide eas loc (S idx) (result ++ [w]) [] s1 = (Ok v, s')) by (destruct w; auto; congruence).
        clear H. pose proof (lone_front Lr) as F1.
        destruct (IH title hide eas loc (S idx) (result ++ [w]) s1 v s' (front_tidied F1 T) H2) as [F2 Sm2]. split.
        * eapply front_again; eauto.
        * intros l It P. rewrite Sm.
          -- destruct w; try congruence; eapply Sm2; eauto.
          -- destruct St as [(nm & All)|Es]; [right|auto]. intros t I. destruct Lr as [(K & _)|(t' & I' & c & c1 & u & U & C & _)]; [congruence|].
             rewrite Forall_forall in All. pose proof (All t I). pose proof (All t' I'). subst. left; eauto.
    - destruct x; try discriminate. exfalso. eapply items_fail; [|exact H]. discriminate.
  Qed.

  Lemma tuple_fail : forall rs title hide eas loc idx result errors s v s', errors <> [] ->
    read_tuple rs title hide eas loc idx result errors s = (Ok v, s') -> False.
  Proof.
    intros rs; induction rs as [|r rs IH]; intros title hide eas loc idx result errors s v s' Er H; cbn [read_tuple] in H.
    - destruct errors; [auto|discriminate].
    - destruct (r eas (loc ++ [LIdx idx]) s) as [[w|x|] s1]; try discriminate; [eapply IH; eauto|].
      destruct x; try discriminate. eapply IH; [|exact H]. destruct errors; discriminate.
  Qed.

  Lemma tuple_same : forall k l, Forall (lone_ok k) l -> forall title hide eas loc idx result s v s', tidied (st_el s) ->
    read_tuple (map (fun x => read k sev (strictly x)) l) title hide eas loc idx result [] s = (Ok v, s') ->
    front (map child_names l) (st_el s) (st_el s') /\
    (forall l', in_turn (map child_names l ++ l') -> parts l' (unread (st_el s')) ->
       read_tuple (map (read k ev) l) title hide eas loc idx result [] s = (Ok v, s')).
  Proof.
    intros k l F; induction F as [|s0 l L F IH]; intros title hide eas loc idx result s v s' T H; cbn [map read_tuple] in *.
    - injection H as <- <-. split; [apply front_none; auto|auto].
    - destruct (read k sev (strictly s0) eas (loc ++ [LIdx idx]) s) as [o s1] eqn:E. destruct o as [w|x|]; [| |discriminate].
      + destruct (L eas (loc ++ [LIdx idx]) s w s1 T E) as [Lr Sm]. pose proof (lone_front Lr) as F1.
        destruct (IH title hide eas loc (S idx) (result ++ [w]) s1 v s' (front_tidied F1 T) H) as [F2 Sm2]. split.
        * apply (front_trans F1 F2).
        * intros l' It P. rewrite Sm.
          -- eapply Sm2; eauto. eapply in_turn_tail; eauto.
          -- right. eapply lone_ahead; eauto. eapply front_parts; eauto.
      + destruct x; try discriminate. exfalso. eapply tuple_fail; [|exact H]. discriminate.
  Qed.

  Lemma still_read : forall s0, still s0 -> strictly s0 = s0 /\ (forall p, inside_one p s0 = []) /\ places s0 = [] /\ child_names s0 = [] /\
    forall k eas loc s, read k sev s0 eas loc s = read k ev s0 eas loc s /\
      same_children (st_el s) (st_el (snd (read k ev s0 eas loc s))).
  Proof.
    intros s0 St; induction St as [c ni|nm c|a|c s0 St (A & B & C & C' & D)];
      (split; [simpl; try rewrite A; auto|split; [auto|split; [unfold places; simpl; try rewrite C'; auto|split; [simpl; auto|]]]]);
      intros [|k] eas loc s; try (split; [reflexivity|split; reflexivity]).
    - split; [reflexivity|]. apply read_text_children.
    - split; [reflexivity|]. simpl. unfold read_attr. destruct c; [split; auto|].
      pose proof (pop_attrib_children nm (st_el s)) as P. destruct (pop_attrib nm (st_el s)); auto.
    - split; [reflexivity|]. apply read_attrs_children.
    - simpl. unfold read_union_prim. destruct c; [split; [reflexivity|split; reflexivity]|]. apply D.
  Qed.

  Definition field_same (k : nat) (s0 : ser) (ss : list ser) : Prop := forall eas loc s v s', tidied (st_el s) ->
    read k sev (strictly s0) eas loc s = (Ok v, s') ->
    tidied (st_el s') /\ (safe ss (st_el s') -> safe (s0 :: ss) (st_el s) /\ read k ev s0 eas loc s = (Ok v, s')).

  Lemma by_front : forall k s0 ss eas loc s v s', (forall p, inside_one p s0 = []) -> tidied (st_el s) ->
    in_turn (flat_map places (s0 :: ss)) -> front (places s0) (st_el s) (st_el s') ->
    (forall l, in_turn (places s0 ++ l) -> parts l (unread (st_el s')) -> read k ev s0 eas loc s = (Ok v, s')) ->
    tidied (st_el s') /\ (safe ss (st_el s') -> safe (s0 :: ss) (st_el s) /\ read k ev s0 eas loc s = (Ok v, s')).
  Proof.
    intros k s0 ss eas loc s v s' I T It F Sm. split; [eapply front_tidied; eauto|]. intros S. split.
    - eapply front_safe; eauto.
    - eapply Sm; [exact It|]. inv S; auto.
  Qed.

  (** ---- wrapped fields ---- *)
  Lemma tag_kept : forall k s0 eas loc s, e_tag (st_el (snd (read k sev s0 eas loc s))) = e_tag (st_el s).
  Proof.
    intros k s0 eas loc s. apply (@read_rel (fun e e' => e_tag e' = e_tag e)) with (ev := sev); auto.
    - intros a b c -> ->; auto.
    - intros nm e. unfold pop_attrib. destruct (e_attrib e); auto. destruct (dget nm d); auto.
    - intros m e tag behind step. unfold search.
      assert (F : e_tag (snd (forward m e tag step)) = e_tag e).
      { destruct m; simpl; unfold strict_forward, ordered_forward, unordered_forward.
        - destruct (nth_error _ _) as [c|]; auto. destruct (tag_is _ _); auto. destruct step; auto.
        - destruct (find_from _ _ _); auto. destruct step; auto.
        - destruct (find_from _ _ _); auto. destruct step; auto. }
      destruct behind; auto. destruct (look_behind e tag); auto.
    - intros cls m name f Hm Hc. exfalso. unfold sev, strict_env in Hm. simpl in Hm.
      destruct (en_model ev cls) as [m0|] eqn:Em; [|discriminate]. injection Hm as <-.
      destruct (Ho cls Em) as (_ & _ & Nc). simpl in Hc. rewrite Nc in Hc. discriminate.
  Qed.

  Lemma behind_put : forall e i c c1, e_next e = S i -> nth_error (e_elems e) i = Some c ->
    passed e = firstn i (e_elems e) ++ [c] /\ passed (put_child i c1 e) = firstn i (e_elems e) ++ [c1] /\
    unread (put_child i c1 e) = unread e.
  Proof.
    intros e i c c1 N Nt. unfold passed, unread, put_child. simpl. rewrite N.
    assert (i < length (e_elems e)) as L by (apply nth_error_Some; congruence).
    assert (Sp : e_elems e = firstn i (e_elems e) ++ c :: skipn (S i) (e_elems e)).
    { rewrite <- (firstn_skipn i (e_elems e)) at 1. f_equal. destruct (skipn_nth _ L) as (x & Nx & K). rewrite Nt in Nx. injection Nx as <-. auto. }
    assert (Lf : length (firstn i (e_elems e)) = i) by (rewrite firstn_length; lia).
    split; [apply firstn_succ_nth; auto|].
    assert (Up : list_upd i c1 (e_elems e) = (firstn i (e_elems e) ++ [c1]) ++ skipn (S i) (e_elems e)).
    { rewrite Sp at 1. rewrite <- Lf at 1. rewrite list_upd_split, <- app_assoc. reflexivity. }
    rewrite Up. split.
    - apply firstn_app_len. rewrite app_length; simpl; lia.
    - apply skipn_app_len. rewrite app_length; simpl; lia.
  Qed.

  (** going into an element shared by wrapped fields *)
  Lemma enter_same : forall m p sw X ss (f f' : st -> rres val),
    places sw = [[p]] -> (forall q, inside_one q sw = if String.eqb p q then [X] else []) ->
    (forall c v c', tidied (st_el c) -> f c = (Ok v, c') ->
       e_tag (st_el c') = e_tag (st_el c) /\ tidied (st_el c') /\
       (safe (inside p ss) (st_el c') -> safe (X :: inside p ss) (st_el c) /\ f' c = (Ok v, c'))) ->
    in_turn (flat_map places (sw :: ss)) -> forall s v s', tidied (st_el s) ->
    with_found (search Strict (st_el s) p true true) f s = (Ok v, s') ->
    tidied (st_el s') /\
    (safe ss (st_el s') -> safe (sw :: ss) (st_el s) /\ with_found (search m (st_el s) p true true) f' s = (Ok v, s')).
  Proof.
    intros m p sw X ss f f' Pl Ins Hr It s v s' T H.
    assert (R : set_el (st_el s) s = s) by (destruct s; reflexivity).
    assert (InsP : inside p (sw :: ss) = X :: inside p ss).
    { unfold inside; simpl. rewrite Ins, String.eqb_refl; auto. }
    assert (InsQ : forall q, q <> p -> inside q (sw :: ss) = inside q ss).
    { intros q Nq. unfold inside; simpl. rewrite Ins. destruct (String.eqb p q) eqn:Eq; auto. apply String.eqb_eq in Eq; congruence. }
    unfold search in *. destruct (look_behind (st_el s) p) as [|i|] eqn:B.
    - (* nothing right behind *)
      destruct (forward Strict (st_el s) p true) as [r e'] eqn:E.
      destruct (strict_cases (st_el s) p true E) as [(-> & -> & Nf)|(c & u & -> & U & C & N & ->)].
      + simpl in H. rewrite R in H. injection H as <- <-. split; auto. intros Sf. split; [apply (safe_more Sf [sw])|].
        rewrite (@forward_same m), E; [simpl; rewrite R; auto|]. right. right.
        inversion Sf as [? ? P _ _]; subst. simpl in It. rewrite Pl in It. eapply turn_none; [exact It|reflexivity|exact P|simpl; auto|auto].
      + simpl in H. unfold on_child in H. simpl in H. rewrite N in H.
        destruct (f (St c (st_sm s))) as [o c'] eqn:F. injection H as -> <-. simpl.
        assert (Tc : tidied c) by (apply solid_tidied; inv T; rewrite U in H; inv H; auto).
        destruct (Hr (St c (st_sm s)) v c' Tc F) as (Tg & T1 & K). simpl in Tg, K.
        destruct (put_here (st_el s) (st_el c') U) as [A D].
        assert (Fr : front (places sw) (st_el s) (put_child (e_next (st_el s)) (st_el c') (set_next (S (e_next (st_el s))) (st_el s)))).
        { exists [c], [st_el c']. rewrite A, D, U. split; [auto|]. split; [auto|]. split; [|auto]. rewrite Pl. apply parts_one.
          constructor; auto. exists p; simpl; auto. }
        split; [eapply front_tidied; eauto|]. intros Sf. inversion Sf as [? ? P Cb Cs]; subst.
        destruct (K (Cs (passed (st_el s)) (st_el c') p D (eq_trans Tg C))) as [Sc E1]. split.
        * constructor.
          -- simpl. eapply front_parts; eauto.
          -- intros before d Ep b I. eapply Cb; [exact D|]. rewrite Ep. apply in_app_iff; auto.
          -- intros before d q Ep Cd. apply complete_safe. eapply Cb; [exact D|]. rewrite Ep. apply in_app_iff; simpl; auto.
        * rewrite (@forward_same m) by (right; left; eauto). rewrite E. simpl. unfold on_child. simpl. rewrite N, E1. reflexivity.
    - (* the element right behind *)
      simpl in H. unfold look_behind in B. destruct (e_next (st_el s)) as [|j] eqn:En; [discriminate|].
      destruct (nth_error (e_elems (st_el s)) j) as [c|] eqn:Nj; [|discriminate].
      destruct (tag_is (e_tag c) p) eqn:C; [|discriminate]. injection B as <-. apply tag_is_called in C.
      unfold on_child in H. simpl in H. rewrite Nj in H.
      destruct (f (St c (st_sm s))) as [o c'] eqn:F. injection H as -> <-. simpl.
      destruct (behind_put (st_el s) (st_el c') En Nj) as (P0 & P1 & U1).
      assert (Tc : tidied c). { inv T. apply H0. rewrite P0. apply in_app_iff; simpl; auto. }
      destruct (Hr (St c (st_sm s)) v c' Tc F) as (Tg & T1 & K). simpl in Tg, K. split.
      + inversion T as [e0 So Pa]; subst e0. constructor; [rewrite U1; auto|]. rewrite P1. intros d I. apply in_app_iff in I as [I|[<-|[]]]; auto.
        apply Pa. rewrite P0. apply in_app_iff; auto.
      + intros Sf. inversion Sf as [? ? P Cb Cs]; subst. rewrite U1 in P.
        destruct (K (Cs _ (st_el c') p P1 (eq_trans Tg C))) as [Sc E1]. split.
        * constructor.
          -- simpl. apply parts_more; auto.
          -- intros before d Ep b I. rewrite P0 in Ep. apply app_inj_tail in Ep as [<- <-]. eapply Cb; eauto.
          -- intros before d q Ep Cd. rewrite P0 in Ep. apply app_inj_tail in Ep as [<- <-]. assert (q = p) as -> by (eapply called_fun; eauto).
             rewrite InsP. auto.
        * simpl. unfold on_child. simpl. rewrite Nj, E1. reflexivity.
    - discriminate.
  Qed.

  Lemma inside_one_wrap : forall p path ns m c i q, inside_one q (SWrap (p :: path) ns m c i) =
    if String.eqb p q then [match path with [] => i | _ :: _ => SWrap path ns m c i end] else [].
  Proof. reflexivity. Qed.

  Lemma wrap_same : forall k i, (forall ss, orderly (i :: ss) -> field_same k i ss) ->
    forall path p ns m c ss, orderly (SWrap (p :: path) ns m c i :: ss) -> field_same (S k) (SWrap (p :: path) ns m c i) ss.
  Proof.
    intros k i Hi path; induction path as [|q rest IH]; intros p ns m c ss Or eas loc s v s' T H.
    - destruct c.
      { simpl in H. injection H as <- <-. split; auto. intros Sf. split; [apply (safe_more Sf [_])|reflexivity]. }
      change (read (S k) sev (strictly (SWrap [p] ns m false i)) eas loc s) with (read_wrap [p] Strict false (read k sev (strictly i)) eas loc s) in H.
      change (read (S k) ev (SWrap [p] ns m false i) eas loc s) with (read_wrap [p] m false (read k ev i) eas loc s).
      rewrite wrap_read_last in *. inversion Or as [? Fo It Sub]; subst.
      eapply enter_same with (X := i); [reflexivity|apply inside_one_wrap| |exact It|exact T|exact H].
      intros c v0 c' Tc E. pose proof (tag_kept k (strictly i) eas loc (note_line loc c)) as Tg. rewrite E in Tg. split; [exact Tg|].
      assert (Oi : orderly (i :: inside p ss)).
      { specialize (Sub p). unfold inside in Sub at 1 2. simpl in Sub. rewrite String.eqb_refl in Sub. apply Sub. discriminate. }
      destruct (Hi _ Oi eas loc (note_line loc c) v0 c' Tc E) as [T1 K]. auto.
    - destruct c.
      { simpl in H. injection H as <- <-. split; auto. intros Sf. split; [apply (safe_more Sf [_])|reflexivity]. }
      change (read (S k) sev (strictly (SWrap (p :: q :: rest) ns m false i)) eas loc s) with (read_wrap (p :: q :: rest) Strict false (read k sev (strictly i)) eas loc s) in H.
      change (read (S k) ev (SWrap (p :: q :: rest) ns m false i) eas loc s) with (read_wrap (p :: q :: rest) m false (read k ev i) eas loc s).
      rewrite wrap_read_step in *. inversion Or as [? Fo It Sub]; subst.
      eapply enter_same with (X := SWrap (q :: rest) ns m false i); [reflexivity|apply inside_one_wrap| |exact It|exact T|exact H].
      intros c v0 c' Tc E.
      pose proof (tag_kept (S k) (strictly (SWrap (q :: rest) ns m false i)) eas loc c) as Tg.
      change (read (S k) sev (strictly (SWrap (q :: rest) ns m false i)) eas loc c) with (read_wrap (q :: rest) Strict false (read k sev (strictly i)) eas loc c) in Tg.
      rewrite E in Tg. split; [exact Tg|].
      assert (Oi : orderly (SWrap (q :: rest) ns m false i :: inside p ss)).
      { specialize (Sub p). unfold inside in Sub at 1 2. simpl in Sub. rewrite String.eqb_refl in Sub. apply Sub. discriminate. }
      destruct (IH q ns m false _ Oi eas loc c v0 c' Tc E) as [T1 K]. auto.
  Qed.

  (** ---- any field ---- *)
  Lemma every_field : forall k, (forall j, j < k -> model_same ev j) -> forall s0 ss, orderly (s0 :: ss) -> field_same k s0 ss.
  Proof.
    intros k; induction k as [|k IH]; intros HM s0 ss Or; [intros eas loc s v s' T H; discriminate|].
    assert (HM' : forall j, j < k -> model_same ev j) by (intros; apply HM; lia).
    inversion Or as [? Fo It Sub]; subst. inversion Fo as [|? ? Pf _]; subst.
    destruct Pf as [s0 St|s0 L|t c s0 h L St|t c l h L|p path ns m c i].
    - intros eas loc s v s' T H. destruct (still_read St) as (A & B & C & _ & D). rewrite A in H.
      destruct (D (S k) eas loc s) as [E (Ch & Nx)]. rewrite E in H. rewrite H in Ch, Nx. simpl in Ch, Nx.
      apply by_front; auto. apply front_none; unfold unread, passed; rewrite Ch, Nx; auto.
    - intros eas loc s v s' T H. destruct (@lone_all (S k) s0 HM L eas loc s v s' T H) as [Lr Sm].
      assert (Pl : places s0 = match child_names s0 with [] => [] | n1 :: Nr => [n1 :: Nr] end) by (destruct L; reflexivity).
      apply by_front; auto; [destruct L; reflexivity| |].
      + rewrite Pl. destruct (child_names s0) as [|n1 Nr] eqn:Cn; [|eapply lone_front; eauto].
        destruct Lr as [(_ & U & P)|(? & [] & _)]. apply front_none; auto.
      + intros l Itl P. apply Sm. right. intros t I. rewrite Pl in Itl. destruct (child_names s0) as [|n1 Nr] eqn:Cn; [destruct I|].
        eapply lone_ahead; eauto.
    - intros eas loc s v s' T H.
      change (read (S k) sev (strictly (SHomo t c s0 h))) with (read_homo k t c (read k sev (strictly s0)) h) in H. unfold read_homo in H.
      destruct c.
      { injection H as <- <-. split; auto. intros Sf. split; [apply (safe_more Sf [_])|reflexivity]. }
      assert (Lk : lone_ok k s0) by (apply lone_all; auto).
      destruct (@items_same k s0 Lk St k t h eas loc 0 [] s v s' T H) as [Fr Sm].
      assert (Pl : places (SHomo t false s0 h) = match child_names s0 with [] => [] | n1 :: Nr => [n1 :: Nr] end) by reflexivity.
      apply by_front; auto.
      + rewrite Pl. destruct (child_names s0) as [|n1 Nr] eqn:Cn; [|exact Fr].
        destruct Fr as (seg & cs & U & P & Q & Tc). exists seg, cs. split; [auto|]. split; [auto|]. split; [|auto].
        apply parts_one_inv in Q. destruct seg as [|x seg]; [constructor|]. inv Q. destruct H2 as (? & [] & _).
      + intros l Itl P. change (read_homo k t false (read k ev s0) h eas loc s = (Ok v, s')). unfold read_homo.
        rewrite Pl in Itl. destruct (child_names s0) as [|n1 Nr] eqn:Cn.
        * apply (Sm l); auto. constructor; [intros t' []|exact Itl].
        * apply (Sm l); auto.
    - intros eas loc s v s' T H.
      change (read (S k) sev (strictly (SHetero t c l h))) with (read_hetero t c (map (read k sev) (map strictly l)) h) in H. unfold read_hetero in H.
      destruct c.
      { injection H as <- <-. split; auto. intros Sf. split; [apply (safe_more Sf [_])|reflexivity]. }
      rewrite map_map in H.
      assert (Lk : Forall (lone_ok k) l) by (eapply Forall_impl; [|exact L]; intros x Lx; apply lone_all; auto).
      destruct (@tuple_same k l Lk t h eas loc 0 [] s v s' T H) as [Fr Sm].
      apply by_front; auto.
    - apply wrap_same; auto.
  Qed.

  (** ---- a class ---- *)
  Lemma fields_fail : forall r m fs eas result errors s res s', errors <> [] ->
    read_fields r m fs eas result errors s = (Ok (res, []), s') -> False.
  Proof.
    intros r m fs; induction fs as [|[name f] fs IH]; intros eas result errors s res s' Er H; cbn [read_fields] in H.
    - injection H as _ E _. congruence.
    - destruct (match md_cval m name with Some _ => _ | None => _ end) as [[v|x|] s2]; try discriminate.
      + destruct v; eapply IH; eauto.
      + destruct x; try discriminate. eapply IH; [|exact H]. destruct errors as [|[k0 e0] errors]; simpl; [discriminate|].
        destruct (String.eqb name k0); discriminate.
  Qed.

  Lemma fields_same : forall k m, (forall j, j < k -> model_same ev j) -> (forall name, md_cval m name = None) ->
    forall fs eas result s res s', orderly (map snd fs) -> tidied (st_el s) ->
    read_fields (read k sev) (strict_model m) (map (fun nf => (fst nf, strictly (snd nf))) fs) eas result [] s = (Ok (res, []), s') ->
    tidied (st_el s') /\
    (safe [] (st_el s') -> safe (map snd fs) (st_el s) /\ read_fields (read k ev) m fs eas result [] s = (Ok (res, []), s')).
  Proof.
    intros k m HM Nc fs; induction fs as [|[name f] fs IH]; intros eas result s res s' Or T H; cbn [map read_fields fst snd] in *.
    - injection H as <- <-. split; auto.
    - change (md_cval (strict_model m) name) with (md_cval m name) in H. rewrite Nc in *.
      destruct (read k sev (strictly f) eas [LKey name] (note_line [LKey name] s)) as [o s1] eqn:E.
      destruct o as [v|x|]; [| |discriminate].
      + assert (Or' : orderly (map snd fs)) by (eapply (orderly_rest Or [f]); reflexivity).
        destruct (@every_field k HM f (map snd fs) Or eas [LKey name] (note_line [LKey name] s) v s1 T E) as [T1 K].
        change (md_valias (strict_model m)) with (md_valias m) in H.
        destruct (is_none_dec v) as [->|V].
        * destruct (IH eas result s1 res s' Or' T1 H) as [T2 K2]. split; auto. intros Sf. destruct (K2 Sf) as [S1 R1].
          destruct (K S1) as [S0 R0]. split; [exact S0|]. rewrite R0. exact R1.
        * set (key := match dget name (md_valias m) with Some a => a | None => name end) in *.
          assert (H2 : read_fields (read k sev) (strict_model m) (map (fun nf => (fst nf, strictly (snd nf))) fs) eas (dset key v result) [] s1 = (Ok (res, []), s'))
            by (destruct v; auto; congruence).
          destruct (IH eas (dset key v result) s1 res s' Or' T1 H2) as [T2 K2]. split; auto. intros Sf. destruct (K2 Sf) as [S1 R1].
          destruct (K S1) as [S0 R0]. split; [exact S0|]. rewrite R0. destruct v; auto; congruence.
      + destruct x; try discriminate. exfalso. eapply fields_fail; [|exact H]. discriminate.
  Qed.

  Lemma validate_strict : forall m input s, validate_result (strict_model m) input s = validate_result m input s.
  Proof. reflexivity. Qed.

  Lemma validate_complete : forall m input s v, md_forbid m = true -> tidied (st_el s) ->
    validate_result m input s = Ok v -> safe [] (st_el s).
  Proof.
    intros m input s v F T H. unfold validate_result in H. rewrite F in H. unfold check_extra in H.
    destruct (get_unbound [] (st_el s)) as [|x xs] eqn:G; [|discriminate].
    apply complete_safe, quiet_complete; auto. apply (loud_unbound (st_el s) []); auto.
  Qed.

  Lemma models_same : forall k, model_same ev k.
  Proof.
    intros k; induction k as [k IH] using lt_wf_ind. intros cls m Em eas loc s v s' T H.
    destruct (Ho cls Em) as (Or & Rt & Nc). pose proof (Hf cls Em) as Fb. unfold read_model in *.
    change (md_root (strict_model m)) with (md_root m) in H. destruct (md_root m).
    - unfold read_root_model in *. specialize (Rt eq_refl). simpl in H.
      destruct (md_fields m) as [|[name f] [|]] eqn:Ef; simpl in *; [discriminate| |lia].
      destruct (read k (strict_env ev) (strictly f) eas loc s) as [o s1] eqn:E. destruct o as [w|x|]; [|destruct x; discriminate|discriminate].
      injection H as H <-.
      destruct (@every_field k IH f [] Or eas loc s w s1 T E) as [T1 K]. split; auto.
      rewrite validate_strict in H. destruct (K (@validate_complete m _ s1 v Fb T1 H)) as [_ R]. rewrite R, H. reflexivity.
    - unfold read_plain_model in *. simpl md_fields in H.
      destruct (read_fields (read k (strict_env ev)) (strict_model m) _ eas [] [] s) as [[[res errs]|x|] s1] eqn:E; try discriminate.
      destruct errs as [|e0 errs]; [|discriminate]. injection H as H <-. rewrite validate_strict in H.
      destruct (@fields_same k m IH Nc (md_fields m) eas [] s res s1 Or T E) as [T1 K]. split; auto.
      destruct (K (@validate_complete m _ s1 v Fb T1 H)) as [_ R]. rewrite R, H. reflexivity.
  Qed.
End Whole.

(** ---- whole documents ---- *)
Lemma nonblank_oblank : forall o, nonempty_o (nonblank o) = false -> oblank o.
Proof.
  intros o H s ->. simpl in H. destruct (String.eqb (py_strip s) "") eqn:E; [|discriminate].
  apply String.eqb_eq in E. apply py_strip_blank; auto.
Qed.

Lemma quiet_bare : forall b d, no_bare_elements d -> loud (from_native b d) = false -> bare d.
Proof.
  intros b d H. destruct H as [tag ns text tail attrib cs line H1 H2]. intros L. cbn [from_native new_elem loud] in L.
  rewrite !orb_false_iff in L. destruct L as [[[L1 L2] L3] L4]. destruct attrib; [|discriminate]. constructor.
  - apply nonblank_oblank; auto.
  - apply nonblank_oblank; auto.
  - clear L1 L2 L3. induction cs as [|c cs IH]; [constructor|]. cbn [flat_map] in L4. rewrite existsb_app in L4. apply orb_false_iff in L4 as [L4 L5].
    constructor.
    + destruct (is_xml_comment c) eqn:C; [destruct c; try discriminate; constructor|]. exfalso.
      apply (H1 c (or_introl eq_refl) C). simpl in L4. rewrite orb_false_r in L4.
      pose proof (H2 c (or_introl eq_refl) C) as N. clear IH H1 H2 L5 C.
      (* the child has content *)
      revert L4. induction N as [tag' ns' text' tail' attrib' cs' line' H1 H2 IH]. intros L. cbn [from_native new_elem loud] in L.
      rewrite !orb_false_iff in L. destruct L as [[[M1 M2] M3] M4]. destruct attrib'; [|discriminate]. constructor.
      * apply nonblank_oblank; auto.
      * apply nonblank_oblank; auto.
      * rewrite Forall_forall. intros c I. destruct (is_xml_comment c) eqn:C; [destruct c; try discriminate; constructor|].
        apply IH; auto. destruct (loud (from_native b c)) eqn:Lc; auto. exfalso.
        assert (K : existsb loud (flat_map (fun c => if is_xml_comment c then [] else [from_native b c]) cs') = true); [|congruence].
        apply existsb_exists. exists (from_native b c). split; auto. apply in_flat_map. exists c. rewrite C. simpl; auto.
    + apply IH; auto; intros d I; [apply H1|apply H2]; simpl; auto.
Qed.

Lemma doc_solid : forall b d, no_bare_elements d -> ~ bare d -> solid (from_native b d).
Proof.
  intros b d H. induction H as [tag ns text tail attrib cs line H1 H2 IH]. intros Nb. constructor; [|reflexivity|].
  - destruct (loud (from_native b (NElem tag ns text tail attrib cs line))) eqn:L; auto. exfalso. apply Nb. eapply quiet_bare; eauto. constructor; auto.
  - simpl. intros e I. apply in_flat_map in I as (c & I & Ic). destruct (is_xml_comment c) eqn:C; [destruct Ic|].
    destruct Ic as [<-|[]]. apply IH; auto.
Qed.

Lemma doc_tidied : forall b d, no_bare_elements d -> tidied (from_native b d).
Proof.
  intros b d H. destruct H as [tag ns text tail attrib cs line H1 H2]. constructor.
  - unfold unread. simpl. rewrite Forall_forall. intros e I. apply in_flat_map in I as (c & I & Ic). destruct (is_xml_comment c) eqn:C; [destruct Ic|].
    destruct Ic as [<-|[]]. apply doc_solid; auto.
  - unfold passed. simpl. intros ? [].
Qed.

Lemma modes_agree : forall ev, orderly_env ev -> forbids_everything ev -> forall n cls root eas v, no_bare_elements root ->
  from_xml_tree n (strict_env ev) cls root eas = Ok v -> from_xml_tree n ev cls root eas = Ok v.
Proof.
  intros ev Ho Hf n cls root eas v D H. unfold from_xml_tree in *. simpl in H.
  destruct (en_model ev cls) as [m|] eqn:Em; [|discriminate]. simpl in H. destruct (tag_is (native_tag root) (md_elem_name m)); [|discriminate].
  destruct (read_model (read n (strict_env ev)) (strict_model m) eas [] _) as [o s'] eqn:E. simpl in H. subst o.
  destruct (@models_same ev Ho Hf n cls m Em eas [] (St (from_native (en_backend ev) root) []) v s' (doc_tidied _ D) E) as [_ R]. rewrite R. reflexivity.
Qed.
