(** PfNest.v -- proofs for C82: writing and reading. *)

From Verif Require Import Base Elem Native Errs Names Fields Ser Build Write Read Api SpecElem SpecSim SpecNest
  PfElem PfSim2.

Local Ltac inv H := inversion H; subst; clear H.

(** agreement of two outcomes when both are reached *)
Inductive ag {A B : Type} (R : A -> B -> Prop) : out A -> out B -> Prop :=
| ag_l : forall y, ag R Fuel y
| ag_r : forall x, ag R x Fuel
| ag_ok : forall a b, R a b -> ag R (Ok a) (Ok b)
| ag_raise : forall x, ag R (Raise x) (Raise x).

Lemma ag_bind : forall A B C D (R : A -> B -> Prop) (Q : C -> D -> Prop) x y f g,
  ag R x y -> (forall a b, R a b -> ag Q (f a) (g b)) -> ag Q (obind x f) (obind y g).
Proof.
  intros A B C D R Q x y f g H K; destruct H; simpl; try (destruct x; simpl); try constructor; auto.
Qed.

Lemma ag_refl : forall A (x : out A), ag eq x x.
Proof. intros A [|e|]; constructor; auto. Qed.

Lemma ag_eq : forall A (x y : out A), ag eq x y -> x <> Fuel -> y <> Fuel -> x = y.
Proof. intros A x y H N N'; destruct H; try congruence. Qed.

(** ---- the same form ---- *)
Lemma steps_app : forall p q m md c s, nest_steps (p ++ q) m md c s = nest_steps p m md c (nest_steps q m md c s).
Proof. induction p; simpl; intros; auto. f_equal; auto. Qed.

(** two wrappers with the same form: the same steps, or one has more steps *)
Lemma steps_inv : forall p p' m md c m' md' c' i i', p <> [] -> p' <> [] ->
  nest_steps p m md c (nest i) = nest_steps p' m' md' c' (nest i') ->
  m = m' /\ md = md' /\ c = c' /\
  ((p = p' /\ nest i = nest i') \/
   (exists q, q <> [] /\ p' = p ++ q /\ nest i = nest (SWrap q m md c i')) \/
   (exists q, q <> [] /\ p = p' ++ q /\ nest (SWrap q m md c i) = nest i')).
Proof.
  induction p as [|a p IH]; intros p' m md c m' md' c' i i' N N' H; [congruence|].
  destruct p' as [|a' p']; [congruence|]. simpl in H. inv H. repeat (split; auto).
  destruct p as [|b p].
  - destruct p' as [|b' p']; [left; auto|]. right; left. exists (b' :: p'). split; [discriminate|]. split; auto.
  - destruct p' as [|b' p'].
    + right; right. exists (b :: p). split; [discriminate|]. split; auto.
    + destruct (IH (b' :: p') m' md' c' m' md' c' i i') as (_ & _ & _ & [[E F]|[(q & Nq & E & F)|(q & Nq & E & F)]]);
        try discriminate; auto.
      * left. rewrite E. auto.
      * right; left. exists q. rewrite E. auto.
      * right; right. exists q. rewrite E. auto.
Qed.

Lemma nest_wrap : forall p m md c i, p <> [] -> nest (SWrap p m md c i) = nest_steps p m md c (nest i).
Proof. intros [|a p] m md c i N; [congruence|auto]. Qed.

(** the form of a wrapper is a wrapper's *)
Lemma nest_wrap_kind : forall p m md c i, exists p' j, nest (SWrap p m md c i) = SWrap p' m md c j /\ (p' = [] <-> p = []).
Proof.
  intros [|a p] m md c i; simpl; do 2 eexists; split; eauto; split; intros; congruence.
Qed.

Inductive same_shape : ser -> ser -> Prop :=
| ss_eq : forall s, (match s with SHomo _ _ _ _ | SHetero _ _ _ _ | SUnionPrim _ _ | SWrap _ _ _ _ _ => False | _ => True end) ->
    same_shape s s
| ss_homo : forall t c i i' h, nest i = nest i' -> same_shape (SHomo t c i h) (SHomo t c i' h)
| ss_hetero : forall t c l l' h, map nest l = map nest l' -> same_shape (SHetero t c l h) (SHetero t c l' h)
| ss_uprim : forall c i i', nest i = nest i' -> same_shape (SUnionPrim c i) (SUnionPrim c i')
| ss_same : forall p m md c i i', nest i = nest i' -> same_shape (SWrap p m md c i) (SWrap p m md c i')
| ss_right : forall p q m md c i i', p <> [] -> q <> [] -> nest i = nest (SWrap q m md c i') ->
    same_shape (SWrap p m md c i) (SWrap (p ++ q) m md c i')
| ss_left : forall p q m md c i i', p <> [] -> q <> [] -> nest (SWrap q m md c i) = nest i' ->
    same_shape (SWrap (p ++ q) m md c i) (SWrap p m md c i').

Lemma nest_shape : forall s s', nest s = nest s' -> same_shape s s'.
Proof.
  intros s s' H.
  destruct s; destruct s';
    try (match type of H with _ = nest (SWrap ?p ?m ?md ?c ?i) => destruct (nest_wrap_kind p m md c i) as (p' & j & E & _); rewrite E in H; simpl in H; discriminate end);
    try (match type of H with nest (SWrap ?p ?m ?md ?c ?i) = _ => destruct (nest_wrap_kind p m md c i) as (p' & j & E & _); rewrite E in H; simpl in H; discriminate end);
    try (simpl in H; discriminate);
    try (simpl in H; inv H; constructor; simpl; auto; fail).
  destruct path as [|a p]; destruct path0 as [|a' p'].
  - simpl in H. inv H. constructor; auto.
  - simpl in H. discriminate.
  - simpl in H. discriminate.
  - assert (N : a :: p <> []) by discriminate. assert (N' : a' :: p' <> []) by discriminate.
    rewrite !nest_wrap in H by auto.
    apply steps_inv in H; auto. destruct H as (-> & -> & -> & [[-> E]|[(q & Nq & E & F)|(q & Nq & E & F)]]).
    + constructor; auto.
    + rewrite E. constructor; auto.
    + rewrite E. constructor; auto.
Qed.

Lemma map_nest_ag : forall (l l' : list ser), map nest l = map nest l' -> Forall2 (fun a b => nest a = nest b) l l'.
Proof.
  induction l as [|a l IH]; intros [|b l'] H; simpl in H; try discriminate; constructor; inv H; auto.
Qed.

Lemma nest_fields_ag : forall l l', nest_fields l = nest_fields l' ->
  Forall2 (fun a b : string * ser => fst a = fst b /\ nest (snd a) = nest (snd b)) l l'.
Proof.
  induction l as [|[k s] l IH]; intros [|[k' s'] l'] H; simpl in H; try discriminate; constructor; inv H; auto.
Qed.

(** two models with the same form *)
Record same_model (m m' : mdef) : Prop := SameModel {
  sd_name : md_name m = md_name m';
  sd_root : md_root m = md_root m';
  sd_elem : md_elem_name m = md_elem_name m';
  sd_nsmap : md_nsmap m = md_nsmap m';
  sd_fields : Forall2 (fun a b : string * ser => fst a = fst b /\ nest (snd a) = nest (snd b)) (md_fields m) (md_fields m');
  sd_valias : md_valias m = md_valias m';
  sd_sexclude : md_sexclude m = md_sexclude m';
  sd_hide : md_hide m = md_hide m';
  sd_forbid : md_forbid m = md_forbid m';
  sd_skip : md_skip_empty m = md_skip_empty m';
  sd_cser : md_cser m = md_cser m';
  sd_cval : md_cval m = md_cval m';
  sd_validate : md_validate m = md_validate m'
}.

Lemma nest_same_model : forall m m', nest_model m = nest_model m' -> same_model m m'.
Proof.
  intros [] [] H. unfold nest_model, with_fields in H. simpl in H. inv H. constructor; simpl; auto.
  apply nest_fields_ag; auto.
Qed.

Lemma same_env_model : forall ev ev', same_env ev ev' -> forall c,
  match en_model ev c, en_model ev' c with
  | Some m, Some m' => same_model m m'
  | None, None => True
  | _, _ => False
  end.
Proof.
  intros ev ev' [_ H] c. specialize (H c).
  destruct (en_model ev c), (en_model ev' c); simpl in H; try discriminate; auto.
  apply nest_same_model. congruence.
Qed.

Lemma same_env_sym : forall ev ev', same_env ev ev' -> same_env ev' ev.
Proof. intros ev ev' [A B]; split; auto. Qed.

(** ---- writing ---- *)
Definition wag (w w' : writer) : Prop := forall fl e v enc, ag eq (w fl e v enc) (w' fl e v enc).

Lemma path_ag : forall b md m p k k' e, (forall e, ag eq (k e) (k' e)) -> ag eq (write_path b md m p k e) (write_path b md m p k' e).
Proof.
  induction p as [|a p IH]; simpl; intros k k' e H; auto.
  destruct (find_element_or_create b e a md m) as [f e']; destruct f; try constructor.
  destruct (nth_error (e_elems e') i); [|constructor].
  eapply ag_bind; [apply IH; auto|]. intros x y ->. constructor; auto.
Qed.

Lemma path_app : forall b md m p q k e, write_path b md m (p ++ q) k e = write_path b md m p (write_path b md m q k) e.
Proof.
  induction p as [|a p IH]; simpl; intros q k e; auto.
  destruct (find_element_or_create b e a md m) as [f e']; destruct f; auto.
  destruct (nth_error (e_elems e') i); auto. rewrite IH; auto.
Qed.

Lemma path_eq : forall b md m p k k' e, (forall e, k e = k' e) -> write_path b md m p k e = write_path b md m p k' e.
Proof.
  induction p as [|a p IH]; simpl; intros k k' e H; auto.
  destruct (find_element_or_create b e a md m) as [f e']; destruct f; auto.
  destruct (nth_error (e_elems e') i); auto. rewrite (IH k k'); auto.
Qed.

Lemma wrap_ag : forall b p m md w w', wag w w' -> wag (write_wrap b p m md w) (write_wrap b p m md w').
Proof.
  intros b p m md w w' H fl e v enc. unfold write_wrap.
  destruct (is_none v); [apply ag_refl|]. destruct (fl_skip_empty fl && len_is_zero v); [apply ag_refl|].
  apply path_ag; intros; apply H.
Qed.

Lemma wrap_app : forall b p q m md w fl e v enc,
  write_wrap b (p ++ q) m md w fl e v enc = write_wrap b p m md (write_wrap b q m md w) fl e v enc.
Proof.
  intros. unfold write_wrap at 1 2.
  destruct (is_none v) eqn:N; auto. destruct (fl_skip_empty fl && len_is_zero v) eqn:L; auto.
  rewrite path_app. apply path_eq; intros e0. unfold write_wrap. rewrite N, L; auto.
Qed.

Lemma items_ag : forall w w', wag w w' -> forall fl vs encs e, ag eq (write_items w fl e vs encs) (write_items w' fl e vs encs).
Proof.
  intros w w' H fl; induction vs as [|v vs IH]; intros [|enc encs] e; simpl; try (constructor; auto; fail).
  destruct (fl_skip_empty fl && is_none v); auto.
  eapply ag_bind; [apply H|]. intros x y ->; auto.
Qed.

Lemma tuple_ag : forall fl ws ws', Forall2 wag ws ws' -> forall vs encs e,
  ag eq (write_tuple ws fl e vs encs) (write_tuple ws' fl e vs encs).
Proof.
  intros fl ws ws' H; induction H as [|w w' ws ws' Hw H IH]; intros [|v vs] [|enc encs] e; simpl; try (constructor; auto; fail).
  eapply ag_bind; [apply Hw|]. intros x y ->; auto.
Qed.

Lemma homo_ag : forall w w', wag w w' -> wag (write_homo w) (write_homo w').
Proof.
  intros w w' H fl e v enc. unfold write_homo. destruct (is_none v); [apply ag_refl|].
  eapply ag_bind; [apply ag_refl|]. intros vs ? <-.
  destruct (fl_skip_empty fl && Nat.eqb (length vs) 0); [apply ag_refl|].
  eapply ag_bind; [apply ag_refl|]. intros encs ? <-. apply items_ag; auto.
Qed.

Lemma hetero_ag : forall ws ws', Forall2 wag ws ws' -> wag (write_hetero ws) (write_hetero ws').
Proof.
  intros ws ws' H fl e v enc. unfold write_hetero. destruct (is_none v); [apply ag_refl|].
  eapply ag_bind; [apply ag_refl|]. intros vs ? <-.
  destruct (fl_skip_empty fl && Nat.eqb (length vs) 0); [apply ag_refl|].
  replace (length ws) with (length ws') by (clear - H; induction H; simpl; auto). destruct (negb (Nat.eqb (length vs) (length ws'))); [apply ag_refl|].
  eapply ag_bind; [apply ag_refl|]. intros encs ? <-. apply tuple_ag; auto.
Qed.

Section Write.
  Variables ev ev' : env.
  Hypothesis Env : same_env ev ev'.
  Variables w w' : ser -> writer.
  Hypothesis Rec : forall s s', nest s = nest s' -> wag (w s) (w' s').

  Lemma fields_ag : forall m m', same_model m m' -> forall fs fs',
    Forall2 (fun a b : string * ser => fst a = fst b /\ nest (snd a) = nest (snd b)) fs fs' ->
    forall fl e v enc, ag eq (write_fields w m fs fl e v enc) (write_fields w' m' fs' fl e v enc).
  Proof.
    intros m m' M fs fs' H; induction H as [|[k s] [k' s'] fs fs' [A B] H IH]; intros fl e v enc; simpl in *; [constructor; auto|].
    subst k'. rewrite (sd_sexclude M), (sd_cser M). destruct (str_in k (md_sexclude m')); auto.
    eapply ag_bind; [apply ag_refl|]. intros u ? <-. destruct u; auto.
    eapply ag_bind; [apply ag_refl|]. intros x ? <-.
    eapply ag_bind with (R := eq).
    - destruct (md_cser m' k); [apply ag_refl|]. eapply ag_bind; [apply ag_refl|]. intros xe ? <-. apply Rec; auto.
    - intros e1 ? <-. auto.
  Qed.

  Lemma wmodel_ag : forall m m', same_model m m' -> forall fl e v enc,
    ag eq (write_model w m fl e v enc) (write_model w' m' fl e v enc).
  Proof.
    intros m m' M fl e v enc. unfold write_model, with_skip_empty. rewrite (sd_root M), (sd_skip M).
    destruct (is_none v); [apply ag_refl|]. destruct (md_root m').
    - eapply ag_bind; [apply ag_refl|]. intros u ? <-. destruct u; [apply ag_refl|].
      pose proof (sd_fields M) as F. inv F; [apply ag_refl|]. destruct x as [k s], y as [k' s']; simpl in *.
      destruct H1 as [_ E]. eapply ag_bind; [apply ag_refl|]. intros x ? <-. apply Rec; auto.
    - apply fields_ag; auto. apply (sd_fields M).
  Qed.

  Lemma wproxy_ag : forall p, wag (write_proxy ev w p) (write_proxy ev' w' p).
  Proof.
    intros p fl e v enc. unfold write_proxy. pose proof (same_env_model Env (px_model p)) as M.
    destruct (en_model ev (px_model p)), (en_model ev' (px_model p)); try contradiction; [|apply ag_refl].
    rewrite (proj1 Env).
    destruct (fl_exclude_none fl && is_none v); [apply ag_refl|].
    destruct (px_nillable p && is_none v); [apply ag_refl|]. destruct (is_none v); [apply ag_refl|].
    eapply ag_bind; [apply wmodel_ag; auto|]. intros x ? <-. apply ag_refl.
  Qed.

  Lemma wunion_ag : forall vs, wag (write_union (write_proxy ev w) vs) (write_union (write_proxy ev' w') vs).
  Proof.
    induction vs as [|p vs IH]; intros fl e v enc; simpl; [apply ag_refl|].
    destruct (match model_type v with Some c => String.eqb (px_model p) c | None => false end); auto.
    apply wproxy_ag.
  Qed.

  Lemma wtagged_ag : forall d vs, wag (write_tagged (write_proxy ev w) d vs) (write_tagged (write_proxy ev' w') d vs).
  Proof.
    intros d vs fl e v enc. unfold write_tagged. destruct enc; try apply ag_refl. match goal with |- context [dget d ?x] => rename x into its end.
    destruct (dget d its) as [t|]; [|apply ag_refl]. destruct (py_truthy t); [|apply ag_refl].
    destruct t; try apply ag_refl. destruct (dget s vs); [|apply ag_refl]. apply wproxy_ag.
  Qed.
End Write.

Theorem write_ag : forall k n n', n + n' <= k -> forall ev ev', same_env ev ev' -> forall s s', nest s = nest s' ->
  wag (write n ev s) (write n' ev' s').
Proof.
  induction k as [|k IH]; intros n n' L ev ev' Env s s' H.
  - destruct n; [|lia]. intros fl e v enc. constructor.
  - destruct n as [|n]; [intros fl e v enc; constructor|]. destruct n' as [|n']; [intros fl e v enc; constructor|].
    assert (Rec : forall s s', nest s = nest s' -> wag (write n ev s) (write n' ev' s')) by (intros; apply IH; auto; lia).
    apply nest_shape in H. destruct H.
    + cbn [write]. unfold write_step. rewrite (proj1 Env). destruct s; try contradiction; intros fl e v enc; try apply ag_refl.
      * apply wunion_ag; auto.
      * apply wtagged_ag; auto.
      * apply wproxy_ag; auto.
    + cbn [write write_step]. apply homo_ag; auto.
    + cbn [write write_step]. apply hetero_ag. apply map_nest_ag in H. induction H; simpl; constructor; auto.
    + cbn [write write_step]. auto.
    + cbn [write write_step]. rewrite (proj1 Env). apply wrap_ag; auto.
    + intros fl e v enc. cbn [write write_step]. rewrite (proj1 Env), wrap_app. apply wrap_ag.
      change (wag (write n ev i) (write_wrap (en_backend ev') q m md (write n' ev' i'))).
      intros fl' e' v' enc'. apply (IH n (S n') ltac:(lia) ev ev' Env i (SWrap q m md c i') H1).
    + intros fl e v enc. cbn [write write_step]. rewrite wrap_app, <- (proj1 Env). apply wrap_ag.
      intros fl' e' v' enc'. apply (IH (S n) n' ltac:(lia) ev ev' Env (SWrap q m md c i) i' H1).
Qed.

Theorem to_xml_ag : forall ev ev' n n' encode v fl, same_env ev ev' ->
  to_xml_tree n ev encode v fl <> Fuel -> to_xml_tree n' ev' encode v fl <> Fuel ->
  to_xml_tree n ev encode v fl = to_xml_tree n' ev' encode v fl.
Proof.
  intros ev ev' n n' encode v fl Env. apply ag_eq. unfold to_xml_tree.
  destruct (model_type v) as [c|]; [|apply ag_refl]. pose proof (same_env_model Env c) as M.
  destruct (en_model ev c), (en_model ev' c); try contradiction; [|apply ag_refl].
  rewrite (sd_elem M), (sd_nsmap M), (proj1 Env).
  eapply ag_bind; [eapply wmodel_ag; eauto; intros; eapply write_ag; eauto|].
  intros x ? <-. apply ag_refl.
Qed.
