(** PfModes.v -- reading in strict mode compared with reading in the other modes. *)

From Verif Require Import Base Elem Native Errs Names Ser Read Api SpecElem SpecRead SpecStray SpecRound SpecModes.
From Verif Require Import PfElem PfField PfRel PfStray PfRound1 PfRound6.

Local Ltac inv H := inversion H; subst; clear H.

(** ---- lists of names ---- *)
Inductive parts : list (list string) -> list elem -> Prop :=
| parts_nil : parts [] []
| parts_cons : forall N l seg u, Forall (called_in N) seg -> parts l u -> parts (N :: l) (seg ++ u).

Lemma parts_none : forall l, parts l [].
Proof. induction l as [|N l IH]; [constructor|]. apply (@parts_cons N l [] []); auto. Qed.

Lemma parts_app : forall l1 u1 l2 u2, parts l1 u1 -> parts l2 u2 -> parts (l1 ++ l2) (u1 ++ u2).
Proof.
  intros l1 u1 l2 u2 H H2; induction H; simpl; auto. rewrite <- app_assoc. constructor; auto.
Qed.

Lemma parts_more : forall l0 l u, parts l u -> parts (l0 ++ l) u.
Proof. intros l0 l u H. change u with ([] ++ u). apply parts_app; auto. apply parts_none. Qed.

Lemma parts_one : forall N u, Forall (called_in N) u -> parts [N] u.
Proof. intros N u H. rewrite <- (app_nil_r u). constructor; auto. constructor. Qed.

Lemma parts_one_inv : forall N u, parts [N] u -> Forall (called_in N) u.
Proof. intros N u H; inversion H as [|? ? seg u' F P]; subst. inversion P; subst. rewrite app_nil_r; auto. Qed.

Lemma parts_called : forall l u, parts l u -> Forall (called_in (concat l)) u.
Proof.
  intros l u H; induction H as [|N l seg u F P IH]; [constructor|]. simpl. apply Forall_app; split.
  - apply called_in_app_l; auto.
  - apply called_in_app_r; auto.
Qed.

Definition not_first (t : string) (u : list elem) : Prop := forall c u', u = c :: u' -> ~ called t c.

Definition ahead (t : string) (u : list elem) : Prop :=
  (exists c u', u = c :: u' /\ called t c) \/ Forall (not_called [t]) u.

Lemma called_fun : forall a b c, called a c -> called b c -> a = b.
Proof. unfold called; congruence. Qed.

Lemma none_of : forall t N u, ~ In t N -> Forall (called_in N) u -> Forall (not_called [t]) u.
Proof.
  intros t N u H F. eapply Forall_impl; [|exact F]. intros c (t' & I & C) t'' [<-|[]] C'.
  assert (t' = t) by (eapply called_fun; eauto). subst; auto.
Qed.

Lemma turn_none : forall l, in_turn l -> forall N l' u t, l = N :: l' -> parts l' u -> In t N -> not_first t u ->
  Forall (not_called [t]) u.
Proof.
  intros l H; induction H as [|N l Hn H IH|n l H IH]; intros N0 l' u t E P I F; [discriminate| |]; injection E as <- <-.
  - eapply none_of; [|apply parts_called, P]. apply Hn; auto.
  - destruct I as [<-|[]]. inversion P as [|? ? seg u' Fs P']; subst.
    assert (seg = []) as ->.
    { destruct seg as [|c seg]; auto. exfalso. inv Fs. destruct H2 as (t & [<-|[]] & C). eapply F; simpl; eauto. }
    simpl in *. eapply IH; eauto. simpl; auto.
Qed.

Lemma in_turn_tail : forall N l, in_turn (N :: l) -> in_turn l.
Proof. intros N l H; inv H; auto. Qed.

Lemma in_turn_app_r : forall l1 l2, in_turn (l1 ++ l2) -> in_turn l2.
Proof. induction l1 as [|N l1 IH]; simpl; intros l2 H; auto. apply IH. eapply in_turn_tail; eauto. Qed.

(** what a strict read of at most one element shows about the other modes *)
Lemma ahead_of : forall N l u seg u1 t, in_turn (N :: l) -> parts l u1 -> u = seg ++ u1 -> length seg <= 1 ->
  Forall (called_in N) seg -> In t N -> (seg = [] -> not_first t u) ->
  (forall c, seg = [c] -> called t c \/ Forall (not_called [t]) u1) -> ahead t u.
Proof.
  intros N l u seg u1 t T P -> L F I E1 E2. destruct seg as [|c [|d seg]]; simpl in *; [| |lia].
  - right. eapply turn_none; eauto.
  - destruct (E2 c eq_refl) as [C|C]; [left; eauto|]. destruct (tag_is (e_tag c) t) eqn:Et.
    + apply tag_is_called in Et. left; eauto.
    + apply tag_is_not_called in Et. right. constructor; auto. intros t' [<-|[]]; auto.
Qed.

(** ---- searching ---- *)
Lemma unread_cons : forall e c u, unread e = c :: u -> nth_error (e_elems e) (e_next e) = Some c /\ skipn (S (e_next e)) (e_elems e) = u.
Proof.
  intros e c u H. destruct (unread_cons_next _ H) as [L _]. destruct (skipn_nth _ L) as (x & N & K).
  unfold unread in H. rewrite K in H. injection H as -> <-. auto.
Qed.

Lemma unread_nil : forall e, unread e = [] -> nth_error (e_elems e) (e_next e) = None.
Proof.
  intros e H. unfold unread in H. apply nth_error_None.
  assert (length (skipn (e_next e) (e_elems e)) = 0) as L by (rewrite H; auto). rewrite skipn_length in L. lia.
Qed.

Lemma find_from_none : forall t u i, Forall (not_called [t]) u -> find_from i u t = None.
Proof.
  intros t u i F; revert i; induction F as [|d U H F IH]; intros i; simpl; auto.
  assert (tag_is (e_tag d) t = false) as -> by (apply tag_is_not_called, H; simpl; auto). auto.
Qed.

Lemma forward_same : forall m e t step, m = Strict \/ ahead t (unread e) -> forward m e t step = forward Strict e t step.
Proof.
  intros m e t step [->|A]; auto. simpl forward at 2. unfold strict_forward. destruct A as [(c & u & U & C)|A].
  - destruct (unread_cons _ U) as (N & _). rewrite N. apply tag_is_called in C. rewrite C.
    destruct m; simpl; unfold strict_forward, ordered_forward, unordered_forward.
    + rewrite N, C; auto.
    + unfold unread in U. rewrite U. simpl. rewrite C. auto.
    + unfold unread in U. rewrite U. simpl. rewrite C. rewrite list_swap_same. destruct e; reflexivity.
  - assert (R : match nth_error (e_elems e) (e_next e) with
                | Some c => if tag_is (e_tag c) t then (Found (e_next e), if step then set_next (S (e_next e)) e else e) else (NotFound, e)
                | None => (NotFound, e) end = (NotFound, e)).
    { destruct (unread e) as [|c u] eqn:U; [rewrite (unread_nil _ U); auto|].
      destruct (unread_cons _ U) as (N & _). rewrite N. inv A.
      assert (tag_is (e_tag c) t = false) as -> by (apply tag_is_not_called, H1; simpl; auto). auto. }
    rewrite R. destruct m; simpl; unfold strict_forward, ordered_forward, unordered_forward; auto;
      change (skipn (e_next e) (e_elems e)) with (unread e); rewrite (find_from_none _ A); auto.
Qed.

Lemma strict_cases : forall e t step r e', forward Strict e t step = (r, e') ->
  (r = NotFound /\ e' = e /\ not_first t (unread e)) \/
  (exists c u, r = Found (e_next e) /\ unread e = c :: u /\ called t c /\ nth_error (e_elems e) (e_next e) = Some c /\
     e' = if step then set_next (S (e_next e)) e else e).
Proof.
  intros e t step r e' H. simpl in H. unfold strict_forward in H. destruct (unread e) as [|c u] eqn:U.
  - rewrite (unread_nil _ U) in H. injection H as <- <-. left. split; [|split]; auto. intros c u E; discriminate.
  - destruct (unread_cons _ U) as (N & _). rewrite N in H. destruct (tag_is (e_tag c) t) eqn:C; injection H as <- <-.
    + right. exists c, u. apply tag_is_called in C. repeat split; auto.
    + left. split; [|split]; auto. intros c' u' E. injection E as <- <-. apply tag_is_not_called; auto.
Qed.

(** ---- elements in the course of reading ---- *)
Inductive solid : elem -> Prop :=
| solid_intro : forall e, loud e = true -> e_next e = 0 -> (forall c, In c (e_elems e) -> solid c) -> solid e.

(** what lies ahead is untouched and has content *)
Inductive tidied : elem -> Prop :=
| tidied_intro : forall e, Forall solid (unread e) -> (forall c, In c (passed e) -> tidied c) -> tidied e.

Inductive complete : elem -> Prop :=
| complete_intro : forall e, unread e = [] -> (forall c, In c (passed e) -> complete c) -> complete e.

Lemma solid_tidied : forall e, solid e -> tidied e.
Proof.
  intros e H. destruct H as [e L N C]. constructor.
  - unfold unread. rewrite N. simpl. rewrite Forall_forall; auto.
  - unfold passed. rewrite N. simpl. intros c [].
Qed.

Lemma in_loud : forall l c, In c l -> loud c = true -> existsb loud l = true.
Proof. intros l c I L. apply existsb_exists; eauto. Qed.

Lemma quiet_children : forall e, loud e = false -> forall c, In c (e_elems e) -> loud c = false.
Proof.
  intros [t n x y a l i z] H c I. cbn [loud] in H. rewrite !orb_false_iff in H. destruct H as [_ H].
  simpl in I. destruct (loud c) eqn:L; auto. rewrite (@in_loud _ _ I L) in H. discriminate.
Qed.

Lemma quiet_complete : forall e, tidied e -> loud e = false -> complete e.
Proof.
  intros e T; induction T as [e S C IH]; intros Q. pose proof (quiet_children e Q) as K. constructor.
  - destruct (unread e) as [|d u] eqn:U; auto. exfalso. inv S. destruct H1 as [d L _ _].
    rewrite K in L; [discriminate|]. rewrite split_at_cursor, U. apply in_app_iff. right; simpl; auto.
  - intros c I. apply IH; auto. apply K. rewrite split_at_cursor. apply in_app_iff; auto.
Qed.

(** enough room for the fields [ss]: what is ahead consists of their elements in turn *)
Inductive safe : list ser -> elem -> Prop :=
| safe_intro : forall ss e, parts (flat_map places ss) (unread e) ->
    (forall before c, passed e = before ++ [c] -> forall b, In b before -> complete b) ->
    (forall before c p, passed e = before ++ [c] -> called p c -> safe (inside p ss) c) -> safe ss e.

Lemma complete_safe : forall e, complete e -> forall ss, safe ss e.
Proof.
  intros e H; induction H as [e U C IH]; intros ss. constructor.
  - rewrite U. apply parts_none.
  - intros before c E b I. apply C. rewrite E. apply in_app_iff; auto.
  - intros before c p E _. apply IH. rewrite E. apply in_app_iff; right; simpl; auto.
Qed.

Lemma inside_app : forall p a b, inside p (a ++ b) = inside p a ++ inside p b.
Proof. intros p a b. unfold inside. apply flat_map_app. Qed.

Lemma safe_more : forall ss e, safe ss e -> forall l, safe (l ++ ss) e.
Proof.
  intros ss e H; induction H as [ss e P B C IH]; intros l. constructor; auto.
  - rewrite flat_map_app. apply parts_more; auto.
  - intros before c p E Cc. rewrite inside_app. eapply IH; eauto.
Qed.

Definition front (l : list (list string)) (e e1 : elem) : Prop :=
  exists seg cs, unread e = seg ++ unread e1 /\ passed e1 = passed e ++ cs /\ parts l seg /\ Forall tidied cs.

Lemma front_none : forall l e e1, unread e1 = unread e -> passed e1 = passed e -> front l e e1.
Proof.
  intros l e e1 U P. exists [], []. rewrite U, P, app_nil_r. repeat split; auto. apply parts_none.
Qed.

Lemma front_trans : forall l1 l2 e e1 e2, front l1 e e1 -> front l2 e1 e2 -> front (l1 ++ l2) e e2.
Proof.
  intros l1 l2 e e1 e2 (s1 & c1 & U1 & P1 & Q1 & T1) (s2 & c2 & U2 & P2 & Q2 & T2).
  exists (s1 ++ s2), (c1 ++ c2). rewrite U1, U2, P2, P1, !app_assoc. repeat split; auto.
  - apply parts_app; auto.
  - apply Forall_app; auto.
Qed.

Lemma front_again : forall N e e1 e2, front [N] e e1 -> front [N] e1 e2 -> front [N] e e2.
Proof.
  intros N e e1 e2 (s1 & c1 & U1 & P1 & Q1 & T1) (s2 & c2 & U2 & P2 & Q2 & T2).
  exists (s1 ++ s2), (c1 ++ c2). rewrite U1, U2, P2, P1, !app_assoc. repeat split; auto.
  - apply parts_one. apply Forall_app; split; apply parts_one_inv; auto.
  - apply Forall_app; auto.
Qed.

Lemma front_tidied : forall l e e1, front l e e1 -> tidied e -> tidied e1.
Proof.
  intros l e e1 (s & c & U & P & Q & T) H. inv H. constructor.
  - rewrite U in H0. apply Forall_app in H0. tauto.
  - intros x I. rewrite P in I. apply in_app_iff in I as [I|I]; auto. rewrite Forall_forall in T; auto.
Qed.

Lemma front_parts : forall l l' e e1, front l e e1 -> parts l' (unread e1) -> parts (l ++ l') (unread e).
Proof. intros l l' e e1 (s & c & U & P & Q & T) H. rewrite U. apply parts_app; auto. Qed.

Lemma last_split : forall A (l : list A), l = [] \/ exists b c, l = b ++ [c].
Proof. intros A l. destruct l using rev_ind; eauto. Qed.

Lemma front_safe : forall s ss e e1, front (places s) e e1 -> (forall p, inside_one p s = []) -> safe ss e1 -> safe (s :: ss) e.
Proof.
  intros s ss e e1 F W S. pose proof F as (seg & cs & U & P & Q & T). inversion S as [ss' e' P1 B C]; subst ss' e'. constructor.
  - simpl. eapply front_parts; eauto.
  - intros before c E b I. destruct (last_split cs) as [->|(cs' & d & ->)].
    + rewrite app_nil_r in P. eapply B; [rewrite P; exact E|auto].
    + eapply B; [rewrite P, app_assoc; reflexivity|]. rewrite E. rewrite !in_app_iff. auto.
  - intros before c p E Cc. unfold inside. simpl. rewrite W. simpl. destruct (last_split cs) as [->|(cs' & d & ->)].
    + rewrite app_nil_r in P. eapply C; [rewrite P; exact E|auto].
    + apply complete_safe. eapply B; [rewrite P, app_assoc; reflexivity|]. rewrite E. rewrite !in_app_iff. simpl. auto.
Qed.

(** ---- one element ---- *)
Lemma put_here : forall e c c1 u, unread e = c :: u ->
  let e1 := put_child (e_next e) c1 (set_next (S (e_next e)) e) in
  unread e1 = u /\ passed e1 = passed e ++ [c1].
Proof.
  intros e c c1 u U e1. destruct (unread_cons_next _ U) as [L Lp]. destruct (unread_cons _ U) as (N & K).
  assert (El : e_elems e1 = passed e ++ c1 :: u).
  { unfold e1, put_child. simpl. rewrite (split_at_cursor e), U. rewrite <- Lp at 1. apply list_upd_split. }
  unfold unread, passed. assert (e_next e1 = S (e_next e)) as -> by reflexivity. rewrite El.
  change (passed e ++ c1 :: u) with (passed e ++ [c1] ++ u). rewrite app_assoc. split.
  - apply skipn_app_len. rewrite app_length; simpl; lia.
  - change (firstn (S (e_next e)) ((passed e ++ [c1]) ++ u) = passed e ++ [c1]). apply firstn_app_len. rewrite app_length; simpl; lia.
Qed.

(** a reader of the content of one element, strictly and otherwise *)
Definition content_same (f f' : st -> rres val) : Prop :=
  forall c v c', tidied (st_el c) -> f c = (Ok v, c') -> tidied (st_el c') /\ f' c = (Ok v, c').

Definition took (t : string) (e e1 : elem) : Prop :=
  exists c c1 u, unread e = c :: u /\ called t c /\ unread e1 = u /\ passed e1 = passed e ++ [c1] /\ tidied c1.

Lemma pop_same : forall t m f f' s v s', content_same f f' -> tidied (st_el s) ->
  with_found (pop_element (st_el s) t Strict) f s = (Ok v, s') ->
  ((v = VNone /\ s' = s /\ not_first t (unread (st_el s))) \/ took t (st_el s) (st_el s')) /\
  (m = Strict \/ ahead t (unread (st_el s)) -> with_found (pop_element (st_el s) t m) f' s = (Ok v, s')).
Proof.
  intros t m f f' s v s' Hf T H.
  assert (Same : m = Strict \/ ahead t (unread (st_el s)) -> pop_element (st_el s) t m = pop_element (st_el s) t Strict).
  { intros A. unfold pop_element, search. apply forward_same; auto. }
  unfold pop_element at 1 in H. simpl search in H.
  destruct (strict_forward (st_el s) t true) as [r e'] eqn:E.
  assert (Pe : pop_element (st_el s) t Strict = (r, e')) by (unfold pop_element; simpl; auto).
  destruct (strict_cases (st_el s) t true E) as [(-> & -> & Nf)|(c & u & -> & U & C & N & ->)].
  - simpl in H. injection H as <- <-. assert (set_el (st_el s) s = s) as R by (destruct s; reflexivity). rewrite R. split; auto.
    intros A. rewrite (Same A), Pe. simpl. rewrite R; auto.
  - simpl in H. unfold on_child in H. simpl in H. rewrite N in H.
    destruct (f (St c (st_sm s))) as [o c'] eqn:F. injection H as -> <-.
    destruct (Hf (St c (st_sm s)) v c') as [T1 E1]; auto.
    { apply solid_tidied. inv T. rewrite U in H. inv H; auto. }
    split.
    + right. destruct (put_here (st_el s) (st_el c') U) as [A B]. exists c, (st_el c'), u. split; [auto|]. split; [auto|]. split; [exact A|]. split; [exact B|auto].
    + intros A. rewrite (Same A), Pe. simpl. unfold on_child. simpl. rewrite N, E1. reflexivity.
Qed.
