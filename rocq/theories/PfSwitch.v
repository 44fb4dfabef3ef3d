(** PfSwitch.v -- proofs for C79: pruned elements, and the room the fields of a neat class have. *)

From Verif Require Import Base Elem Native Errs Names Ser Write Api SpecElem SpecRead SpecWrite SpecRound SpecSwitch
  PfElem PfFuel PfTerm PfWrite PfWrite2.

Local Ltac inv H := inversion H; subst; clear H.
Local Ltac conj := repeat match goal with |- _ /\ _ => split end.

Definition odict (a : option (dict string)) : dict string := match a with Some d => d | None => [] end.
Definition flat (e : elem) : Prop := e_next e = length (e_elems e).
Definition keys (e : elem) : list string := map fst (odict (e_attrib e)).
Definition none_called (p : string) (l : list elem) : Prop := forall c, In c l -> ~ called p c.

(** ---- some_of ---- *)

Lemma some_refl : forall A (l : list A), some_of l l.
Proof. induction l; constructor; auto. Qed.

Lemma some_nil : forall A (l : list A), some_of [] l.
Proof. induction l; constructor; auto. Qed.

Lemma some_trans : forall A (b c : list A), some_of b c -> forall a, some_of a b -> some_of a c.
Proof.
  intros A b c H; induction H as [|x b c H IH|x b c H IH]; intros a Ha; auto.
  - inv Ha; constructor; auto.
  - constructor; auto.
Qed.

Lemma some_snoc : forall A (x : A) l' l, some_of l' l -> some_of (l' ++ [x]) (l ++ [x]).
Proof. intros A x l' l H; induction H; simpl; constructor; auto. constructor. Qed.

Lemma some_app : forall A (l x : list A), some_of l (l ++ x).
Proof. induction l; intros; simpl; [apply some_nil|constructor; auto]. Qed.

Lemma some_in : forall A (l' l : list A), some_of l' l -> forall x, In x l' -> In x l.
Proof. intros A l' l H; induction H; intros y Hy; simpl in *; auto. destruct Hy; auto. Qed.

Lemma some_of_nil : forall A (l : list A), some_of l [] -> l = [].
Proof. intros A l H; inv H; auto. Qed.

(** ---- pruned elements ---- *)

Inductive pr : elem -> elem -> Prop :=
| pr_intro : forall e' e, e_tag e' = e_tag e -> text_or_none (e_text e') (e_text e) ->
    text_or_none (e_tail e') (e_tail e) -> some_of (odict (e_attrib e')) (odict (e_attrib e)) ->
    prs (e_elems e') (e_elems e) -> (flat e -> flat e') -> pr e' e
with prs : list elem -> list elem -> Prop :=
| prs_none : prs [] []
| prs_keep : forall c' c cs' cs, pr c' c -> prs cs' cs -> prs (c' :: cs') (c :: cs)
| prs_drop : forall c cs' cs, prs cs' cs -> prs cs' (c :: cs).

Scheme pr_mut := Induction for pr Sort Prop with prs_mut := Induction for prs Sort Prop.

Lemma ton_refl : forall t, text_or_none t t.
Proof. left; auto. Qed.

Lemma ton_trans : forall a b c, text_or_none a b -> text_or_none b c -> text_or_none a c.
Proof. unfold text_or_none; intros a b c [-> | ->] [-> | ->]; auto. Qed.

Lemma pr_refl : forall e, pr e e.
Proof.
  induction e as [tag ns text tail a es nx line IH] using elem_ind'.
  constructor; simpl; auto using ton_refl, some_refl. induction IH; constructor; auto.
Qed.

Lemma prs_refl : forall l, prs l l.
Proof. induction l; constructor; auto using pr_refl. Qed.

Lemma prs_nil : forall l, prs [] l.
Proof. induction l; constructor; auto. Qed.

Lemma prs_nil_inv : forall l, prs l [] -> l = [].
Proof. intros l H; inv H; auto. Qed.

Lemma prs_app : forall a' a b' b, prs a' a -> prs b' b -> prs (a' ++ b') (a ++ b).
Proof. intros a' a b' b H Hb; induction H; simpl; auto; constructor; auto. Qed.

Lemma pr_trans : forall b c, pr b c -> forall a, pr a b -> pr a c.
Proof.
  apply (pr_mut (fun b c _ => forall a, pr a b -> pr a c) (fun b c _ => forall a, prs a b -> prs a c)).
  - intros b c T X Y A E IH F a Ha. inv Ha. constructor; try congruence; eauto using ton_trans, some_trans.
  - auto.
  - intros c' c cs' cs _ IH _ IHs a Ha. inv Ha; constructor; auto.
  - intros c cs' cs _ IHs a Ha. constructor; auto.
Qed.

Lemma pr_tag : forall e' e, pr e' e -> e_tag e' = e_tag e.
Proof. intros e' e H; inv H; auto. Qed.

Lemma pr_called : forall p e' e, pr e' e -> called p e -> called p e'.
Proof. unfold called; intros p e' e H C. rewrite (pr_tag H); auto. Qed.

Lemma pr_called' : forall p e' e, pr e' e -> called p e' -> called p e.
Proof. unfold called; intros p e' e H C. rewrite <- (pr_tag H); auto. Qed.

Lemma pr_flat : forall e' e, pr e' e -> flat e -> flat e'.
Proof. intros e' e H; inv H; auto. Qed.

Lemma pr_keys : forall e' e, pr e' e -> forall k, In k (keys e') -> In k (keys e).
Proof.
  intros e' e H k Hk; inv H. unfold keys in *. apply in_map_iff in Hk. destruct Hk as ([k' v] & <- & I).
  apply in_map_iff. exists (k', v); split; auto. eapply some_in; eauto.
Qed.

Lemma prs_none_called : forall p l' l, prs l' l -> none_called p l -> none_called p l'.
Proof.
  intros p l' l H; induction H as [|c' c cs' cs P H IH|c cs' cs H IH]; intros N x Hx; simpl in *; auto.
  - destruct Hx as [->|Hx].
    + intros C. apply (N c); [left; auto|]. eapply pr_called'; eauto.
    + apply IH; auto. intros y Hy; apply N; right; auto.
  - apply IH; auto. intros y Hy; apply N; right; auto.
Qed.

(** the wrapper of the pruned element is that of the element, or there is none *)
Lemma prs_last : forall p f c l', prs l' (f ++ [c]) -> none_called p f -> called p c ->
  none_called p l' \/ exists f' c', l' = f' ++ [c'] /\ called p c' /\ prs f' f /\ pr c' c.
Proof.
  intros p f c; induction f as [|x f IH]; intros l' H N C; simpl in H.
  - inv H.
    + apply prs_nil_inv in H4; subst. right. exists [], c'. conj; auto using prs_nil. eapply pr_called; eauto.
    + apply prs_nil_inv in H2; subst. left. intros y [].
  - assert (N' : none_called p f) by (intros y Hy; apply N; right; auto). inv H.
    + destruct (IH _ H4 N' C) as [A|(f' & c1 & -> & C1 & P & Q)].
      * left. intros y [<-|Hy]; [|apply A; auto]. intros D. apply (N x); [left; auto|]. eapply pr_called'; eauto.
      * right. exists (c' :: f'), c1. conj; auto. constructor; auto.
    + destruct (IH _ H2 N' C) as [A|(f' & c1 & -> & C1 & P & Q)]; auto.
      right. exists f', c1. conj; auto. constructor; auto.
Qed.

(** empty elements stay empty *)
Lemma str_truthy_ton : forall a b, text_or_none a b -> str_truthy b = false -> str_truthy a = false.
Proof. intros a b [-> | ->]; auto. Qed.

Lemma pr_empty : forall e' e, pr e' e -> is_empty e = true -> is_empty e' = true.
Proof.
  intros e' e H E; inv H. unfold is_empty in *. apply andb_prop in E; destruct E as [E E4]. apply andb_prop in E; destruct E as [E E3].
  apply andb_prop in E; destruct E as [E1 E2]. apply negb_true_iff in E1, E2, E3.
  rewrite (str_truthy_ton H1 E1), (str_truthy_ton H2 E2). apply Nat.eqb_eq in E4. apply length_zero_iff_nil in E4. rewrite E4 in H4.
  apply prs_nil_inv in H4. rewrite H4. simpl. unfold dict_truthy in *.
  destruct (e_attrib e) as [[|kv d]|]; try discriminate; simpl in H3; apply some_of_nil in H3;
    destruct (e_attrib e') as [[|kv' d']|]; simpl in *; auto; discriminate.
Qed.

(** ---- the native tree ---- *)

Lemma pr_native : forall e' e, pr e' e -> forall b t, to_native b e = Some t ->
  exists t', to_native b e' = Some t' /\ left_out t' t.
Proof.
  apply (pr_mut (fun e' e _ => forall b t, to_native b e = Some t -> exists t', to_native b e' = Some t' /\ left_out t' t)
                (fun l' l _ => forall b ts, map_opt (to_native b) l = Some ts -> exists ts', map_opt (to_native b) l' = Some ts' /\ all_left_out ts' ts)).
  - intros e' e T X Y A E IH F b t H. destruct e as [tag ns text tail a es nx line], e' as [tag' ns' text' tail' a' es' nx' line'].
    simpl in T, X, Y, A, IH. subst tag'. simpl in H |- *. destruct tag as [tg|].
    + destruct (map_opt (to_native b) es) as [cs|] eqn:M; [|discriminate]. injection H as <-.
      destruct (IH b _ M) as (cs' & -> & L). eexists; split; [reflexivity|]. constructor; auto.
    + destruct b; [discriminate|]. injection H as <-. eexists; split; [reflexivity|]. constructor; auto.
  - intros b ts H; injection H as <-. eexists; split; [reflexivity|constructor].
  - intros c' c cs' cs _ IH _ IHs b ts H. simpl in H |- *. destruct (to_native b c) as [t|] eqn:Tc; [|discriminate].
    destruct (map_opt (to_native b) cs) as [ts0|] eqn:M; [|discriminate]. injection H as <-.
    destruct (IH b _ Tc) as (t' & -> & L). destruct (IHs b _ M) as (ts' & -> & Ls). eexists; split; [reflexivity|constructor; auto].
  - intros c cs' cs _ IHs b ts H. simpl in H. destruct (to_native b c) as [t|] eqn:Tc; [|discriminate].
    destruct (map_opt (to_native b) cs) as [ts0|] eqn:M; [|discriminate]. injection H as <-.
    destruct (IHs b _ M) as (ts' & -> & Ls). eexists; split; [reflexivity|constructor; auto].
Qed.

(** ---- adding children ---- *)

Definition adds (e : elem) (new : list elem) : elem :=
  Elem (e_tag e) (e_nsmap e) (e_text e) (e_tail e) (e_attrib e) (e_elems e ++ new) (e_next e + length new) (e_line e).

Lemma adds_nil : forall e, adds e [] = e.
Proof. intros []; unfold adds; simpl. rewrite app_nil_r, Nat.add_0_r; auto. Qed.

Lemma adds_adds : forall e a b, adds (adds e a) b = adds e (a ++ b).
Proof. intros []; intros; unfold adds; simpl. rewrite app_assoc, app_length, Nat.add_assoc; auto. Qed.

Lemma append_adds : forall c e, append_element c e = adds e [c].
Proof. intros c []; unfold append_element, adds; simpl. rewrite Nat.add_1_r; auto. Qed.

Lemma flat_adds : forall e new, flat e -> flat (adds e new).
Proof. unfold flat; intros [] new H; simpl in *. rewrite app_length; lia. Qed.

Lemma flat_adds_inv : forall e new, flat (adds e new) -> flat e.
Proof. unfold flat; intros [] new H; simpl in *. rewrite app_length in H; lia. Qed.

Lemma pr_adds : forall e' e new' new, pr e' e -> prs new' new -> pr (adds e' new') (adds e new).
Proof.
  intros e' e new' new H N. inv H. constructor; simpl; auto using prs_app.
  intros F. apply flat_adds. eauto using flat_adds_inv.
Qed.

Lemma pr_adds_right : forall e' e new, pr e' e -> pr e' (adds e new).
Proof. intros e' e new H. rewrite <- (adds_nil e'). apply pr_adds; auto using prs_nil. Qed.

(** ---- room ---- *)

Definition blank (e : elem) : Prop := e_text e = None /\ keys e = [] /\ e_elems e = [] /\ e_next e = 0.

Lemma blank_make : forall b t ns, blank (make_element b t ns).
Proof. repeat split. Qed.

Lemma blank_pr : forall c0 c, blank c0 -> e_tail c0 = None -> e_tag c0 = e_tag c -> pr c0 c.
Proof.
  intros c0 c (A & B & C & D) T G. constructor; auto; rewrite ?A, ?T, ?C; unfold text_or_none; auto using prs_nil.
  - unfold keys in B. destruct (odict (e_attrib c0)); [apply some_nil|discriminate].
  - intros _. unfold flat. rewrite C, D; auto.
Qed.

Section Room.
  Variable M : Prop.

  (** a field does not overwrite anything in the element *)
  Inductive room : ser -> elem -> Prop :=
  | room_text : forall c ni e, e_text e = None -> (ni = true -> ~ In xsi_nil (keys e)) -> room (SText c ni) e
  | room_attr : forall n c e, ~ In n (keys e) -> room (SAttr n c) e
  | room_attrs : forall a e, keys e = [] -> room (SAttrs a) e
  | room_prim : forall c s e, primitive s -> room s e -> room (SUnionPrim c s) e
  | room_children : forall s e, adds_children M s -> room s e
  | room_new : forall p w e, none_called p (e_elems e) -> (forall c, blank c -> room (from_inside w) c) ->
      room (from_outside p w) e
  | room_open : forall p w e front c, e_elems e = front ++ [c] -> called p c -> none_called p front -> flat c ->
      room (from_inside w) c -> room (from_outside p w) e.

  (** the fields still to be written find the element as they need it *)
  Definition clear (ss : list ser) (e : elem) : Prop :=
    (forall a, In a (flat_map sets_attrs ss) -> ~ In a (keys e)) /\
    (existsb own_text ss = true -> e_text e = None) /\
    (existsb all_attrs ss = true -> keys e = []) /\
    (forall p, In p (wrapper_names ss) -> none_called p (e_elems e)).

  Inductive rooms : list ser -> elem -> Prop :=
  | rooms_closed : forall ss e, neat M ss -> clear ss e -> rooms ss e
  | rooms_open : forall p ws ss e front c, e_elems e = front ++ [c] -> called p c -> none_called p front -> flat c ->
      rooms (map from_inside ws) c -> neat M ss -> clear ss e -> ~ In p (wrapper_names ss) ->
      rooms (map (from_outside p) ws ++ ss) e.

  Lemma clear_blank : forall ss e, blank e -> clear ss e.
  Proof.
    intros ss e (A & B & C & D). unfold clear; conj; auto.
    - intros a _. rewrite B; auto.
    - intros p _ c. rewrite C. intros [].
  Qed.

  Lemma clear_tail : forall s ss e, clear (s :: ss) e -> clear ss e.
  Proof.
    intros s ss e (A & B & C & D). unfold clear; conj.
    - intros a I. apply A. simpl. apply in_or_app; auto.
    - intros I. apply B. simpl. rewrite I, orb_true_r; auto.
    - intros I. apply C. simpl. rewrite I, orb_true_r; auto.
    - intros p I. apply D. unfold wrapper_names in *. simpl. apply in_or_app; auto.
  Qed.

  Lemma clear_app : forall l ss e, clear (l ++ ss) e -> clear ss e.
  Proof. induction l; intros ss e H; simpl in *; auto. eapply IHl, clear_tail; eauto. Qed.

  Lemma neat_tail : forall l, neat M l -> forall s ss, l = s :: ss -> neat M ss.
  Proof.
    intros l H; induction H as [|s0 ss0 U T IH|p w ws ss0 Ti IHi Ts IHs N]; intros s ss E; [discriminate| |].
    - injection E as _ <-; auto.
    - simpl in E. injection E as _ <-. destruct ws as [|w2 ws]; auto.
      apply (@neat_wrapped M p w2 ws ss0); auto. eapply IHi. reflexivity.
  Qed.

  Lemma unwrapped_outside : forall p w, ~ unwrapped M (from_outside p w).
  Proof. intros p w H; inv H. inv H0. Qed.

  Lemma neat_direct_inv : forall s ss, neat M (s :: ss) -> unwrapped M s ->
    neat M ss /\
    (forall p, In p (wrapper_names ss) -> ~ In p (child_names s)) /\
    (any_name s = true -> wrapper_names ss = []) /\
    (forall a, In a (sets_attrs s) -> ~ In a (flat_map sets_attrs ss)) /\
    (own_text s = true -> Forall (fun s' => own_text s' = false) ss) /\
    (all_attrs s = true -> Forall (fun s' => sets_attrs s' = [] /\ all_attrs s' = false) ss) /\
    (sets_attrs s <> [] -> Forall (fun s' => all_attrs s' = false) ss).
  Proof.
    intros s ss H U; inv H; [conj; auto|].
    exfalso. eapply unwrapped_outside; exact U.
  Qed.

  Lemma clear_room : forall l, neat M l -> forall s ss e, l = s :: ss -> clear l e -> room s e.
  Proof.
    intros l H; induction H as [|s0 ss0 U T IH A1 A2 A3 A4 A5 A6|p w ws ss0 Ti IHi Ts IHs N]; intros s ss e E Cl; [discriminate| |].
    - injection E as <- _. destruct Cl as (B1 & B2 & B3 & B4). clear A1 A2 A3 A4 A5 A6 IH T B4.
      assert (X : (forall a, In a (sets_attrs s0) -> ~ In a (keys e)) /\ (own_text s0 = true -> e_text e = None) /\ (all_attrs s0 = true -> keys e = [])).
      { conj.
        - intros a I; apply B1. simpl. apply in_or_app; auto.
        - intros O; apply B2. simpl. rewrite O; auto.
        - intros O; apply B3. simpl. rewrite O; auto. }
      clear B1 B2 B3. destruct X as (B1 & B2 & B3). induction U as [c ni|n c|a|c s P U IH|s A].
      + constructor; [apply B2; auto|]. intros ->. apply B1. left; auto.
      + constructor. apply B1. left; auto.
      + constructor. apply B3; auto.
      + constructor; auto. apply IH; auto. destruct s; simpl in *; auto; discriminate.
      + apply room_children; auto.
    - simpl in E. injection E as <- _. apply room_new.
      + destruct Cl as (_ & _ & _ & B). apply B. simpl. left; auto.
      + intros c Bc. eapply IHi; [reflexivity|]. apply clear_blank; auto.
  Qed.

  Lemma rooms_room : forall l e, rooms l e -> forall s ss, l = s :: ss -> room s e.
  Proof.
    intros l e H; induction H as [ss0 e T C|p ws ss0 e front c E Hc N F R IH T C Np]; intros s ss Eq.
    - subst. eapply clear_room; eauto.
    - destruct ws as [|w ws]; simpl in Eq.
      + subst ss0. eapply clear_room; eauto.
      + injection Eq as <- _. eapply room_open; eauto. eapply IH. reflexivity.
  Qed.

  Lemma rooms_tail : forall l e, rooms l e -> forall s ss, l = s :: ss -> rooms ss e.
  Proof.
    intros l e H; induction H as [ss0 e T C|p ws ss0 e front c E Hc N F R IH T C Np]; intros s ss Eq.
    - subst. apply rooms_closed; [eapply neat_tail; eauto|eapply clear_tail; eauto].
    - destruct ws as [|w ws]; simpl in Eq.
      + subst ss0. apply rooms_closed; [eapply neat_tail; eauto|eapply clear_tail; eauto].
      + injection Eq as _ <-. eapply rooms_open; eauto. eapply IH. reflexivity.
  Qed.

  Lemma rooms_unwrapped : forall s ss e, rooms (s :: ss) e -> unwrapped M s -> neat M (s :: ss) /\ clear (s :: ss) e.
  Proof.
    intros s ss e H U; inv H; auto. destruct ws as [|w ws]; simpl in *.
    - subst; auto.
    - injection H0 as <- _. exfalso. eapply unwrapped_outside; exact U.
  Qed.

  Lemma rooms_outside : forall p w ss e, rooms (from_outside p w :: ss) e ->
    exists ws ss0, ss = map (from_outside p) ws ++ ss0 /\ neat M ss0 /\ ~ In p (wrapper_names ss0) /\ clear ss0 e /\
      ((none_called p (e_elems e) /\ neat M (from_inside w :: map from_inside ws)) \/
       exists front c, e_elems e = front ++ [c] /\ called p c /\ none_called p front /\ flat c /\
         rooms (from_inside w :: map from_inside ws) c).
  Proof.
    intros p w ss e H.
    assert (Closed : neat M (from_outside p w :: ss) -> clear (from_outside p w :: ss) e ->
      exists ws ss0, ss = map (from_outside p) ws ++ ss0 /\ neat M ss0 /\ ~ In p (wrapper_names ss0) /\ clear ss0 e /\
      ((none_called p (e_elems e) /\ neat M (from_inside w :: map from_inside ws)) \/
       exists front c, e_elems e = front ++ [c] /\ called p c /\ none_called p front /\ flat c /\
         rooms (from_inside w :: map from_inside ws) c)).
    { intros T C. inv T; [exfalso; eapply unwrapped_outside; eauto|].
      assert (w0 = w) by (destruct w0, w; simpl in *; congruence). subst w0.
      exists ws, ss0. conj; auto.
      - eapply clear_app, clear_tail; exact C.
      - left. split; auto. destruct C as (_ & _ & _ & B). apply B. simpl. left; auto. }
    inv H; auto. destruct ws as [|w0 ws]; simpl in H0.
    - subst ss0. auto.
    - injection H0 as E1 E2 E3 E4 E5 E6. assert (w0 = w) by (destruct w0, w; simpl in *; congruence). subst w0 ss p0.
      exists ws, ss0. conj; auto.
      right. exists front, c. conj; auto.
  Qed.
End Room.
