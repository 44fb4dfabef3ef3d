(** PfOut.v -- what is written, piece by piece: notation of scalars, documents under construction. *)

From Verif Require Import Base Elem Native Errs Names Ser Write Read Api SpecElem SpecRead SpecWrite SpecScalar SpecSim SpecOut
  PfScalar PfWrite PfWrite2 PfWSim.

Local Ltac inv H := inversion H; subst; clear H.

(** ---- the decimal notation is unique ---- *)

Lemma digit_range : forall c d, digit_value c = Some d -> (0 <= d < 10)%Z.
Proof. intros c d H. unfold digit_value in H. repeat (match type of H with context [match ?x with _ => _ end] => destruct x end; try discriminate); injection H as <-; lia. Qed.

Lemma digit_inj : forall c c' d, digit_value c = Some d -> digit_value c' = Some d -> c = c'.
Proof.
  assert (forall c d, digit_value c = Some d -> c = ascii_of_nat (48 + Z.to_nat d)) as X.
  { intros c d H. unfold digit_value in H. repeat (match type of H with context [match ?x with _ => _ end] => destruct x end; try discriminate); injection H as <-; reflexivity. }
  intros c c' d H H'. rewrite (X _ _ H), (X _ _ H'). reflexivity.
Qed.

Lemma digits_bounds : forall s acc z, digits_value acc s = Some z ->
  (acc * 10 ^ Z.of_nat (String.length s) <= z < (acc + 1) * 10 ^ Z.of_nat (String.length s))%Z.
Proof.
  intros s; induction s as [|c s IH]; intros acc z H; cbn [digits_value String.length] in *.
  - injection H as <-. change (10 ^ Z.of_nat 0)%Z with 1%Z. lia.
  - destruct (digit_value c) as [d|] eqn:D; [|discriminate]. apply digit_range in D. apply IH in H.
    rewrite Nat2Z.inj_succ, Z.pow_succ_r by lia. set (p := (10 ^ Z.of_nat (String.length s))%Z) in *.
    assert (0 < p)%Z by (apply Z.pow_pos_nonneg; lia). nia.
Qed.

Lemma digits_same : forall s s' acc acc' z, String.length s = String.length s' ->
  digits_value acc s = Some z -> digits_value acc' s' = Some z -> acc = acc' /\ s = s'.
Proof.
  intros s; induction s as [|c s IH]; intros [|c' s'] acc acc' z L H H'; try discriminate; cbn [digits_value] in *.
  - split; congruence.
  - destruct (digit_value c) as [d|] eqn:D; [|discriminate]. destruct (digit_value c') as [d'|] eqn:D'; [|discriminate].
    injection L as L. destruct (IH s' _ _ z L H H') as [E ->].
    pose proof (digit_range _ D); pose proof (digit_range _ D'). assert (acc = acc') by lia. assert (d = d') by lia.
    subst. split; auto. f_equal. eapply digit_inj; eauto.
Qed.

Lemma lead_bounds : forall c s z, c <> "0"%char -> digits_value 0 (String c s) = Some z ->
  (10 ^ Z.of_nat (String.length s) <= z < 10 ^ Z.of_nat (S (String.length s)))%Z.
Proof.
  intros c s z N H. pose proof (digits_bounds _ _ H) as B. cbn [digits_value] in H.
  destruct (digit_value c) as [d|] eqn:D; [|discriminate]. pose proof (digit_range _ D).
  assert (d <> 0)%Z. { intros ->. apply N. eapply digit_inj; eauto. }
  apply digits_bounds in H. split; [|cbn [String.length] in B; lia].
  assert (0 < 10 ^ Z.of_nat (String.length s))%Z by (apply Z.pow_pos_nonneg; lia). nia.
Qed.

Lemma lead_same : forall c s c' s' z, c <> "0"%char -> c' <> "0"%char -> digits_value 0 (String c s) = Some z ->
  digits_value 0 (String c' s') = Some z -> String c s = String c' s'.
Proof.
  intros c s c' s' z N N' H H'. pose proof (lead_bounds _ N H) as B. pose proof (lead_bounds _ N' H') as B'.
  assert (String.length s = String.length s').
  { destruct (Nat.lt_trichotomy (String.length s) (String.length s')) as [L|[L|L]]; auto; exfalso.
    - assert (10 ^ Z.of_nat (S (String.length s)) <= 10 ^ Z.of_nat (String.length s'))%Z by (apply Z.pow_le_mono_r; lia). lia.
    - assert (10 ^ Z.of_nat (S (String.length s')) <= 10 ^ Z.of_nat (String.length s))%Z by (apply Z.pow_le_mono_r; lia). lia. }
  destruct (@digits_same (String c s) (String c' s') 0 0 z) as [_ E]; simpl; auto.
Qed.

Lemma lead_pos : forall c s z, c <> "0"%char -> digits_value 0 (String c s) = Some z -> (0 < z)%Z.
Proof. intros c s z N H. pose proof (lead_bounds _ N H). assert (0 < 10 ^ Z.of_nat (String.length s))%Z by (apply Z.pow_pos_nonneg; lia). lia. Qed.

Lemma numeral_unique : forall z s s', numeral z s -> numeral z s' -> s = s'.
Proof.
  assert (X : forall z s, numeral z s -> (z = 0%Z /\ s = "0") \/
    (exists c t w, (z = w \/ z = (- w)%Z) /\ (0 < w)%Z /\ c <> "0"%char /\ digits_value 0 (String c t) = Some w /\
       s = (if Z.ltb 0 z then String c t else String "-"%char (String c t)))).
  { intros z s H. inversion H as [|c t w N D|c t w N D]; subst; auto; right.
    - exists c, t, z; pose proof (lead_pos _ N D). assert ((0 <? z)%Z = true) as -> by (apply Z.ltb_lt; auto). auto 6.
    - exists c, t, w; pose proof (lead_pos _ N D). assert ((0 <? - w)%Z = false) as -> by (apply Z.ltb_ge; lia). auto 6. }
  intros z s s' H H'.
  destruct (X _ _ H) as [[-> ->]|(c & t & w & Z1 & P1 & N1 & D1 & ->)], (X _ _ H') as [[E ->]|(c' & t' & w' & Z2 & P2 & N2 & D2 & ->)]; auto; try lia.
  assert (w = w') by lia. subst w'. rewrite (@lead_same _ _ _ _ _ N1 N2 D1 D2). reflexivity.
Qed.

Lemma written_fun : forall v s s', written_as v s -> written_as v s' -> s = s'.
Proof. intros v s s' H H'. inv H; inv H'; auto. eapply numeral_unique; eauto. Qed.

Lemma shown_fun : forall v s s', shown_as v s -> shown_as v s' -> s = s'.
Proof. intros v s s' H H'. inv H; inv H'; auto. eapply numeral_unique; eauto. Qed.

Lemma encode_iff : forall v s, encode_primitive v = Ok s <-> written_as v s.
Proof.
  intros v s; split; intros H; [apply encode_written; auto|].
  assert (scalar v) as Sc by (inv H; simpl; auto). destruct (written_iff _ Sc) as (s' & E & W). rewrite E. f_equal. eapply written_fun; eauto.
Qed.

Lemma py_str_iff : forall v s, py_str v = Ok s <-> shown_as v s.
Proof.
  intros v s; split; intros H; [apply py_str_shown; auto|].
  assert (scalar v) as Sc by (inv H; simpl; auto). destruct (shown_iff _ Sc) as (s' & E & W). rewrite E. f_equal. eapply shown_fun; eauto.
Qed.

(** ---- induction ---- *)

Section DraftInd.
  Variable P : draft -> Prop.
  Hypothesis HD : forall tag ns text attrs ch, Forall P ch -> P (Draft tag ns text attrs ch).
  Hypothesis HG : forall n, P (Given n).
  Fixpoint draft_ind' (d : draft) : P d :=
    match d with
    | Draft tag ns text attrs ch =>
        HD tag ns text attrs ((fix all (l : list draft) : Forall P l :=
           match l with [] => Forall_nil P | x :: l' => Forall_cons x (draft_ind' x) (all l') end) ch)
    | Given n => HG n
    end.
End DraftInd.

Section PieceInd.
  Variable P : piece -> Prop.
  Hypothesis HT : forall s, P (PText s).
  Hypothesis HA : forall n v, P (PAttr n v).
  Hypothesis HM : forall m, P (PAttrs m).
  Hypothesis HC : forall d, P (PChild d).
  Hypothesis HI : forall t ns ps, Forall P ps -> P (PIn t ns ps).
  Fixpoint piece_ind' (p : piece) : P p :=
    match p with
    | PText s => HT s
    | PAttr n v => HA n v
    | PAttrs m => HM m
    | PChild d => HC d
    | PIn t ns ps =>
        HI t ns ((fix all (l : list piece) : Forall P l :=
           match l with [] => Forall_nil P | x :: l' => Forall_cons x (piece_ind' x) (all l') end) ps)
    end.
End PieceInd.

(** ---- putting ---- *)

Lemma puts_app : forall ps qs d, puts (ps ++ qs) d = match puts ps d with Some d' => puts qs d' | None => None end.
Proof. intros ps; induction ps as [|p ps IH]; intros qs d; simpl; auto. destruct (put p d); auto. Qed.

Lemma split_last_app : forall l c, split_last (l ++ [c]) = Some (l, c).
Proof. intros l c; induction l as [|x l IH]; simpl; auto. rewrite IH; auto. Qed.

Lemma put_in : forall t tns ps tag ns text attrs ch,
  put (PIn t tns ps) (Draft tag ns text attrs ch) =
  let (front, c) := match split_last ch with
                    | Some (front, c) =>
                        if match draft_tag c with Some t' => String.eqb t' t | None => false end
                        then (front, c) else (ch, fresh t tns)
                    | None => (ch, fresh t tns)
                    end in
  match c with
  | Given _ => None
  | Draft _ _ _ _ _ =>
      match puts ps c with
      | Some c' => Some (Draft tag ns text attrs (front ++ [c']))
      | None => None
      end
  end.
Proof. reflexivity. Qed.

(** ---- drafts and elements ---- *)

Definition attrs_of (a : option (dict string)) : dict string := match a with Some d => d | None => [] end.

Inductive rep (b : backend) : draft -> elem -> Prop :=
| rep_made : forall tag ns text attrs ch e, e_tag e = TName tag -> (b = Lxml -> e_nsmap e = ns) -> e_text e = text ->
    e_tail e = None -> attrs_of (e_attrib e) = attrs -> Forall2 (rep b) ch (e_elems e) ->
    e_next e = length (e_elems e) -> rep b (Draft tag ns text attrs ch) e
| rep_given : forall n, is_element n -> rep b (Given n) (from_native b n).

Lemma rep_fresh : forall b tag ns, rep b (fresh tag ns) (make_element b tag ns).
Proof. intros b tag ns. constructor; simpl; auto. intros ->; auto. Qed.

Lemma rep_root : forall b tag ns, rep b (fresh tag ns) (new_elem (TName tag) None None None [] ns (-1)).
Proof. intros b tag ns. constructor; simpl; auto. Qed.

Lemma rep_tag : forall b d e t, rep b d e -> draft_tag d = Some t <-> called t e.
Proof.
  intros b d e t H. inv H; unfold called.
  - simpl. rewrite H0. split; congruence.
  - destruct n; simpl; split; congruence.
Qed.

Lemma str_truthy_blank : forall t, str_truthy t = false <-> blank_text t.
Proof.
  intros [s|]; unfold blank_text; simpl; [|tauto]. destruct s; simpl; split; auto; try discriminate. intros [H|H]; discriminate.
Qed.

Lemma dict_truthy_nil : forall a, dict_truthy a = false <-> attrs_of a = [].
Proof. intros [[|x d]|]; simpl; split; auto; discriminate. Qed.

Lemma elems_comments : forall b cs, length (flat_map (fun c => if is_xml_comment c then [] else [from_native b c]) cs) = 0 <-> no_comments cs = [].
Proof.
  intros b cs; unfold no_comments; induction cs as [|c cs IH]; simpl; [tauto|]. destruct (is_xml_comment c); simpl; auto. split; discriminate.
Qed.

Lemma rep_blank : forall b d e, rep b d e -> is_empty e = true <-> blank d.
Proof.
  intros b d e H. unfold is_empty. rewrite !andb_true_iff, !negb_true_iff, Nat.eqb_eq, dict_truthy_nil. inv H; cbn [blank].
  - rewrite H3. rewrite !str_truthy_blank. split.
    + intros [[[A B] C] D]. repeat split; auto. apply length_zero_iff_nil in D. rewrite D in *. 
      match goal with F : Forall2 _ _ [] |- _ => inversion F; auto end.
    + intros (A & B & ->). assert (e_elems e = []) as -> by (match goal with F : Forall2 _ [] _ |- _ => inversion F; auto end).
      split; [split; [split; auto; left; auto|]|]; auto.
  - match goal with R : is_element n |- _ => destruct n; simpl in R; try contradiction end. cbn [from_native new_elem e_text e_tail e_attrib e_elems attrs_of].
    rewrite !str_truthy_blank, elems_comments. tauto.
Qed.
