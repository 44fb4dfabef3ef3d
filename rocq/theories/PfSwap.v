(** PfSwap.v -- fields in unordered mode that are read from different parts of an element may be read in any order. *)

From Verif Require Import Base Elem Native Errs Names Ser SpecSim SpecOut SpecSub SpecPage SpecMoved SpecSwap PfPage PfPage2 PfPage3.

Local Ltac inv H := inversion H; subst; clear H.

(** ---- names of children; [None]: not an element ---- *)
Definition kind (d : native) : option string := match d with NElem t _ _ _ _ _ _ => Some t | _ => None end.
Definition kind_eqb (k k' : option string) : bool :=
  match k, k' with Some a, Some b => String.eqb a b | None, None => true | _, _ => false end.
Definition of_kind (k : option string) (d : native) : bool := kind_eqb (kind d) k.

Lemma kind_eqb_iff : forall k k', kind_eqb k k' = true <-> k = k'.
Proof. intros [a|] [b|]; simpl; try (split; congruence). rewrite String.eqb_eq. split; congruence. Qed.
Lemma kind_named : forall t d, SpecPage.named t d <-> kind d = Some t.
Proof. intros t d. destruct d; simpl; split; try congruence; try tauto. Qed.

(** a set of parts, children that are no elements included *)
Inductive spot := SText' | SAttr' (a : string) | SKids' (k : option string).
Definition spot_of (r : zone) : spot := match r with OwnText => SText' | OwnAttr a => SAttr' a | OwnKids t => SKids' (Some t) end.

Definition akids (k : option string) (p : page) : list native := filter (of_kind k) (pg_ahead p).
Definition pkids (k : option string) (p : page) : list (native * page) := filter (fun c => of_kind k (fst c)) (pg_passed p).
Definition attrs_of (a : string) (p : page) : option (list (string * string)) :=
  option_map (filter (fun kv => String.eqb a (fst kv))) (pg_attrs p).
Definition lastp (p : page) : option (native * page) := last (map Some (pg_passed p)) None.

Definition same (r : spot) (p q : page) : Prop :=
  match r with
  | SText' => pg_text p = pg_text q
  | SAttr' a => attrs_of a p = attrs_of a q
  | SKids' k => Permutation (akids k p) (akids k q) /\ pkids k p = pkids k q
  end.

Lemma same_refl : forall r p, same r p p.
Proof. intros [|a|k] p; simpl; auto. Qed.
Lemma same_sym : forall r p q, same r p q -> same r q p.
Proof. intros [|a|k] p q; simpl; auto. intros [A B]. split; auto. apply Permutation_sym; auto. Qed.
Lemma same_trans : forall r p q t, same r p q -> same r q t -> same r p t.
Proof. intros [|a|k] p q t; simpl; try congruence. intros [A B] [C D]. split; [eapply perm_trans; eauto|congruence]. Qed.

Definition lasts (N : spot -> Prop) (p q : page) : Prop :=
  forall c l, N (SKids' (kind c)) -> (lastp p = Some (c, l) <-> lastp q = Some (c, l)).
Definition agree (N : spot -> Prop) (p q : page) : Prop := (forall r, N r -> same r p q) /\ lasts N p q.
Definition single (N : spot -> Prop) (p : page) : Prop := forall t, N (SKids' (Some t)) -> length (akids (Some t) p) <= 1.

(** what a reader that takes [N] leaves alone *)
Record framed (N : spot -> Prop) (p p' : page) : Prop := Framed {
  fr_same : forall r, ~ N r -> same r p p';
  fr_tail : pg_tail p' = pg_tail p;
  fr_less : forall k, length (akids k p') <= length (akids k p);
  fr_last : lastp p' = lastp p \/ exists c l, lastp p' = Some (c, l) /\ N (SKids' (kind c))
}.

Lemma framed_refl : forall N p, framed N p p.
Proof. intros N p. constructor; auto. intros r _. apply same_refl. Qed.
Lemma framed_trans : forall N p q t, framed N p q -> framed N q t -> framed N p t.
Proof.
  intros N p q t [A B C D] [E F G H]. constructor.
  - intros r Hr. eapply same_trans; eauto.
  - congruence.
  - intros k. specialize (C k). specialize (G k). lia.
  - destruct H as [->|H]; auto.
Qed.
Lemma framed_sub : forall (N M : spot -> Prop) p q, (forall r, N r -> M r) -> framed N p q -> framed M p q.
Proof. intros N M p q S [A B C D]. constructor; auto. destruct D as [D|(c & l & D & X)]; auto. right. exists c, l. auto. Qed.

(** ---- pages ---- *)
Lemma lastp_iff : forall p c l, lastp p = Some (c, l) <-> exists front, last_passed p front c l.
Proof.
  intros p c l. unfold lastp, last_passed. split.
  - intros E. destruct (rev (pg_passed p)) as [|x xs] eqn:Ep.
    + apply (f_equal (@rev _)) in Ep. rewrite rev_involutive in Ep. rewrite Ep in E. discriminate.
    + apply (f_equal (@rev _)) in Ep. rewrite rev_involutive in Ep. simpl in Ep. rewrite Ep in *.
      rewrite map_app in E. simpl in E. rewrite last_last in E. inv E. eauto.
  - intros [front ->]. rewrite map_app. simpl. apply last_last.
Qed.

Lemma lastp_pass : forall p c l rest, lastp (pass p [] c l rest) = Some (c, l).
Proof. intros. apply lastp_iff. exists (pg_passed p). reflexivity. Qed.
Lemma lastp_reopen : forall p front c l, lastp (reopen p front c l) = Some (c, l).
Proof. intros. apply lastp_iff. exists front. reflexivity. Qed.

Lemma missing_iff : forall t l, missing Unordered t l <-> filter (of_kind (Some t)) l = [].
Proof.
  intros t l. simpl. induction l as [|c l IH]; simpl; [split; auto|]. unfold of_kind at 1.
  destruct (kind_eqb (kind c) (Some t)) eqn:E.
  - apply kind_eqb_iff in E. split; [|discriminate]. intros F. inv F. destruct H1. apply kind_named; auto.
  - rewrite <- IH. split; [intros F; inv F; auto|]. intros F. constructor; auto. intros X. apply kind_named in X. apply kind_eqb_iff in X. congruence.
Qed.

Lemma seeks_iff : forall t l sk c rest, seeks Unordered t l sk c rest -> sk = [] /\ kind c = Some t /\ Permutation l (c :: rest) /\
  exists r, filter (of_kind (Some t)) l = c :: r.
Proof.
  intros t l sk c rest S. inv S; (split; [reflexivity|]); (split; [apply kind_named; assumption|]).
  - split; [apply Permutation_refl|]. simpl. unfold of_kind at 1. rewrite (proj2 (kind_eqb_iff _ _)); [eauto|]. apply kind_named; auto.
  - split.
    + change (Permutation ((k :: between) ++ c :: rest0) (c :: between ++ k :: rest0)).
      eapply perm_trans; [apply Permutation_sym, Permutation_middle|]. apply perm_skip. simpl. apply Permutation_middle.
    + assert (X : filter (of_kind (Some t)) (k :: between) = []) by (apply missing_iff; simpl; constructor; auto).
      change (k :: between ++ c :: rest0) with ((k :: between) ++ c :: rest0). rewrite filter_app, X. simpl.
      unfold of_kind at 1. rewrite (proj2 (kind_eqb_iff _ _)); [eauto|]. apply kind_named; auto.
Qed.

Lemma seeks_ex : forall t l c r, filter (of_kind (Some t)) l = c :: r -> exists rest, seeks Unordered t l [] c rest.
Proof.
  intros t l c r E.
  assert (X : exists before rest, l = before ++ c :: rest /\ Forall (fun k => ~ SpecPage.named t k) before /\ SpecPage.named t c).
  { clear - E. induction l as [|d l IH]; [discriminate|]. simpl in E. destruct (of_kind (Some t) d) eqn:K.
    - inv E. exists [], l. split; auto. split; auto. apply kind_named. apply kind_eqb_iff. exact K.
    - destruct (IH E) as (b & rest & -> & F & Nc). exists (d :: b), rest. split; auto. split; auto. constructor; auto.
      intros Q. apply kind_named in Q. apply kind_eqb_iff in Q. unfold of_kind in K. congruence. }
  destruct X as (before & rest & -> & F & Nc). destruct before as [|k between].
  - exists rest. apply sk_next; auto.
  - inv F. exists (between ++ k :: rest). simpl. apply sk_later; auto.
Qed.

Lemma filter_perm : forall A (f : A -> bool) l l', Permutation l l' -> Permutation (filter f l) (filter f l').
Proof.
  intros A f l l' P. induction P; simpl; auto.
  - destruct (f x); auto.
  - destruct (f x), (f y); auto. apply perm_swap.
  - eapply perm_trans; eauto.
Qed.

(** taking a child *)
Lemma pass_framed : forall p t c sk l rest, seeks Unordered t (pg_ahead p) sk c rest -> framed (fun r => r = SKids' (Some t)) p (pass p sk c l rest).
Proof.
  intros p t c sk l rest S. destruct (seeks_iff S) as (-> & K & P & _).
  assert (F : forall k, Permutation (akids k p) (if of_kind k c then c :: filter (of_kind k) rest else filter (of_kind k) rest)) by (intros k; apply (filter_perm (of_kind k)) in P; exact P).
  constructor; simpl; auto.
  - intros [|a|k] Nr; simpl; auto. assert (O : of_kind k c = false).
    { destruct (of_kind k c) eqn:O; auto. apply kind_eqb_iff in O. congruence. }
    specialize (F k). rewrite O in F. split; auto. unfold pkids. simpl. rewrite filter_app. simpl. rewrite O, app_nil_r. auto.
  - intros k. specialize (F k). apply Permutation_length in F. unfold akids at 1. simpl. destruct (of_kind k c); simpl in F; lia.
  - right. exists c, l. split; [apply lastp_pass|congruence].
Qed.

Lemma taken : forall (N : spot -> Prop) p q t c sk rest, N (SKids' (Some t)) -> single N p -> agree N p q -> seeks Unordered t (pg_ahead p) sk c rest ->
  sk = [] /\ exists rest', seeks Unordered t (pg_ahead q) [] c rest' /\
    forall l, agree N (pass p [] c l rest) (pass q [] c l rest') .
Proof.
  intros N p q t c sk rest Nt Si [A L] S. destruct (seeks_iff S) as (-> & K & P & r & E). split; auto.
  destruct (A _ Nt) as [P1 _]. specialize (Si _ Nt). unfold akids in P1, Si. rewrite E in P1, Si. simpl in Si. destruct r as [|x r]; [|simpl in Si; lia].
  apply Permutation_length_1_inv in P1. destruct (@seeks_ex _ _ _ _ P1) as [rest' S']. exists rest'. split; auto.
  destruct (seeks_iff S') as (_ & _ & P' & _). intros l. split.
  - intros [|a|k] Nr; specialize (A _ Nr); simpl in *; auto. destruct A as [B1 B2]. split.
    + unfold akids in *. simpl. apply (filter_perm (of_kind k)) in P. apply (filter_perm (of_kind k)) in P'. simpl in P, P'.
      pose proof (perm_trans (Permutation_sym P) (perm_trans B1 P')) as X. destruct (of_kind k c); auto. eapply Permutation_cons_inv; eauto.
    + unfold pkids in *. simpl. rewrite !filter_app. rewrite B2. auto.
  - intros c0 l0 _. rewrite !lastp_pass. tauto.
Qed.

Lemma not_there : forall (N : spot -> Prop) p q t, N (SKids' (Some t)) -> agree N p q -> missing Unordered t (pg_ahead p) -> missing Unordered t (pg_ahead q).
Proof.
  intros N p q t Nt [A _] M. apply missing_iff in M. apply missing_iff. destruct (A _ Nt) as [P _]. unfold akids in P. rewrite M in P. apply Permutation_nil in P. auto.
Qed.

Lemma pass_single : forall N p t c sk l rest, single N p -> seeks Unordered t (pg_ahead p) sk c rest -> single N (pass p sk c l rest).
Proof. intros N p t c sk l rest Si S t' Nt. pose proof (fr_less (@pass_framed p t c sk l rest S) (Some t')) as X. specialize (Si _ Nt). lia. Qed.

(** ---- attributes and text ---- *)
Lemma attrs_drop : forall a b p, attrs_of b (drop_attribute a p) = if String.eqb a b then option_map (@tl _) (attrs_of b p) else attrs_of b p.
Proof.
  intros a b p. unfold attrs_of, drop_attribute. simpl. destruct (pg_attrs p) as [d|]; simpl; [|destruct (String.eqb a b); auto].
  assert (X : filter (fun kv : string * string => String.eqb b (fst kv)) (ddel a d) =
              if String.eqb a b then tl (filter (fun kv : string * string => String.eqb b (fst kv)) d) else filter (fun kv : string * string => String.eqb b (fst kv)) d).
  { induction d as [|[k v] d IH]; simpl; [destruct (String.eqb a b); auto|]. destruct (String.eqb_spec a k) as [->|Nk].
    - destruct (String.eqb_spec k b) as [->|Nb]; [rewrite String.eqb_refl; auto|]. destruct (String.eqb_spec b k); [congruence|auto].
    - simpl. rewrite IH. destruct (String.eqb_spec a b) as [->|Nb]; auto. destruct (String.eqb_spec b k); [congruence|auto]. }
  rewrite X. destruct (String.eqb a b); auto.
Qed.

Lemma attr_of : forall a p, attribute a p = match attrs_of a p with Some (kv :: _) => Some (snd kv) | _ => None end.
Proof.
  intros a p. unfold attribute, attrs_of. destruct (pg_attrs p) as [d|]; simpl; auto.
  induction d as [|[k v] d IH]; simpl; auto. destruct (String.eqb a k); auto.
Qed.

Lemma drop_attr_framed : forall a p, framed (fun r => r = SAttr' a) p (drop_attribute a p).
Proof.
  intros a p. constructor; auto. intros [|b|k] Nr; simpl; auto; try (split; auto).
  rewrite attrs_drop. destruct (String.eqb_spec a b); congruence.
Qed.
Lemma drop_attr_agree : forall (N : spot -> Prop) a p q, N (SAttr' a) -> agree N p q -> agree N (drop_attribute a p) (drop_attribute a q).
Proof.
  intros N a p q Na [A L]. split; auto. intros [|b|k] Nr; specialize (A _ Nr); simpl in *; auto.
  rewrite !attrs_drop, A. auto.
Qed.
Lemma drop_text_framed : forall p, framed (fun r => r = SText') p (drop_text p).
Proof. intros p. constructor; auto. intros [|b|k] Nr; simpl; auto; congruence. Qed.
Lemma drop_text_agree : forall N p q, agree N p q -> agree N (drop_text p) (drop_text q).
Proof. intros N p q [A L]. split; auto. intros [|b|k] Nr; specialize (A _ Nr); simpl in *; auto. Qed.

Lemma own_attr_eq : forall (N : spot -> Prop) a p q, N (SAttr' a) -> agree N p q -> attribute a p = attribute a q.
Proof. intros N a p q Na [A _]. rewrite !attr_of. rewrite (A _ Na). auto. Qed.

Lemma text_agree : forall (N : spot -> Prop) eas nl p v p' q, N SText' -> (nl = true -> N (SAttr' nil_attribute)) -> agree N p q -> reads_text eas nl p v p' ->
  exists q', reads_text eas nl q v q' /\ agree N p' q'.
Proof.
  intros N eas nl p v p' q Nt Na A R. pose proof (proj1 A _ Nt) as Et. simpl in Et. inv R.
  - rewrite Et. eexists. split; [apply rt_plain|]. apply drop_text_agree; auto.
  - eexists. split; [apply rt_nil; rewrite <- H; symmetry; exact (@own_attr_eq N nil_attribute p q (Na eq_refl) A)|]. exact (@drop_attr_agree N nil_attribute p q (Na eq_refl) A).
  - rewrite Et. eexists. split; [apply rt_not_nil; rewrite <- (@own_attr_eq N nil_attribute p q (Na eq_refl) A); auto|]. apply drop_text_agree. exact (@drop_attr_agree N nil_attribute p q (Na eq_refl) A).
Qed.
Lemma text_framed : forall eas nl p v p', reads_text eas nl p v p' -> framed (fun r => r = SText' \/ (nl = true /\ r = SAttr' nil_attribute)) p p'.
Proof.
  intros eas nl p v p' R. inv R.
  - eapply framed_sub; [|apply drop_text_framed]. intros r ->; simpl; tauto.
  - eapply framed_sub; [|apply drop_attr_framed]. intros r ->; simpl; tauto.
  - eapply framed_trans; [eapply framed_sub; [|apply drop_attr_framed]; intros r ->; simpl; tauto|eapply framed_sub; [|apply drop_text_framed]; intros r ->; simpl; tauto].
Qed.
Lemma single_of : forall (N M : spot -> Prop) p p', single N p -> framed M p p' -> single N p'.
Proof. intros N M p p' Si F t Nt. pose proof (fr_less F (Some t)) as X. specialize (Si t Nt). lia. Qed.

(** ---- wrappers ---- *)
Lemma reopen_framed : forall p front c l l', last_passed p front c l -> framed (fun r => r = SKids' (kind c)) p (reopen p front c l').
Proof.
  intros p front c l l' L. constructor; simpl; auto.
  - intros [|a|k] Nr; simpl; auto. split; auto. unfold pkids. simpl. unfold last_passed in L. rewrite L, !filter_app. simpl.
    replace (of_kind k c) with false; auto. symmetry. destruct (of_kind k c) eqn:O; auto. apply kind_eqb_iff in O. congruence.
  - right. exists c, l'. split; auto. apply lastp_reopen.
Qed.
Lemma reopen_agree : forall (N : spot -> Prop) p q front c l, N (SKids' (kind c)) -> agree N p q -> last_passed p front c l ->
  exists front', last_passed q front' c l /\ forall l', agree N (reopen p front c l') (reopen q front' c l').
Proof.
  intros N p q front c l Nc [A L] Lp. assert (X : lastp q = Some (c, l)) by (apply (L c l Nc), lastp_iff; eauto).
  apply lastp_iff in X. destruct X as [front' Lq]. exists front'. split; auto. intros l'. split.
  - intros [|a|k] Nr; specialize (A _ Nr); simpl in *; auto. destruct A as [A1 A2]. split; auto.
    unfold pkids in *. simpl. unfold last_passed in *. rewrite Lp, Lq, !filter_app in A2. rewrite !filter_app. f_equal.
    eapply app_inv_tail; eauto.
  - intros c0 l0 _. rewrite !lastp_reopen. tauto.
Qed.
Lemma no_last : forall (N : spot -> Prop) p q tag, N (SKids' (Some tag)) -> agree N p q ->
  (forall front c l, last_passed p front c l -> ~ SpecPage.named tag c) -> forall front c l, last_passed q front c l -> ~ SpecPage.named tag c.
Proof.
  intros N p q tag Nt [A L] H front c l Lq Nc. pose proof (proj1 (kind_named _ _) Nc) as K.
  assert (X : lastp p = Some (c, l)) by (apply L; [rewrite K; auto|apply lastp_iff; eauto]).
  apply lastp_iff in X. destruct X as [f X]. apply (H _ _ _ X Nc).
Qed.

(** ---- looking only ---- *)
Lemma peek_framed : forall p t c sk rest, seeks Unordered t (pg_ahead p) sk c rest -> forall N, framed N p (peek Unordered p c rest).
Proof.
  intros p t c sk rest S N. destruct (seeks_iff S) as (-> & K & P & _). constructor; simpl; auto.
  - intros [|a|k] Nr; simpl; auto. split; auto. apply filter_perm. auto.
  - intros k. apply Nat.eq_le_incl. apply Permutation_length, Permutation_sym, filter_perm. auto.
Qed.
Lemma peek_agree : forall (N : spot -> Prop) p q t c sk rest, N (SKids' (Some t)) -> single N p -> agree N p q -> seeks Unordered t (pg_ahead p) sk c rest ->
  exists rest', seeks Unordered t (pg_ahead q) [] c rest' /\ agree N (peek Unordered p c rest) (peek Unordered q c rest').
Proof.
  intros N p q t c sk rest Nt Si A S. destruct (taken Nt Si A S) as (-> & rest' & S' & _). exists rest'. split; auto.
  destruct (seeks_iff S) as (_ & _ & P & _). destruct (seeks_iff S') as (_ & _ & P' & _). destruct A as [A L]. split; auto.
  intros [|a|k] Nr; specialize (A _ Nr); simpl in *; auto. destruct A as [A1 A2]. split; auto. unfold akids in *. simpl.
  exact (perm_trans (Permutation_sym (filter_perm (of_kind k) P)) (perm_trans A1 (filter_perm (of_kind k) P'))).
Qed.
