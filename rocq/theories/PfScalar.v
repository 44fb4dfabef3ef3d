(** PfScalar.v -- proofs for C63 *)

From Coq Require Import NArith Nnat FinFun.
From Verif Require Import Base Elem Native Errs Names Ser Write SpecScalar PfNames.

Lemma digit_value_digit : forall d, (d < 10)%N -> digit_value (digit d) = Some (Z.of_N d).
Proof.
  intros d H. assert (C : (d = 0 \/ d = 1 \/ d = 2 \/ d = 3 \/ d = 4 \/ d = 5 \/ d = 6 \/ d = 7 \/ d = 8 \/ d = 9)%N) by lia.
  repeat (destruct C as [->|C]; [reflexivity|]). subst; reflexivity.
Qed.

Lemma digit_nonzero : forall d, (d < 10)%N -> d <> 0%N -> digit d <> "0"%char.
Proof.
  intros d H Z E. pose proof (digit_value_digit H) as V. rewrite E in V. injection V as V. lia.
Qed.

Lemma fuel_step : forall f n, (n < 2 ^ N.of_nat (S f))%N -> (n / 10 < 2 ^ N.of_nat f)%N.
Proof.
  intros f n H. rewrite Nnat.Nat2N.inj_succ, N.pow_succ_r' in H. apply N.div_lt_upper_bound; lia.
Qed.

Lemma dec_value : forall f n acc, (n < 2 ^ N.of_nat f)%N -> 0 < f ->
  digits_value 0 (dec_digits f n acc) = digits_value (Z.of_N n) acc.
Proof.
  induction f; intros n acc F P; [lia|]. cbn [dec_digits].
  assert (M : (n mod 10 < 10)%N) by (apply N.mod_lt; lia).
  pose proof (N.div_mod n 10 ltac:(lia)) as D.
  destruct (N.eqb_spec (n / 10) 0) as [Q|Q].
  - cbn [digits_value]. rewrite digit_value_digit by auto. f_equal. rewrite Q in D. lia.
  - rewrite IHf.
    + cbn [digits_value]. rewrite digit_value_digit by auto. f_equal. lia.
    + now apply fuel_step.
    + destruct f; [|lia]. exfalso. apply Q. apply N.div_small. simpl in F. lia.
Qed.

Lemma dec_leading : forall f n acc, (n < 2 ^ N.of_nat f)%N -> n <> 0%N ->
  exists c s, dec_digits f n acc = String c s /\ c <> "0"%char.
Proof.
  induction f; intros n acc F P.
  { exfalso. simpl in F. lia. }
  cbn [dec_digits].
  assert (M : (n mod 10 < 10)%N) by (apply N.mod_lt; lia).
  pose proof (N.div_mod n 10 ltac:(lia)) as D.
  destruct (N.eqb_spec (n / 10) 0) as [Q|Q].
  - do 2 eexists. split; [reflexivity|]. apply digit_nonzero; auto. rewrite Q in D. lia.
  - apply IHf; auto. now apply fuel_step.
Qed.

Lemma str_N_numeral : forall p, exists c s, str_N (Npos p) = String c s /\ c <> "0"%char /\
  digits_value 0 (String c s) = Some (Zpos p).
Proof.
  intros p. unfold str_N.
  assert (F : (Npos p < 2 ^ N.of_nat (S (N.to_nat (N.size (Npos p)))))%N).
  { rewrite Nnat.Nat2N.inj_succ, Nnat.N2Nat.id. pose proof (N.size_gt (Npos p)). rewrite N.pow_succ_r'. lia. }
  destruct (@dec_leading _ _ "" F) as (c & s & E & C); [discriminate|].
  exists c, s. repeat split; auto. rewrite <- E, dec_value by (auto; lia). reflexivity.
Qed.

Lemma str_Z_numeral : forall z, numeral z (str_Z z).
Proof.
  destruct z as [|p|p]; simpl; [constructor| |].
  - destruct (str_N_numeral p) as (c & s & -> & C & V). constructor; auto.
  - destruct (str_N_numeral p) as (c & s & -> & C & V). change (Zneg p) with (- Zpos p)%Z. apply num_negative; auto.
Qed.

(** a text is the notation of one integer only *)
Lemma numeral_value : forall z z' s, numeral z s -> numeral z' s -> z = z'.
Proof.
  intros z z' s H H'.
  inversion H; subst; inversion H'; subst; auto; try congruence;
    try (simpl in *; congruence).
Qed.

Lemma written_iff : forall v, scalar v -> exists s, encode_primitive v = Ok s /\ written_as v s.
Proof.
  destruct v as [|[]|z|s|r l| | | |]; simpl; intros H; try contradiction; eexists; (split; [reflexivity|]);
    constructor; apply str_Z_numeral.
Qed.

Lemma encode_written : forall v s, encode_primitive v = Ok s -> scalar v /\ written_as v s.
Proof.
  intros v s H. assert (S0 : scalar v) by (destruct v as [|[]| | | | | | |]; simpl in *; auto; discriminate).
  split; auto. destruct (written_iff v S0) as (s' & E & W). congruence.
Qed.

Lemma shown_iff : forall v, scalar v -> exists s, py_str v = Ok s /\ shown_as v s.
Proof.
  destruct v as [|[]|z|s|r l| | | |]; simpl; intros H; try contradiction; eexists; (split; [reflexivity|]);
    constructor; apply str_Z_numeral.
Qed.

Lemma py_str_shown : forall v s, py_str v = Ok s -> scalar v /\ shown_as v s.
Proof.
  intros v s H. assert (S0 : scalar v) by (destruct v as [|[]| | | | | | |]; simpl in *; auto; discriminate).
  split; auto. destruct (shown_iff v S0) as (s' & E & W). congruence.
Qed.

Lemma empty_iff : forall v, py_len v = Some 0 <-> empty_value v.
Proof.
  intros v; split.
  - destruct v as [|b|z|s|r l|l|d|cls a f|n]; simpl; intros H; try discriminate.
    + destruct s; [constructor|discriminate].
    + subst l; constructor.
    + destruct l; [constructor|discriminate].
    + destruct d; [constructor|discriminate].
    + constructor. destruct n; simpl in *; auto. destruct children; [auto|discriminate].
  - intros H; inversion H; subst; simpl; auto. destruct n; simpl in *; auto. subst; auto.
Qed.

(** ---- mappings ---- *)

Lemma concat_inj : forall a b c, (a ++ b = a ++ c)%string -> b = c.
Proof. induction a; simpl; intros b c H; auto. injection H as H; auto. Qed.

Lemma uri_tag_inj : forall u k k', uri (QName k u) = uri (QName k' u) -> k = k'.
Proof.
  intros [u|] k k'; unfold uri; simpl; auto. destruct (String.eqb u ""); auto.
  intros [= H]. apply concat_inj in H. injection H; auto.
Qed.

Lemma items_inv : forall u d items, attrs_items u d = Ok items ->
  Forall2 (fun kx it => fst it = uri (QName (fst kx) u) /\ py_str (snd kx) = Ok (snd it)) d items.
Proof.
  induction d as [|[k x] d IH]; simpl; intros items H; [injection H as <-; constructor|].
  destruct (py_str x) as [t|?|] eqn:E; try discriminate. cbn [obind] in H.
  destruct (attrs_items u d) as [r|?|]; try discriminate. injection H as <-. constructor; auto.
Qed.

Lemma items_total : forall u d, Forall (fun kx => scalar (snd kx)) d -> exists items, attrs_items u d = Ok items.
Proof.
  induction d as [|[k x] d IH]; simpl; intros H; [eexists; reflexivity|].
  inversion H as [|? ? Hx Hd]; subst. destruct (shown_iff x Hx) as (s & -> & _). destruct (IH Hd) as (r & ->).
  simpl. eexists; reflexivity.
Qed.

Lemma items_keys : forall u d items,
  Forall2 (fun kx it => fst it = uri (QName (fst kx) u) /\ py_str (snd kx) = Ok (snd it)) d items ->
  dkeys items = map (fun k => uri (QName k u)) (dkeys d).
Proof. intros u d items H; induction H as [|x y l l' (A & B) F IH]; simpl; auto. now rewrite A, IH. Qed.

Lemma items_nodup : forall u d items, NoDup (dkeys d) ->
  Forall2 (fun kx it => fst it = uri (QName (fst kx) u) /\ py_str (snd kx) = Ok (snd it)) d items -> NoDup (dkeys items).
Proof.
  intros u d items N F. rewrite (@items_keys _ _ _ F). apply FinFun.Injective_map_NoDup; auto.
  intros k k' E. eapply uri_tag_inj; eauto.
Qed.

Lemma dget_in_nodup : forall A (d : dict A) k v, NoDup (dkeys d) -> In (k, v) d -> dget k d = Some v.
Proof.
  induction d as [|[k0 v0] d IH]; simpl; intros k v N I; [contradiction|]. inversion N; subst.
  destruct I as [E|I].
  - injection E as -> ->. now rewrite String.eqb_refl.
  - destruct (String.eqb_spec k k0) as [->|]; auto. exfalso. apply H1. unfold dkeys. apply in_map_iff. exists (k0, v); auto.
Qed.
