(** PfRound6.v -- the round trip, part 6: from fields that are apart to levels. *)

From Verif Require Import Base Elem Native Errs Names Ser Write Read Api SpecElem SpecRead SpecNames SpecWrite SpecSim SpecRound.
From Verif Require Import PfElem PfNames PfWrite PfWrite3 PfWSim PfRound1 PfRound2 PfRound3 PfRound4 PfRound5.

Lemma search_range : forall m e t b st i e', search m e t b st = (Found i, e') -> exists c, nth_error (e_elems e') i = Some c.
Proof.
  intros m e t b st i e' H.
  assert (F : forward m e t st = (Found i, e') -> exists c, nth_error (e_elems e') i = Some c).
  { clear H. intros H. destruct m; simpl in H; unfold strict_forward, ordered_forward, unordered_forward in H.
    - destruct (nth_error (e_elems e) (e_next e)) as [c|] eqn:N; [|discriminate]. destruct (tag_is (e_tag c) t); [|discriminate].
      injection H as <- <-. exists c. destruct st; auto.
    - destruct (find_from (e_next e) (skipn (e_next e) (e_elems e)) t) as [j|] eqn:N; [|discriminate]. injection H as <- <-.
      apply find_from_range in N. rewrite skipn_length in N. destruct (nth_error (e_elems e) j) eqn:Z; [|apply nth_error_None in Z; lia].
      exists e0. destruct st; auto.
    - destruct (find_from (e_next e) (skipn (e_next e) (e_elems e)) t) as [j|] eqn:N; [|discriminate]. injection H as <- <-.
      apply find_from_range in N. rewrite skipn_length in N.
      destruct (nth_error (list_swap (e_next e) j (e_elems e)) (e_next e)) as [c|] eqn:Z.
      + exists c. destruct st; auto.
      + apply nth_error_None in Z. rewrite list_swap_length in Z. lia. }
  unfold search in H. destruct b; auto. unfold look_behind in H. destruct (e_next e) as [|k] eqn:En; auto.
  destruct (nth_error (e_elems e) k) as [c|] eqn:N; [|discriminate]. destruct (tag_is (e_tag c) t); auto.
  injection H as <- <-. eauto.
Qed.

Lemma put_twice : forall i c c' e, put_child i c (put_child i c' e) = put_child i c e.
Proof.
  intros i c c' e. unfold put_child, set_elems. simpl. f_equal. generalize (e_elems e). clear. intros l; revert i.
  induction l as [|x l IH]; intros [|i]; simpl; auto. rewrite IH; auto.
Qed.

Lemma wrap_read_last : forall p m r eas loc s,
  read_wrap [p] m false r eas loc s = with_found (search m (st_el s) p true true) (fun c => r eas loc (note_line loc c)) s.
Proof.
  intros p m r eas loc s. unfold read_wrap, with_found. cbn [find_sub_element]. unfold find_element.
  destruct (search m (st_el s) p true true) as [[|i|] e']; reflexivity.
Qed.

Lemma wrap_read_step : forall p q rest m r eas loc s,
  read_wrap (p :: q :: rest) m false r eas loc s =
  with_found (search m (st_el s) p true true) (fun c => read_wrap (q :: rest) m false r eas loc c) s.
Proof.
  intros p q rest m r eas loc s. unfold read_wrap. cbn [find_sub_element]. unfold find_element, with_found.
  destruct (search m (st_el s) p true true) as [[|i|] e'] eqn:Se; try reflexivity.
  destruct (search_range _ _ _ _ _ Se) as (c & Nc). rewrite Nc. unfold on_child. unfold set_el. cbn [st_el st_sm]. rewrite Nc.
  change (match search m c q true true with
                | (NotFound, e'0) => (Some [], e'0)
                | (Found i0, e'0) =>
                    match rest with
                    | [] => (Some [i0], e'0)
                    | _ :: _ =>
                        match nth_error (e_elems e'0) i0 with
                        | Some c0 =>
                            let (r0, c') := find_sub_element rest m c0 in
                            (match r0 with
                             | Some is' => Some (i0 :: is')
                             | None => None
                             end, put_child i0 c' e'0)
                        | None => (Some [], e'0)
                        end
                    end
                | (IndexErr, e'0) => (None, e'0)
                end) with (find_sub_element (q :: rest) m c).
  assert (Li : i < length (e_elems e')) by (apply nth_error_Some; congruence).
  destruct (find_sub_element (q :: rest) m c) as [[is'|] c']; cbn [length Nat.eqb negb andb].
  - destruct is' as [|j is']; cbn [length Nat.eqb negb andb]; [reflexivity|].
    destruct (Nat.eqb (length is') (length rest)); [|reflexivity]. cbn [on_path]. unfold on_child at 1. cbn [st_el st_sm].
    unfold put_child at 1. simpl. rewrite nth_error_list_upd_same by auto. cbn [on_path].
    match goal with |- (let (r0, s') := ?X in _) = (let (r0, s') := ?Y in _) => change Y with X; destruct X as [o s1] end.
    f_equal. f_equal. apply put_twice.
  - reflexivity.
Qed.

Lemma app_eq_app_map : forall A B (f : A -> B) l l1 l2, map f l = l1 ++ l2 ->
  exists k1 k2, l = k1 ++ k2 /\ map f k1 = l1 /\ map f k2 = l2.
Proof.
  intros A B f l l1; revert l; induction l1 as [|x l1 IH]; intros l l2 H.
  - exists [], l; auto.
  - destruct l as [|a l]; [discriminate|]. simpl in H. injection H as H1 H2. destruct (IH l l2 H2) as (k1 & k2 & -> & E1 & E2).
    exists (a :: k1), k2. simpl. rewrite H1, E1. auto.
Qed.

Lemma list_eq_nil_dec : forall A (l : list A), {l = []} + {l <> []}.
Proof. intros A [|x l]; auto. right; discriminate. Qed.

(** ---- fields ---- *)
Record fld := Fld { f_ser : ser; f_out : option (val * val); f_res : val }.

Section Fields.
Variable neat : bool.
Variable ev : env.
Variable eas : bool.
Variable fl : flags.

Definition item_of (n : nat) (f : fld) : item :=
  Item (put n ev fl (f_ser f) (f_out f)) (read n ev (f_ser f) eas) (f_res f) (negb (live (f_ser f))).

Fixpoint sound (s : ser) (v enc r : val) : Prop :=
  match s with
  | SWrap _ _ _ _ inner =>
      (r = VNone /\ (is_none v = true \/ fl_skip_empty fl && len_is_zero v = true)) \/
      (is_none v = false /\ fl_skip_empty fl && len_is_zero v = false /\ sound inner v enc r)
  | _ => direct_field ev s -> exists n0 c, sound_at neat ev eas n0 fl s (Some (v, enc)) r c /\ is_model ev s fl v enc r c
  end.

Definition fsound (f : fld) : Prop :=
  exists r, f_res f = (if live (f_ser f) then r else VNone) /\
    match f_out f with None => r = unwritten eas (f_ser f) | Some (v, enc) => sound (f_ser f) v enc r end.

Lemma direct_sound : forall f, direct_field ev (f_ser f) -> fsound f ->
  exists n0 r c, f_res f = (if live (f_ser f) then r else VNone) /\ sound_at neat ev eas n0 fl (f_ser f) (f_out f) r c.
Proof.
  intros [s o res] D (r & Er & H). simpl in *. destruct o as [[v enc]|].
  - assert (X : exists n0 c, sound_at neat ev eas n0 fl s (Some (v, enc)) r c /\ is_model ev s fl v enc r c).
    { destruct s; try (apply (H D)). inversion D as [| | | |? Rp| | |]; inv Rp. }
    destruct X as (n0 & c & X & _). eauto.
  - subst r. destruct (absent_sound neat eas fl D) as (n0 & X). eauto.
Qed.

Lemma keeper_of : forall n f, tag_keeper (item_of n f).
Proof.
  intros n [s [[v enc]|] r] c c' H; simpl in H; [|injection H as <-; auto]. eapply write_keeps_tag; eauto.
Qed.

Lemma leaf_of : forall n0 n f r c, f_res f = (if live (f_ser f) then r else VNone) -> sound_at neat ev eas n0 fl (f_ser f) (f_out f) r c -> n0 < n ->
  live (f_ser f) = true \/ computed ev (f_ser f) /\ neat = false ->
  leaf neat eas false (item_of n f) (child_names (f_ser f)) (attr_names (f_ser f)) (all_attrs (f_ser f)) (own_text (f_ser f)) c.
Proof.
  intros n0 n f r c Er [A B C D E F G] Hn Lc. destruct A as [A1 A2 A3 A4 A5 A6 A7]. constructor; auto.
  - apply E; lia.
  - apply keeper_of.
  - simpl. intros H. apply negb_true_iff in H. destruct Lc as [Lc|[Lc Nt]]; [congruence|]. rewrite H in Er. repeat split; auto.
    intros loc s. destruct n; [lia|]. apply computed_read; auto.
  - simpl. intros H. apply negb_false_iff in H. rewrite H in Er. rewrite Er. apply F; auto; lia.
  - simpl. rewrite Er. destruct (live (f_ser f)); auto. intros [Sb _]; congruence.
Qed.

(** ---- wrapped fields ---- *)
Definition goes_in (f : fld) : bool :=
  match f_out f with
  | None => false
  | Some (v, _) => negb (is_none v) && negb (fl_skip_empty fl && len_is_zero v)
  end.

(** a wrapped field seen from inside *)
Definition inner_of (x : fld * wrapped_field) : fld :=
  Fld (from_inside (snd x)) (if goes_in (fst x) then f_out (fst x) else None) (f_res (fst x)).
Definition inner_fuel (n : nat) (w : wrapped_field) : nat := match wf_rest w with [] => pred n | _ => n end.

Definition wrap_ok (p : string) (x : fld * wrapped_field) : Prop :=
  f_ser (fst x) = from_outside p (snd x) /\ fsound (fst x) /\
  (if wf_computed (snd x) then computed ev (from_inside (snd x)) else live (wf_inner (snd x)) = true) /\
  (neat = true -> ~ computed ev (from_outside p (snd x))).

Lemma wrap_live : forall p x, wrap_ok p x -> live (from_inside (snd x)) = negb (wf_computed (snd x)) /\
  live (f_ser (fst x)) = negb (wf_computed (snd x)).
Proof.
  intros p [f w] (Es & _ & C & _). simpl in *. rewrite Es. unfold from_outside, from_inside in *. simpl. destruct w as [rest ns m c inner]. simpl in *.
  destruct c; simpl.
  - split; auto. apply (computed_not_live C).
  - split; auto. destruct rest; simpl; auto.
Qed.

Lemma stays_outside : forall p x n, wrap_ok p x -> goes_in (fst x) = false -> 0 < n -> stays_out (item_of n (fst x)) /\ f_res (fst x) = VNone.
Proof.
  intros p [f w] n (Es & (r & Er & H) & _) G Hn. unfold goes_in in G. simpl in *. destruct n as [|n]; [lia|]. destruct f as [s o res]. simpl in *. subst s.
  split.
  - intros e. simpl. destruct o as [[v enc]|]; auto. simpl. unfold write_wrap.
    destruct (is_none v); auto. destruct (fl_skip_empty fl && len_is_zero v); auto. discriminate.
  - rewrite Er. destruct (live (from_outside p w)); auto. destruct o as [[v enc]|]; [|exact H].
    destruct H as [[-> _]|(V & L & _)]; auto. rewrite V, L in G. discriminate.
Qed.

Lemma inner_sound : forall p x, wrap_ok p x -> (goes_in (fst x) = false -> unwritten eas (from_inside (snd x)) = VNone) -> fsound (inner_of x).
Proof.
  intros p [f w] Ok G. pose proof (wrap_live Ok) as [L1 L2]. pose proof (fun g => @stays_outside p (f, w) 1 Ok g ltac:(lia)) as So.
  destruct Ok as (Es & (r & Er & H) & C & _). unfold inner_of, fsound. cbn [fst snd f_ser f_out f_res] in *.
  destruct (goes_in f) eqn:Gi.
  - exists r. rewrite L1, <- L2. split; auto. unfold goes_in in Gi. destruct (f_out f) as [[v enc]|]; [|discriminate].
    rewrite Es in H. simpl in H. destruct H as [[_ [V|V]]|(V & L & H)].
    + rewrite V in Gi. discriminate.
    + rewrite V, andb_false_r in Gi. discriminate.
    + unfold from_inside. destruct (wf_rest w); auto. simpl. right. auto.
  - exists VNone. destruct (So eq_refl) as [_ ->]. split; [destruct (live (from_inside w)); auto|].
    rewrite (G eq_refl). auto.
Qed.

Lemma inner_wrapped : forall p x n, wrap_ok p x -> 0 < n -> wrapped_in neat p (item_of n (fst x)) (item_of (inner_fuel n (snd x)) (inner_of x)).
Proof.
  intros p x n Ok Hn. pose proof (wrap_live Ok) as [L1 L2]. pose proof (fun g => @stays_outside p x n Ok g Hn) as So.
  destruct x as [f w]. destruct Ok as (Es & (r & Er & H) & C & Nt). cbn [fst snd] in *. constructor.
  - simpl. congruence.
  - reflexivity.
  - destruct (goes_in f) eqn:Gi.
    + right. exists (en_backend ev), (wf_mode w), (wf_nsmap w). intros e. destruct n as [|n]; [lia|]. simpl. rewrite Gi.
      unfold goes_in in Gi. destruct (f_out f) as [[v enc]|]; [|discriminate]. apply andb_true_iff in Gi. destruct Gi as [G1 G2].
      apply negb_true_iff in G1. apply negb_true_iff in G2. rewrite Es. unfold from_outside, inner_fuel, from_inside. simpl.
      unfold write_wrap. rewrite G1, G2. simpl. destruct (wf_rest w) as [|q rest]; simpl; auto. unfold write_wrap. rewrite G1, G2. reflexivity.
    + left. split; [apply So; auto|]. intros e. simpl. rewrite Gi. auto.
  - simpl. intros K. apply negb_true_iff in K. assert (Cp : computed ev (f_ser f)).
    { rewrite Es. unfold from_outside. rewrite L2 in K. apply negb_false_iff in K. rewrite K. constructor. }
    rewrite K in Er. split; auto. split; [destruct neat; auto; exfalso; apply Nt; auto; rewrite <- Es; auto|].
    intros loc s. destruct n; [lia|]. apply computed_read; auto.
  - simpl. intros K. apply negb_false_iff in K. rewrite L2 in K. apply negb_true_iff in K. destruct n as [|n]; [lia|].
    rewrite Es. unfold from_outside, inner_fuel, from_inside. rewrite K. exists (wf_mode w). destruct (wf_rest w) as [|q rest].
    + exists note_line. split; [reflexivity|]. intros loc s. apply wrap_read_last.
    + exists (fun _ s => s). split; [reflexivity|]. intros loc s. apply wrap_read_step.
Qed.

Lemma inner_enters : forall p x n, wrap_ok p x -> 0 < n -> goes_in (fst x) = true -> enters p (item_of n (fst x)) (item_of (inner_fuel n (snd x)) (inner_of x)).
Proof.
  intros p [f w] n Ok Hn Gi. destruct Ok as (Es & _). cbn [fst snd] in *.
  exists (en_backend ev), (wf_mode w), (wf_nsmap w). intros e. destruct n as [|n]; [lia|]. simpl. rewrite Gi.
  unfold goes_in in Gi. destruct (f_out f) as [[v enc]|]; [|discriminate]. apply andb_true_iff in Gi. destruct Gi as [G1 G2].
  apply negb_true_iff in G1. apply negb_true_iff in G2. rewrite Es. unfold from_outside, inner_fuel, from_inside. simpl.
  unfold write_wrap. rewrite G1, G2. simpl. destruct (wf_rest w) as [|q rest]; simpl; auto. unfold write_wrap. rewrite G1, G2. reflexivity.
Qed.

Lemma outer_absent : forall p x n, wrap_ok p x -> 0 < n -> goes_in (fst x) = false -> absent_in neat p (item_of n (fst x)).
Proof.
  intros p x n Ok Hn Gi. destruct (@stays_outside p x n Ok Gi Hn) as [So Er]. pose proof (inner_wrapped Ok Hn) as W. constructor; auto.
  - intros K. destruct (wr_none W K) as (_ & H). auto.
  - intros K. destruct (wr_read W K) as (m & adj & _ & H).
    exists m, (fun loc c => it_r (item_of (inner_fuel n (snd x)) (inner_of x)) loc (adj loc c)). exact H.
Qed.

Lemma zip_wrapped : forall p ws fs, map f_ser fs = map (from_outside p) ws ->
  exists zs, map fst zs = fs /\ map snd zs = ws /\ Forall (fun x => f_ser (fst x) = from_outside p (snd x)) zs.
Proof.
  intros p ws; induction ws as [|w ws IH]; intros [|f fs] H; simpl in H; try discriminate.
  - exists []; simpl; auto.
  - injection H as H1 H2. destruct (IH fs H2) as (zs & E1 & E2 & E3). exists ((f, w) :: zs). simpl. rewrite E1, E2. auto.
Qed.

Definition items (nfs : list (nat * fld)) : list item := map (fun x => item_of (fst x) (snd x)) nfs.

Definition shows_attrs (fs : list fld) (c : content) : Prop :=
  forall f name cp v enc t, In f fs -> f_ser f = SAttr name cp -> f_out f = Some (v, enc) -> is_none v = false ->
    encode_primitive enc = Ok t -> In (name, t) (c_attrs c).

Lemma computed_items : forall nfs, Forall (computed ev) (map (fun x => f_ser (snd x)) nfs) -> Forall computed_item (items nfs).
Proof.
  intros nfs; induction nfs as [|[n f] nfs IH]; simpl; intros H; [constructor|]. inv H. constructor; auto. unfold computed_item; simpl.
  rewrite (computed_not_live H2). auto.
Qed.

Lemma apart_level : forall ss, apart ev eas ss -> forall fs, map f_ser fs = ss -> Forall fsound fs ->
  Forall (fun s => neat = true -> ~ computed ev s) ss ->
  exists N T c, shows_attrs fs c /\ (forall t, In t T <-> In t (flat_map child_names ss)) /\
    forall nfs, map snd nfs = fs -> Forall (fun x => N < fst x) nfs ->
      level neat eas (items nfs) T (flat_map attr_names ss) (existsb all_attrs ss) (existsb own_text ss) c.
Proof.
  intros ss H; induction H as [|s ss D H IH DT DA DX DM DM' DC|p ws ss Hi IHi H IH NP DM DE DC DC']; intros fs Es Fs Nt.
  - destruct fs; [|discriminate]. exists 0, [], nothing. split; [intros f ? ? ? ? ? []|]. split; [simpl; tauto|].
    intros nfs En _. destruct nfs; [|discriminate]. constructor.
  - destruct fs as [|f fs]; [discriminate|]. simpl in Es. injection Es as Ef Es. inversion Fs as [|? ? Ff Fs']; subst. inversion Nt as [|? ? Nf Nt']; subst. clear Fs Nt.
    destruct (IH fs eq_refl Fs' Nt') as (N & T & c' & Sh & ET & Lv). destruct (direct_sound D Ff) as (n0 & r & c & Er & Sd).
    exists (Nat.max N n0), (child_names (f_ser f) ++ T), (plus c c'). split; [|split].
    + intros g name cp v enc t [<-|I] Eg Eo Hv Et; simpl; apply in_app_iff; [left|right; eapply Sh; eauto].
      apply (sa_attr Sd Eg Eo Hv Et).
    + intros t. simpl. rewrite !in_app_iff, ET. tauto.
    + intros [|[n g] nfs] En Hn; [discriminate|]. simpl in En. injection En as -> En. inv Hn. cbn [fst] in *.
      assert (Lc : live (f_ser f) = true \/ computed ev (f_ser f) /\ neat = false).
      { destruct DC as [[C _]|L]; auto. right. split; auto. destruct neat; auto. exfalso; apply Nf; auto. }
      cbn [items map flat_map existsb]. apply lv_leaf.
      * eapply leaf_of; eauto. simpl. lia.
      * apply Lv; auto. eapply Forall_impl; [|exact H3]. intros [k g]; simpl; lia.
      * intros t Ht It. apply ET in It. apply (DT t); auto.
      * intros a Ha Ia. apply (DA a); auto.
      * intros X. specialize (DX X). apply not_true_is_false. intros E. apply existsb_exists in E. destruct E as (s & Is & E).
        rewrite Forall_forall in DX. rewrite (DX s Is) in E. discriminate.
      * intros M. specialize (DM M). split.
        { clear -DM. induction DM as [|s l [E _] _ IH]; simpl; auto. rewrite E; auto. }
        apply not_true_is_false. intros E. apply existsb_exists in E. destruct E as (s & Is & E).
        rewrite Forall_forall in DM. destruct (DM s Is). congruence.
      * intros A. specialize (DM' A). apply not_true_is_false. intros E. apply existsb_exists in E. destruct E as (s & Is & E).
        rewrite Forall_forall in DM'. rewrite (DM' s Is) in E. discriminate.
      * simpl. intros K. apply negb_true_iff in K. destruct DC as [[_ C]|L]; [|congruence].
        apply computed_items. rewrite <- map_map. exact C.
  - destruct (app_eq_app_map f_ser fs (map (from_outside p) ws) ss) as (fs1 & fs2 & -> & E1 & E2); auto.
    apply Forall_app in Fs. destruct Fs as [Fs1 Fs2]. apply Forall_app in Nt. destruct Nt as [Nt1 Nt2].
    destruct (IH fs2 E2 Fs2 Nt2) as (N2 & T2 & c2 & Sh2 & ET2 & Lv2).
    destruct (zip_wrapped p ws fs1 E1) as (zs & Z1 & Z2 & Z3).
    assert (Ok : Forall (wrap_ok p) zs).
    { rewrite Forall_forall in *. intros x Hx. split; [apply Z3; auto|]. split; [apply Fs1; rewrite <- Z1; apply in_map; auto|].
      split; [apply DC; rewrite <- Z2; apply in_map; auto|]. apply Nt1. apply in_map. rewrite <- Z2; apply in_map; auto. }
    assert (Sub : forall c, (forall a, In a (c_attrs c2) -> In a (c_attrs c)) -> shows_attrs (fs1 ++ fs2) c).
    { intros c Ic f name cp v enc t I Ef Eo Hv Et. apply in_app_iff in I. destruct I as [I|I]; [|apply Ic; eapply Sh2; eauto].
      exfalso. rewrite <- Z1 in I. apply in_map_iff in I. destruct I as (x & <- & Ix). rewrite Forall_forall in Z3. rewrite (Z3 x Ix) in Ef. discriminate. }
    assert (EA : flat_map attr_names (map (from_outside p) ws ++ ss) = flat_map attr_names ss).
    { clear. induction ws; simpl; auto. }
    assert (EM : existsb all_attrs (map (from_outside p) ws ++ ss) = existsb all_attrs ss).
    { clear. induction ws; simpl; auto. }
    assert (EX : existsb own_text (map (from_outside p) ws ++ ss) = existsb own_text ss).
    { clear. induction ws; simpl; auto. }
    assert (ET : zs <> [] -> forall t, In t (p :: T2) <-> In t (flat_map child_names (map (from_outside p) ws ++ ss))).
    { intros Nz t. rewrite flat_map_app, in_app_iff. simpl. rewrite ET2. split; intros [I|I]; auto.
      - subst t. left. destruct zs as [|z zs]; [congruence|]. simpl in Z2. rewrite <- Z2. simpl. auto.
      - left. apply in_flat_map in I. destruct I as (s & Is & It). apply in_map_iff in Is. destruct Is as (w & <- & _).
        simpl in It. destruct It as [It|[]]; auto. }
    rewrite EA, EM, EX.
    assert (NP2 : ~ In p T2) by (rewrite ET2; auto).
    assert (Split : forall nfs, map snd nfs = fs1 ++ fs2 -> exists (nzs : list (nat * (fld * wrapped_field))) nfs2, nfs = map (fun y => (fst y, fst (snd y))) nzs ++ nfs2 /\
                map snd nzs = zs /\ map snd nfs2 = fs2).
    { intros nfs En. destruct (app_eq_app_map snd nfs fs1 fs2 En) as (nfs1 & nfs2 & -> & En1 & En2).
      exists (combine (map fst nfs1) zs), nfs2. rewrite <- Z1 in En1. clear -En1 En2. split; [|split; auto].
      - f_equal. revert zs En1. induction nfs1 as [|[n f] l IH]; intros [|z zs] E; simpl in *; try discriminate; auto.
        injection E as -> E. rewrite <- (IH zs E); auto.
      - revert zs En1. induction nfs1 as [|[n f] l IH]; intros [|z zs] E; simpl in *; try discriminate; auto.
        injection E as -> E. rewrite (IH zs E); auto. }
    assert (Comp : forall (nzs : list (nat * (fld * wrapped_field))) nfs2, map snd nzs = zs -> map snd nfs2 = fs2 ->
              Forall (fun y => computed_item (item_of (fst y) (fst (snd y)))) nzs -> Forall computed_item (items nfs2)).
    { intros nzs nfs2 E E' F. apply computed_items. rewrite <- map_map, E', E2. apply DC'. rewrite <- Z2, <- E.
      rewrite !Forall_map. rewrite Forall_forall in F |- *. intros y Hy. specialize (F y Hy). unfold computed_item in F. simpl in F.
      assert (Oy : wrap_ok p (snd y)). { rewrite Forall_forall in Ok. apply Ok. rewrite <- E. apply in_map; auto. }
      destruct (wrap_live Oy) as [_ L]. rewrite L in F. rewrite negb_involutive in F. auto. }
    destruct (list_eq_nil_dec zs) as [Ez|Nz].
    { (* no wrapped field at all *)
      exists N2, T2, c2. split; [apply Sub; auto|]. assert (ws = []) as -> by (rewrite <- Z2, Ez; auto).
      split; [simpl; auto|]. intros nfs En Hn. apply Lv2; auto. rewrite Ez in Z1. simpl in Z1. subst fs1. auto. }
    destruct (existsb (fun x => goes_in (fst x)) zs) eqn:Gx.
    + (* the wrapper is written *)
      destruct (IHi (map inner_of zs)) as (N1 & T1 & c1 & Sh1 & ET1 & Lv1).
      { rewrite <- Z2, !map_map. reflexivity. }
      { rewrite Forall_map. rewrite Forall_forall. intros x Hx. apply (@inner_sound p); [rewrite Forall_forall in Ok; auto|].
        intros G. assert (Iw : In (snd x) ws) by (rewrite <- Z2; apply in_map; auto).
        assert (Alone : ws <> [snd x]).
        { intros E. apply existsb_exists in Gx. destruct Gx as (y & Hy & Gy). rewrite <- Z2 in E. destruct zs as [|z [|z' zs]]; try discriminate E.
          destruct Hx as [<-|[]]. destruct Hy as [<-|[]]. congruence. }
        unfold unwritten. destruct (all_attrs (from_inside (snd x))) eqn:Am; [exfalso; eauto|].
        destruct (own_text (from_inside (snd x))) eqn:Ot; auto. unfold text_back. destruct eas eqn:Ea; auto. exfalso; eauto. }
      { rewrite Forall_forall. intros s Is Hn Cs. apply in_map_iff in Is. destruct Is as (w & <- & Iw).
        rewrite <- Z2 in Iw. apply in_map_iff in Iw. destruct Iw as (x & <- & Ix). rewrite Forall_forall in Ok. pose proof (Ok x Ix) as Ox.
        destruct (wrap_live Ox) as [L _]. rewrite (computed_not_live Cs) in L. symmetry in L. apply negb_false_iff in L.
        destruct Ox as (_ & _ & _ & Nx). apply (Nx Hn). unfold from_outside. rewrite L. constructor. }
      exists (S (Nat.max N1 N2)), (p :: T2), (plus (Con None [] [node p c1]) c2). split; [apply Sub; auto|]. split; [apply ET; auto|].
      intros nfs En Hn. destruct (Split nfs En) as (nzs & nfs2 & -> & Ez & En2). apply Forall_app in Hn. destruct Hn as [Hn1 Hn2].
      rewrite Forall_map in Hn1. cbn [fst] in Hn1.
      unfold items. rewrite map_app, map_map. cbn [fst snd].
      set (gs := map (fun y => (item_of (fst y) (fst (snd y)), item_of (inner_fuel (fst y) (snd (snd y))) (inner_of (snd y)))) nzs).
      replace (map (fun x : nat * (fld * wrapped_field) => item_of (fst x) (fst (snd x))) nzs) with (map fst gs) by (unfold gs; rewrite map_map; auto).
      assert (Oy : forall y, In y nzs -> wrap_ok p (snd y)).
      { intros y Hy. rewrite Forall_forall in Ok. apply Ok. rewrite <- Ez. apply in_map; auto. }
      apply lv_group with (Ti := T1) (Ai := flat_map attr_names (map from_inside ws)) (Mi := existsb all_attrs (map from_inside ws)) (Xi := existsb own_text (map from_inside ws)).
      * unfold gs. rewrite Forall_map. rewrite Forall_forall in Hn1 |- *. intros y Hy. apply inner_wrapped; auto. specialize (Hn1 y Hy). lia.
      * unfold gs. apply Exists_exists. apply existsb_exists in Gx. destruct Gx as (x & Hx & Gx). rewrite <- Ez in Hx.
        apply in_map_iff in Hx. destruct Hx as (y & <- & Hy). eexists. split; [apply in_map; exact Hy|]. simpl. apply inner_enters; auto.
        rewrite Forall_forall in Hn1. specialize (Hn1 y Hy). lia.
      * replace (map snd gs) with (items (map (fun y => (inner_fuel (fst y) (snd (snd y)), inner_of (snd y))) nzs)).
        2:{ unfold gs, items. rewrite !map_map. reflexivity. }
        apply Lv1.
        { rewrite map_map. simpl. rewrite <- Ez, map_map. reflexivity. }
        rewrite Forall_map. rewrite Forall_forall in Hn1 |- *. intros y Hy. simpl. specialize (Hn1 y Hy). unfold inner_fuel.
        destruct (wf_rest (snd (snd y))); lia.
      * apply Lv2; auto. eapply Forall_impl; [|exact Hn2]. intros [k g]; simpl; lia.
      * auto.
      * unfold gs. rewrite Forall_map. cbn [fst]. intros F. eapply Comp; eauto.
    + (* the wrapper is not written *)
      assert (Gn : forall x, In x zs -> goes_in (fst x) = false).
      { intros x Hx. apply not_true_is_false. intros G. assert (existsb (fun x => goes_in (fst x)) zs = true) by (apply existsb_exists; eauto). congruence. }
      exists (S N2), (p :: T2), c2. split; [apply Sub; auto|]. split; [apply ET; auto|].
      intros nfs En Hn. destruct (Split nfs En) as (nzs & nfs2 & -> & Ez & En2). apply Forall_app in Hn. destruct Hn as [Hn1 Hn2].
      rewrite Forall_map in Hn1. cbn [fst] in Hn1. unfold items. rewrite map_app, map_map. cbn [fst snd].
      assert (Oy : forall y, In y nzs -> wrap_ok p (snd y)).
      { intros y Hy. rewrite Forall_forall in Ok. apply Ok. rewrite <- Ez. apply in_map; auto. }
      apply lv_nogroup.
      * rewrite Forall_map. rewrite Forall_forall in Hn1 |- *. intros y Hy. apply outer_absent; auto; [specialize (Hn1 y Hy); lia|].
        apply Gn. rewrite <- Ez. apply in_map; auto.
      * apply Lv2; auto. eapply Forall_impl; [|exact Hn2]. intros [k g]; simpl; lia.
      * auto.
      * rewrite Forall_map. intros F. eapply Comp; eauto.
Qed.

End Fields.
