(** PfClasses2.v -- proofs about collected field functions, the states of a class, aliases and
    versions. *)

From Verif Require Import Base Elem Native Errs Names Fields Ser Build Classes SpecNames SpecClasses PfNames PfClasses.

Section PCollect.
  Variable F : Type.
  Variable names : cattr F -> list string.

  Lemma mark_one : forall field func l (d : dict F),
    dget field (fold_left (fun d fl => dset fl func d) l d) = if str_in field l then Some func else dget field d.
  Proof.
    intros field func l; induction l as [|x l IH]; simpl; intros d; auto.
    rewrite IH. unfold str_in; simpl. destruct (String.eqb field x) eqn:E; simpl.
    - apply String.eqb_eq in E; subst. rewrite dget_dset_same. destruct (existsb (String.eqb x) l); auto.
    - rewrite dget_dset_other; auto. intros ->. rewrite String.eqb_refl in E; discriminate.
  Qed.

  Lemma marked_snoc : forall field attrs na (d : dict F),
    dget field (marked names (attrs ++ [na]) d) =
      if ca_true (snd na) && str_in field (names (snd na)) then Some (ca_func (snd na))
      else dget field (marked names attrs d).
  Proof.
    intros. unfold marked. rewrite fold_left_app; simpl. destruct (ca_true (snd na)); auto. apply mark_one.
  Qed.

  Lemma marked_none : forall field attrs (d : dict F),
    (forall na, In na attrs -> ~ names_field names field na) -> dget field (marked names attrs d) = dget field d.
  Proof.
    intros field attrs d. induction attrs as [|na attrs IH] using rev_ind; intros H; auto.
    rewrite marked_snoc. destruct (ca_true (snd na) && str_in field (names (snd na))) eqn:E.
    - exfalso. apply andb_true_iff in E as (E1 & E2). apply str_in_iff in E2.
      apply (H na); [rewrite in_app_iff; simpl; auto|split; auto].
    - apply IH. intros na' I. apply H. rewrite in_app_iff; auto.
  Qed.

  Lemma marked_same : forall field attrs (d : dict F) f,
    (exists na, In na attrs /\ names_field names field na) ->
    (forall na, In na attrs -> names_field names field na -> ca_func (snd na) = f) ->
    dget field (marked names attrs d) = Some f.
  Proof.
    intros field attrs d f. induction attrs as [|na attrs IH] using rev_ind; intros (na0 & I0 & N0) H.
    - destruct I0.
    - rewrite marked_snoc. destruct (ca_true (snd na) && str_in field (names (snd na))) eqn:E.
      + apply andb_true_iff in E as (E1 & E2). apply str_in_iff in E2. f_equal.
        apply H; [rewrite in_app_iff; simpl; auto|split; auto].
      + apply IH.
        * exists na0. split; auto. rewrite in_app_iff in I0; simpl in I0. destruct I0 as [I0|[<-|[]]]; auto.
          exfalso. destruct N0 as (N1 & N2). rewrite N1 in E; simpl in E.
          apply str_in_iff in N2. congruence.
        * intros na' I. apply H. rewrite in_app_iff; auto.
  Qed.

  Lemma marked_last : forall field attrs (d : dict F) na, names_field names field na ->
    dget field (marked names (attrs ++ [na]) d) = Some (ca_func (snd na)).
  Proof.
    intros field attrs d na (T & I). rewrite marked_snoc, T. apply str_in_iff in I. rewrite I. auto.
  Qed.

  (** either some attribute names the field or none does *)
  Lemma names_dec : forall field (attrs : list (string * cattr F)),
    (exists na, In na attrs /\ names_field names field na) \/
    (forall na, In na attrs -> ~ names_field names field na).
  Proof.
    intros field attrs. induction attrs as [|na attrs IH]; [right; intros ? []|].
    destruct (ca_true (snd na) && str_in field (names (snd na))) eqn:E.
    - left. exists na. simpl; split; auto. apply andb_true_iff in E as (E1 & E2). apply str_in_iff in E2. split; auto.
    - destruct IH as [(na' & I & N)|H]; [left; exists na'; simpl; auto|].
      right. intros na' [<-|I]; auto. intros (N1 & N2). apply str_in_iff in N2. rewrite N1, N2 in E. discriminate.
  Qed.

  Lemma marked_order : forall field attrs attrs' (d : dict F), Permutation attrs attrs' ->
    (forall na na', In na attrs -> In na' attrs -> names_field names field na -> names_field names field na' ->
       ca_func (snd na) = ca_func (snd na')) ->
    dget field (marked names attrs d) = dget field (marked names attrs' d).
  Proof.
    intros field attrs attrs' d P U. destruct (names_dec field attrs) as [(na & I & N)|H].
    - rewrite (@marked_same field attrs d (ca_func (snd na))), (@marked_same field attrs' d (ca_func (snd na))); auto.
      + exists na. split; auto. eapply Permutation_in; eauto.
      + intros na' I' N'. apply U; auto. eapply Permutation_in; [symmetry; eauto|auto].
      + exists na; auto.
    - rewrite !marked_none; auto. intros na I. apply H. eapply Permutation_in; [symmetry; eauto|auto].
  Qed.
End PCollect.

Section PAnnot.
  Variable F : Type.
  Variable which : fmeta F -> option F.

  Definition annot_step (d : dict F) (nf : string * list (fmeta F)) : dict F :=
    fold_left (fun d m => match which m with Some f => dset (fst nf) f d | None => d end) (snd nf) d.

  Lemma annot_other : forall field name ms d, field <> name -> dget field (annot_step d (name, ms)) = dget field d.
  Proof.
    intros field name ms; unfold annot_step; simpl. induction ms as [|m ms IH]; simpl; intros d N; auto.
    rewrite IH by auto. destruct (which m); auto. apply dget_dset_other; auto.
  Qed.

  Lemma last_snoc : forall A B (f : A -> option B) l x,
    match f x with
    | Some b => last_of f (l ++ [x]) b
    | None => forall b, last_of f l b -> last_of f (l ++ [x]) b
    end.
  Proof.
    intros A B f l x. destruct (f x) as [b|] eqn:E.
    - induction l; simpl; [apply last_here; auto|apply last_later; auto].
    - intros b L. induction L as [a l b Ha Hl|a l b L IH]; simpl.
      + apply last_here; auto. apply Forall_app; auto.
      + apply last_later; auto.
  Qed.

  Lemma annot_self : forall name ms d, dget name d = None -> is_last which ms (dget name (annot_step d (name, ms))).
  Proof.
    intros name ms d D. unfold annot_step; simpl. induction ms as [|m ms IH] using rev_ind; simpl.
    - rewrite D; simpl; auto.
    - rewrite fold_left_app; simpl. pose proof (last_snoc which ms m) as LS. destruct (which m) as [f|] eqn:W.
      + rewrite dget_dset_same. exact LS.
      + destruct (dget name (fold_left _ ms d)) as [g|]; [apply LS; auto|apply Forall_app; auto].
  Qed.

  Lemma annotated_none : forall fields field d, ~ In field (dkeys fields) ->
    dget field (fold_left annot_step fields d) = dget field d.
  Proof.
    induction fields as [|[name ms] fields IH]; simpl; intros field d N; auto.
    rewrite IH by tauto. apply annot_other. intros ->; tauto.
  Qed.

  Lemma annotated_last : forall fields field ms d, NoDup (dkeys fields) -> dget field fields = Some ms ->
    dget field d = None -> is_last which ms (dget field (fold_left annot_step fields d)).
  Proof.
    induction fields as [|[name ms0] fields IH]; intros field ms d N H D; [discriminate|].
    cbn [fold_left]. simpl in N. inversion N as [|? ? N1 N2]; subst. simpl in H.
    destruct (String.eqb field name) eqn:E.
    - apply String.eqb_eq in E; subst. injection H as ->.
      rewrite annotated_none by auto. apply annot_self; auto.
    - eapply IH; eauto. rewrite annot_other; auto. intros ->. rewrite String.eqb_refl in E; discriminate.
  Qed.
End PAnnot.

Lemma annotated_fold : forall F (which : fmeta F -> option F) fields,
  annotated which fields = fold_left (annot_step which) fields [].
Proof. auto. Qed.

(** attribute lookup along the method resolution order *)
Lemma visible_first : forall F (nss : list (dict (cattr F))) name, Forall (fun ns => NoDup (dkeys ns)) nss ->
  is_first (dget name) nss (dget name (visible nss)).
Proof.
  intros F nss name; induction nss as [|ns nss IH]; simpl; intros H.
  - constructor.
  - inversion H as [|? ? H1 H2]; subst. rewrite dget_dupdate by auto. specialize (IH H2).
    destruct (dget name ns) as [a|] eqn:D.
    + apply first_here; auto.
    + destruct (dget name (visible nss)) as [a|]; [apply first_later; auto|constructor; auto].
Qed.

(** ---- the states of a class ---- *)

Lemma open_params_iff : forall s, open_params s = false <-> params_given s.
Proof.
  intros s; unfold open_params, params_given. destruct (ls_generic s), (ls_root s), (ls_root_var s); simpl;
    intuition (try discriminate; auto).
Qed.

Section PLife.
  Variable cl : classes.
  Variable ev : env.
  Variable n : nat.

  Notation build s p := (build_class cl ev n (ls_info s) (py_schema p)).

  Lemma rebuild_keeps : forall py s s', model_rebuild cl ev n py s = Ok s' ->
    ls_info s' = ls_info s /\ ls_root s' = ls_root s /\ ls_generic s' = ls_generic s /\ ls_root_var s' = ls_root_var s /\
    ls_custom s' = ls_custom s /\ py = Some (ls_py s').
  Proof.
    intros [p|] s s'; simpl; [|discriminate].
    destruct (ls_ser s) as [b|] eqn:S0; [intros [= <-]; simpl; repeat split; auto|].
    destruct (py_complete p) eqn:C; [|intros [= <-]; simpl; repeat split; auto].
    unfold build_serializer. destruct (open_params (set_py p s)); [intros [= <-]; simpl; repeat split; auto|].
    simpl. rewrite C. destruct (build_class _ _ _ _ _); simpl; try discriminate.
    intros [= <-]; simpl; repeat split; auto.
  Qed.

  (** one call *)
  Lemma rebuild_ser : forall py s s', model_rebuild cl ev n py s = Ok s' ->
    match ls_ser s with
    | Some b => ls_ser s' = Some b
    | None => match ls_ser s' with
              | Some b => exists p, py = Some p /\ class_ready s p /\ build s p = Ok b
              | None => forall p, py = Some p -> ~ class_ready s p
              end
    end.
  Proof.
    intros [p|] s s'; simpl; [|discriminate].
    destruct (ls_ser s) as [b|] eqn:S0; [intros [= <-]; auto|].
    destruct (py_complete p) eqn:C.
    - unfold build_serializer. destruct (open_params (set_py p s)) eqn:O.
      + intros [= <-]; simpl. intros p' [= <-] (G & _). apply open_params_iff in G.
        unfold open_params in *; simpl in *; congruence.
      + simpl. rewrite C. destruct (build s p) as [b| |] eqn:B; simpl; try discriminate.
        intros [= <-]; simpl. exists p. repeat split; auto. apply open_params_iff.
        unfold open_params in *; simpl in *; congruence.
    - intros [= <-]. simpl. rewrite S0. intros p' [= <-] (_ & G). congruence.
  Qed.

  Lemma rebuild_raise : forall py s x, model_rebuild cl ev n py s = Raise x ->
    py = None \/ exists p, py = Some p /\ ls_ser s = None /\ class_ready s p /\ build s p = Raise x.
  Proof.
    intros [p|] s x; simpl; auto. right. exists p. split; auto.
    destruct (ls_ser s) as [b|] eqn:S0; [discriminate|]. split; auto.
    destruct (py_complete p) eqn:C; [|discriminate].
    unfold build_serializer in H. destruct (open_params (set_py p s)) eqn:O; [discriminate|].
    simpl in H. rewrite C in H. destruct (build s p) as [b|x'|]; simpl in H; try discriminate.
    injection H as <-. repeat split; auto. apply open_params_iff.
    unfold open_params in *; simpl in *; congruence.
  Qed.

  Lemma rebuilds_stable : forall calls s b, ls_ser s = Some b -> exists s',
    rebuilds cl ev n calls s = Ok s' /\ ls_ser s' = Some b.
  Proof.
    induction calls as [|py calls IH]; simpl; intros s b H; [eauto|].
    destruct py as [p|]; simpl; [rewrite H; apply IH; simpl; auto|apply IH; auto].
  Qed.

  (** the class can be used after a history of calls iff it could before, or pydantic made it ready
      at some moment at which the serializer could be built *)
  Lemma rebuilds_present : forall calls s s', rebuilds cl ev n calls s = Ok s' ->
    forall b, ls_ser s' = Some b <->
      ls_ser s = Some b \/
      (ls_ser s = None /\ exists pre p post, calls = pre ++ Some p :: post /\ class_ready s p /\ build s p = Ok b /\
         forall p' b', In (Some p') pre -> class_ready s p' -> build s p' <> Ok b').
  Proof.
    induction calls as [|py calls IH]; simpl; intros s s' H b.
    - injection H as <-. split; auto. intros [|(_ & pre & p & post & E & _)]; auto. destruct pre; discriminate.
    - destruct (ls_ser s) as [b0|] eqn:S0.
      { assert (E : exists s1, ls_ser s1 = Some b0 /\ rebuilds cl ev n calls s1 = Ok s').
        { destruct py as [p|]; simpl in H; [rewrite S0 in H; exists (set_py p s)|exists s]; auto. }
        destruct E as (s1 & E1 & E2). destruct (rebuilds_stable calls _ E1) as (s2 & E3 & E4).
        assert (s2 = s') by congruence; subst. rewrite E4.
        split; [auto|]. intros [|(? & _)]; [congruence|discriminate]. }
      destruct (model_rebuild cl ev n py s) as [s1|x|] eqn:R; [| |discriminate].
      + pose proof (rebuild_ser _ _ R) as RS. rewrite S0 in RS.
        destruct (rebuild_keeps _ _ R) as (K1 & K2 & K3 & K4 & _ & K5).
        assert (RD : forall p, class_ready s1 p <-> class_ready s p).
        { intros p; unfold class_ready, params_given. rewrite K2, K3, K4. tauto. }
        rewrite (IH _ _ H). destruct (ls_ser s1) as [b1|] eqn:S1.
        * destruct RS as (p & -> & G & B). split.
          -- intros [[= <-]|(? & _)]; [|discriminate]. right. split; auto. exists [], p, calls.
             repeat split; auto; try apply G; intros p' b' [].
          -- intros [|(_ & pre & p' & post & E & G' & B' & Mn)]; [discriminate|].
             destruct pre as [|x pre]; injection E as E1 E2; subst.
             ++ left. congruence.
             ++ exfalso. eapply Mn; [left; reflexivity|exact G|exact B].
        * split.
          -- intros [|(_ & pre & p & post & -> & G & B & Mn)]; [discriminate|].
             rewrite RD in G. rewrite K1 in B.
             right. split; auto. exists (py :: pre), p, post. repeat split; auto; try apply G.
             intros p' b' [->|I] G'; [destruct (RS p' eq_refl G')|].
             specialize (Mn p' b' I). rewrite RD, K1 in Mn. auto.
          -- intros [|(_ & pre & p & post & E & G & B & Mn)]; [discriminate|].
             destruct pre as [|x pre]; injection E as E1 E2; subst.
             ++ destruct (RS p ltac:(auto) G).
             ++ right. split; auto. exists pre, p, post.
                split; auto. split; [apply RD; auto|]. split; [rewrite K1; auto|].
                intros p' b' I G'. rewrite K1. apply Mn; [simpl; auto|apply RD; auto].
      + destruct (rebuild_raise _ _ R) as [->|(p & -> & _ & G & B)].
        * rewrite (IH _ _ H). rewrite S0. split.
          -- intros [|(_ & pre & p & post & -> & G & B & Mn)]; [discriminate|].
             right. split; auto. exists (None :: pre), p, post. repeat split; auto; try apply G.
             intros p' b' [|I]; [discriminate|]. apply Mn; auto.
          -- intros [|(_ & pre & p & post & E & G & B & Mn)]; [discriminate|].
             destruct pre as [|x' pre]; injection E as E1 E2; subst; [discriminate|].
             right. split; auto. exists pre, p, post. repeat split; auto; try apply G.
             intros p' b' I. apply Mn. simpl; auto.
        * rewrite (IH _ _ H). simpl. rewrite S0.
          assert (RD : forall p', class_ready (set_py p s) p' <-> class_ready s p') by (intros; reflexivity).
          split.
          -- intros [|(_ & pre & p' & post & -> & G' & B' & Mn)]; [discriminate|].
             right. split; auto. exists (Some p :: pre), p', post. repeat split; auto; try apply G'.
             intros p2 b2 [[= <-]|I] G2; [congruence|]. apply (Mn p2 b2 I G2).
          -- intros [|(_ & pre & p' & post & E & G' & B' & Mn)]; [discriminate|].
             destruct pre as [|x' pre]; injection E as E1 E2; subst.
             ++ congruence.
             ++ right. split; auto. exists pre, p', post. repeat split; auto; try apply G'.
                intros p2 b2 I. apply Mn. simpl; auto.
  Qed.

  Lemma rebuilds_custom : forall calls s s', rebuilds cl ev n calls s = Ok s' -> ls_custom s' = ls_custom s.
  Proof.
    induction calls as [|py calls IH]; simpl; intros s s' H; [injection H as <-; auto|].
    destruct (model_rebuild cl ev n py s) as [s1|x|] eqn:R; [| |discriminate].
    - rewrite (IH _ _ H). destruct (rebuild_keeps _ _ R) as (_ & _ & _ & _ & K & _). auto.
    - rewrite (IH _ _ H). destruct py; auto.
  Qed.

  Lemma new_class_ser : forall attrs s s', new_class cl ev n false attrs s = Ok s' ->
    ls_info s' = ls_info s /\ ls_root s' = ls_root s /\ ls_generic s' = ls_generic s /\ ls_root_var s' = ls_root_var s /\
    ls_py s' = ls_py s /\ ls_custom s' = collect (py_metas (ls_py s)) attrs /\
    match ls_ser s' with
    | Some b => class_ready s (ls_py s) /\ build s (ls_py s) = Ok b
    | None => ~ class_ready s (ls_py s)
    end.
  Proof.
    intros attrs s s'. unfold new_class, build_serializer.
    destruct (open_params s) eqn:O; simpl.
    - intros [= <-]; simpl; repeat split; auto. intros (G & _). apply open_params_iff in G. congruence.
    - destruct (py_complete (ls_py s)) eqn:C; simpl.
      + destruct (build s (ls_py s)) as [b| |] eqn:B; simpl; try discriminate.
        intros [= <-]; simpl; repeat split; auto. apply open_params_iff; auto.
      + intros [= <-]; simpl; repeat split; auto. intros (_ & G). congruence.
  Qed.
End PLife.

(** ---- aliases ---- *)

Lemma prepare_meant : forall k,
  meant (fk_salias k) (fk_alias k) (kget (fk_salias (prepare_field_kwargs k))) /\
  meant (fk_valias k) (fk_alias k) (kget (fk_valias (prepare_field_kwargs k))).
Proof.
  intros [a s v]; unfold prepare_field_kwargs, meant; simpl.
  destruct s as [[s|]|], v as [[v|]|], a as [[a|]|]; simpl; auto.
Qed.

(** ---- versions ---- *)

Lemma span_app : forall d r, (forall c, In c (list_ascii_of_string d) -> is_digit c = true) -> no_digit_first r ->
  span_digits (d ++ r) = (d, r).
Proof.
  induction d as [|c d IH]; simpl; intros r H R.
  - destruct r as [|c r]; simpl in *; auto. rewrite R. auto.
  - rewrite H by auto. rewrite IH; auto.
Qed.

Lemma int_of_snoc : forall s acc c, int_of acc (s ++ String c "") = (int_of acc s * 10 + (N_of_ascii c - 48))%N.
Proof. induction s as [|x s IH]; simpl; intros; auto. Qed.

Lemma denotes_int : forall s k, denotes s k -> int_of 0 s = k /\ forall c, In c (list_ascii_of_string s) -> is_digit c = true.
Proof.
  induction 1 as [|s c k D (IH1 & IH2) Hc]; [simpl; split; auto; intros ? []|].
  rewrite int_of_snoc, IH1. split; auto.
  intros x. clear - IH2 Hc. induction s as [|y s IH]; simpl in *.
  - intros [<-|[]]; auto.
  - intros [<-|I]; auto.
Qed.

Lemma parse_version_full : forall a b c ka kb kc rest, denotes a ka -> denotes b kb -> denotes c kc ->
  no_digit_first rest -> parse_version (a ++ "." ++ b ++ "." ++ c ++ rest) = (ka, kb, kc).
Proof.
  intros a b c ka kb kc rest A B C R.
  destruct (denotes_int A) as (Ia & Da). destruct (denotes_int B) as (Ib & Db). destruct (denotes_int C) as (Ic & Dc).
  unfold parse_version. rewrite (span_app a ("." ++ b ++ "." ++ c ++ rest)); [|auto|reflexivity].
  change (skip_dot ("." ++ b ++ "." ++ c ++ rest)) with (b ++ "." ++ c ++ rest)%string.
  rewrite (span_app b ("." ++ c ++ rest)); [|auto|reflexivity].
  change (skip_dot ("." ++ c ++ rest)) with (c ++ rest)%string.
  rewrite (span_app c rest); auto. congruence.
Qed.

Lemma parse_version_two : forall a b ka kb rest, denotes a ka -> denotes b kb ->
  match rest with String c r => c <> "."%char /\ is_digit c = false | EmptyString => True end ->
  parse_version (a ++ "." ++ b ++ rest) = (ka, kb, 0%N).
Proof.
  intros a b ka kb rest A B R.
  destruct (denotes_int A) as (Ia & Da). destruct (denotes_int B) as (Ib & Db).
  unfold parse_version. rewrite (span_app a ("." ++ b ++ rest)); [|auto|reflexivity].
  change (skip_dot ("." ++ b ++ rest)) with (b ++ rest)%string.
  assert (Rn : no_digit_first rest) by (destruct rest; simpl in *; tauto).
  rewrite (span_app b rest); auto.
  assert (span_digits (skip_dot rest) = ("", rest)) as ->; [|simpl; congruence].
  destruct rest as [|c r]; simpl in *; auto. destruct R as (R1 & R2).
  destruct (Ascii.eqb c ".") eqn:E; [apply Ascii.eqb_eq in E; congruence|]. simpl. rewrite R2; auto.
Qed.

Lemma version_ge_iff : forall a b, version_ge a b = true <-> version_le b a.
Proof.
  intros [[a1 a2] a3] [[b1 b2] b3]; unfold version_ge, version_le.
  rewrite orb_true_iff, andb_true_iff, orb_true_iff, andb_true_iff, !N.ltb_lt, !N.eqb_eq, N.leb_le.
  intuition (subst; auto).
Qed.
