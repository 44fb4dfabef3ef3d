(** PfExtra.v -- extra='forbid' *)

From Verif Require Import Base Elem Native Errs Names Ser Read SpecElem SpecRead PfElem PfUnbound.

Lemma extra_lines : forall e,
  exists ps, NoDup ps /\
    (forall idxs p, In (idxs, p) ps <-> loose_in e idxs p) /\
    Forall2 (extra_line e) ps (map extra_error (get_unbound [] e)).
Proof.
  intros e. destruct (get_unbound_exact e) as (ps & Hnd & Hin & F).
  exists ps; split; [auto|split; [exact Hin|]].
  clear - F. induction F as [|p u ps us (path & d & a & v & Hr & Hl & ->) F IH]; simpl; constructor; auto.
  exists path, d, a, v; repeat split; auto.
Qed.

Lemma forbid_outcome : forall m input s, md_forbid m = true ->
  exists ps, NoDup ps /\ (forall idxs p, In (idxs, p) ps <-> loose_in (st_el s) idxs p) /\
    (ps = [] -> validate_result m input s = validate_result (no_forbid m) input s) /\
    (ps <> [] -> exists lines,
       validate_result m input s = Raise (XValidation (VErr (md_name m) lines (md_hide m))) /\
       Forall2 (extra_line (st_el s)) ps lines).
Proof.
  intros m input s Hm. destruct (extra_lines (st_el s)) as (ps & Hnd & Hin & F).
  exists ps; split; [auto|split; [auto|]]. unfold validate_result, check_extra; rewrite Hm. simpl.
  destruct (get_unbound [] (st_el s)) as [|u us] eqn:E.
  - simpl in F; inversion F; subst. split; [auto|congruence].
  - split; [intros ->; inversion F|]. intros _. eexists; split; eauto.
Qed.

Lemma read_fields_no_forbid : forall r m fs eas result errors s,
  read_fields r (no_forbid m) fs eas result errors s = read_fields r m fs eas result errors s.
Proof.
  intros r m fs eas; induction fs as [|[name fser] fs IH]; intros result errors s; cbn [read_fields]; auto.
  change (md_cval (no_forbid m) name) with (md_cval m name).
  change (md_valias (no_forbid m)) with (md_valias m).
  destruct (match md_cval m name with Some custom => _ | None => _ end) as [[[]|[]|] s2]; auto.
Qed.

(** reading with and without the check, once the fields are read *)
Lemma forbid_split : forall r m eas loc s, 
  (exists input s', read_model r m eas loc s = (validate_result m input s', s') /\
                    read_model r (no_forbid m) eas loc s = (validate_result (no_forbid m) input s', s')) \/
  (exists o s', (forall v, o <> Ok v) /\ read_model r m eas loc s = (o, s') /\
                read_model r (no_forbid m) eas loc s = (o, s')).
Proof.
  intros r m eas loc s. unfold read_model. change (md_root (no_forbid m)) with (md_root m).
  destruct (md_root m).
  - unfold read_root_model. change (md_fields (no_forbid m)) with (md_fields m).
    destruct (md_fields m) as [|[f rser] fs]; [right; do 2 eexists; split; [|eauto]; discriminate|].
    destruct (r rser eas loc s) as [[v|x|] s'].
    + left; eauto.
    + destruct x; right; do 2 eexists; (split; [|eauto]; discriminate).
    + right; do 2 eexists; (split; [|eauto]; discriminate).
  - unfold read_plain_model. change (md_fields (no_forbid m)) with (md_fields m).
    rewrite read_fields_no_forbid.
    destruct (read_fields r m (md_fields m) eas [] [] s) as [[[result errors]|x|] s'].
    + destruct errors; [left; eauto|]. right; do 2 eexists; (split; [|eauto]; discriminate).
    + right; do 2 eexists; (split; [|eauto]; discriminate).
    + right; do 2 eexists; (split; [|eauto]; discriminate).
Qed.

Lemma forbid_exact : forall r m eas loc s v s', md_forbid m = true ->
  read_model r (no_forbid m) eas loc s = (Ok v, s') ->
  exists ps, NoDup ps /\ (forall idxs p, In (idxs, p) ps <-> loose_in (st_el s') idxs p) /\
    (ps = [] -> read_model r m eas loc s = (Ok v, s')) /\
    (ps <> [] -> exists lines,
       read_model r m eas loc s = (Raise (XValidation (VErr (md_name m) lines (md_hide m))), s') /\
       Forall2 (extra_line (st_el s')) ps lines).
Proof.
  intros r m eas loc s v s' Hm E.
  destruct (forbid_split r m eas loc s) as [(input & s1 & E1 & E2)|(o & s1 & Ho & E1 & E2)].
  - rewrite E2 in E. injection E as Ev Es; subst s1.
    destruct (forbid_outcome m input s' Hm) as (ps & Hnd & Hin & H0 & H1).
    exists ps; split; [auto|split; [auto|split]].
    + intros Hp. rewrite E1, (H0 Hp), Ev; auto.
    + intros Hp. destruct (H1 Hp) as (lines & Hv & F). exists lines. rewrite E1, Hv; auto.
  - rewrite E2 in E; injection E as E _. exfalso; eapply Ho; eauto.
Qed.

Lemma forbid_never_accepts_more : forall r m eas loc s v s', 
  read_model r m eas loc s = (Ok v, s') -> read_model r (no_forbid m) eas loc s = (Ok v, s').
Proof.
  intros r m eas loc s v s' E.
  destruct (forbid_split r m eas loc s) as [(input & s1 & E1 & E2)|(o & s1 & Ho & E1 & E2)].
  - rewrite E1 in E. injection E as Ev Es; subst s1. rewrite E2. f_equal.
    unfold validate_result in *; simpl. destruct (md_forbid m); auto.
    destruct (check_extra _ _ _); [discriminate|auto].
  - rewrite E1 in E; injection E as E _. exfalso; eapply Ho; eauto.
Qed.
