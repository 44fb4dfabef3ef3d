(** PfMore.v -- root models' error reports, tuples of the wrong length, None fields of a model. *)

From Verif Require Import Base Elem Native Errs Names Ser Write Read Api SpecElem SpecRead SpecWrite SpecRead2.
From Verif Require Import PfWrite PfWrite2 PfWrite3.

(** ---- root models ---- *)

Lemma into_none_lines : forall title e hide, into_validation_error title [(None, e)] hide = VErr title (ve_lines e) hide.
Proof.
  intros title e hide. unfold into_validation_error. simpl. rewrite app_nil_r. f_equal.
  induction (ve_lines e) as [|[t m l i] ls IH]; simpl; auto. rewrite IH; auto.
Qed.

Lemma root_report : forall r m name s fs eas loc st0 o st1, md_root m = true -> md_fields m = (name, s) :: fs ->
  read_model r m eas loc st0 = (o, st1) ->
  exists inner, r s eas loc st0 = (inner, st1) /\
    match inner with
    | Ok v => o = validate_result m (if is_none v then None else Some v) st1
    | Raise (XValidation err) => o = Raise (XValidation (VErr (md_name m) (ve_lines err) (md_hide m)))
    | Raise x => o = Raise x
    | Fuel => o = Fuel
    end.
Proof.
  intros r m name s fs eas loc st0 o st1 R F H. unfold read_model, read_root_model in H. rewrite R, F in H.
  destruct (r s eas loc st0) as [inner s1]. exists inner.
  destruct inner as [v|x|]; [|destruct x|]; injection H as <- <-; split; auto. rewrite into_none_lines; auto.
Qed.

(** ---- tuples ---- *)

Lemma tuple_wrong_length : forall n ev t c l h fl e vs enc, length vs <> length l -> ~ (fl_skip_empty fl = true /\ vs = []) ->
  write (S n) ev (SHetero t c l h) fl e (VList vs) enc = Raise XSerialization.
Proof.
  intros n ev t c l h fl e vs enc L N. cbn [write write_step]. unfold write_hetero. simpl. rewrite map_length.
  destruct (fl_skip_empty fl && Nat.eqb (length vs) 0) eqn:X.
  - apply andb_true_iff in X. destruct X as [X1 X2]. apply Nat.eqb_eq in X2. destruct vs; [|discriminate]. exfalso; auto.
  - destruct (Nat.eqb_spec (length vs) (length l)); [contradiction|]. reflexivity.
Qed.

(** the fields of a model that are written are written without an exception *)
Lemma write_fields_each : forall w m fl v enc fs e e', write_fields w m fs fl e v enc = Ok e' ->
  forall name s, In (name, s) fs -> str_in name (md_sexclude m) = false ->
  (fl_exclude_unset fl = true -> is_unset v name = Ok false) -> md_cser m name = None ->
  exists e0 x xe e1, py_getattr v name = Ok x /\ py_getitem enc name = Ok xe /\ w s fl e0 x xe = Ok e1.
Proof.
  intros w m fl v enc fs; induction fs as [|[nm s0] fs IH]; intros e e' H name s I X U C; [contradiction|].
  simpl in H. destruct I as [E|I].
  - injection E as -> ->. rewrite X, C in H.
    replace (if fl_exclude_unset fl then is_unset v name else Ok false) with (Ok false : out bool) in H
      by (destruct (fl_exclude_unset fl); [rewrite U; auto|auto]). simpl in H.
    destruct (py_getattr v name) as [x|x|]; try discriminate. simpl in H.
    destruct (py_getitem enc name) as [xe|y|]; try discriminate. simpl in H.
    destruct (w s fl e x xe) as [e1|y|] eqn:E; try discriminate. eauto 10.
  - destruct (str_in nm (md_sexclude m)); [eapply IH; eauto|].
    destruct (if fl_exclude_unset fl then _ else _) as [[|]|y|]; try discriminate; simpl in H; [eapply IH; eauto|].
    destruct (py_getattr v nm) as [x|y|]; try discriminate. simpl in H.
    destruct (match md_cser m nm with Some _ => _ | None => _ end) as [e1|y|]; try discriminate. simpl in H. eapply IH; eauto.
Qed.

Lemma tuple_field_length : forall n ev encode cls attrs set fl t m name title c l h vs,
  en_model ev cls = Some m -> md_root m = false -> In (name, SHetero title c l h) (md_fields m) ->
  ~ In name (md_sexclude m) -> (fl_exclude_unset fl = true -> In name set) -> md_cser m name = None ->
  dget name attrs = Some (VList vs) ->
  to_xml_tree n ev encode (VModel cls attrs set) fl = Ok t ->
  length vs = length l \/ (fl_skip_empty (with_skip_empty m fl) = true /\ vs = []).
Proof.
  intros n ev encode cls attrs set fl t m name title c l h vs Em R I X U C D H. unfold to_xml_tree in H. simpl in H.
  rewrite Em in H. unfold write_model in H at 1. rewrite R in H. simpl is_none in H. cbv iota in H.
  destruct (write_fields _ _ _ _ _ _ _) as [e1|x|] eqn:E in H; try discriminate.
  destruct (@write_fields_each _ _ _ _ _ _ _ _ E name _ I) as (e0 & x & xe & e2 & A & B & W); auto.
  - destruct (str_in name (md_sexclude m)) eqn:S; auto. apply str_in_spec in S; contradiction.
  - intros F. simpl. assert (F' : fl_exclude_unset fl = true) by (unfold with_skip_empty in F; destruct (md_skip_empty m); auto).
    apply U, str_in_spec in F'. rewrite F'; auto.
  - simpl in A. rewrite D in A. injection A as <-. destruct n as [|n]; [discriminate|].
    destruct (Nat.eq_dec (length vs) (length l)) as [L|L]; auto. right.
    destruct (fl_skip_empty (with_skip_empty m fl)) eqn:S.
    + destruct vs as [|v vs]; auto. rewrite tuple_wrong_length in W; [discriminate|auto|intros [_ N]; discriminate].
    + rewrite tuple_wrong_length in W; [discriminate|auto|intros [N _]; congruence].
Qed.

(** ---- exclude_none ---- *)

Lemma write_fields_none : forall n ev m cls attrs set d fl, fl_exclude_none fl = true ->
  forall fs, (forall name s, In (name, s) fs -> dget name attrs = Some VNone ->
                wf_ser ev s /\ drops_none s /\ md_cser m name = None /\ dget name d <> None) ->
  forall e, write_fields (write n ev) m fs fl e (VModel cls attrs set) (VDict d) <> Fuel ->
  write_fields (write n ev) m fs fl e (VModel cls attrs set) (VDict d) =
  write_fields (write n ev) m (filter (fun nf => negb (none_in attrs (fst nf))) fs)
    fl e (VModel cls attrs set) (VDict d).
Proof.
  intros n ev m cls attrs set d fl F fs; induction fs as [|[name s] fs IH]; intros H e NF; auto.
  assert (H' : forall nm s, In (nm, s) fs -> dget nm attrs = Some VNone ->
                wf_ser ev s /\ drops_none s /\ md_cser m nm = None /\ dget nm d <> None) by (intros; apply H; simpl; auto).
  specialize (IH H'). cbn [filter fst]. unfold none_in at 1.
  destruct (dget name attrs) as [v|] eqn:D; [destruct (is_none v) eqn:V|].
  - destruct v; try discriminate. simpl negb. cbv iota. destruct (H name s) as (A & B & C & E); simpl; auto.
    cbn [write_fields] in NF |- *. destruct (str_in name (md_sexclude m)); [auto|].
    destruct (if fl_exclude_unset fl then _ else _) as [[|]|x|] eqn:X; simpl in NF |- *;
      [auto| | |destruct (fl_exclude_unset fl); discriminate].
    + rewrite D, C in *. simpl in NF |- *. destruct (dget name d) as [xe|]; [|congruence]. simpl in NF |- *.
      destruct (write n ev s fl e VNone xe) as [e1|y|] eqn:W; simpl in NF |- *.
      * rewrite (@write_none ev s A B n fl e xe F) in W by congruence. injection W as <-. auto.
      * rewrite (@write_none ev s A B n fl e xe F) in W by congruence. discriminate.
      * congruence.
    + destruct (fl_exclude_unset fl); discriminate.
  - replace (negb match v with VNone => true | _ => false end) with true by (destruct v; auto; discriminate).
    cbn [write_fields] in NF |- *. destruct (str_in name (md_sexclude m)); [auto|].
    destruct (if fl_exclude_unset fl then _ else _) as [[|]|x|]; simpl in NF |- *; auto.
    rewrite D in *. simpl in NF |- *. destruct (match md_cser m name with Some _ => _ | None => _ end); simpl in NF |- *; auto.
  - simpl negb. cbv iota. cbn [write_fields] in NF |- *. destruct (str_in name (md_sexclude m)); [auto|].
    destruct (if fl_exclude_unset fl then _ else _) as [[|]|x|]; simpl in NF |- *; auto. rewrite D. auto.
Qed.

Lemma write_fields_mdef : forall w m m' fl v enc, md_sexclude m = md_sexclude m' -> (forall name, md_cser m name = md_cser m' name) ->
  forall fs e, write_fields w m fs fl e v enc = write_fields w m' fs fl e v enc.
Proof.
  intros w m m' fl v enc A B fs; induction fs as [|[name s] fs IH]; intros e; simpl; auto. rewrite A, B, IH.
  destruct (str_in name (md_sexclude m')); auto.
  destruct (if fl_exclude_unset fl then _ else _) as [[|]|x|]; simpl; auto.
  destruct (py_getattr v name); simpl; auto. destruct (match md_cser m' name with Some _ => _ | None => _ end); simpl; auto.
Qed.

Lemma model_without_none : forall n ev m fl e cls attrs set d, fl_exclude_none fl = true -> md_root m = false ->
  (forall name s, In (name, s) (md_fields m) -> dget name attrs = Some VNone ->
     wf_ser ev s /\ drops_none s /\ md_cser m name = None /\ dget name d <> None) ->
  write_model (write n ev) m fl e (VModel cls attrs set) (VDict d) <> Fuel ->
  write_model (write n ev) m fl e (VModel cls attrs set) (VDict d) =
  write_model (write n ev) (without_none attrs m) fl e (VModel cls attrs set) (VDict d).
Proof.
  intros n ev m fl e cls attrs set d F R H NF. unfold write_model in *. simpl is_none in *. cbv iota in *.
  change (md_root (without_none attrs m)) with (md_root m). rewrite R in *.
  change (with_skip_empty (without_none attrs m) fl) with (with_skip_empty m fl).
  rewrite write_fields_none; auto.
  - simpl md_fields. apply write_fields_mdef; auto.
  - unfold with_skip_empty; destruct (md_skip_empty m); auto.
Qed.
