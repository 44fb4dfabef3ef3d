(** PropCalls.v -- how much user code reading a document runs (C78). *)

From Verif Require Import Base Elem Native Errs Names Ser Read Api Calls SpecElem SpecRead SpecCrash SpecCalls PfElem PfTerm PfCalls PfCalls2 PfCalls3 Samples.

(** C78.  [calls] lists the calls of user code made by from_xml_tree: no other call has any influence. *)
Theorem C78_only_recorded_calls : forall ev ev' n cls root eas, same_classes ev ev' ->
  (forall c, In c (calls n ev cls root eas) -> agree ev ev' c) ->
  from_xml_tree n ev' cls root eas = from_xml_tree n ev cls root eas.
Proof.
  intros ev ev' n cls root eas HE H.
  destruct (@from_xml_tied ev ev' HE (agree ev ev') (fun _ => False) "" ltac:(auto) ltac:(intros ? []) n cls root eas) as [[E _]|[X _]]; auto.
  - apply Forall_forall. intros c Hc; auto.
  - apply Exists_exists in X as (? & _ & []).
Qed.

(** ... and each of these calls is made: if the calls picked by [q] raise an exception, then reading raises
    it if one of the recorded calls is picked, and is not affected otherwise *)
Theorem C78_recorded_calls_are_made : forall ev ev' what (q : call -> bool), same_classes ev ev' ->
  (forall c, q c = false -> agree ev ev' c) -> (forall c, q c = true -> raises ev' what c) ->
  forall n cls root eas,
  from_xml_tree n ev' cls root eas =
  if existsb q (calls n ev cls root eas) then Raise (XUser what) else from_xml_tree n ev cls root eas.
Proof.
  intros ev ev' what q HE Ho Hb n cls root eas.
  destruct (@from_xml_tied ev ev' HE (fun c => q c = false) (fun c => q c = true) what Ho Hb n cls root eas) as [[E O]|[X E]].
  - apply Forall_forall. intros c _. destruct (q c); auto.
  - rewrite E. replace (existsb q (calls n ev cls root eas)) with false; auto. symmetry.
    induction O as [|c l Hc _ IH]; simpl; auto. rewrite Hc; auto.
  - rewrite E. replace (existsb q (calls n ev cls root eas)) with true; auto. symmetry.
    apply existsb_exists. apply Exists_exists in X as (c & Hc & Q); eauto.
Qed.

(** a model that is returned was validated last, and is what validation returned *)
Theorem C78_validated_last : forall n ev cls root eas v, from_xml_tree n ev cls root eas = Ok v ->
  exists before input m, calls n ev cls root eas = before ++ [CValidate cls input] /\
    en_model ev cls = Some m /\ md_validate m input = Valid v.
Proof.
  intros n ev cls root eas v H. unfold from_xml_tree in H. unfold calls. destruct (en_model ev cls) as [m|] eqn:Em; [|discriminate].
  destruct (tag_is _ _); [|discriminate].
  assert (V : forall i s, validate_result m i s = Ok v -> t_validate cls m i s = [CValidate cls i] /\ md_validate m i = Valid v).
  { intros i s; unfold validate_result, t_validate. destruct (if md_forbid m then _ else _); [discriminate|].
    destruct (md_validate m i) eqn:E; intros X; try discriminate. split; auto. congruence. }
  unfold read_model in H. unfold t_model. destruct (md_root m).
  - unfold read_root_model in H. unfold t_root_model. destruct (md_fields m) as [|[nm rs] fs]; [discriminate|].
    destruct (read n ev rs eas [] _) as [[x|x|] s']; try discriminate; [|destruct x; discriminate].
    simpl in H. destruct (V _ _ H) as [-> E]. eauto 6.
  - unfold read_plain_model in H. unfold t_plain_model.
    destruct (read_fields _ m (md_fields m) eas [] [] _) as [[[res errs]|x|] s']; try discriminate.
    destruct errs; [|discriminate]. simpl in H. destruct (V _ _ H) as [-> E]. eauto 6.
Qed.

Lemma count_zero : forall q n ev cls root eas, is_xml_comment root = true -> count q (calls n ev cls root eas) = 0.
Proof. intros q n ev cls [| |] eas H; try discriminate. unfold calls. destruct (en_model ev cls); reflexivity. Qed.

Lemma count_ext : forall q q' l, (forall c, q c = q' c) -> count q l = count q' l.
Proof. intros q q' l H; unfold count. rewrite (filter_ext _ _ H); auto. Qed.

Lemma no_own_calls : forall cls m fs, own_calls (fun _ _ => false) cls m fs = 0.
Proof.
  intros cls m fs; unfold own_calls. induction fs as [|[name s] fs IH]; auto. cbn [filter fst].
  destruct (md_cval m name); auto.
Qed.

Lemma one_own_call : forall cls0 f0 cls m fs, NoDup (map fst fs) ->
  own_calls (fun c f => String.eqb cls0 c && String.eqb f0 f) cls m fs <= 1.
Proof.
  intros cls0 f0 cls m fs N; unfold own_calls. induction fs as [|[name s] fs IH]; [simpl; lia|]. cbn [filter fst].
  inversion N as [|? ? Hn N']; subst. specialize (IH N').
  destruct (md_cval m name); auto. destruct (String.eqb cls0 cls && String.eqb f0 name) eqn:E; auto.
  apply andb_prop in E as [_ E]. apply String.eqb_eq in E; subst name. cbn [length].
  assert (Z : filter (fun nf : string * ser => match md_cval m (fst nf) with Some _ => String.eqb cls0 cls && String.eqb f0 (fst nf) | None => false end) fs = []).
  { clear - Hn. induction fs as [|[name s] fs IH]; auto. cbn [filter fst map In] in *.
    destruct (md_cval m name); [|apply IH; tauto].
    replace (String.eqb f0 name) with false by (symmetry; apply String.eqb_neq; intros ->; apply Hn; auto).
    rewrite andb_false_r. apply IH; tauto. }
  rewrite Z. simpl; lia.
Qed.

(** without unions of models, reading a document validates at most as many models as the document has
    elements, in every search mode *)
Theorem C78_validations_linear : forall ev, frugal 0 ev -> forall n cls root eas,
  count is_validation (calls n ev cls root eas) <= elements root.
Proof.
  intros ev H n cls root eas. destruct (is_xml_comment root) eqn:C; [rewrite count_zero; auto; lia|].
  rewrite <- (budget_linear (en_backend ev) _ C).
  rewrite (@count_ext is_validation (q (fun _ => true) (fun _ _ => false))) by (intros []; reflexivity).
  apply calls_cost; auto. intros; rewrite no_own_calls; auto.
Qed.

(** ... and runs the validator of any given field at most as often *)
Theorem C78_field_validator_linear : forall ev, frugal 0 ev -> forall cls' field n cls root eas,
  count (is_run_of cls' field) (calls n ev cls root eas) <= elements root.
Proof.
  intros ev H cls' field n cls root eas. destruct (is_xml_comment root) eqn:C; [rewrite count_zero; auto; lia|].
  rewrite <- (budget_linear (en_backend ev) _ C).
  rewrite (@count_ext (is_run_of cls' field) (q (fun _ => false) (fun c f => String.eqb cls' c && String.eqb field f))) by (intros []; reflexivity).
  apply calls_cost; auto. intros c m Hm. pose proof (@one_own_call cls' field c m (md_fields m)) as O.
  destruct (H c m Hm) as (_ & N & _). specialize (O N). lia.
Qed.

(** with unions of at most [k] models the number is bounded by a power of the width of the document, the
    exponent being its depth *)
Theorem C78_validations_unions : forall ev k, 1 <= k -> frugal k ev -> yields_instances ev ->
  forall w n cls root eas, at_most_wide w root ->
  count is_validation (calls n ev cls root eas) <= (S k * w) ^ levels root.
Proof.
  intros ev k Hk H Y w n cls root eas Hw. eapply Nat.le_trans; [|apply (budget_wide (en_backend ev)); eauto].
  rewrite (@count_ext is_validation (q (fun _ => true) (fun _ _ => false))) by (intros []; reflexivity).
  apply calls_cost; auto. intros; rewrite no_own_calls; auto.
Qed.

Theorem C78_field_validator_unions : forall ev k, 1 <= k -> frugal k ev -> yields_instances ev ->
  forall cls' field w n cls root eas, at_most_wide w root ->
  count (is_run_of cls' field) (calls n ev cls root eas) <= (S k * w) ^ levels root.
Proof.
  intros ev k Hk H Y cls' field w n cls root eas Hw. eapply Nat.le_trans; [|apply (budget_wide (en_backend ev)); eauto].
  rewrite (@count_ext (is_run_of cls' field) (q (fun _ => false) (fun c f => String.eqb cls' c && String.eqb field f))) by (intros []; reflexivity).
  apply calls_cost; auto. intros c m Hm. pose proof (@one_own_call cls' field c m (md_fields m)) as O.
  destruct (H c m Hm) as (_ & N & _). specialize (O N). lia.
Qed.

(** ---- with unions it can be exponential ---- *)

(** class Special(BaseXmlModel, tag='part'): kind: str = attr(); part: Optional[Union['Special', 'Plain']]
    class Plain(BaseXmlModel, tag='part'): part: Optional[Union['Special', 'Plain']] *)
Definition part_union : ser := SUnionModel "part" false [sub "Special" "part" Strict; sub "Plain" "part" Strict] false.
Definition special : mdef := plain_model "Special" "part" [("kind", SAttr "kind" false); ("part", part_union)] ["kind"].
Definition plain : mdef := plain_model "Plain" "part" [("part", part_union)] [].
Definition parts : env :=
  Env Lxml (fun c => if String.eqb c "Special" then Some special else if String.eqb c "Plain" then Some plain else None).

(** <part><part>...<part/>...</part></part>, [d] levels below the root *)
Fixpoint nested (d : nat) : native :=
  NElem "part" [] None None [] (match d with O => [] | S d' => [nested d'] end) None.

Lemma parts_frugal : frugal 2 parts /\ yields_instances parts.
Proof.
  split; intros cls m H; unfold parts in H; simpl in H;
    (destruct (String.eqb cls "Special"); [|destruct (String.eqb cls "Plain"); [|discriminate]]); injection H as <-; unfold special, plain, plain_model; cbn [md_fields md_cval md_validate].
  - split; [repeat constructor|]. split; [|discriminate]. simpl. repeat constructor; simpl; intuition discriminate.
  - split; [repeat constructor|]. split; [|discriminate]. simpl. repeat constructor; simpl; intuition discriminate.
  - intros [[| | | | | |d| |]|]; simpl; try discriminate. destruct (dmem "kind" d); discriminate.
  - intros [[| | | | | |d| |]|]; simpl; discriminate.
Qed.

Definition fresh_part (d : nat) : elem := from_native Lxml (nested d).
Fixpoint seen (d : nat) : elem :=
  match d with
  | O => fresh_part 0
  | S d' => set_next 1 (set_elems [seen d'] (fresh_part (S d')))
  end.

Lemma proxy_step : forall n cls m d eas loc sm, en_model parts cls = Some m ->
  read_proxy parts (read n parts) (sub cls "part" Strict) eas loc (St (fresh_part (S d)) sm) =
  (let (o, s') := read_model (read n parts) m eas loc (St (fresh_part d) (sset loc (-1)%Z sm)) in
   (o, St (set_next 1 (set_elems [st_el s'] (fresh_part (S d)))) (st_sm s'))) /\
  t_proxy parts (read n parts) (trace n parts) (sub cls "part" Strict) eas loc (St (fresh_part (S d)) sm) =
  t_model (read n parts) (trace n parts) cls m eas loc (St (fresh_part d) (sset loc (-1)%Z sm)).
Proof.
  intros n cls m d eas loc sm Hm. unfold read_proxy, t_proxy. cbn [px_model sub]. rewrite Hm. cbn [px_computed px_name px_mode].
  destruct d; split; reflexivity.
Qed.

Lemma nested_reads : forall d n, d < n -> forall eas loc sm,
  (exists err sm', read_model (read n parts) special eas loc (St (fresh_part d) sm) = (Raise (XValidation err), St (seen d) sm')) /\
  (exists v sm', read_model (read n parts) plain eas loc (St (fresh_part d) sm) = (Ok v, St (seen d) sm') /\ v <> VNone) /\
  S (count is_validation (t_model (read n parts) (trace n parts) "Special" special eas loc (St (fresh_part d) sm))) = 2 ^ S d /\
  S (count is_validation (t_model (read n parts) (trace n parts) "Plain" plain eas loc (St (fresh_part d) sm))) = 2 ^ S d.
Proof.
  intros d; induction d as [|d IH]; intros n Hn eas loc sm; (destruct n as [|n]; [lia|]).
  - split; [do 2 eexists; reflexivity|]. split; [do 2 eexists; split; [reflexivity|discriminate]|]. split; reflexivity.
  - (* the union read from an element with one part inside *)
    assert (U : forall sm, exists v sm',
      read (S n) parts part_union eas [LKey "part"] (St (fresh_part (S d)) sm) = (Ok v, St (seen (S d)) sm') /\ v <> VNone /\
      S (S (count is_validation (trace (S n) parts part_union eas [LKey "part"] (St (fresh_part (S d)) sm)))) = 2 ^ S (S d)).
    { intros sm0. cbn [read trace]. unfold part_union. cbn [read_step trace_step]. unfold read_union_model. cbn [map].
      assert (Es : forall sm, set_el (create_snapshot (fresh_part (S d))) (St (fresh_part (S d)) sm) = St (fresh_part (S d)) sm)
        by (intros; rewrite create_snapshot_id; reflexivity).
      cbn [read_variants t_variants]. cbn [st_el]. rewrite Es.
      destruct (@proxy_step n "Special" special d eas [LKey "part"] sm0 eq_refl) as [-> ->].
      destruct (IH n ltac:(lia) eas [LKey "part"] (sset [LKey "part"] (-1)%Z sm0)) as ((err & sm1 & E1) & _ & C1 & _).
      rewrite E1. cbn [st_el st_sm]. rewrite Es.
      destruct (@proxy_step n "Plain" plain d eas [LKey "part"] sm1 eq_refl) as [-> ->].
      destruct (IH n ltac:(lia) eas [LKey "part"] (sset [LKey "part"] (-1)%Z sm1)) as (_ & (v & sm2 & E2 & Hv) & _ & C2).
      rewrite E2. cbn [st_el st_sm]. exists v, sm2.
      split; [destruct v; try congruence; reflexivity|]. split; auto.
      replace (2 ^ S (S d)) with (2 ^ S d + 2 ^ S d) by (simpl; lia). rewrite <- C1 at 1. rewrite <- C2.
      unfold count. rewrite filter_app, app_length.
      destruct v; try congruence; rewrite filter_app, app_length; simpl; lia. }
    assert (K : forall sm0, read (S n) parts (SAttr "kind" false) eas [LKey "kind"] (St (fresh_part (S d)) sm0) = (Ok VNone, St (fresh_part (S d)) sm0)) by reflexivity.
    assert (Lk : forall name sm0, note_line [LKey name] (St (fresh_part (S d)) sm0) = St (fresh_part (S d)) (sset [LKey name] (-1)%Z sm0)) by reflexivity.
    remember (fresh_part (S d)) as fp eqn:Ef. remember (seen (S d)) as sn eqn:Esn.
    unfold read_model, t_model, special, plain, plain_model. cbn [md_root]. unfold read_plain_model, t_plain_model. cbn [md_fields].
    cbn [read_fields t_fields t_field md_cval md_valias]. cbv zeta. cbn [md_cval]. unfold t_field. cbn [md_cval].
    rewrite !Lk, !K. rewrite !Lk.
    destruct (U (sset [LKey "part"] (-1)%Z (sset [LKey "kind"] (-1)%Z sm))) as (v1 & sm1 & E1 & V1 & C1).
    destruct (U (sset [LKey "part"] (-1)%Z sm)) as (v2 & sm2 & E2 & V2 & C2).
    cbn [trace trace_step] in C1, C2. cbn [trace trace_step].
    rewrite E1, E2.
    split; [destruct v1; try congruence; do 2 eexists; reflexivity|].
    split; [destruct v2; try congruence; do 2 eexists; (split; [reflexivity|discriminate])|].
    unfold count in *.
    split; [destruct v1; try congruence|destruct v2; try congruence]; rewrite !filter_app, !app_length; simpl in *; lia.
Qed.

(** two classes and a document of [d + 1] elements, which is read; [2^(d+1) - 1] validations are made *)
Theorem C78_exponential_refuted : exists ev cls (doc : nat -> native), frugal 2 ev /\ yields_instances ev /\
  forall d eas, elements (doc d) = S d /\ at_most_wide 1 (doc d) /\ exists n0, forall n, n0 <= n ->
    (exists v, from_xml_tree n ev cls (doc d) eas = Ok v) /\
    S (count is_validation (calls n ev cls (doc d) eas)) = 2 ^ S d.
Proof.
  exists parts, "Plain", nested. destruct parts_frugal as [F Y]. split; [auto|]. split; [auto|]. intros d eas.
  split; [induction d as [|d IH]; [reflexivity|]; cbn [nested elements fold_right]; rewrite IH; lia|].
  assert (NC : forall d, is_xml_comment (nested d) = false) by (intros []; reflexivity).
  split; [induction d as [|d IH]; constructor; cbn [nested inside filter length]; rewrite ?NC; cbn [negb length]; auto|].
  exists (S d). intros n Hn. destruct (@nested_reads d n ltac:(lia) eas [] []) as (_ & (v & sm' & E & _) & _ & C).
  assert (T : tag_is (native_tag (nested d)) "part" = true) by (destruct d; reflexivity).
  split.
  - exists v. unfold from_xml_tree. change (en_model parts "Plain") with (Some plain).
    cbv iota beta. change (md_elem_name plain) with "part". rewrite T. change (en_backend parts) with Lxml.
    change (from_native Lxml (nested d)) with (fresh_part d). rewrite E; reflexivity.
  - unfold calls. change (en_model parts "Plain") with (Some plain).
    cbv iota beta. change (md_elem_name plain) with "part". rewrite T. change (en_backend parts) with Lxml.
    change (from_native Lxml (nested d)) with (fresh_part d). exact C.
Qed.

(** non-vacuity: reading the Node document makes three validations, innermost first; Node has no unions *)
Example C78_ex_linear : frugal 0 (Env Lxml (fun c => if String.eqb c "Node" then Some (node Ordered) else None)) /\
  map (fun c => match c with CValidate cls i => cls | CField cls f _ => f end)
      (calls 9 (lib Lxml Ordered) "Node" node_doc false) = ["Node"; "Node"; "Node"] /\
  elements node_doc = 6.
Proof.
  split; [|split; vm_compute; reflexivity]. intros cls m H. simpl in H. destruct (String.eqb cls "Node"); [|discriminate]. injection H as <-.
  unfold node, plain_model; cbn [md_fields md_cval]. split; [repeat constructor|]. split; [|discriminate].
  simpl. repeat constructor; simpl; intuition discriminate.
Qed.

(** a field validator that takes the first child named "note" and leaves the rest is one that only reads *)
Definition take_note (e : elem) : out val * elem :=
  match pop_element e "note" Ordered with
  | (Found i, e') => (Ok (VStr "noted"), e')
  | (_, e') => (Ok VNone, e')
  end.
Lemma less_left_refl : forall e, less_left e e.
Proof.
  intros e; induction e as [tag ns text tail attrib l next line IH] using elem_ind'.
  apply less_intro with (from := l) (dropped := []); cbn [e_elems e_next]; auto.
  - rewrite app_nil_r; auto.
  - clear -IH. induction IH; constructor; auto.
Qed.
Example C78_ex_custom : forall e, less_left e (snd (take_note e)).
Proof.
  intros e. unfold take_note, pop_element. destruct (search Ordered e "note" false true) as [r e'] eqn:E.
  apply search_cases in E as (l & n & P & -> & Hn & _).
  assert (L : less_left e (set_next n (set_elems l e))).
  { apply less_intro with (from := l) (dropped := []); simpl.
    - rewrite (Permutation_length P). lia.
    - rewrite app_nil_r; auto.
    - clear. induction l; constructor; auto. apply less_left_refl. }
  destruct r; exact L.
Qed.

(** the hypotheses of the theorems on recorded calls are met: a second program in which validation raises *)
Definition raising : env :=
  Env Lxml (fun c => option_map (fun m => with_code m (md_cser m) (md_cval m) (fun _ => Crashed "boom")) (en_model (lib Lxml Ordered) c)).
Example C78_ex_raising : same_classes (lib Lxml Ordered) raising /\
  (forall c, is_validation c = false -> agree (lib Lxml Ordered) raising c) /\
  (forall c, is_validation c = true -> raises raising "boom" c) /\
  from_xml_tree 9 raising "Node" node_doc false = Raise (XUser "boom").
Proof.
  assert (NC : forall cls m, en_model (lib Lxml Ordered) cls = Some m -> forall f, md_cval m f = None).
  { intros cls m H f. unfold lib in H. cbn [en_model] in H.
    repeat (match type of H with (if ?b then _ else _) = _ => destruct b; [injection H as <-; reflexivity|] end). discriminate. }
  split; [split; [reflexivity|]|].
  - intros cls. change (en_model raising cls) with (option_map (fun m => with_code m (md_cser m) (md_cval m) (fun _ => Crashed "boom")) (en_model (lib Lxml Ordered) cls)). destruct (en_model (lib Lxml Ordered) cls) as [m|]; simpl; auto.
    split; [reflexivity|]. intros name. destruct (md_cval m name); simpl; auto.
  - split; [|split].
    + intros [cls i|cls f e] H; [discriminate|]. intros a; simpl. split.
      * intros (m & g & Hm & Hg & _). rewrite (NC cls m Hm f) in Hg; discriminate.
      * intros (m & g & Hm & Hg & Ha). change (option_map (fun m => with_code m (md_cser m) (md_cval m) (fun _ => Crashed "boom")) (en_model (lib Lxml Ordered) cls) = Some m) in Hm.
        destruct (en_model (lib Lxml Ordered) cls) as [m0|] eqn:E; [|simpl in Hm; discriminate Hm]. simpl in Hm. injection Hm as <-. simpl in Hg. rewrite (NC cls m0 E f) in Hg; discriminate.
    + intros [cls i|cls f e] H; [|discriminate H]. intros a (m & Hm & ->). left. change (option_map (fun m => with_code m (md_cser m) (md_cval m) (fun _ => Crashed "boom")) (en_model (lib Lxml Ordered) cls) = Some m) in Hm.
      destruct (en_model (lib Lxml Ordered) cls) as [m0|]; [|simpl in Hm; discriminate Hm]. simpl in Hm. injection Hm as <-. reflexivity.
    + vm_compute; reflexivity.
Qed.

Print Assumptions C78_only_recorded_calls.
Print Assumptions C78_recorded_calls_are_made.
Print Assumptions C78_validated_last.
Print Assumptions C78_validations_linear.
Print Assumptions C78_field_validator_linear.
Print Assumptions C78_validations_unions.
Print Assumptions C78_field_validator_unions.
Print Assumptions C78_exponential_refuted.
