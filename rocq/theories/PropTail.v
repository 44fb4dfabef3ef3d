(** PropTail.v -- C86: elements nobody asks for, behind all others, do not matter in any search mode. *)

From Coq Require Import Relation_Operators.
From Verif Require Import Base Elem Native Errs Names Ser Write Read Api SpecElem SpecRead SpecSim SpecRead2 SpecRound SpecStray SpecAttrs
  SpecWrite SpecOut SpecTail SpecEvolve PfFuel PfOut5 PfAttrs PfTail PfEvolve2 PfEvolve3 Samples PropRead PropWrite PropStray PropAttrs PropOut PropRound
  PropEvolve.

(** C86.  Let [U] hold tags that no field asks for and [W] the names of raw elements.  A document and the same document
    with more children with such tags at the end of any elements (comments and processing instructions, too) give the
    same value or the very same error.  The classes may search in any mode, each in its own. *)
Theorem C86_trailing_elements_ignored : forall U W ev, env_looks U W ev -> tails_unseen U W ev -> forbids_nothing ev ->
  forall n cls root root' eas, same_but_tail U W root root' ->
  from_xml_tree n ev cls root eas = from_xml_tree n ev cls root' eas.
Proof. intros U W ev HL HS HF n cls root root' eas H. eapply tail_run; eauto. Qed.
Print Assumptions C86_trailing_elements_ignored.

(** C86 with C83: any number of revisions, each of which adds or removes attributes nobody asks for, or adds or removes
    such elements at the end *)
Definition revision (A : string -> string -> bool) (U W : string -> bool) (root root' : native) : Prop :=
  same_but_attrs A W root root' \/ same_but_tail U W root root' \/ same_but_tail U W root' root.

Theorem C86_revisions_ignored : forall A U W ev, env_attrs A W ev -> attrs_unseen A W ev -> env_looks U W ev -> tails_unseen U W ev ->
  forbids_nothing ev ->
  forall n cls m root root' eas, en_model ev cls = Some m -> (forall k, takes_attr m k -> A (md_elem_name m) k = true) ->
  clos_refl_trans_1n _ (revision A U W) root root' ->
  from_xml_tree n ev cls root eas = from_xml_tree n ev cls root' eas.
Proof.
  intros A U W ev HA HS HL HT HF n cls m root root' eas Em Hm H.
  induction H as [r|r r1 r2 [X|[X|X]] H IH]; auto; rewrite <- IH.
  - eapply C83_unread_attributes_ignored; eauto.
  - eapply C86_trailing_elements_ignored; eauto.
  - symmetry. eapply C86_trailing_elements_ignored; eauto.
Qed.
Print Assumptions C86_revisions_ignored.

(** C86 for classes: the new fields of C85, but no old field that is written as children stands behind a new one that is
    ([env_appended]).  Then programs with the old classes, in any search mode, strict mode (the default) included, make of
    the new document exactly what they make of the old one. *)
Theorem C86_appended_fields_ignored : forall U A T W new ev ev',
  evolved U A new ev ev' -> env_appended new ev' -> names_apart T W ev -> env_looks U W ev -> env_attrs A W ev ->
  attrs_unseen A W ev -> tails_unseen U W ev -> forbids_nothing ev -> no_customs ev -> no_customs ev' ->
  forall cls m attrs' set' v encode encode' fl k doc',
  en_model ev cls = Some m -> (forall k, takes_attr m k -> A (md_elem_name m) k = true) -> fl_skip_empty fl = false ->
  trimmed_instance ev U cls v (encode v) (VModel cls attrs' set') (encode' (VModel cls attrs' set')) ->
  raws_apart ev' (VModel cls attrs' set') ->
  to_xml_tree k ev' encode' (VModel cls attrs' set') fl = Ok doc' ->
  exists doc, (exists N, forall n, N <= n -> to_xml_tree n ev encode v fl = Ok doc) /\
    forall n eas, from_xml_tree n ev cls doc eas = from_xml_tree n ev cls doc' eas.
Proof.
  intros U A T W new ev ev' HE HP HN HU HA SA ST Fb NC NC' cls m attrs' set' v encode encode' fl k doc' Em Hm Fl Tr Ra Wr.
  apply written_document in Wr; auto.
  destruct (@evolved_document U A T W true new ev ev' HE HN HU (fun _ => HP) cls fl v (encode v) _ _ doc' Fl Tr (ex_intro _ attrs' (ex_intro _ set' eq_refl)) Wr)
    as (doc & D & mid & M1 & _ & _ & _ & M2).
  exists doc. split; [apply document_written; auto|]. intros n eas.
  rewrite (@C83_unread_attributes_ignored A W ev HA SA Fb n cls m doc mid eas Em Hm M1).
  eapply C86_trailing_elements_ignored; eauto.
Qed.
Print Assumptions C86_appended_fields_ignored.

(** ... and with C20 the old fields are recovered *)
Theorem C86_old_fields_recovered : forall U A T W new ev ev' eas,
  evolved U A new ev ev' -> env_appended new ev' -> names_apart T W ev -> env_looks U W ev -> env_attrs A W ev ->
  attrs_unseen A W ev -> tails_unseen U W ev -> forbids_nothing ev -> no_customs ev -> no_customs ev' -> keeps_apart ev eas ->
  forall cls m attrs' set' attrs set encode encode' fl k doc' rs w,
  en_model ev cls = Some m -> (forall k, takes_attr m k -> A (md_elem_name m) k = true) -> fl_skip_empty fl = false ->
  trimmed_instance ev U cls (VModel cls attrs set) (encode (VModel cls attrs set)) (VModel cls attrs' set') (encode' (VModel cls attrs' set')) ->
  raws_apart ev' (VModel cls attrs' set') ->
  kept_model ev eas fl m (VModel cls attrs set) (encode (VModel cls attrs set)) rs w ->
  to_xml_tree k ev' encode' (VModel cls attrs' set') fl = Ok doc' ->
  exists N, forall n, N <= n -> from_xml_tree n ev cls doc' eas = Ok w.
Proof.
  intros U A T W new ev ev' eas HE HP HN HU HA SA ST Fb NC NC' KA cls m attrs' set' attrs set encode encode' fl k doc' rs w Em Hm Fl Tr Ra Km Wr.
  destruct (@C86_appended_fields_ignored U A T W new ev ev' HE HP HN HU HA SA ST Fb NC NC' cls m attrs' set' _ encode encode' fl k doc' Em Hm Fl Tr Ra Wr)
    as (doc & (N1 & D1) & R).
  destruct (@C20_round_trip ev eas encode cls m (VModel cls attrs set) fl rs w KA (or_introl Fb) eq_refl Em Km) as (N2 & D2).
  exists (Nat.max N1 N2). intros n L.
  destruct (D2 n ltac:(lia)) as (doc2 & W2 & R2). rewrite (D1 n ltac:(lia)) in W2. injection W2 as <-.
  rewrite <- R. exact R2.
Qed.
Print Assumptions C86_old_fields_recovered.

(** ---- non-vacuity ---- *)

(** Shapes and Circle in unordered mode, Square and Node in strict mode *)
Definition mixed_lib : env :=
  Env Lxml (fun c => if String.eqb c "Square" || String.eqb c "Node" then en_model (lib Lxml Strict) c else en_model (lib Lxml Unordered) c).

Lemma mixed_looks : env_looks unknown raw_tags mixed_lib.
Proof.
  intros cls m E. unfold mixed_lib in E. cbn [en_model] in E.
  destruct (String.eqb cls "Square" || String.eqb cls "Node"); eapply (asks_looks (@lib_asks _)); eauto.
Qed.

Lemma mixed_unseen : tails_unseen unknown raw_tags mixed_lib.
Proof.
  intros cls m name f E C. unfold mixed_lib in E. cbn [en_model] in E.
  destruct (String.eqb cls "Square" || String.eqb cls "Node"); destruct (@lib_asks _ _ _ E) as [_ X]; rewrite X in C; discriminate.
Qed.

Lemma mixed_forbids_nothing : forbids_nothing mixed_lib.
Proof.
  intros cls m E. unfold mixed_lib in E. cbn [en_model] in E.
  destruct (String.eqb cls "Square" || String.eqb cls "Node"); eapply lib_forbids_nothing; eauto.
Qed.

(** shapes_doc with unknown elements and a comment at the end of the root, of variants of a union, of a wrapper, of an
    element whose text is read *)
Definition tailed_doc : native :=
  el "shapes" [] ""
    ([el "circle" [("r", "1")] "" ([] ++ [u; v]); el "square" [] "" ([el "a" [] "2" ([] ++ [u])] ++ [v; NComment (Some "c") None]); el "circle" [("r", "3")] "" [];
      el "meta" [] "" ([el "note" [] "hello" []; el "author" [(xsi_nil, "true")] "" ([] ++ [v])] ++ [u; u]);
      el "extra" [] "raw" [el "x" [] "" []]] ++ [v; NComment (Some "end") None; u]).

Ltac tailed := repeat first [apply sbt_same | apply sbt_elem; [reflexivity| |repeat constructor] | apply Forall2_nil | apply Forall2_cons].

Example C86_ex : same_but_tail unknown raw_tags shapes_doc tailed_doc /\ shapes_doc <> tailed_doc /\
  (exists w, from_xml_tree 9 mixed_lib "Shapes" shapes_doc false = Ok w /\ from_xml_tree 9 mixed_lib "Shapes" tailed_doc false = Ok w) /\
  (exists w, from_xml_tree 9 (lib Lxml Strict) "Shapes" shapes_doc false = Ok w /\
             from_xml_tree 9 (lib Lxml Strict) "Shapes" tailed_doc false = Ok w).
Proof.
  split; [unfold shapes_doc, tailed_doc, el; tailed|split; [discriminate|]].
  split; eexists; split; vm_compute; reflexivity.
Qed.

(** the same error with and without them: a circle without its radius *)
Example C86_ex_error : exists root root' err, same_but_tail unknown raw_tags root root' /\
  from_xml_tree 9 mixed_lib "Shapes" root false = Raise (XValidation err) /\
  from_xml_tree 9 mixed_lib "Shapes" root' false = Raise (XValidation err).
Proof.
  exists (el "shapes" [] "" [el "circle" [] "" []]), (el "shapes" [] "" ([el "circle" [] "" ([] ++ [u])] ++ [u; v])). eexists.
  split; [unfold el; tailed|split; vm_compute; reflexivity].
Qed.

(** trees in any search mode, new attribute anywhere, new element behind the children *)
Definition short_tree_m (mo : smode) : mdef :=
  filling_model "Tree" "tree" false
    [("id", SAttr "id" false); ("label", SElem "label" None mo false false);
     ("kids", SHomo "Tree" false (SProxy (sub "Tree" "tree" mo)) false)]
    [("id", VNone); ("label", VNone); ("kids", VList [])].
Definition long_tree_m (mo : smode) : mdef :=
  filling_model "Tree" "tree" false
    [("id", SAttr "id" false); ("label", SElem "label" None mo false false); ("color", SAttr "color" false);
     ("kids", SHomo "Tree" false (SProxy (sub "Tree" "tree" mo)) false); ("mark", SElem "mark" None mo false false)]
    [("id", VNone); ("label", VNone); ("color", VNone); ("kids", VList []); ("mark", VNone)].
Definition short_forest (mo : smode) (b : backend) : env := Env b (fun c => if String.eqb c "Tree" then Some (short_tree_m mo) else None).
Definition long_forest (mo : smode) (b : backend) : env := Env b (fun c => if String.eqb c "Tree" then Some (long_tree_m mo) else None).

Lemma short_takes : forall mo k, takes_attr (short_tree_m mo) k -> tree_names (md_elem_name (short_tree_m mo)) k = true.
Proof.
  intros mo k H. unfold takes_attr in H; simpl in H.
  repeat match goal with X : Exists _ _ |- _ => inversion X; subst; clear X end; simpl in *;
    repeat match goal with X : own_attr _ _ |- _ => inversion X; subst; clear X end; reflexivity.
Qed.

Lemma forest_env : forall mo b, env_looks mark_tag nothing (short_forest mo b) /\ env_attrs tree_names nothing (short_forest mo b) /\
  attrs_unseen tree_names nothing (short_forest mo b) /\ tails_unseen mark_tag nothing (short_forest mo b) /\
  forbids_nothing (short_forest mo b) /\ no_customs (short_forest mo b) /\ no_customs (long_forest mo b) /\
  names_apart nothing nothing (short_forest mo b).
Proof.
  intros mo b. split; [|split; [|split; [|split; [|split; [|split; [|split; [|split]]]]]]].
  - intros cls m E. a_tree E. repeat constructor.
  - intros cls m E. a_tree E. repeat first [apply Forall_nil|apply Forall_cons]; simpl; constructor; try discriminate.
    constructor. split; [reflexivity|]. intros m k E. injection E as <-. apply short_takes.
  - intros cls m name f E C. a_tree E. discriminate.
  - intros cls m name f E C. a_tree E. discriminate.
  - intros cls m E. a_tree E. reflexivity.
  - intros cls m name E. a_tree E. reflexivity.
  - intros cls m name E. a_tree E. reflexivity.
  - reflexivity.
  - intros cls m name s E I. a_tree E. split; [reflexivity|]. intros t St. simpl in I.
    repeat match type of I with _ \/ _ => destruct I as [I|I] | False => contradiction end; injection I as <- <-;
      repeat match goal with X : step_of _ _ |- _ => inversion X; subst; clear X end.
Qed.

Lemma forest_evolved : forall mo b, evolved mark_tag tree_names tree_added (short_forest mo b) (long_forest mo b).
Proof.
  intros mo b. split; [reflexivity|]. intros cls m E. a_tree E. exists (long_tree_m mo). split; [reflexivity|].
  constructor; try reflexivity; try (split; [reflexivity|discriminate]); try discriminate.
  exists (String.eqb "color"). split.
  - repeat first [apply ef_nil|apply ef_old; [reflexivity|]|apply ef_attr; [reflexivity|reflexivity|]
        |apply ef_child; [reflexivity|constructor; reflexivity|simpl; tauto|]].
  - intros k t Hk H. apply String.eqb_eq in Hk; subst k. reflexivity.
Qed.

Lemma forest_appended : forall mo b, env_appended tree_added (long_forest mo b).
Proof.
  intros mo b cls m E before f behind Q N I g Ig G. a_tree E. simpl in Q.
  do 5 (destruct before as [|? before]; simpl in Q;
    [injection Q as <- <-; simpl in *; try discriminate N; try (exfalso; apply I; constructor; fail); destruct Ig|injection Q as _ Q]).
  destruct before; discriminate Q.
Qed.

(** a tree and the same tree with marks and colours *)
Definition long_tree (id label color : string) (kids : list val) (mark : string) : val :=
  VModel "Tree" [("id", VStr id); ("label", VStr label); ("color", VStr color); ("kids", VList kids); ("mark", VStr mark)]
         ["id"; "label"; "color"; "kids"; "mark"].
Inductive extended : val -> val -> Prop :=
| extended_intro : forall id label mark color kids kids', label <> "" -> Forall2 extended kids kids' ->
    extended (tree id label kids) (long_tree id label color kids' mark).
Fixpoint extended_ind' (P : val -> val -> Prop)
    (H : forall id label mark color kids kids', label <> "" -> Forall2 extended kids kids' -> Forall2 P kids kids' ->
         P (tree id label kids) (long_tree id label color kids' mark))
    (v v' : val) (t : extended v v') : P v v' :=
  match t in extended v v' return P v v' with
  | extended_intro id mark color N F =>
      H id _ mark color _ _ N F ((fix all l l' (f : Forall2 extended l l') : Forall2 P l l' :=
         match f in Forall2 _ l l' return Forall2 P l l' with
         | Forall2_nil _ => Forall2_nil P
         | Forall2_cons x y hx hl => Forall2_cons x y (@extended_ind' P H x y hx) (all _ _ hl)
         end) _ _ F)
  end.

Lemma extended_trimmed : forall mo b v v', extended v v' -> trimmed_instance (short_forest mo b) mark_tag "Tree" v (jsonable v) v' (jsonable v').
Proof.
  intros mo b v v' M. induction M as [id label mark color kids kids' N F IH] using extended_ind'.
  unfold tree, long_tree. eapply ti_fields; [reflexivity|reflexivity|]. simpl. intros name s I.
  destruct I as [I|[I|[I|[]]]]; injection I as <- <-; (split; [a_field|simpl; intuition discriminate]).
  - apply tm_atom; exact I.
  - apply tm_atom; exact I.
  - pose proof (@tm_list (short_forest mo b) mark_tag "Tree" false (SProxy (sub "Tree" "tree" mo)) false
      (map (fun k => (k, jsonable k)) kids) (map (fun k => (k, jsonable k)) kids')) as P.
    rewrite !map_map in P. simpl in P. rewrite !map_id in P. apply P. clear P.
    clear -F IH. induction IH as [|k k' kids kids' T1 F1 IHf]; simpl; [constructor|]. inversion F; subst. constructor; auto. simpl.
    match goal with X : extended k k' |- _ => inversion X; subst end. apply tm_model. exact T1.
Qed.

Lemma extended_kept : forall mo b v v', extended v v' ->
  exists rs, kept_model (short_forest mo b) false plain_flags (short_tree_m mo) v (jsonable v) rs v.
Proof.
  intros mo b v v' M. induction M as [id label mark color kids kids' N F IH] using extended_ind'. eexists. unfold tree. simpl.
  eapply kept_plain with (rs := [("id", VStr id); ("label", VStr label); ("kids", list_back kids)]); auto.
  - eapply kept_field; [split; auto; discriminate|reflexivity|reflexivity|eapply kept_attr; reflexivity|right; auto|].
    eapply kept_field; [split; auto; discriminate|reflexivity|reflexivity|eapply kept_elem; try reflexivity; discriminate|right; split; auto|].
    { simpl. unfold text_back. destruct (String.eqb_spec label ""); auto. congruence. }
    eapply kept_field with (r := list_back kids); [split; auto; discriminate|reflexivity|reflexivity| |right; auto|apply kept_no_fields].
    apply kept_list. clear N. revert IH. induction F as [|k k' kids kids' Tk F IHk]; simpl; intros IH; [constructor|].
    inversion IH as [|? ? ? ? (rs & Kk) IH']; subst.
    assert (Nk : exists a s, k = VModel "Tree" a s) by (inversion Tk; unfold tree; eauto). destruct Nk as (a & s & Ek).
    constructor; auto; try (rewrite Ek; discriminate); [rewrite Ek; auto|].
    apply kept_submodel with (m := short_tree_m mo) (rs := rs); auto; try discriminate.
  - unfold read_data. simpl. destruct kids; reflexivity.
Qed.

Lemma extended_raws : forall v v', extended v v' -> forall n, ~ raw_in n v'.
Proof.
  intros v v' M. induction M as [id label mark color kids kids' N F IH] using extended_ind'. intros n H. unfold long_tree in H.
  inversion H as [| |cls attrs set name x I R]; subst. simpl in I.
  repeat match type of I with _ \/ _ => destruct I as [I|I] | False => contradiction end; injection I as <- <-; inversion R as [|l x I' R'|]; subst.
  clear -IH I' R'. induction IH as [|k k' kids kids' T1 F1 IHf]; simpl in I'; [contradiction|]. destruct I' as [->|I']; auto. eapply T1; eauto.
Qed.

Lemma short_forest_apart : forall mo b, keeps_apart (short_forest mo b) false.
Proof.
  intros mo b cls md E. a_tree E. split; [|repeat constructor]. simpl.
  apply apart_direct; [constructor; discriminate| | | | | | |]; simpl; auto; try discriminate; try tauto.
  apply apart_direct; [apply df_one; constructor| | | | | | |]; simpl; auto; try discriminate; try tauto.
  2:{ intros t [<-|[]] [E|[]]; discriminate. }
  apply apart_direct; [apply df_list; constructor; discriminate| | | | | | |]; simpl; auto; try discriminate; try tauto. constructor.
Qed.

(** whatever the marks and colours, however deep the tree and whatever the search mode, the old program reads the tree *)
Example C86_trees : forall mo b v v', extended v v' -> forall k doc', to_xml_tree k (long_forest mo b) jsonable v' plain_flags = Ok doc' ->
  exists N, forall n, N <= n -> from_xml_tree n (short_forest mo b) "Tree" doc' false = Ok v.
Proof.
  intros mo b v v' M k doc' Wr. destruct (forest_env mo b) as (H1 & H2 & H3 & H4 & H5 & H6 & H7 & H8). destruct (extended_kept mo b M) as [rs K].
  pose proof (extended_trimmed mo b M) as Tr. pose proof (extended_raws M) as Nr.
  assert (X : exists a s a' s', v = VModel "Tree" a s /\ v' = VModel "Tree" a' s') by (inversion M; unfold tree, long_tree; eauto 6).
  destruct X as (a & s & a' & s' & -> & ->).
  eapply (@C86_old_fields_recovered mark_tag tree_names nothing nothing tree_added (short_forest mo b) (long_forest mo b) false (forest_evolved mo b)
    (forest_appended mo b) H8 H1 H2 H3 H4 H5 H6 H7 (short_forest_apart mo b) "Tree" (short_tree_m mo) a' s' a s jsonable jsonable plain_flags k doc' rs);
    auto using short_takes.
  intros n R. destruct (Nr n R).
Qed.

Definition sample_tree : val := tree "1" "a" [tree "2" "b" []; tree "3" "c" [tree "4" "d" []]].
Definition sample_long : val :=
  long_tree "1" "a" "red" [long_tree "2" "b" "blue" [] "x"; long_tree "3" "c" "red" [long_tree "4" "d" "green" [] "w"] "y"] "z".
Example C86_ex_trees : extended sample_tree sample_long /\ exists doc',
  to_xml_tree 9 (long_forest Strict Lxml) jsonable sample_long plain_flags = Ok doc' /\
  from_xml_tree 16 (short_forest Strict Lxml) "Tree" doc' false = Ok sample_tree.
Proof.
  split; [unfold sample_tree, sample_long; repeat (constructor; try discriminate)|]. eexists; split; [vm_compute; reflexivity|vm_compute; reflexivity].
Qed.

(** ---- the limits ---- *)

(** Anywhere else than at the end such an element counts in strict mode (C39_strict_refuted).  At the end of a raw
    element it belongs to the value; with extra='forbid' it is an error if it holds anything. *)
Theorem C86_raw_or_forbidden_refuted : exists cls m forbidding doc doc' full full' w w' err,
  md_fields m = [("any", SRaw "any" Strict false)] /\ md_fields forbidding = [] /\ md_forbid forbidding = true /\
  doc = el "m" [] "" [el "any" [] "1" []] /\ doc' = el "m" [] "" [el "any" [] "1" [el "u" [] "2" []]] /\
  from_xml_tree 9 (one cls m (fun _ => None)) cls doc false = Ok w /\
  from_xml_tree 9 (one cls m (fun _ => None)) cls doc' false = Ok w' /\ w <> w' /\
  full = el "m" [] "" [] /\ full' = el "m" [] "" [el "u" [] "2" []] /\
  from_xml_tree 9 (one cls forbidding (fun _ => None)) cls full false = Ok (VModel cls [] []) /\
  from_xml_tree 9 (one cls forbidding (fun _ => None)) cls full' false = Raise (XValidation err).
Proof.
  exists "M", (plain_model "M" "m" [("any", SRaw "any" Strict false)] []),
    (MDef "M" false "m" None [] [] [] false true None (fun _ => None) (fun _ => None) (accepts "M" [])).
  eexists _, _, _, _, _, _, _. split; [reflexivity|]. split; [reflexivity|]. split; [reflexivity|]. split; [reflexivity|]. split; [reflexivity|].
  split; [vm_compute; reflexivity|]. split; [vm_compute; reflexivity|]. split; [discriminate|]. split; [reflexivity|]. split; [reflexivity|].
  split; vm_compute; reflexivity.
Qed.
Print Assumptions C86_raw_or_forbidden_refuted.
