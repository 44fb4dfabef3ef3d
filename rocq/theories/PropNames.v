(** PropNames.v -- C13-C17, C47, C48: names, namespaces, class parameters, annotations. *)

From Verif Require Import Base Elem Native Errs Names Fields SpecNames PfNames.

(** C13.  Splitting a written name gives back namespace and tag. *)
Theorem C13_qname_round_trip : forall ns tag, plain_ns ns -> plain_tag tag ->
  from_uri (uri (QName tag (Some ns))) = QName tag (Some ns).
Proof. exact uri_from_uri. Qed.

Theorem C13_qname_round_trip_no_namespace : forall tag, plain_tag tag ->
  from_uri (uri (QName tag None)) = QName tag None.
Proof. exact uri_from_uri_plain. Qed.

(** C13.  Different qualified names are written differently. *)
Theorem C13_qname_injective : forall q1 q2,
  plain_tag (q_tag q1) -> plain_tag (q_tag q2) ->
  (forall ns, q_ns q1 = Some ns -> plain_ns ns) -> (forall ns, q_ns q2 = Some ns -> plain_ns ns) ->
  uri q1 = uri q2 -> q1 = q2.
Proof. exact uri_injective. Qed.

(** C14.  Alias resolution is exactly [resolves] ... *)
Theorem C14_alias_resolution : forall tag ns m is_attr u,
  from_alias tag ns m is_attr = Ok (QName tag u) <-> resolves m is_attr ns u.
Proof. exact from_alias_resolves. Qed.

(** ... and otherwise it is a ModelError, exactly for an undeclared alias under a non-empty map *)
Theorem C14_alias_errors : forall tag ns m is_attr,
  (exists u, from_alias tag ns m is_attr = Ok (QName tag u)) \/
  (from_alias tag ns m is_attr = Raise XModelError /\
   ~ declares_nothing m /\ exists a, ns = Some a /\ forall u, ~ declares m a u).
Proof. exact from_alias_total. Qed.

(** C15.  The first map declaring a prefix wins; the first namespace that is not None wins. *)
Theorem C15_merge_priority : forall maps p,
  (forall m, In (Some m) maps -> NoDup (dkeys m)) ->
  is_first (says p) maps (dget p (merge_nsmaps maps)).
Proof. exact merge_nsmaps_first. Qed.

Theorem C15_select_ns_first : forall nss, is_first (fun o => o) nss (select_ns nss).
Proof. exact select_ns_first. Qed.

(** C16.  [ds] are the class statements from the most basic class to the class itself. *)
Theorem C16_inherited_tag : forall ds, is_last d_tag ds (chain_get c_tag (class_chain ds)).
Proof. exact chain_tag. Qed.

Theorem C16_inherited_ns : forall ds, is_last d_ns ds (chain_get c_ns (class_chain ds)).
Proof. exact chain_ns. Qed.

Theorem C16_inherited_skip_empty : forall ds,
  is_last d_skip_empty ds (chain_get c_skip_empty (class_chain ds)).
Proof. exact chain_skip. Qed.

Theorem C16_inherited_ns_attrs : forall ds p, class_chain ds = Some p ->
  exists o, is_last d_ns_attrs ds o /\ c_ns_attrs p = default false o.
Proof. exact chain_ns_attrs. Qed.

Theorem C16_inherited_search_mode : forall ds p, class_chain ds = Some p ->
  exists o, is_last d_mode ds o /\ c_mode p = default Strict o.
Proof. exact chain_mode. Qed.

Theorem C16_inherited_nsmap : forall k ds,
  (forall d m, In d ds -> d_nsmap d = Some m -> NoDup (dkeys m)) ->
  is_last (fun d => says k (d_nsmap d)) ds (says k (chain_get c_nsmap (class_chain ds))).
Proof. exact chain_nsmap. Qed.

(** C17.  For each parameter the last annotation that sets it wins. *)
Theorem C17_merge_last_wins : forall l,
  is_last ei_location l (ei_location (merge_infos l)) /\
  is_last ei_path l (ei_path (merge_infos l)) /\
  is_last ei_ns l (ei_ns (merge_infos l)) /\
  is_last ei_nillable l (ei_nillable (merge_infos l)) /\
  is_last ei_wrapped l (ei_wrapped (merge_infos l)).
Proof.
  exact (fun l => conj (@merge_last _ ei_location (fun _ _ => eq_refl) eq_refl l)
                 (conj (@merge_last _ ei_path (fun _ _ => eq_refl) eq_refl l)
                 (conj (@merge_last _ ei_ns (fun _ _ => eq_refl) eq_refl l)
                 (conj (@merge_last _ ei_nillable (fun _ _ => eq_refl) eq_refl l)
                       (@merge_last _ ei_wrapped (fun _ _ => eq_refl) eq_refl l))))).
Qed.

Theorem C17_merge_nsmap_last_wins : forall p l, Forall good_map l ->
  is_last (fun i => says p (ei_nsmap i)) l (says p (ei_nsmap (merge_infos l))).
Proof. exact merge_says. Qed.

(** merging is associative *)
Theorem C17_merge_associative : forall l1 l2, Forall good_map l1 -> Forall good_map l2 ->
  same_info (merge_infos (l1 ++ l2)) (merge_infos [merge_infos l1; merge_infos l2]).
Proof. exact merge_infos_app. Qed.

(** and an annotation with nothing set is neutral *)
Theorem C17_merge_neutral_right : forall a, same_info (merge_step a empty_info) a.
Proof. exact merge_empty_r. Qed.

Theorem C17_merge_neutral_left : forall a, good_map a -> same_info (merge_step empty_info a) a.
Proof. exact merge_empty_l. Qed.

(** C47. *)
Theorem C47_registered_prefixes : forall m p u, In (p, u) (register_nsmap m) <->
  In (p, u) m /\ p <> "" /\ ~ ns_number p.
Proof. exact register_exact. Qed.

(** C48. *)
Theorem C48_switch_values : forall v,
  (strtobool v = Ok true <-> exists w, In w ["y"; "yes"; "t"; "true"; "on"; "1"] /\ same_letters v w) /\
  (strtobool v = Ok false <-> exists w, In w ["n"; "no"; "f"; "false"; "off"; "0"] /\ same_letters v w) /\
  (strtobool v = Raise XValueError \/ strtobool v = Ok true \/ strtobool v = Ok false).
Proof. exact strtobool_exact. Qed.

(** ---- concrete instances ---- *)

Lemma not_occurs : forall c s, forallb (fun x => negb (Ascii.eqb c x)) (list_ascii_of_string s) = true -> ~ occurs c s.
Proof.
  intros c s H (a & b & ->). induction a as [|x a IH]; simpl in H.
  - rewrite Ascii.eqb_refl in H; discriminate.
  - apply andb_true_iff in H as [_ H]; auto.
Qed.

Example C13_instance : plain_ns "http://a{b}" /\ plain_tag "tag" /\
  uri (QName "tag" (Some "http://a{b}")) = "{http://a{b}}tag".
Proof. repeat split; try discriminate; apply not_occurs; reflexivity. Qed.

Example C14_instance :
  resolves (Some [("x", "u1"); ("", "u2")]) false (Some "x") (Some "u1") /\
  from_alias "t" (Some "y") (Some [("x", "u1")]) false = Raise XModelError /\
  from_alias "t" (Some "y") None false = Ok (QName "t" None).
Proof. split; [constructor; eexists; split; reflexivity|split; reflexivity]. Qed.

Example C15_instance :
  dget "p" (merge_nsmaps [None; Some [("q", "1")]; Some [("p", "2"); ("q", "3")]]) = Some "2" /\
  dget "q" (merge_nsmaps [None; Some [("q", "1")]; Some [("p", "2"); ("q", "3")]]) = Some "1" /\
  (forall m, In (Some m) [None; Some [("q", "1")]; Some [("p", "2"); ("q", "3")]] -> NoDup (@dkeys string m)).
Proof.
  split; [reflexivity|split; [reflexivity|]].
  intros m [H|[H|[H|[]]]]; try discriminate; injection H as <-; repeat constructor; simpl; intuition discriminate.
Qed.

Example C16_instance :
  chain_get c_nsmap (class_chain
    [CDecl (Some "a") None (Some [("p", "1"); ("q", "2")]) None None (Some Ordered);
     CDecl None (Some "p") (Some [("q", "3")]) None None None]) = Some [("p", "1"); ("q", "3")].
Proof. reflexivity. Qed.

Example C17_instance :
  Forall good_map [EInfo (Some LocElement) None (Some "n") (Some [("a", "1")]) None None;
                   EInfo None (Some "t") None (Some [("a", "2"); ("b", "3")]) None None] /\
  ei_path (merge_infos [EInfo (Some LocElement) None (Some "n") (Some [("a", "1")]) None None;
                   EInfo None (Some "t") None (Some [("a", "2"); ("b", "3")]) None None]) = Some "t".
Proof.
  split; [|reflexivity]. repeat constructor; simpl; intuition discriminate.
Qed.

Example C47_instance : register_nsmap [("", "u"); ("ns0", "v"); ("ns", "w"); ("nsx", "z")] = [("ns", "w"); ("nsx", "z")].
Proof. reflexivity. Qed.

Example C48_instance : strtobool "YeS" = Ok true /\ strtobool "oFF" = Ok false /\ strtobool "" = Raise XValueError.
Proof. repeat split. Qed.

Print Assumptions C13_qname_round_trip.
Print Assumptions C13_qname_round_trip_no_namespace.
Print Assumptions C13_qname_injective.
Print Assumptions C14_alias_resolution.
Print Assumptions C14_alias_errors.
Print Assumptions C15_merge_priority.
Print Assumptions C15_select_ns_first.
Print Assumptions C16_inherited_tag.
Print Assumptions C16_inherited_ns.
Print Assumptions C16_inherited_skip_empty.
Print Assumptions C16_inherited_ns_attrs.
Print Assumptions C16_inherited_search_mode.
Print Assumptions C16_inherited_nsmap.
Print Assumptions C17_merge_last_wins.
Print Assumptions C17_merge_nsmap_last_wins.
Print Assumptions C17_merge_associative.
Print Assumptions C17_merge_neutral_right.
Print Assumptions C17_merge_neutral_left.
Print Assumptions C47_registered_prefixes.
Print Assumptions C48_switch_values.
