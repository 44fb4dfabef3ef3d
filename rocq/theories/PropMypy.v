(** PropMypy.v -- what the type checker plugin says about declarations (C69). *)

From Verif Require Import Base Mypy SpecMypy PfMypy.

(** For a call of one of the functions the plugin knows: the field has a default exactly when [default=] gives one
    that is not [...], or [default_factory=] one that is not [None]. *)
Theorem C69_default : forall sup e f args names,
  calls e f args names -> In f entities -> written_once names ->
  missing names "default" \/ missing names "default_factory" ->
  (get_has_default sup e = true <->
   (exists a, keyword args names "default" a /\ a <> XEllipsis) \/
   (exists a, keyword args names "default_factory" a /\ a <> XName "builtins.None")).
Proof. exact has_default. Qed.
Print Assumptions C69_default.

(** It never claims a default the program would not have. *)
Theorem C69_default_sound : forall sup e f args names,
  calls e f args names -> In f entities -> written_once names ->
  missing names "default" \/ missing names "default_factory" ->
  get_has_default sup e = true -> gives_default "pydantic_xml.model.wrapped" e.
Proof.
  intros sup e f args names C I W M H.
  apply (has_default sup C I W M) in H as [(a & K & N)|(a & K & N)]; [eapply Gives_value|eapply Gives_factory]; eauto.
Qed.
Print Assumptions C69_default_sound.

(** The alias is the one written as a string; any other expression makes it dynamic; without [alias=] pydantic's
    transformer answers. *)
Theorem C69_alias : forall sup e f args names,
  calls e f args names -> In f entities -> written_once names ->
  (forall s, keyword args names "alias" (XStr s) -> get_alias_info sup e = (Some s, false)) /\
  (forall a, keyword args names "alias" a -> (forall s, a <> XStr s) -> get_alias_info sup e = (None, true)) /\
  (missing names "alias" -> get_alias_info sup e = tr_alias_info sup e).
Proof.
  intros sup e f args names C I W. destruct (known_call C I) as [T E]. unfold get_alias_info. rewrite E.
  rewrite alias_first. split; [|split].
  - intros s K. rewrite (@first_keyword _ "alias" _ _ _ _ W K). destruct e; congruence.
  - intros a K N. rewrite (@first_keyword _ "alias" _ _ _ _ W K). destruct a; try (destruct e; congruence).
    exfalso; eapply N; eauto.
  - intros M. rewrite (@first_missing _ "alias" _ args names M). destruct e; congruence.
Qed.
Print Assumptions C69_alias.

(** Strictness is known when it is written as [True] or [False], unknown when it is any other expression; without
    [strict=] pydantic's transformer answers. *)
Theorem C69_strict : forall sup e f args names,
  calls e f args names -> In f entities -> written_once names ->
  (keyword args names "strict" (XName "builtins.True") -> get_strict sup e = Some true) /\
  (keyword args names "strict" (XName "builtins.False") -> get_strict sup e = Some false) /\
  (forall a, keyword args names "strict" a -> a <> XName "builtins.True" -> a <> XName "builtins.False" ->
     get_strict sup e = None) /\
  (missing names "strict" -> get_strict sup e = tr_strict sup e).
Proof.
  intros sup e f args names C I W. destruct (known_call C I) as [T E]. unfold get_strict. rewrite E.
  rewrite strict_first. repeat split.
  - intros K. rewrite (@first_keyword _ "strict" _ _ _ _ W K). reflexivity.
  - intros K. rewrite (@first_keyword _ "strict" _ _ _ _ W K). reflexivity.
  - intros a K N1 N2. rewrite (@first_keyword _ "strict" _ _ _ _ W K).
    destruct (names_builtin a "builtins.True") eqn:B1; [apply names_builtin_iff in B1; congruence|].
    destruct (names_builtin a "builtins.False") eqn:B2; [apply names_builtin_iff in B2; congruence|]. reflexivity.
  - intros M. rewrite (@first_missing _ "strict" _ args names M). reflexivity.
Qed.
Print Assumptions C69_strict.

(** A field is frozen exactly when [frozen=True] is written, whatever else is written instead of [True]; without
    [frozen=] pydantic's transformer answers. *)
Theorem C69_frozen : forall sup e f args names,
  calls e f args names -> In f entities -> written_once names ->
  (forall a, keyword args names "frozen" a -> (is_field_frozen sup e = true <-> a = XName "builtins.True")) /\
  (missing names "frozen" -> is_field_frozen sup e = tr_frozen sup e).
Proof.
  intros sup e f args names C I W. destruct (known_call C I) as [T E]. unfold is_field_frozen. rewrite E.
  rewrite frozen_first. split.
  - intros a K. rewrite (@first_keyword _ "frozen" _ _ _ _ W K).
    rewrite <- names_builtin_iff. destruct e; try tauto; congruence.
  - intros M. rewrite (@first_missing _ "frozen" _ args names M). destruct e; congruence.
Qed.
Print Assumptions C69_frozen.

(** Any other statement is left to pydantic's transformer, except that it is never frozen; a field without a
    right-hand side has neither default nor alias and is not frozen. *)
Theorem C69_other_statements : forall sup e, e <> XTemp -> no_entity e ->
  get_has_default sup e = tr_has_default sup e /\ get_alias_info sup e = tr_alias_info sup e /\
  get_strict sup e = tr_strict sup e /\ is_field_frozen sup e = false.
Proof.
  intros sup e T N. pose proof (unknown_call N) as E. unfold get_has_default, get_alias_info, get_strict, is_field_frozen.
  rewrite E. destruct e; try congruence; auto.
Qed.
Print Assumptions C69_other_statements.

Theorem C69_annotation_only : forall sup,
  get_has_default sup XTemp = false /\ get_alias_info sup XTemp = (None, false) /\
  get_strict sup XTemp = tr_strict sup XTemp /\ is_field_frozen sup XTemp = false.
Proof. auto. Qed.
Print Assumptions C69_annotation_only.

(** The classes the plugin takes for pydantic models are those pydantic's plugin takes and those with the library's
    metaclass. *)
Theorem C69_classes : forall sup n, metaclass_hook sup n = true <-> n = "pydantic_xml.model.XmlModelMeta" \/ sup n = true.
Proof.
  intros sup n. unfold metaclass_hook, model_metaclass.
  destruct (String.eqb_spec n "pydantic_xml.model.XmlModelMeta") as [->|N]; [tauto|]. split; [auto|]. intros [E|E]; [contradiction|auto].
Qed.
Print Assumptions C69_classes.

(** The names the plugin knows are not those of the functions: they are defined in another module, fields.py
    (lines 120, 148 and 180), which is what mypy resolves every import of them to, and there is no declaration
    the plugin recognises.  A required field declared with [attr()] counts as one with a default. *)
Theorem C69_names_refuted :
  (forall f, In f ["pydantic_xml.fields.attr"; "pydantic_xml.fields.element"; "pydantic_xml.fields.wrapped"] -> ~ In f entities) /\
  forall sup, plain_default sup "pydantic.fields.Field" ->
  forall f args names, In f ["pydantic_xml.fields.attr"; "pydantic_xml.fields.element"; "pydantic_xml.fields.wrapped"] -> length args = length names ->
    get_has_default sup (XCall (XName f) args names) = true.
Proof.
  split.
  - intros f I J. simpl in I, J. intuition (subst; discriminate).
  - intros sup P f args names I L. destruct (@C69_other_statements sup (XCall (XName f) args names)) as (-> & _).
    + discriminate.
    + intros g a n [E|E]; [|discriminate]. injection E as <- <- <-. intros J. simpl in I, J. intuition (subst; discriminate).
    + apply P; try discriminate. intros a n [[E|E] _]; [|discriminate]. injection E as -> _ _.
      simpl in I. intuition discriminate.
Qed.
Print Assumptions C69_names_refuted.

(** The default of a wrapped entity is not seen. *)
Theorem C69_wrapped_default_refuted : exists e, gives_default "pydantic_xml.model.wrapped" e /\
  forall sup, get_has_default sup e = false.
Proof.
  exists (XCall (XName "pydantic_xml.model.wrapped")
            [XStr "path"; XCall (XName "pydantic_xml.model.element") [XOther] [Some "default"]] [None; None]).
  split; [|reflexivity]. eapply Gives_inner.
  - split; [left; reflexivity|reflexivity].
  - left. repeat split; reflexivity.
  - eapply Gives_value; [split; [left; reflexivity|reflexivity]|exists 0; split; reflexivity|discriminate].
Qed.
Print Assumptions C69_wrapped_default_refuted.

(** [default=...] hides a factory written after it. *)
Theorem C69_factory_refuted : exists e, gives_default "pydantic_xml.model.wrapped" e /\
  forall sup, get_has_default sup e = false.
Proof.
  exists (XCall (XName "pydantic_xml.model.element") [XEllipsis; XName "builtins.list"] [Some "default"; Some "default_factory"]).
  split; [|reflexivity]. eapply Gives_factory; [split; [left; reflexivity|reflexivity]|exists 1; split; reflexivity|discriminate].
Qed.
Print Assumptions C69_factory_refuted.

(** A field frozen by pydantic's own function is not frozen for the plugin. *)
Theorem C69_frozen_refuted : exists e args names, calls e "pydantic.fields.Field" args names /\
  keyword args names "frozen" (XName "builtins.True") /\ forall sup, is_field_frozen sup e = false.
Proof.
  exists (XCall (XName "pydantic.fields.Field") [XName "builtins.True"] [Some "frozen"]), [XName "builtins.True"], [Some "frozen"].
  split; [split; [left; reflexivity|reflexivity]|]. split; [exists 0; split; reflexivity|reflexivity].
Qed.
Print Assumptions C69_frozen_refuted.

(** [element("tag", default=..., alias="a", strict=True, frozen=True)] *)
Example C69_ex : exists e args names,
  calls e "pydantic_xml.model.element" args names /\ In "pydantic_xml.model.element" entities /\ written_once names /\
  missing names "default_factory" /\ keyword args names "default" XEllipsis /\
  keyword args names "alias" (XStr "a") /\ keyword args names "strict" (XName "builtins.True") /\
  keyword args names "frozen" (XName "builtins.True").
Proof.
  set (args := [XStr "tag"; XEllipsis; XStr "a"; XName "builtins.True"; XName "builtins.True"]).
  set (names := [None; Some "default"; Some "alias"; Some "strict"; Some "frozen"]).
  exists (XCall (XMember "pydantic_xml.model.element") args names), args, names.
  split; [split; [right; reflexivity|reflexivity]|]. split; [simpl; auto|]. split.
  { intros i j n. unfold names. intros H1 H2.
    do 5 (destruct i as [|i]; [do 5 (destruct j as [|j]; [simpl in H1, H2; congruence|]); destruct j; discriminate H2|]).
    destruct i; discriminate H1. }
  split; [unfold missing, names; simpl; intuition discriminate|].
  split; [exists 1; split; reflexivity|]. split; [exists 2; split; reflexivity|].
  split; [exists 3; split; reflexivity|exists 4; split; reflexivity].
Qed.
