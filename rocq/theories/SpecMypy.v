(** SpecMypy.v -- what a declaration says to a type checker. *)

From Verif Require Import Base Mypy.

(** a call of the function with this name, written [f(...)] or [module.f(...)] *)
Definition calls (e : expr) (f : string) (args : list expr) (names : list (option string)) : Prop :=
  (e = XCall (XName f) args names \/ e = XCall (XMember f) args names) /\ length args = length names.

(** the keyword argument [name=a] is written; Python forbids writing it twice *)
Definition keyword (args : list expr) (names : list (option string)) (name : string) (a : expr) : Prop :=
  exists i, nth_error names i = Some (Some name) /\ nth_error args i = Some a.

Definition written_once (names : list (option string)) : Prop :=
  forall i j n, nth_error names i = Some (Some n) -> nth_error names j = Some (Some n) -> i = j.

Definition missing (names : list (option string)) (name : string) : Prop := ~ In (Some name) names.

(** no call of one of the functions the plugin knows *)
Definition no_entity (e : expr) : Prop :=
  forall f args names, e = XCall (XName f) args names \/ e = XCall (XMember f) args names -> ~ In f entities.

(** the declaration gives its field a default when the program runs: by [default=], other than [...], by
    [default_factory=], other than [None] (fields.py:138, 170 and 204 hand both to pydantic, which forbids giving
    both), or, for [wrapped], by the entity it wraps (fields.py:207-214) *)
Inductive gives_default (wrapped_name : string) : expr -> Prop :=
| Gives_value : forall e f args names a, calls e f args names -> keyword args names "default" a -> a <> XEllipsis ->
    gives_default wrapped_name e
| Gives_factory : forall e f args names a, calls e f args names -> keyword args names "default_factory" a ->
    a <> XName "builtins.None" -> gives_default wrapped_name e
| Gives_inner : forall e args names inner, calls e wrapped_name args names ->
    (nth_error args 1 = Some inner /\ nth_error names 1 = Some None /\ nth_error names 0 = Some None) \/
    keyword args names "entity" inner ->
    gives_default wrapped_name inner -> gives_default wrapped_name e.

(** what pydantic's own transformer says about a statement it does not know: the right-hand side is the default *)
Definition plain_default (sup : transformer) (pydantic_field : string) : Prop :=
  forall e, e <> XTemp -> e <> XEllipsis -> (forall args names, ~ calls e pydantic_field args names) ->
  tr_has_default sup e = true.
