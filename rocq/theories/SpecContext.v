(** SpecContext.v -- what it means that a context reaches all validation. *)

From Verif Require Import Base Elem Native Errs Names Ser Read Api Context.

(** the class with its pydantic validation replaced *)
Definition validated_by (f : option val -> verdict) (m : mdef) : mdef :=
  MDef (md_name m) (md_root m) (md_elem_name m) (md_nsmap m) (md_fields m) (md_valias m) (md_sexclude m) (md_hide m)
       (md_forbid m) (md_skip_empty m) (md_cser m) (md_cval m) f.

(** the classes as they are when every one of them always validates in the context [ctx] *)
Definition all_in_context {X} (ce : cenv X) (ctx : context X) : env :=
  Env (en_backend (ce_env ce))
      (fun cls => option_map (validated_by (ce_validate ce cls ctx)) (en_model (ce_env ce) cls)).

(** two families of classes that may differ in what their validators do in contexts other than [ctx] *)
Definition differ_in_other_contexts {X} (ctx : context X) (ce ce' : cenv X) : Prop :=
  ce_env ce = ce_env ce' /\ forall cls input, ce_validate ce cls ctx input = ce_validate ce' cls ctx input.
