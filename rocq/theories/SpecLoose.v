(** SpecLoose.v -- vocabulary for C96: classes that accept more. *)

From Verif Require Import Base Elem Native Errs Names Ser SpecPage.

(** no union of models in it, other than discriminated ones *)
Fixpoint union_free (s : ser) : Prop :=
  match s with
  | SHomo _ _ s _ => union_free s
  | SHetero _ _ l _ => fold_right (fun s P => union_free s /\ P) True l
  | SUnionPrim _ s => union_free s
  | SWrap _ _ _ _ s => union_free s
  | SUnionModel _ _ _ _ => False
  | _ => True
  end.
Definition union_free_classes (ev : env) : Prop :=
  forall cls m, en_model ev cls = Some m -> forall name s, In (name, s) (md_fields m) -> union_free s.

(** what pydantic accepts for the first class it accepts for the second, with the same result, and the second does not
    forbid extra data if the first does not *)
Inductive loosened_class : mdef -> mdef -> Prop :=
| ls_class : forall name root tag ns fs alias excl hide hide' forbid forbid' skip cser cval validate validate',
    (forbid' = true -> forbid = true) -> (forall i v, validate i = Valid v -> validate' i = Valid v) ->
    loosened_class (MDef name root tag ns fs alias excl hide forbid skip cser cval validate)
                   (MDef name root tag ns fs alias excl hide' forbid' skip cser cval validate').
Definition loosened_env (ev ev' : env) : Prop :=
  en_backend ev' = en_backend ev /\
  forall cls m, en_model ev cls = Some m -> exists m', en_model ev' cls = Some m' /\ loosened_class m m'.
