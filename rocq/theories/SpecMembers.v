(** SpecMembers.v -- vocabulary for C92: the members of unions in another order. *)

From Verif Require Import Base Elem Native Errs Names Ser.

(** [shuffled U T s s']: the field [s'] is the field [s] with the members of unions, at any place inside it, in another
    order; [U] and [T] say of which unions, [U] of unions of models and [T] of discriminated ones *)
Inductive shuffled (U : list proxy -> Prop) (T : smode -> list (string * proxy) -> Prop) : ser -> ser -> Prop :=
| sf_same : forall s, shuffled U T s s
| sf_list : forall title computed s s' hide, shuffled U T s s' ->
    shuffled U T (SHomo title computed s hide) (SHomo title computed s' hide)
| sf_tuple : forall title computed l l' hide, Forall2 (shuffled U T) l l' ->
    shuffled U T (SHetero title computed l hide) (SHetero title computed l' hide)
| sf_prim : forall computed s s', shuffled U T s s' -> shuffled U T (SUnionPrim computed s) (SUnionPrim computed s')
| sf_wrap : forall path ns mode computed s s', shuffled U T s s' ->
    shuffled U T (SWrap path ns mode computed s) (SWrap path ns mode computed s')
| sf_union : forall title computed l l' hide, U l -> Permutation l l' ->
    shuffled U T (SUnionModel title computed l hide) (SUnionModel title computed l' hide)
| sf_tagged : forall computed disc attr l l' mode, T mode l -> Permutation l l' ->
    shuffled U T (STagged computed disc attr l mode) (STagged computed disc attr l' mode).

(** classes that differ in the order of the members of unions only *)
Inductive shuffled_class U T : mdef -> mdef -> Prop :=
| sf_class : forall name root tag ns fs fs' alias excl hide forbid skip cser cval validate,
    Forall2 (fun f f' => fst f = fst f' /\ shuffled U T (snd f) (snd f')) fs fs' ->
    shuffled_class U T (MDef name root tag ns fs alias excl hide forbid skip cser cval validate)
                       (MDef name root tag ns fs' alias excl hide forbid skip cser cval validate).

(** programs whose classes do *)
Definition shuffled_env U T (ev ev' : env) : Prop :=
  en_backend ev' = en_backend ev /\
  forall cls, match en_model ev cls, en_model ev' cls with
              | Some m, Some m' => shuffled_class U T m m'
              | None, None => True
              | _, _ => False
              end.

(** unions of models of different names, in strict mode *)
Definition names_differ (ev : env) (l : list proxy) : Prop :=
  NoDup (map px_name l) /\ Forall (fun q => px_mode q = Strict /\ en_model ev (px_model q) <> None) l.

(** discriminated unions: one member for each tag; in strict mode, or with the same name for all members *)
Definition tags_differ (mode : smode) (l : list (string * proxy)) : Prop :=
  NoDup (map fst l) /\ (mode = Strict \/ forall q q', In q l -> In q' l -> px_name (snd q) = px_name (snd q')).

(** for writing: different classes, different tags *)
Definition classes_differ (l : list proxy) : Prop := NoDup (map px_model l).
Definition one_each (mode : smode) (l : list (string * proxy)) : Prop := NoDup (map fst l).
