(** SpecWider.v -- vocabulary for C94: unions with more members. *)

From Verif Require Import Base Elem Native Errs Names Ser SpecPage.

(** [not_called N d]: neither the element [d] nor any element inside of it is called by a name of [N] *)
Inductive not_called (N : list string) : native -> Prop :=
| nc_intro : forall d, (forall tag, In tag N -> ~ SpecPage.named tag d) -> Forall (not_called N) (own_children d) -> not_called N d.

(** the members whose elements are called otherwise *)
Definition old_members (N : list string) (l : list proxy) : list proxy := filter (fun q => negb (str_in (px_name q) N)) l.
Definition old_tagged (N : list string) (l : list (string * proxy)) : list (string * proxy) :=
  filter (fun q => negb (str_in (px_name (snd q)) N)) l.

(** [rewidened K N s s']: the fields are the same, but unions at any place inside them may differ in members whose
    elements are called by a name of [N]; the classes of the members are among [K] *)
Inductive rewidened (K : string -> Prop) (N : list string) : ser -> ser -> Prop :=
| wd_same : forall s, rewidened K N s s
| wd_list : forall title computed s s' hide, rewidened K N s s' ->
    rewidened K N (SHomo title computed s hide) (SHomo title computed s' hide)
| wd_tuple : forall title computed l l' hide, Forall2 (rewidened K N) l l' ->
    rewidened K N (SHetero title computed l hide) (SHetero title computed l' hide)
| wd_prim : forall computed s s', rewidened K N s s' -> rewidened K N (SUnionPrim computed s) (SUnionPrim computed s')
| wd_wrap : forall path ns mode computed s s', rewidened K N s s' ->
    rewidened K N (SWrap path ns mode computed s) (SWrap path ns mode computed s')
| wd_union : forall title computed l l' hide, old_members N l = old_members N l' ->
    Forall (fun q => K (px_model q)) l -> Forall (fun q => K (px_model q)) l' ->
    rewidened K N (SUnionModel title computed l hide) (SUnionModel title computed l' hide)
| wd_tagged : forall computed disc attr l l' mode, old_tagged N l = old_tagged N l' ->
    rewidened K N (STagged computed disc attr l mode) (STagged computed disc attr l' mode).

(** classes and programs that differ in this only *)
Inductive rewidened_class (K : string -> Prop) (N : list string) : mdef -> mdef -> Prop :=
| wd_class : forall name root tag ns fs fs' alias excl hide forbid skip cser cval validate,
    Forall2 (fun f f' => fst f = fst f' /\ rewidened K N (snd f) (snd f')) fs fs' ->
    rewidened_class K N (MDef name root tag ns fs alias excl hide forbid skip cser cval validate)
                        (MDef name root tag ns fs' alias excl hide forbid skip cser cval validate).

Record rewidened_env (N : list string) (ev ev' : env) : Prop := RewidenedEnv {
  we_backend : en_backend ev' = en_backend ev;
  we_there : forall cls, en_model ev cls <> None <-> en_model ev' cls <> None;
  we_class : forall cls m m', en_model ev cls = Some m -> en_model ev' cls = Some m' ->
    rewidened_class (fun c => en_model ev c <> None) N m m'
}.

(** ---- writing ---- *)

(** [instance_in cls v]: an instance of the class is somewhere in the value *)
Inductive instance_in (cls : string) : val -> Prop :=
| ii_here : forall attrs set, instance_in cls (VModel cls attrs set)
| ii_list : forall l v, In v l -> instance_in cls v -> instance_in cls (VList l)
| ii_model : forall c attrs set name v, In (name, v) attrs -> instance_in cls v -> instance_in cls (VModel c attrs set).

Definition no_instance (C : list string) (v : val) : Prop := forall cls, In cls C -> ~ instance_in cls v.

(** the members of other classes *)
Definition old_classes (C : list string) (l : list proxy) : list proxy := filter (fun q => negb (str_in (px_model q) C)) l.

(** as [rewidened], with members told apart by their classes, for unions of models *)
Inductive rewidened_out (C : list string) : ser -> ser -> Prop :=
| wo_same : forall s, rewidened_out C s s
| wo_list : forall title computed s s' hide, rewidened_out C s s' ->
    rewidened_out C (SHomo title computed s hide) (SHomo title computed s' hide)
| wo_tuple : forall title computed l l' hide, Forall2 (rewidened_out C) l l' ->
    rewidened_out C (SHetero title computed l hide) (SHetero title computed l' hide)
| wo_prim : forall computed s s', rewidened_out C s s' -> rewidened_out C (SUnionPrim computed s) (SUnionPrim computed s')
| wo_wrap : forall path ns mode computed s s', rewidened_out C s s' ->
    rewidened_out C (SWrap path ns mode computed s) (SWrap path ns mode computed s')
| wo_union : forall title computed l l' hide, old_classes C l = old_classes C l' ->
    rewidened_out C (SUnionModel title computed l hide) (SUnionModel title computed l' hide).

Inductive rewidened_class_out (C : list string) : mdef -> mdef -> Prop :=
| wo_class : forall name root tag ns fs fs' alias excl hide forbid skip cser cval validate,
    Forall2 (fun f f' => fst f = fst f' /\ rewidened_out C (snd f) (snd f')) fs fs' ->
    rewidened_class_out C (MDef name root tag ns fs alias excl hide forbid skip cser cval validate)
                          (MDef name root tag ns fs' alias excl hide forbid skip cser cval validate).

Record rewidened_env_out (C : list string) (ev ev' : env) : Prop := RewidenedEnvOut {
  wo_backend : en_backend ev' = en_backend ev;
  wo_there : forall cls, en_model ev cls <> None <-> en_model ev' cls <> None;
  wo_classes : forall cls m m', en_model ev cls = Some m -> en_model ev' cls = Some m' -> rewidened_class_out C m m'
}.
