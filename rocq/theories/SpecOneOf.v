(** SpecOneOf.v -- vocabulary for C95: sub-models that become unions of one member. *)

From Verif Require Import Base Elem Native Errs Names Ser SpecOut SpecPage.

(** [no_nil T d]: no element called by a name of [T], [d] itself or inside of it, is marked with xsi:nil *)
Inductive no_nil (T : list string) : native -> Prop :=
| nn_intro : forall d, (forall tag, In tag T -> SpecPage.named tag d -> attribute nil_attribute (unopened d) <> Some "true") ->
    Forall (no_nil T) (own_children d) -> no_nil T d.

(** [made_unions ev T s s']: sub-models of the field, at any place in lists, tuples and wrappers, have become unions; their
    elements are called by names of [T], and the validator of their class does not give None *)
Inductive made_unions (ev : env) (T : list string) : ser -> ser -> Prop :=
| mu_same : forall s, made_unions ev T s s
| mu_list : forall title computed s s' hide, made_unions ev T s s' ->
    made_unions ev T (SHomo title computed s hide) (SHomo title computed s' hide)
| mu_tuple : forall title computed l l' hide, Forall2 (made_unions ev T) l l' ->
    made_unions ev T (SHetero title computed l hide) (SHetero title computed l' hide)
| mu_wrap : forall path ns mode computed s s', made_unions ev T s s' ->
    made_unions ev T (SWrap path ns mode computed s) (SWrap path ns mode computed s')
| mu_union : forall q title hide, In (px_name q) T ->
    (forall m i, en_model ev (px_model q) = Some m -> md_validate m i <> Valid VNone) ->
    made_unions ev T (SProxy q) (SUnionModel title false [q] hide).

Inductive made_unions_class (ev : env) (T : list string) : mdef -> mdef -> Prop :=
| mu_class : forall name root tag ns fs fs' alias excl hide forbid skip cser cval validate,
    Forall2 (fun f f' => fst f = fst f' /\ made_unions ev T (snd f) (snd f')) fs fs' ->
    made_unions_class ev T (MDef name root tag ns fs alias excl hide forbid skip cser cval validate)
                           (MDef name root tag ns fs' alias excl hide forbid skip cser cval validate).

(** ---- writing ---- *)

(** [exact_for ev s s' v]: in [s'] sub-models of [s] have become unions, and where they have, [v] has instances of the very
    class of the sub-model, or None if that is not written as a nil element *)
Inductive exact_for (ev : env) : ser -> ser -> val -> Prop :=
| xf_same : forall s v, exact_for ev s s v
| xf_list : forall title computed s s' hide vs, exact_items ev s s' vs ->
    exact_for ev (SHomo title computed s hide) (SHomo title computed s' hide) (VList vs)
| xf_no_list : forall title computed s s' hide, exact_for ev (SHomo title computed s hide) (SHomo title computed s' hide) VNone
| xf_tuple : forall title computed l l' hide vs, exact_each ev l l' vs ->
    exact_for ev (SHetero title computed l hide) (SHetero title computed l' hide) (VList vs)
| xf_no_tuple : forall title computed l l' hide, exact_for ev (SHetero title computed l hide) (SHetero title computed l' hide) VNone
| xf_wrap : forall path ns mode computed s s' v, exact_for ev s s' v ->
    exact_for ev (SWrap path ns mode computed s) (SWrap path ns mode computed s') v
| xf_no_wrap : forall path ns mode computed s s', exact_for ev (SWrap path ns mode computed s) (SWrap path ns mode computed s') VNone
| xf_instance : forall q title computed hide attrs set,
    exact_for ev (SProxy q) (SUnionModel title computed [q] hide) (VModel (px_model q) attrs set)
| xf_none : forall q title computed hide, px_nillable q = false -> en_model ev (px_model q) <> None ->
    exact_for ev (SProxy q) (SUnionModel title computed [q] hide) VNone
with exact_items (ev : env) : ser -> ser -> list val -> Prop :=
| xi_end : forall s s', exact_items ev s s' []
| xi_item : forall s s' v vs, exact_for ev s s' v -> exact_items ev s s' vs -> exact_items ev s s' (v :: vs)
with exact_each (ev : env) : list ser -> list ser -> list val -> Prop :=
| xe_end : exact_each ev [] [] []
| xe_place : forall s s' l l' v vs, exact_for ev s s' v -> exact_each ev l l' vs -> exact_each ev (s :: l) (s' :: l') (v :: vs).

(** the same class but for such fields, for an instance with these values; the value of a root model is called "root" *)
Inductive exact_class (ev : env) (attrs : dict val) : mdef -> mdef -> Prop :=
| xc_class : forall name (root : bool) tag ns fs fs' alias excl hide forbid skip cser cval validate,
    Forall2 (fun f f' : string * ser => fst f = fst f' /\
      forall x, dget (if root then "root" else fst f) attrs = Some x -> exact_for ev (snd f) (snd f') x) fs fs' ->
    exact_class ev attrs (MDef name root tag ns fs alias excl hide forbid skip cser cval validate)
                         (MDef name root tag ns fs' alias excl hide forbid skip cser cval validate).
