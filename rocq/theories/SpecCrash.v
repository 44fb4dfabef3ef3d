(** SpecCrash.v -- vocabulary for C77: programs that differ in what their user code raises. *)

From Verif Require Import Base Elem Native Errs Names Ser.

(** the class [m] with other user code: field serializers, field validators and whatever pydantic
    calls while validating *)
Definition with_code (m : mdef) (cser : string -> option (val -> elem -> val -> out elem))
    (cval : string -> option (elem -> out val * elem)) (validate : option val -> verdict) : mdef :=
  MDef (md_name m) (md_root m) (md_elem_name m) (md_nsmap m) (md_fields m) (md_valias m) (md_sexclude m)
       (md_hide m) (md_forbid m) (md_skip_empty m) cser cval validate.

(** both are there and related, or both are missing *)
Definition both_there {A} (R : A -> A -> Prop) (a b : option A) : Prop :=
  match a, b with Some x, Some y => R x y | None, None => True | _, _ => False end.

(** [f] does what [f'] does on every element, except that it may raise one of [New] instead *)
Definition validator_raises (New : exn -> Prop) (f f' : elem -> out val * elem) : Prop :=
  forall e, f e = f' e \/ exists x, New x /\ fst (f e) = Raise x.

Definition serializer_raises (New : exn -> Prop) (f f' : val -> elem -> val -> out elem) : Prop :=
  forall v e x, f v e x = f' v e x \/ exists y, New y /\ f v e x = Raise y.

Definition validation_raises (New : exn -> Prop) (f f' : option val -> verdict) : Prop :=
  forall i, f i = f' i \/ exists what, New (XUser what) /\ f i = Crashed what.

(** the classes of [ev] and [ev'] are the same but for their user code, and that of [ev] does the same
    as that of [ev'] except that in some cases (any, however many) it raises one of [New] instead *)
Definition raises_more (New : exn -> Prop) (ev ev' : env) : Prop :=
  en_backend ev = en_backend ev' /\
  forall cls, both_there (fun m m' =>
      m = with_code m' (md_cser m) (md_cval m) (md_validate m) /\
      (forall name, both_there (serializer_raises New) (md_cser m name) (md_cser m' name)) /\
      (forall name, both_there (validator_raises New) (md_cval m name) (md_cval m' name)) /\
      validation_raises New (md_validate m) (md_validate m'))
    (en_model ev cls) (en_model ev' cls).

(** an exception other than ValidationError *)
Definition foreign (x : exn) : Prop := forall err, x <> XValidation err.
