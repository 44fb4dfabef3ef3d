(** SpecDecorate.v -- what a pile of decorators says (C72).  Decorators are listed from top to bottom. *)

From Verif Require Import Base Decorate.

Definition is_validator (d : deco) : Prop := exists f more, d = DVal f more.

(** these decorators leave a plain function: there is no classmethod or staticmethod among them, or an
    xml_field_validator is above it *)
Inductive plain : list deco -> Prop :=
| plain_function : plain []
| plain_val : forall f more below, plain (DVal f more :: below)
| plain_ser : forall f more below, plain below -> plain (DSer f more :: below).

(** no classmethod or staticmethod is put around another one *)
Definition proper (ds : list deco) : Prop :=
  forall above d below, ds = above ++ d :: below -> d = DClass \/ d = DStatic -> plain below.

(** the function validates these fields: those of the topmost xml_field_validator *)
Definition validates (ds : list deco) (fields : list string) : Prop :=
  exists above f more below, ds = above ++ DVal f more :: below /\ Forall (fun d => ~ is_validator d) above /\
    fields = f :: more.

(** the function serializes these fields: those of the topmost xml_field_serializer among those that
    decorate a plain function *)
Definition serializes (ds : list deco) (fields : list string) : Prop :=
  exists above f more below, ds = above ++ DSer f more :: below /\ plain below /\ fields = f :: more /\
    forall above' f' more' between, above = above' ++ DSer f' more' :: between ->
      ~ plain (between ++ DSer f more :: below).

(** the class is passed to the function by Python: there is a classmethod no xml_field_validator is above *)
Definition class_method (ds : list deco) : Prop :=
  exists above below, ds = above ++ DClass :: below /\ Forall (fun d => ~ is_validator d) above.

(** what the function of a method gets *)
Definition gets (ds : list deco) (given args : list arg) : Prop :=
  (class_method ds /\ args = AClass :: given) \/ (~ class_method ds /\ args = given).
