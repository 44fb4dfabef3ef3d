(** SpecWCalls.v -- vocabulary for C80: which field serializers writing an instance runs. *)

From Verif Require Import Base Elem Native Errs Names Ser Write WCalls SpecCrash.

(** the part of a value at a place: attributes of instances and items of lists *)
Fixpoint value_at (v : val) (place : list locitem) : option val :=
  match place with
  | [] => Some v
  | LKey k :: rest =>
      match v with
      | VModel _ attrs _ => match dget k attrs with Some x => value_at x rest | None => None end
      | _ => None
      end
  | LIdx i :: rest =>
      match v with
      | VList l => match nth_error l i with Some x => value_at x rest | None => None end
      | _ => None
      end
  end.

(** the number of instances in a value, itself included *)
Fixpoint instances (v : val) : nat :=
  match v with
  | VModel _ attrs _ => S (fold_right (fun (kv : string * val) k => let (_, x) := kv in instances x + k) 0 attrs)
  | VList l => fold_right (fun x k => instances x + k) 0 l
  | _ => 0
  end.

(** field names are not repeated (they are the keys of a dict) *)
Definition distinct_fields (ev : env) : Prop := forall cls m, en_model ev cls = Some m -> NoDup (map fst (md_fields m)).

Definition has_serializer (m : mdef) (name : string) : bool := match md_cser m name with Some _ => true | None => false end.

(** no class has more than [k] fields with a serializer of their own *)
Definition serializers_upto (k : nat) (ev : env) : Prop :=
  forall cls m, en_model ev cls = Some m -> length (filter (fun nf => has_serializer m (fst nf)) (md_fields m)) <= k.

(** the field of the instance is written by its own serializer: it has one, is not excluded, and with exclude_unset
    it has been set *)
Definition runs_serializer (m : mdef) (fl : flags) (instance : val) (name : string) : bool :=
  has_serializer m name && negb (str_in name (md_sexclude m)) &&
  match instance with VModel _ _ set => negb (fl_exclude_unset fl) || str_in name set | _ => false end.

(** the call is made as it should be: for an instance that is in the value at that place, with the value of the field *)
Definition called_properly (ev : env) (fl : flags) (v : val) (c : wcall) : Prop :=
  value_at v (wc_place c) = Some (wc_instance c) /\
  value_at v (wc_place c ++ [LKey (wc_field c)]) = Some (wc_value c) /\
  exists m, en_model ev (wc_class c) = Some m /\ In (wc_field c) (map fst (md_fields m)) /\
    runs_serializer m fl (wc_instance c) (wc_field c) = true.

(** ---- other user code ---- *)

(** the same classes, but for what their user code does *)
Definition same_writers (ev ev' : env) : Prop :=
  en_backend ev = en_backend ev' /\
  forall cls, both_there (fun m m' =>
      m' = with_code m (md_cser m') (md_cval m') (md_validate m') /\
      forall name, both_there (fun _ _ => True) (md_cser m name) (md_cser m' name))
    (en_model ev cls) (en_model ev' cls).

(** what the call yields: the element as the serializer leaves it, or an exception *)
Definition yields (ev : env) (c : wcall) (o : out elem) : Prop :=
  exists m f, en_model ev (wc_class c) = Some m /\ md_cser m (wc_field c) = Some f /\
    o = f (wc_instance c) (wc_element c) (wc_value c).

(** the call yields the same in both programs *)
Definition yields_alike (ev ev' : env) (c : wcall) : Prop := forall o, yields ev c o <-> yields ev' c o.
