(** SpecHeap2.v -- what the theorems about reading over references are stated with. *)

From Verif Require Import Base Elem Native Errs Names Ser Read Api Heap SpecHeap HeapRead HeapRead2.

(** a custom validator that works on the element it is given does on the heap what the tree model
    says it does *)
Definition custom_as (hf : ref -> heap -> out val * heap) (f : elem -> out val * elem) : Prop :=
  forall h a e F N, tree h a e F N ->
  exists h' F' N',
    hf a h = (fst (f e), h') /\ tree h' a (snd (f e)) F' N' /\
    only_changes F h h' /\ from_or_new F h F' /\ from_or_new (F ++ N) h N'.

(** the two models are given the same custom validators *)
Definition customs_as (hc : hcvals) (ev : env) : Prop :=
  forall cls m name, en_model ev cls = Some m ->
  match hc cls name, md_cval m name with
  | Some hf, Some f => custom_as hf f
  | None, None => True
  | _, _ => False
  end.
