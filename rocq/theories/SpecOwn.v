(** SpecOwn.v -- how many children of an element a value stands for (C04). *)

From Verif Require Import Base Elem Native Errs Names Ser.

Definition total (l : list nat) : nat := fold_right Nat.add 0 l.

(** the number of child elements the value [v] of a field [s] stands for: one for a primitive, a
    mapping, a raw element, a sub-model or a union of models bound to its own element; one per
    item for collections; none for text and attributes, and none for wrapped fields, which may
    share their wrapper element *)
Fixpoint children_of (s : ser) (v : val) : nat :=
  match s, v with
  | _, VNone => 0
  | SHomo _ _ inner _, VList l => total (map (children_of inner) l)
  | SHetero _ _ inners _, VList l =>
      (fix go (ss : list ser) (vs : list val) : nat :=
         match ss, vs with s :: ss', v :: vs' => children_of s v + go ss' vs' | _, _ => 0 end) inners l
  | SUnionPrim _ inner, _ => children_of inner v
  | (SText _ _ | SAttr _ _ | SAttrs _ | SWrap _ _ _ _ _ | SHomo _ _ _ _ | SHetero _ _ _ _), _ => 0
  | _, _ => 1
  end.
