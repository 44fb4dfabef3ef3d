(** SpecHeap.v -- what the theorems about references and snapshots are stated with. *)

From Verif Require Import Base Elem Heap.

(** the references an object holds *)
Definition refs_of (o : obj) : list ref :=
  match o with
  | ONode n => opt_list (n_nsmap n) ++ opt_list (n_attrib n) ++ [n_elems n]
  | ODict _ => []
  | OList l => l
  end.

(** every reference on the heap refers to an object (true of any Python heap) *)
Definition heap_ok (h : heap) : Prop :=
  forall r o x, nth_error h r = Some o -> In x (refs_of o) -> x < length h.

(** [reach h a x]: the object [x] can be reached from the object [a] by following references *)
Inductive reach (h : heap) : ref -> ref -> Prop :=
| reach_self : forall a, reach h a a
| reach_step : forall a o b x,
    nth_error h a = Some o -> In b (refs_of o) -> reach h b x -> reach h a x.

(** an optional dict on the heap *)
Definition odict_at (h : heap) (r : option ref) (d : option (dict string)) : Prop :=
  match r, d with
  | None, None => True
  | Some r', Some d' => nth_error h r' = Some (ODict d')
  | _, _ => False
  end.

(** [owns h a e F N]: the element at address [a] is the tree [e]; [F] lists the addresses of its
    elements, attribute dicts and child lists, [N] those of its nsmap dicts.  Python code reading
    [a] through the element interface sees exactly [e]. *)
Inductive owns (h : heap) : ref -> elem -> list ref -> list ref -> Prop :=
| owns_elem : forall a tag nsr ns text tail ar attrs lr rs es next line Fs Ns,
    nth_error h a = Some (ONode (Node tag nsr text tail ar lr next line)) ->
    odict_at h nsr ns ->
    odict_at h ar attrs ->
    nth_error h lr = Some (OList rs) ->
    owns_all h rs es Fs Ns ->
    owns h a (Elem tag ns text tail attrs es next line)
         (a :: opt_list ar ++ lr :: concat Fs) (opt_list nsr ++ concat Ns)
with owns_all (h : heap) : list ref -> list elem -> list (list ref) -> list (list ref) -> Prop :=
| owns_nil : owns_all h [] [] [] []
| owns_cons : forall a e F N rs es Fs Ns,
    owns h a e F N -> owns_all h rs es Fs Ns ->
    owns_all h (a :: rs) (e :: es) (F :: Fs) (N :: Ns).

(** what a program that holds the reference [a] can see *)
Definition shows (h : heap) (a : ref) (e : elem) : Prop := exists F N, owns h a e F N.

(** a tree without sharing: no element, attribute dict or child list occurs twice, and no nsmap
    dict is also used as an attribute dict (nsmap dicts may be shared) *)
Definition tree (h : heap) (a : ref) (e : elem) (F N : list ref) : Prop :=
  owns h a e F N /\ NoDup F /\ (forall x, In x F -> ~ In x N).

(** how many levels a tree has *)
Fixpoint tree_depth (e : elem) : nat :=
  match e with
  | Elem _ _ _ _ _ es _ _ => S (list_max (map tree_depth es))
  end.

(** nothing but the addresses in [F] and newly allocated ones differs *)
Definition only_changes (F : list ref) (h h' : heap) : Prop :=
  length h <= length h' /\
  forall x, x < length h -> ~ In x F -> nth_error h' x = nth_error h x.

(** the addresses of [F'] are taken from [F] or are new *)
Definition from_or_new (F : list ref) (h : heap) (F' : list ref) : Prop :=
  forall x, In x F' -> In x F \/ length h <= x.

(** an operation on the element at [a] does on the heap what [f] does on trees *)
Definition implements {A} (m : ref -> hp A) (f : elem -> A * elem) : Prop :=
  forall h a e F N, tree h a e F N ->
  exists h' F' N',
    m a h = (Some (fst (f e)), h') /\ tree h' a (snd (f e)) F' N' /\
    only_changes F h h' /\ from_or_new F h F' /\ from_or_new (F ++ N) h N'.

(** [c] is the [i]-th child of [a] *)
Definition child_ref (h : heap) (a : ref) (i : nat) (c : ref) : Prop :=
  exists n rs, nth_error h a = Some (ONode n) /\ nth_error h (n_elems n) = Some (OList rs) /\
               nth_error rs i = Some c.

(** a chain of references, each a child of the one before *)
Fixpoint chain_ref (h : heap) (a : ref) (idxs : list nat) (cs : list ref) : Prop :=
  match idxs, cs with
  | [], [] => True
  | i :: idxs', c :: cs' => child_ref h a i c /\ chain_ref h c idxs' cs'
  | _, _ => False
  end.

(** the reference a search returns is the child the tree model names by its index; IndexErr is an
    exception *)
Definition found_ref (h : heap) (a : ref) (f : found) (r : option (option ref)) : Prop :=
  match f with
  | NotFound => r = Some None
  | Found i => exists c, r = Some (Some c) /\ child_ref h a i c
  | IndexErr => r = None
  end.
