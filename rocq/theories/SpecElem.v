(** SpecElem.v -- what the element operations are supposed to do, independently of how
    element.py does it. *)

From Verif Require Import Base Elem.

(** the children behind and ahead of the read position *)
Definition passed (e : elem) : list elem := firstn (e_next e) (e_elems e).
Definition unread (e : elem) : list elem := skipn (e_next e) (e_elems e).

(** everything of an element except its children and its read position *)
Definition same_shell (e e' : elem) : Prop :=
  e_tag e' = e_tag e /\ e_nsmap e' = e_nsmap e /\ e_text e' = e_text e /\
  e_tail e' = e_tail e /\ e_attrib e' = e_attrib e /\ e_line e' = e_line e.

Definition called (tag : string) (c : elem) : Prop := e_tag c = TName tag.

(** the child handed out by a search that returned [r] and left the element [e'] *)
Definition handed (r : found) (e' : elem) : option elem :=
  match r with Found i => nth_error (e_elems e') i | _ => None end.

(** the take relation of the three modes on (children passed, children ahead):
    before, child handed out, after *)
Inductive takes (tag : string) : smode ->
    list elem * list elem -> option elem -> list elem * list elem -> Prop :=
| takes_strict : forall p c rest, called tag c ->
    takes tag Strict (p, c :: rest) (Some c) (p ++ [c], rest)
| takes_strict_other : forall p c rest, ~ called tag c ->
    takes tag Strict (p, c :: rest) None (p, c :: rest)
| takes_strict_end : forall p, takes tag Strict (p, []) None (p, [])
| takes_ordered : forall p skip c rest, called tag c -> Forall (fun x => ~ called tag x) skip ->
    takes tag Ordered (p, skip ++ c :: rest) (Some c) (p ++ skip ++ [c], rest)
| takes_ordered_none : forall p u, Forall (fun x => ~ called tag x) u ->
    takes tag Ordered (p, u) None (p, u)
| takes_unordered : forall p skip c rest left_, called tag c -> Forall (fun x => ~ called tag x) skip ->
    Permutation left_ (skip ++ rest) ->
    takes tag Unordered (p, skip ++ c :: rest) (Some c) (p ++ [c], left_)
| takes_unordered_none : forall p u, Forall (fun x => ~ called tag x) u ->
    takes tag Unordered (p, u) None (p, u).

(** every read position inside its element, at every depth *)
Inductive in_bounds : elem -> Prop :=
| in_bounds_intro : forall e, e_next e <= length (e_elems e) -> Forall in_bounds (e_elems e) -> in_bounds e.

(** ---- unbound data ---- *)

(** [reach e idxs path d]: following the child positions [idxs] from [e] leads to [d], through
    elements with the tags [path] *)
Inductive reach : elem -> list nat -> list xtag -> elem -> Prop :=
| reach_here : forall e, reach e [] [] e
| reach_down : forall e i c idxs path d,
    nth_error (e_elems e) i = Some c -> reach c idxs path d ->
    reach e (i :: idxs) (e_tag c :: path) d.

(** a place of an element that can hold a string *)
Inductive place := PText | PTail | PAttr (i : nat).

(** the whitespace characters, by code point: tab to carriage return, the separators 28 to 31, space,
    next line and the no-break space *)
Definition white (c : ascii) : bool :=
  existsb (N.eqb (N_of_ascii c)) [9; 10; 11; 12; 13; 28; 29; 30; 31; 32; 133; 160]%N.

(** whitespace only *)
Inductive blank : string -> Prop :=
| blank_nil : blank ""
| blank_cons : forall c s, white c = true -> blank s -> blank (String c s).

(** [t] is [s] without surrounding whitespace *)
Definition trimmed (s t : string) : Prop :=
  exists l r, s = (l ++ t ++ r)%string /\ blank l /\ blank r /\
    (forall c u, t = String c u -> white c = false) /\
    (forall c u, t = (u ++ String c "")%string -> white c = false).

(** [loose_at d p a v]: the element [d] still holds, at place [p], data that counts as unbound:
    attribute name [a] (none for text and tail), value [v] *)
Inductive loose_at (d : elem) : place -> option string -> string -> Prop :=
| loose_text : forall s t, e_text d = Some s -> ~ blank s -> trimmed s t -> loose_at d PText None t
| loose_tail : forall s t, e_tail d = Some s -> ~ blank s -> trimmed s t -> loose_at d PTail None t
| loose_attr : forall attrs i k v, e_attrib d = Some attrs -> nth_error attrs i = Some (k, v) ->
    loose_at d (PAttr i) (Some k) v.

(** ---- histories of takes ---- *)

(** What happens to one element while its model is read: fields take children, and children
    already passed are changed (read in place) in arbitrary ways.  [history] returns the
    children handed out, as they were when handed out, and the final element. *)
Inductive event := Take (tag : string) (m : smode) | Change (i : nat) (c : elem).

Fixpoint history (evs : list event) (e : elem) : list elem * elem :=
  match evs with
  | [] => ([], e)
  | Take tag m :: evs' =>
      let (r, e1) := pop_element e tag m in
      let (hs, e2) := history evs' e1 in
      (match handed r e1 with Some c => c :: hs | None => hs end, e2)
  | Change i c :: evs' =>
      history evs' (if i <? e_next e then put_child i c e else e)
  end.

(** ---- attributes ---- *)

(** the value of one attribute *)
Definition attr_of (e : elem) (k : string) : option string :=
  match e_attrib e with Some d => dget k d | None => None end.

(** attribute names are unique (XML guarantees it, a Python dict too) *)
Definition attrs_unique (e : elem) : Prop :=
  match e_attrib e with Some d => NoDup (dkeys d) | None => True end.
