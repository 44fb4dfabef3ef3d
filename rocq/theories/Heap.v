(** Heap.v -- pydantic_xml/element/element.py once more, this time over an explicit heap.

    Elem.v treats an [XmlElement] as a value and "mutation through a reference" as "the caller
    puts the new value back".  That is right only as long as no two elements share a mutable
    part.  Here the mutable Python objects -- elements, the [attrib] dict, the [elements] list and
    the [nsmap] dict -- are objects on a heap, references to them are addresses, and assignment of
    a dict or list shares it.  PropHeap.v proves that the two models agree and states what
    snapshots guarantee (C33).

    The [State] object (element.py:266-283) belongs to one element for life ([_state] is assigned
    only in [__init__]), so its slots are part of the element here. *)

From Verif Require Import Base Elem.

(** a Python reference *)
Definition ref := nat.

(** element.py:266-322 [XmlElement] and its [State]: [_nsmap] and [attrib] refer to a dict (or are
    None), [elements] to a list *)
Record node := Node {
  n_tag : xtag;
  n_nsmap : option ref;
  n_text : option string;
  n_tail : option string;
  n_attrib : option ref;
  n_elems : ref;
  n_next : nat;
  n_line : Z
}.

Inductive obj :=
| ONode (n : node)
| ODict (d : dict string)
| OList (l : list ref).

Definition heap := list obj.

(** a computation on the heap; [None] is any Python exception (AttributeError and TypeError when
    an object has the wrong type, IndexError, RecursionError); changes made before it stay *)
Definition hp (A : Type) := heap -> option A * heap.

Definition ret {A} (x : A) : hp A := fun h => (Some x, h).
Definition raise {A} : hp A := fun h => (None, h).
Definition bind {A B} (m : hp A) (f : A -> hp B) : hp B := fun h =>
  match m h with
  | (Some x, h') => f x h'
  | (None, h') => (None, h')
  end.

Notation "x <- m ;; f" := (bind m (fun x => f)) (at level 61, m at next level, right associativity).

(** allocation of a new object, reading an object, overwriting an object *)
Definition alloc (o : obj) : hp ref := fun h => (Some (length h), h ++ [o]).
Definition load (r : ref) : hp obj := fun h => (nth_error h r, h).
Definition store (r : ref) (o : obj) : hp unit := fun h =>
  if Nat.ltb r (length h) then (Some tt, list_upd r o h) else (None, h).

Definition load_node (r : ref) : hp node :=
  o <- load r ;; match o with ONode n => ret n | _ => raise end.
Definition load_dict (r : ref) : hp (dict string) :=
  o <- load r ;; match o with ODict d => ret d | _ => raise end.
Definition load_list (r : ref) : hp (list ref) :=
  o <- load r ;; match o with OList l => ret l | _ => raise end.

(** an optional dict; [dict(d) if d is not None else None] *)
Definition load_odict (r : option ref) : hp (option (dict string)) :=
  match r with
  | None => ret None
  | Some r' => d <- load_dict r' ;; ret (Some d)
  end.

Definition alloc_odict (d : option (dict string)) : hp (option ref) :=
  match d with
  | None => ret None
  | Some d' => r <- alloc (ODict d') ;; ret (Some r)
  end.

(** field updates *)
Definition nset_text (t : option string) (n : node) : node :=
  Node (n_tag n) (n_nsmap n) t (n_tail n) (n_attrib n) (n_elems n) (n_next n) (n_line n).
Definition nset_tail (t : option string) (n : node) : node :=
  Node (n_tag n) (n_nsmap n) (n_text n) t (n_attrib n) (n_elems n) (n_next n) (n_line n).
Definition nset_attrib (a : option ref) (n : node) : node :=
  Node (n_tag n) (n_nsmap n) (n_text n) (n_tail n) a (n_elems n) (n_next n) (n_line n).
Definition nset_elems (l : ref) (n : node) : node :=
  Node (n_tag n) (n_nsmap n) (n_text n) (n_tail n) (n_attrib n) l (n_next n) (n_line n).
Definition nset_next (i : nat) (n : node) : node :=
  Node (n_tag n) (n_nsmap n) (n_text n) (n_tail n) (n_attrib n) (n_elems n) i (n_line n).

(** element.py:303-322 [XmlElement.__init__]: [dict(attributes)] and [list(elements)] are fresh
    copies, [nsmap] is kept as passed.  The model takes the contents to copy. *)
Definition h_new (tag : xtag) (text tail : option string) (attributes : option (dict string))
    (elements : list ref) (ns : option ref) (line : Z) : hp ref :=
  ar <- alloc_odict attributes ;;
  lr <- alloc (OList elements) ;;
  alloc (ONode (Node tag ns text tail ar lr 0 line)).

(** a list comprehension [[f(x) for x in l]] *)
Fixpoint h_map {A B} (f : A -> hp B) (l : list A) : hp (list B) :=
  match l with
  | [] => ret []
  | x :: l' => y <- f x ;; ys <- h_map f l' ;; ret (y :: ys)
  end.

(** element.py:336-348 [create_snapshot]; [fuel] is the recursion limit.  The inner [dict(...)] of
    [attributes=dict(self._state.attrib)] is copied once more by [__init__]; the model makes one
    copy. *)
Fixpoint h_create_snapshot (fuel : nat) (self : ref) : hp ref :=
  match fuel with
  | O => raise
  | S fuel' =>
      n <- load_node self ;;
      at_ <- load_odict (n_attrib n) ;;
      l <- load_list (n_elems n) ;;
      es <- h_map (h_create_snapshot fuel') l ;;
      ns <- load_odict (n_nsmap n) ;;
      nsr <- alloc_odict ns ;;
      e <- h_new (n_tag n) (n_text n) (n_tail n) at_ es nsr (n_line n) ;;
      n' <- load_node e ;;
      _ <- store e (ONode (nset_next (n_next n) n')) ;;
      ret e
  end.

(** element.py:350-357 [apply_snapshot]: the dict, the list and the children become shared *)
Definition h_apply_snapshot (self snapshot : ref) : hp unit :=
  n <- load_node self ;;
  s <- load_node snapshot ;;
  store self (ONode (Node (n_tag s) (n_nsmap s) (n_text s) (n_tail s) (n_attrib s)
                          (n_elems s) (n_next s) (n_line n))).

(** element.py:359-360 [step_forward] *)
Definition h_step_forward (self : ref) : hp unit :=
  n <- load_node self ;; store self (ONode (nset_next (S (n_next n)) n)).

(** element.py:362-366 [is_empty] *)
Definition h_is_empty (self : ref) : hp bool :=
  n <- load_node self ;;
  at_ <- load_odict (n_attrib n) ;;
  l <- load_list (n_elems n) ;;
  ret (negb (str_truthy (n_text n)) && negb (str_truthy (n_tail n)) &&
       negb (dict_truthy at_) && Nat.eqb (length l) 0).

(** element.py:368-369 [set_text] *)
Definition h_set_text (self : ref) (t : string) : hp unit :=
  n <- load_node self ;; store self (ONode (nset_text (Some t) n)).

(** element.py:371-375 [set_attribute]: mutates the dict in place *)
Definition h_set_attribute (self : ref) (name value : string) : hp unit :=
  n <- load_node self ;;
  r <- match n_attrib n with
       | Some r => ret r
       | None =>
           r <- alloc (ODict []) ;;
           _ <- store self (ONode (nset_attrib (Some r) n)) ;;
           ret r
       end ;;
  d <- load_dict r ;;
  store r (ODict (dset name value d)).

(** element.py:377-378 [set_attributes]: a copy of the argument *)
Definition h_set_attributes (self : ref) (attributes : dict string) : hp unit :=
  n <- load_node self ;;
  r <- alloc (ODict attributes) ;;
  store self (ONode (nset_attrib (Some r) n)).

(** element.py:380-382 [append_element]: mutates the list in place *)
Definition h_append_element (self element : ref) : hp unit :=
  n <- load_node self ;;
  l <- load_list (n_elems n) ;;
  _ <- store (n_elems n) (OList (l ++ [element])) ;;
  store self (ONode (nset_next (S (n_next n)) n)).

(** element.py:384-385 [get_attrib] *)
Definition h_get_attrib (self : ref) (name : string) : hp (option string) :=
  n <- load_node self ;;
  at_ <- load_odict (n_attrib n) ;;
  ret (match at_ with None => None | Some d => dget name d end).

(** element.py:387-390 [pop_text] *)
Definition h_pop_text (self : ref) : hp (option string) :=
  n <- load_node self ;;
  _ <- store self (ONode (nset_text None n)) ;;
  ret (n_text n).

(** element.py:392-395 [pop_tail] *)
Definition h_pop_tail (self : ref) : hp (option string) :=
  n <- load_node self ;;
  _ <- store self (ONode (nset_tail None n)) ;;
  ret (n_tail n).

(** element.py:397-398 [pop_attrib]: mutates the dict in place *)
Definition h_pop_attrib (self : ref) (name : string) : hp (option string) :=
  n <- load_node self ;;
  match n_attrib n with
  | None => ret None
  | Some r =>
      d <- load_dict r ;;
      match dget name d with
      | None => ret None
      | Some v => _ <- store r (ODict (ddel name d)) ;; ret (Some v)
      end
  end.

(** element.py:400-403 [pop_attributes]: hands out the dict itself *)
Definition h_pop_attributes (self : ref) : hp (option ref) :=
  n <- load_node self ;;
  _ <- store self (ONode (nset_attrib None n)) ;;
  ret (n_attrib n).

(** element.py:405-409 [pop_elements] *)
Definition h_pop_elements (self : ref) : hp (list ref) :=
  n <- load_node self ;;
  l <- load_list (n_elems n) ;;
  r <- alloc (OList []) ;;
  _ <- store self (ONode (nset_next 0 (nset_elems r n))) ;;
  ret l.

(** [element.tag == tag] *)
Definition h_tag_is (tag : string) (r : ref) : hp bool :=
  n <- load_node r ;; ret (tag_is (n_tag n) tag).

(** element.py:620-626 [_look_behind] *)
Definition h_look_behind (self : ref) (tag : string) : hp (option ref) :=
  n <- load_node self ;;
  match n_next n with
  | O => ret None
  | S i =>
      l <- load_list (n_elems n) ;;
      match nth_error l i with
      | None => raise
      | Some c => b <- h_tag_is tag c ;; ret (if b then Some c else None)
      end
  end.

(** the loops of element.py:569-581 and 605-617: index and reference of the first match *)
Fixpoint h_find_from (i : nat) (l : list ref) (tag : string) : hp (option (nat * ref)) :=
  match l with
  | [] => ret None
  | c :: l' =>
      b <- h_tag_is tag c ;;
      if b then ret (Some (i, c)) else h_find_from (S i) l' tag
  end.

(** element.py:540-545 *)
Definition h_strict_forward (self : ref) (tag : string) (step : bool) : hp (option ref) :=
  n <- load_node self ;;
  l <- load_list (n_elems n) ;;
  match nth_error l (n_next n) with
  | None => ret None
  | Some c =>
      b <- h_tag_is tag c ;;
      if b then
        _ <- (if step then store self (ONode (nset_next (S (n_next n)) n)) else ret tt) ;;
        ret (Some c)
      else ret None
  end.

(** element.py:569-581 *)
Definition h_ordered_forward (self : ref) (tag : string) (step : bool) : hp (option ref) :=
  n <- load_node self ;;
  l <- load_list (n_elems n) ;;
  f <- h_find_from (n_next n) (skipn (n_next n) l) tag ;;
  match f with
  | None => ret None
  | Some (i, c) =>
      _ <- (if step then store self (ONode (nset_next (S i) n)) else ret tt) ;;
      ret (Some c)
  end.

(** element.py:605-617: the swap mutates the list in place *)
Definition h_unordered_forward (self : ref) (tag : string) (step : bool) : hp (option ref) :=
  n <- load_node self ;;
  l <- load_list (n_elems n) ;;
  f <- h_find_from (n_next n) (skipn (n_next n) l) tag ;;
  match f with
  | None => ret None
  | Some (i, c) =>
      _ <- store (n_elems n) (OList (list_swap (n_next n) i l)) ;;
      _ <- (if step then store self (ONode (nset_next (S (n_next n)) n)) else ret tt) ;;
      ret (Some c)
  end.

Definition h_forward (m : smode) : ref -> string -> bool -> hp (option ref) :=
  match m with
  | Strict => h_strict_forward
  | Ordered => h_ordered_forward
  | Unordered => h_unordered_forward
  end.

(** element.py:519-617 (the three searchers), 458-467 [find_element] *)
Definition h_find_element (self : ref) (tag : string) (m : smode) (behind step : bool)
  : hp (option ref) :=
  if behind then
    c <- h_look_behind self tag ;;
    match c with
    | Some c' => ret (Some c')
    | None => h_forward m self tag step
    end
  else h_forward m self tag step.

(** element.py:419-429, the part of [pop_element] under [remove]: a fresh element takes over the
    content of the child [c], which stays in the tree, emptied *)
Definition h_extract (c : ref) : hp ref :=
  n <- load_node c ;;
  text <- h_pop_text c ;;
  tail <- h_pop_tail c ;;
  ar <- h_pop_attributes c ;;
  at_ <- load_odict ar ;;
  es <- h_pop_elements c ;;
  h_new (n_tag n) text tail at_ es (n_nsmap n) (n_line n).

(** element.py:411-431 [pop_element] *)
Definition h_pop_element (self : ref) (tag : string) (m : smode) (remove : bool)
  : hp (option ref) :=
  c <- h_find_element self tag m false true ;;
  match c with
  | None => ret None
  | Some c' =>
      if remove then r <- h_extract c' ;; ret (Some r)
      else ret (Some c')
  end.

(** element.py:433-443 [find_sub_element] *)
Fixpoint h_find_sub_element (self : ref) (path : list string) (m : smode) : hp (list ref) :=
  match path with
  | [] => raise
  | tag :: rest =>
      c <- h_find_element self tag m true true ;;
      match c with
      | None => ret []
      | Some c' =>
          match rest with
          | [] => ret [c']
          | _ :: _ => cs <- h_find_sub_element c' rest m ;; ret (c' :: cs)
          end
      end
  end.

(** native/lxml.py:50-51, native/std.py:39-40 [make_element]; the lxml element keeps the very
    dict it is given *)
Definition h_make_element (b : backend) (tag : string) (ns : option ref) : hp ref :=
  h_new (TName tag) None None None [] (match b with Lxml => ns | Std => None end) (-1).

(** element.py:445-456 [find_element_or_create] *)
Definition h_find_element_or_create (b : backend) (self : ref) (tag : string) (m : smode)
    (ns : option ref) : hp ref :=
  c <- h_find_element self tag m true true ;;
  match c with
  | Some c' => ret c'
  | None =>
      e <- h_make_element b tag ns ;;
      _ <- h_append_element self e ;;
      ret e
  end.

(** element/utils.py:6-14 *)
Definition h_is_element_nill (self : ref) : hp bool :=
  v <- h_pop_attrib self xsi_nil ;;
  ret (match v with Some s => String.eqb s "true" | None => false end).

Definition h_make_element_nill (self : ref) : hp unit := h_set_attribute self xsi_nil "true".

(** ---- client code: any program that uses the reader and writer interface ----
    A client (a serializer, a custom validator or serializer) holds references in variables
    (an environment [list ref], numbered from 0); every reference a call returns is added to it.
    Besides calling methods it can mutate any dict it gets hold of.  Exceptions are caught and the
    program goes on, which covers programs that stop. *)
Inductive cmd :=
| CSnapshot (fuel self : nat)
| CApply (self snapshot : nat)
| CStep (self : nat)
| CIsEmpty (self : nat)
| CSetText (self : nat) (t : string)
| CSetAttribute (self : nat) (name value : string)
| CSetAttributes (self : nat) (attributes : dict string)
| CAppend (self element : nat)
| CGetAttrib (self : nat) (name : string)
| CPopText (self : nat)
| CPopTail (self : nat)
| CPopAttrib (self : nat) (name : string)
| CPopAttributes (self : nat)
| CPopElements (self : nat)
| CPopElement (self : nat) (tag : string) (m : smode) (remove : bool)
| CFindElement (self : nat) (tag : string) (m : smode) (behind step : bool)
| CFindSubElement (self : nat) (path : list string) (m : smode)
| CFindOrCreate (b : backend) (self : nat) (tag : string) (m : smode) (ns : option nat)
| CMakeElement (b : backend) (tag : string) (ns : option nat)
| CNsmap (self : nat)
| CDict (d : dict string)
| CDictSet (d : nat) (k v : string)
| CDictDel (d : nat) (k : string).

(** looking up a variable *)
Definition var (vs : list ref) (i : nat) : hp ref :=
  match nth_error vs i with Some r => ret r | None => raise end.
Definition ovar (vs : list ref) (o : option nat) : hp (option ref) :=
  match o with
  | None => ret None
  | Some i => r <- var vs i ;; ret (Some r)
  end.

Definition nothing {A} (m : hp A) : hp (list ref) := _ <- m ;; ret [].
Definition one (m : hp ref) : hp (list ref) := r <- m ;; ret [r].
Definition maybe (m : hp (option ref)) : hp (list ref) := r <- m ;; ret (opt_list r).

(** one call; the result is the list of references it returns *)
Definition exec (vs : list ref) (c : cmd) : hp (list ref) :=
  match c with
  | CSnapshot fuel x => a <- var vs x ;; one (h_create_snapshot fuel a)
  | CApply x y => a <- var vs x ;; s <- var vs y ;; nothing (h_apply_snapshot a s)
  | CStep x => a <- var vs x ;; nothing (h_step_forward a)
  | CIsEmpty x => a <- var vs x ;; nothing (h_is_empty a)
  | CSetText x t => a <- var vs x ;; nothing (h_set_text a t)
  | CSetAttribute x k v => a <- var vs x ;; nothing (h_set_attribute a k v)
  | CSetAttributes x d => a <- var vs x ;; nothing (h_set_attributes a d)
  | CAppend x y => a <- var vs x ;; c <- var vs y ;; nothing (h_append_element a c)
  | CGetAttrib x k => a <- var vs x ;; nothing (h_get_attrib a k)
  | CPopText x => a <- var vs x ;; nothing (h_pop_text a)
  | CPopTail x => a <- var vs x ;; nothing (h_pop_tail a)
  | CPopAttrib x k => a <- var vs x ;; nothing (h_pop_attrib a k)
  | CPopAttributes x => a <- var vs x ;; maybe (h_pop_attributes a)
  | CPopElements x => a <- var vs x ;; h_pop_elements a
  | CPopElement x tag m remove => a <- var vs x ;; maybe (h_pop_element a tag m remove)
  | CFindElement x tag m behind step =>
      a <- var vs x ;; maybe (h_find_element a tag m behind step)
  | CFindSubElement x path m => a <- var vs x ;; h_find_sub_element a path m
  | CFindOrCreate b x tag m ns =>
      a <- var vs x ;; o <- ovar vs ns ;; one (h_find_element_or_create b a tag m o)
  | CMakeElement b tag ns => o <- ovar vs ns ;; one (h_make_element b tag o)
  | CNsmap x => a <- var vs x ;; n <- load_node a ;; ret (opt_list (n_nsmap n))
  | CDict d => one (alloc (ODict d))
  | CDictSet x k v =>
      a <- var vs x ;; d <- load_dict a ;; nothing (store a (ODict (dset k v d)))
  | CDictDel x k =>
      a <- var vs x ;; d <- load_dict a ;; nothing (store a (ODict (ddel k d)))
  end.

(** a whole program *)
Fixpoint run (p : list cmd) (vs : list ref) (h : heap) : list ref * heap :=
  match p with
  | [] => (vs, h)
  | c :: p' =>
      match exec vs c h with
      | (Some rs, h') => run p' (vs ++ rs) h'
      | (None, h') => run p' vs h'
      end
  end.
