(** Prog.v -- the methods of element.py once more, as programs made of single memory accesses.

    Heap.v models a method as a function from heap to heap, so nothing else can happen while it
    runs.  Here a method is the tree of the memory accesses it makes: after each of them another
    thread may run.  The objects are those of Heap.v, and the text of the methods is the same, in
    another monad.  PfThread1.v proves that a program that runs without interruption does what
    Heap.v, HeapRead2.v and HeapWrite.v say; PropThread.v states what happens when it is
    interrupted (C74).

    CPython switches threads between bytecode instructions; one access here is the reading or
    writing of a whole element, dict or list (one or several instructions on one object). *)

From Verif Require Import Base Elem Heap.

(** a program: it has ended, it has gone beyond the recursion limit, or it accesses the memory and
    goes on.  [Size] asks for the number of objects in memory, which is used as recursion limit (it
    bounds the depth of any tree). *)
Inductive prog (A : Type) :=
| Ret (x : A)
| Stop
| Alloc (o : obj) (k : ref -> prog A)
| Load (r : ref) (k : option obj -> prog A)
| Store (r : ref) (o : obj) (k : bool -> prog A)
| Size (k : nat -> prog A).
Arguments Ret {A} _.
Arguments Stop {A}.
Arguments Alloc {A} _ _.
Arguments Load {A} _ _.
Arguments Store {A} _ _ _.
Arguments Size {A} _.

(** one program after the other *)
Fixpoint andthen {A B} (p : prog A) (f : A -> prog B) : prog B :=
  match p with
  | Ret x => f x
  | Stop => Stop
  | Alloc o k => Alloc o (fun r => andthen (k r) f)
  | Load r k => Load r (fun o => andthen (k o) f)
  | Store r o k => Store r o (fun b => andthen (k b) f)
  | Size k => Size (fun n => andthen (k n) f)
  end.

(** running without interruption; [None]: beyond the recursion limit *)
Fixpoint go {A} (p : prog A) (h : heap) : option (A * heap) :=
  match p with
  | Ret x => Some (x, h)
  | Stop => None
  | Alloc o k => go (k (length h)) (h ++ [o])
  | Load r k => go (k (nth_error h r)) h
  | Store r o k => if Nat.ltb r (length h) then go (k true) (list_upd r o h) else go (k false) h
  | Size k => go (k (length h)) h
  end.

(** a method: [None] is any Python exception, as in Heap.v *)
Definition pp (A : Type) := prog (option A).

Definition pret {A} (x : A) : pp A := Ret (Some x).
Definition praise {A} : pp A := Ret None.
Definition pbind {A B} (m : pp A) (f : A -> pp B) : pp B :=
  andthen m (fun o => match o with Some x => f x | None => Ret None end).

Notation "x <| m ;; f" := (pbind m (fun x => f)) (at level 61, m at next level, right associativity).

(** allocation of a new object, reading an object, overwriting an object *)
Definition p_alloc (o : obj) : pp ref := Alloc o (fun r => Ret (Some r)).
Definition p_load (r : ref) : pp obj := Load r (fun o => Ret o).
Definition p_store (r : ref) (o : obj) : pp unit := Store r o (fun b => Ret (if b then Some tt else None)).

Definition p_load_node (r : ref) : pp node :=
  o <| p_load r ;; match o with ONode n => pret n | _ => praise end.
Definition p_load_dict (r : ref) : pp (dict string) :=
  o <| p_load r ;; match o with ODict d => pret d | _ => praise end.
Definition p_load_list (r : ref) : pp (list ref) :=
  o <| p_load r ;; match o with OList l => pret l | _ => praise end.

(** an optional dict; [dict(d) if d is not None else None] *)
Definition p_load_odict (r : option ref) : pp (option (dict string)) :=
  match r with
  | None => pret None
  | Some r' => d <| p_load_dict r' ;; pret (Some d)
  end.

Definition p_alloc_odict (d : option (dict string)) : pp (option ref) :=
  match d with
  | None => pret None
  | Some d' => r <| p_alloc (ODict d') ;; pret (Some r)
  end.

(** element.py:303-322 [XmlElement.__init__]: [dict(attributes)] and [list(elements)] are fresh
    copies, [nsmap] is kept as passed.  The model takes the contents to copy. *)
Definition p_new (tag : xtag) (text tail : option string) (attributes : option (dict string))
    (elements : list ref) (ns : option ref) (line : Z) : pp ref :=
  ar <| p_alloc_odict attributes ;;
  lr <| p_alloc (OList elements) ;;
  p_alloc (ONode (Node tag ns text tail ar lr 0 line)).

(** a list comprehension [[f(x) for x in l]] *)
Fixpoint p_map {A B} (f : A -> pp B) (l : list A) : pp (list B) :=
  match l with
  | [] => pret []
  | x :: l' => y <| f x ;; ys <| p_map f l' ;; pret (y :: ys)
  end.

(** element.py:336-348 [create_snapshot]; [fuel] is the recursion limit.  The inner [dict(...)] of
    [attributes=dict(self._state.attrib)] is copied once more by [__init__]; the model makes one
    copy. *)
Fixpoint p_create_snapshot (fuel : nat) (self : ref) : pp ref :=
  match fuel with
  | O => Stop
  | S fuel' =>
      n <| p_load_node self ;;
      at_ <| p_load_odict (n_attrib n) ;;
      l <| p_load_list (n_elems n) ;;
      es <| p_map (p_create_snapshot fuel') l ;;
      ns <| p_load_odict (n_nsmap n) ;;
      nsr <| p_alloc_odict ns ;;
      e <| p_new (n_tag n) (n_text n) (n_tail n) at_ es nsr (n_line n) ;;
      n' <| p_load_node e ;;
      _ <| p_store e (ONode (nset_next (n_next n) n')) ;;
      pret e
  end.

(** element.py:350-357 [apply_snapshot]: the dict, the list and the children become shared *)
Definition p_apply_snapshot (self snapshot : ref) : pp unit :=
  n <| p_load_node self ;;
  s <| p_load_node snapshot ;;
  p_store self (ONode (Node (n_tag s) (n_nsmap s) (n_text s) (n_tail s) (n_attrib s)
                          (n_elems s) (n_next s) (n_line n))).

(** element.py:359-360 [step_forward] *)
Definition p_step_forward (self : ref) : pp unit :=
  n <| p_load_node self ;; p_store self (ONode (nset_next (S (n_next n)) n)).

(** element.py:362-366 [is_empty] *)
Definition p_is_empty (self : ref) : pp bool :=
  n <| p_load_node self ;;
  at_ <| p_load_odict (n_attrib n) ;;
  l <| p_load_list (n_elems n) ;;
  pret (negb (str_truthy (n_text n)) && negb (str_truthy (n_tail n)) &&
       negb (dict_truthy at_) && Nat.eqb (length l) 0).

(** element.py:368-369 [set_text] *)
Definition p_set_text (self : ref) (t : string) : pp unit :=
  n <| p_load_node self ;; p_store self (ONode (nset_text (Some t) n)).

(** element.py:371-375 [set_attribute]: mutates the dict in place *)
Definition p_set_attribute (self : ref) (name value : string) : pp unit :=
  n <| p_load_node self ;;
  r <| match n_attrib n with
       | Some r => pret r
       | None =>
           r <| p_alloc (ODict []) ;;
           _ <| p_store self (ONode (nset_attrib (Some r) n)) ;;
           pret r
       end ;;
  d <| p_load_dict r ;;
  p_store r (ODict (dset name value d)).

(** element.py:377-378 [set_attributes]: a copy of the argument *)
Definition p_set_attributes (self : ref) (attributes : dict string) : pp unit :=
  n <| p_load_node self ;;
  r <| p_alloc (ODict attributes) ;;
  p_store self (ONode (nset_attrib (Some r) n)).

(** element.py:380-382 [append_element]: mutates the list in place *)
Definition p_append_element (self element : ref) : pp unit :=
  n <| p_load_node self ;;
  l <| p_load_list (n_elems n) ;;
  _ <| p_store (n_elems n) (OList (l ++ [element])) ;;
  p_store self (ONode (nset_next (S (n_next n)) n)).

(** element.py:384-385 [get_attrib] *)
Definition p_get_attrib (self : ref) (name : string) : pp (option string) :=
  n <| p_load_node self ;;
  at_ <| p_load_odict (n_attrib n) ;;
  pret (match at_ with None => None | Some d => dget name d end).

(** element.py:387-390 [pop_text] *)
Definition p_pop_text (self : ref) : pp (option string) :=
  n <| p_load_node self ;;
  _ <| p_store self (ONode (nset_text None n)) ;;
  pret (n_text n).

(** element.py:392-395 [pop_tail] *)
Definition p_pop_tail (self : ref) : pp (option string) :=
  n <| p_load_node self ;;
  _ <| p_store self (ONode (nset_tail None n)) ;;
  pret (n_tail n).

(** element.py:397-398 [pop_attrib]: mutates the dict in place *)
Definition p_pop_attrib (self : ref) (name : string) : pp (option string) :=
  n <| p_load_node self ;;
  match n_attrib n with
  | None => pret None
  | Some r =>
      d <| p_load_dict r ;;
      match dget name d with
      | None => pret None
      | Some v => _ <| p_store r (ODict (ddel name d)) ;; pret (Some v)
      end
  end.

(** element.py:400-403 [pop_attributes]: hands out the dict itself *)
Definition p_pop_attributes (self : ref) : pp (option ref) :=
  n <| p_load_node self ;;
  _ <| p_store self (ONode (nset_attrib None n)) ;;
  pret (n_attrib n).

(** element.py:405-409 [pop_elements] *)
Definition p_pop_elements (self : ref) : pp (list ref) :=
  n <| p_load_node self ;;
  l <| p_load_list (n_elems n) ;;
  r <| p_alloc (OList []) ;;
  _ <| p_store self (ONode (nset_next 0 (nset_elems r n))) ;;
  pret l.

(** [element.tag == tag] *)
Definition p_tag_is (tag : string) (r : ref) : pp bool :=
  n <| p_load_node r ;; pret (tag_is (n_tag n) tag).

(** element.py:620-626 [_look_behind] *)
Definition p_look_behind (self : ref) (tag : string) : pp (option ref) :=
  n <| p_load_node self ;;
  match n_next n with
  | O => pret None
  | S i =>
      l <| p_load_list (n_elems n) ;;
      match nth_error l i with
      | None => praise
      | Some c => b <| p_tag_is tag c ;; pret (if b then Some c else None)
      end
  end.

(** the loops of element.py:569-581 and 605-617: index and reference of the first match *)
Fixpoint p_find_from (i : nat) (l : list ref) (tag : string) : pp (option (nat * ref)) :=
  match l with
  | [] => pret None
  | c :: l' =>
      b <| p_tag_is tag c ;;
      if b then pret (Some (i, c)) else p_find_from (S i) l' tag
  end.

(** element.py:540-545 *)
Definition p_strict_forward (self : ref) (tag : string) (step : bool) : pp (option ref) :=
  n <| p_load_node self ;;
  l <| p_load_list (n_elems n) ;;
  match nth_error l (n_next n) with
  | None => pret None
  | Some c =>
      b <| p_tag_is tag c ;;
      if b then
        _ <| (if step then p_store self (ONode (nset_next (S (n_next n)) n)) else pret tt) ;;
        pret (Some c)
      else pret None
  end.

(** element.py:569-581 *)
Definition p_ordered_forward (self : ref) (tag : string) (step : bool) : pp (option ref) :=
  n <| p_load_node self ;;
  l <| p_load_list (n_elems n) ;;
  f <| p_find_from (n_next n) (skipn (n_next n) l) tag ;;
  match f with
  | None => pret None
  | Some (i, c) =>
      _ <| (if step then p_store self (ONode (nset_next (S i) n)) else pret tt) ;;
      pret (Some c)
  end.

(** element.py:605-617: the swap mutates the list in place *)
Definition p_unordered_forward (self : ref) (tag : string) (step : bool) : pp (option ref) :=
  n <| p_load_node self ;;
  l <| p_load_list (n_elems n) ;;
  f <| p_find_from (n_next n) (skipn (n_next n) l) tag ;;
  match f with
  | None => pret None
  | Some (i, c) =>
      _ <| p_store (n_elems n) (OList (list_swap (n_next n) i l)) ;;
      _ <| (if step then p_store self (ONode (nset_next (S (n_next n)) n)) else pret tt) ;;
      pret (Some c)
  end.

Definition p_forward (m : smode) : ref -> string -> bool -> pp (option ref) :=
  match m with
  | Strict => p_strict_forward
  | Ordered => p_ordered_forward
  | Unordered => p_unordered_forward
  end.

(** element.py:519-617 (the three searchers), 458-467 [find_element] *)
Definition p_find_element (self : ref) (tag : string) (m : smode) (behind step : bool)
  : pp (option ref) :=
  if behind then
    c <| p_look_behind self tag ;;
    match c with
    | Some c' => pret (Some c')
    | None => p_forward m self tag step
    end
  else p_forward m self tag step.

(** element.py:419-429, the part of [pop_element] under [remove]: a fresh element takes over the
    content of the child [c], which stays in the tree, emptied *)
Definition p_extract (c : ref) : pp ref :=
  n <| p_load_node c ;;
  text <| p_pop_text c ;;
  tail <| p_pop_tail c ;;
  ar <| p_pop_attributes c ;;
  at_ <| p_load_odict ar ;;
  es <| p_pop_elements c ;;
  p_new (n_tag n) text tail at_ es (n_nsmap n) (n_line n).

(** element.py:411-431 [pop_element] *)
Definition p_pop_element (self : ref) (tag : string) (m : smode) (remove : bool)
  : pp (option ref) :=
  c <| p_find_element self tag m false true ;;
  match c with
  | None => pret None
  | Some c' =>
      if remove then r <| p_extract c' ;; pret (Some r)
      else pret (Some c')
  end.

(** element.py:433-443 [find_sub_element] *)
Fixpoint p_find_sub_element (self : ref) (path : list string) (m : smode) : pp (list ref) :=
  match path with
  | [] => praise
  | tag :: rest =>
      c <| p_find_element self tag m true true ;;
      match c with
      | None => pret []
      | Some c' =>
          match rest with
          | [] => pret [c']
          | _ :: _ => cs <| p_find_sub_element c' rest m ;; pret (c' :: cs)
          end
      end
  end.

(** native/lxml.py:50-51, native/std.py:39-40 [make_element]; the lxml element keeps the very
    dict it is given *)
Definition p_make_element (b : backend) (tag : string) (ns : option ref) : pp ref :=
  p_new (TName tag) None None None [] (match b with Lxml => ns | Std => None end) (-1).

(** element.py:445-456 [find_element_or_create] *)
Definition p_find_element_or_create (b : backend) (self : ref) (tag : string) (m : smode)
    (ns : option ref) : pp ref :=
  c <| p_find_element self tag m true true ;;
  match c with
  | Some c' => pret c'
  | None =>
      e <| p_make_element b tag ns ;;
      _ <| p_append_element self e ;;
      pret e
  end.

(** element/utils.py:6-14 *)
Definition p_is_element_nill (self : ref) : pp bool :=
  v <| p_pop_attrib self xsi_nil ;;
  pret (match v with Some s => String.eqb s "true" | None => false end).

Definition p_make_element_nill (self : ref) : pp unit := p_set_attribute self xsi_nil "true".
