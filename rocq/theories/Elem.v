(** Elem.v -- model of pydantic_xml/element/element.py and pydantic_xml/element/utils.py.

    The Python class [XmlElement] is a mutable tree node.  Every [XmlElement] has exactly
    one owner (the [elements] list it sits in, or a local variable), so a call that mutates
    an element through a reference is modelled as a function returning the new tree, and
    "returns a reference to a child" as "returns the index of that child"; the caller puts
    the modified child back at that index ([put_child]).  Heap.v models the same operations
    over an explicit heap of references and relates the two. *)

From Verif Require Import Base.

(** typedefs.py:5 [NsMap] *)
Definition nsmap := dict string.

(** [element.tag]: a string for elements; lxml gives processing instructions the *function*
    [etree.PI] as a tag, which never equals a string (native/lxml.py:20-35 filters out
    comments only). *)
Inductive xtag := TName (s : string) | TSpecial.

(** Python [element.tag == tag] *)
Definition tag_is (t : xtag) (s : string) : bool :=
  match t with TName s' => String.eqb s' s | TSpecial => false end.

(** element.py:259-322 [XmlElement] with its [State] (text, tail, attrib, elements,
    next_element_idx), [_tag], [_nsmap], [_sourceline]. *)
Inductive elem := Elem {
  e_tag   : xtag;
  e_nsmap : option nsmap;
  e_text  : option string;
  e_tail  : option string;
  e_attrib : option (dict string);
  e_elems : list elem;
  e_next  : nat;
  e_line  : Z
}.

(** element.py:303-322 [XmlElement.__init__] *)
Definition new_elem (tag : xtag) (text tail : option string) (attrib : option (dict string))
    (elements : list elem) (ns : option nsmap) (line : Z) : elem :=
  Elem tag ns text tail attrib elements 0 line.

(** field updates (Python attribute assignment on [self._state]) *)
Definition set_text_o (t : option string) (e : elem) : elem :=
  Elem (e_tag e) (e_nsmap e) t (e_tail e) (e_attrib e) (e_elems e) (e_next e) (e_line e).
Definition set_tail_o (t : option string) (e : elem) : elem :=
  Elem (e_tag e) (e_nsmap e) (e_text e) t (e_attrib e) (e_elems e) (e_next e) (e_line e).
Definition set_attrib_o (a : option (dict string)) (e : elem) : elem :=
  Elem (e_tag e) (e_nsmap e) (e_text e) (e_tail e) a (e_elems e) (e_next e) (e_line e).
Definition set_elems (l : list elem) (e : elem) : elem :=
  Elem (e_tag e) (e_nsmap e) (e_text e) (e_tail e) (e_attrib e) l (e_next e) (e_line e).
Definition set_next (i : nat) (e : elem) : elem :=
  Elem (e_tag e) (e_nsmap e) (e_text e) (e_tail e) (e_attrib e) (e_elems e) i (e_line e).

(** not in the source: write back a child that was mutated through a reference *)
Definition put_child (i : nat) (c : elem) (e : elem) : elem :=
  set_elems (list_upd i c (e_elems e)) e.

(** element.py:336-348 [create_snapshot] (a deep copy, including the cursor) *)
Fixpoint create_snapshot (e : elem) : elem :=
  match e with
  | Elem tag ns text tail attrib elements next line =>
      set_next next
        (new_elem tag text tail attrib (map create_snapshot elements) ns line)
  end.

(** element.py:350-357 [apply_snapshot] (the sourceline is not copied) *)
Definition apply_snapshot (e snapshot : elem) : elem :=
  Elem (e_tag snapshot) (e_nsmap snapshot) (e_text snapshot) (e_tail snapshot)
       (e_attrib snapshot) (e_elems snapshot) (e_next snapshot) (e_line e).

(** element.py:359-360 [step_forward] *)
Definition step_forward (e : elem) : elem := set_next (S (e_next e)) e.

(** element.py:362-366 [is_empty] *)
Definition is_empty (e : elem) : bool :=
  negb (str_truthy (e_text e)) && negb (str_truthy (e_tail e)) &&
  negb (dict_truthy (e_attrib e)) && Nat.eqb (length (e_elems e)) 0.

(** element.py:368-369 [set_text] *)
Definition set_text (t : string) (e : elem) : elem := set_text_o (Some t) e.

(** element.py:371-375 [set_attribute] *)
Definition set_attribute (name value : string) (e : elem) : elem :=
  set_attrib_o
    (Some (dset name value (match e_attrib e with None => [] | Some d => d end))) e.

(** element.py:377-378 [set_attributes]: replaces the whole attribute dict *)
Definition set_attributes (attrs : dict string) (e : elem) : elem :=
  set_attrib_o (Some attrs) e.

(** element.py:380-382 [append_element] *)
Definition append_element (c : elem) (e : elem) : elem :=
  set_next (S (e_next e)) (set_elems (e_elems e ++ [c]) e).

(** element.py:384-385 [get_attrib] *)
Definition get_attrib (name : string) (e : elem) : option string :=
  match e_attrib e with
  | None => None
  | Some d => dget name d
  end.

(** element.py:387-390 [pop_text] *)
Definition pop_text (e : elem) : option string * elem := (e_text e, set_text_o None e).

(** element.py:392-395 [pop_tail] *)
Definition pop_tail (e : elem) : option string * elem := (e_tail e, set_tail_o None e).

(** element.py:397-398 [pop_attrib]; [dict.pop(name, None)] on a falsy attrib is skipped *)
Definition pop_attrib (name : string) (e : elem) : option string * elem :=
  match e_attrib e with
  | None => (None, e)
  | Some d =>
      match dget name d with
      | Some v => (Some v, set_attrib_o (Some (ddel name d)) e)
      | None => (None, e)
      end
  end.

(** element.py:400-403 [pop_attributes] *)
Definition pop_attributes (e : elem) : option (dict string) * elem :=
  (e_attrib e, set_attrib_o None e).

(** element.py:405-409 [pop_elements] *)
Definition pop_elements (e : elem) : list elem * elem :=
  (e_elems e, set_next 0 (set_elems [] e)).

(** element.py:491-502 [SearchMode] *)
Inductive smode := Strict | Ordered | Unordered.

(** result of a search: [Found i] = a reference to the child at index [i] of the *new*
    element list; [IndexErr] = the IndexError Python raises for [state.elements[...]] out of
    range (element.py:622 is the only unguarded index). *)
Inductive found := NotFound | Found (i : nat) | IndexErr.

(** element.py:620-626 [_look_behind] *)
Definition look_behind (e : elem) (tag : string) : found :=
  match e_next e with
  | O => NotFound
  | S i =>
      match nth_error (e_elems e) i with
      | None => IndexErr
      | Some c => if tag_is (e_tag c) tag then Found i else NotFound
      end
  end.

(** element.py:540-545, the part of [strict_search] after the look-behind *)
Definition strict_forward (e : elem) (tag : string) (step : bool) : found * elem :=
  match nth_error (e_elems e) (e_next e) with
  | Some c =>
      if tag_is (e_tag c) tag
      then (Found (e_next e), if step then set_next (S (e_next e)) e else e)
      else (NotFound, e)
  | None => (NotFound, e)
  end.

(** first index >= [i] whose element carries [tag]; [l] is the list from index [i] on *)
Fixpoint find_from (i : nat) (l : list elem) (tag : string) : option nat :=
  match l with
  | [] => None
  | c :: l' => if tag_is (e_tag c) tag then Some i else find_from (S i) l' tag
  end.

(** element.py:569-581, the loop of [ordered_search] *)
Definition ordered_forward (e : elem) (tag : string) (step : bool) : found * elem :=
  match find_from (e_next e) (skipn (e_next e) (e_elems e)) tag with
  | Some i => (Found i, if step then set_next (S i) e else e)
  | None => (NotFound, e)
  end.

(** Python [l[i], l[j] = l[j], l[i]] *)
Definition list_swap {A} (i j : nat) (l : list A) : list A :=
  match nth_error l i, nth_error l j with
  | Some x, Some y => list_upd i y (list_upd j x l)
  | _, _ => l
  end.

(** element.py:605-617, the loop of [unordered_search]; the match is swapped to the cursor
    position even when [step_forward] is false *)
Definition unordered_forward (e : elem) (tag : string) (step : bool) : found * elem :=
  match find_from (e_next e) (skipn (e_next e) (e_elems e)) tag with
  | Some i =>
      let e' := set_elems (list_swap (e_next e) i (e_elems e)) e in
      (Found (e_next e), if step then set_next (S (e_next e)) e' else e')
  | None => (NotFound, e)
  end.

Definition forward (m : smode) : elem -> string -> bool -> found * elem :=
  match m with
  | Strict => strict_forward
  | Ordered => ordered_forward
  | Unordered => unordered_forward
  end.

(** element.py:519-545 [strict_search], 548-581 [ordered_search], 584-617
    [unordered_search], 508-516 [get_searcher]: the three share the look-behind prologue *)
Definition search (m : smode) (e : elem) (tag : string) (behind step : bool) : found * elem :=
  if behind then
    match look_behind e tag with
    | Found i => (Found i, e)
    | IndexErr => (IndexErr, e)
    | NotFound => forward m e tag step
    end
  else forward m e tag step.

(** element.py:458-467 [find_element] *)
Definition find_element (e : elem) (tag : string) (m : smode) (behind step : bool)
  : found * elem := search m e tag behind step.

(** element.py:411-431 [pop_element] with [remove=False] *)
Definition pop_element (e : elem) (tag : string) (m : smode) : found * elem :=
  search m e tag false true.

(** element.py:419-429, what [pop_element(remove=True)] does with the child it found: the
    fresh element it returns and the emptied child that stays in the tree *)
Definition extract (c : elem) : elem * elem :=
  let (text, c1) := pop_text c in
  let (tail, c2) := pop_tail c1 in
  let (attrs, c3) := pop_attributes c2 in
  let (elems, c4) := pop_elements c3 in
  (new_elem (e_tag c) text tail attrs elems (e_nsmap c) (e_line c), c4).

(** element.py:433-443 [find_sub_element]: the chain of elements found (the model returns
    their indices, outermost first) and the updated element.  [None] is the IndexError. *)
Fixpoint find_sub_element (path : list string) (m : smode) (e : elem)
  : option (list nat) * elem :=
  match path with
  | [] => (Some [], e)   (* the source asserts len(path) > 0 *)
  | tag :: rest =>
      match find_element e tag m true true with
      | (IndexErr, e') => (None, e')
      | (NotFound, e') => (Some [], e')
      | (Found i, e') =>
          match rest with
          | [] => (Some [i], e')
          | _ :: _ =>
              match nth_error (e_elems e') i with
              | None => (Some [], e')   (* unreachable: [Found i] is in range *)
              | Some c =>
                  let (r, c') := find_sub_element rest m c in
                  (match r with Some is' => Some (i :: is') | None => None end,
                   put_child i c' e')
              end
          end
      end
  end.

(** native/lxml.py:50-51 and native/std.py:39-40 [make_element]: std drops the nsmap *)
Inductive backend := Lxml | Std.

Definition make_element (b : backend) (tag : string) (ns : option nsmap) : elem :=
  new_elem (TName tag) None None None [] (match b with Lxml => ns | Std => None end) (-1).

(** element.py:445-456 [find_element_or_create] *)
Definition find_element_or_create (b : backend) (e : elem) (tag : string) (m : smode)
    (ns : option nsmap) : found * elem :=
  match find_element e tag m true true with
  | (NotFound, e') =>
      let e'' := append_element (make_element b tag ns) e' in
      (Found (length (e_elems e')), e'')
  | r => r
  end.

(** one unbound entity: path of tags (outermost first), optional attribute name, value, and
    the source line of the innermost element of the path *)
Record unbound := Unbound {
  u_path : list xtag; u_attr : option string; u_value : string; u_line : Z
}.

(** element.py:475-479: [if text and (text := text.strip())] *)
Definition nonblank (o : option string) : option string :=
  match o with
  | None => None
  | Some s => let t := py_strip s in if String.eqb t "" then None else Some t
  end.

Definition opt_list {A} (o : option A) : list A :=
  match o with Some x => [x] | None => [] end.

(** element.py:469-488 [get_unbound]; [path] is the accumulated path parameter *)
Fixpoint get_unbound (path : list xtag) (e : elem) : list unbound :=
  match e with
  | Elem _ _ text tail attrib elements _ line =>
      map (fun t => Unbound path None t line) (opt_list (nonblank text)) ++
      map (fun t => Unbound path None t line) (opt_list (nonblank tail)) ++
      map (fun kv => Unbound path (Some (fst kv)) (snd kv) line)
          (match attrib with Some d => d | None => [] end) ++
      flat_map (fun c => get_unbound (path ++ [e_tag c]) c) elements
  end.

(** element/utils.py:3 *)
Definition xsi_nil : string := "{http://www.w3.org/2001/XMLSchema-instance}nil".

(** element/utils.py:6-10 [is_element_nill]: *pops* the attribute *)
Definition is_element_nill (e : elem) : bool * elem :=
  let (v, e') := pop_attrib xsi_nil e in
  (match v with Some s => String.eqb s "true" | None => false end, e').

(** element/utils.py:13-14 [make_element_nill] *)
Definition make_element_nill (e : elem) : elem := set_attribute xsi_nil "true" e.

(** ---- induction over the tree ---- *)
Unset Implicit Arguments.
Fixpoint elem_ind' (P : elem -> Prop)
    (H : forall tag ns text tail attrib elements next line,
        Forall P elements -> P (Elem tag ns text tail attrib elements next line))
    (e : elem) : P e :=
  match e with
  | Elem tag ns text tail attrib elements next line =>
      H tag ns text tail attrib elements next line
        ((fix all (l : list elem) : Forall P l :=
            match l with
            | [] => Forall_nil P
            | c :: l' => Forall_cons c (elem_ind' P H c) (all l')
            end) elements)
  end.
