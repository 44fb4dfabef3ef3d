(** Calls.v -- which user code reading calls, with what, and in what order.

    Read.v models what [deserialize] returns.  Here the same methods are modelled as far as the calls of
    user code are concerned: a pydantic validation of a model class (which runs the validators and
    constructors of that class) and a validator defined with [xml_field_validator].  A tracer returns the
    calls made, in order; the elements and source maps on the way are those of Read.v. *)

From Verif Require Import Base Elem Native Errs Names Ser Read Api.

(** one call of user code: [cls.model_validate(input)] or the field validator of [cls.field] called with
    the element it is to read from *)
Inductive call :=
| CValidate (cls : string) (input : option val)
| CField (cls field : string) (e : elem).

Definition tracer := bool -> location -> st -> list call.

(** the calls made by [f] on the child at index [i] *)
Definition t_on_child (i : nat) (t : st -> list call) (s : st) : list call :=
  match nth_error (e_elems (st_el s)) i with
  | None => []
  | Some c => t (St c (st_sm s))
  end.

Definition t_with_found (r : found * elem) (t : st -> list call) (s : st) : list call :=
  match r with
  | (Found i, e') => t_on_child i t (set_el e' s)
  | _ => []
  end.

(** homogeneous.py:83-104, the loop over the items; it goes on after a value or a ValidationError *)
Fixpoint t_items (k : nat) (r : reader) (t : tracer) (eas : bool) (loc : location) (idx : nat) (s : st)
  : list call :=
  match k with
  | O => []
  | S k' =>
      t eas (loc ++ [LIdx idx]) s ++
      match r eas (loc ++ [LIdx idx]) s with
      | (Ok VNone, _) => []
      | (Ok _, s') | (Raise (XValidation _), s') => t_items k' r t eas loc (S idx) s'
      | _ => []
      end
  end.

(** heterogeneous.py:76-99, the loop over the inner serializers *)
Fixpoint t_tuple (rs : list (reader * tracer)) (eas : bool) (loc : location) (idx : nat) (s : st) : list call :=
  match rs with
  | [] => []
  | (r, t) :: rs' =>
      t eas (loc ++ [LIdx idx]) s ++
      match r eas (loc ++ [LIdx idx]) s with
      | (Ok _, s') | (Raise (XValidation _), s') => t_tuple rs' eas loc (S idx) s'
      | _ => []
      end
  end.

(** union.py:135-158, the loop over the variants: each works on a fresh snapshot *)
Fixpoint t_variants (rs : list (reader * tracer)) (eas : bool) (loc : location) (s : st) : list call :=
  match rs with
  | [] => []
  | (r, t) :: rs' =>
      t eas loc (set_el (create_snapshot (st_el s)) s) ++
      match r eas loc (set_el (create_snapshot (st_el s)) s) with
      | (Ok VNone, s') | (Raise (XValidation _), s') => t_variants rs' eas loc (St (st_el s) (st_sm s'))
      | _ => []
      end
  end.

(** tagged_union.py:101-114, the loop over the variants *)
Fixpoint t_tagged (tp : proxy -> tracer) (attr_name : string) (mode : smode) (vs : list (string * proxy))
    (eas : bool) (loc : location) (s : st) : list call :=
  match vs with
  | [] => []
  | (tag, p) :: vs' =>
      match find_element (st_el s) (px_name p) mode false false with
      | (NotFound, e') => t_tagged tp attr_name mode vs' eas loc (set_el e' s)
      | (IndexErr, _) => []
      | (Found i, e') =>
          match nth_error (e_elems e') i with
          | None => []
          | Some c =>
              if match get_attrib attr_name c with Some t => String.eqb t tag | None => false end
              then tp p eas loc (St e' (sset loc (e_line c) (st_sm s)))
              else t_tagged tp attr_name mode vs' eas loc (set_el e' s)
          end
      end
  end.

Fixpoint t_on_path (path : list nat) (t : st -> list call) (s : st) : list call :=
  match path with
  | [] => t s
  | i :: rest => t_on_child i (t_on_path rest t) s
  end.

(** wrapper.py:67-92 *)
Definition t_wrap (path : list string) (mode : smode) (t : tracer) : tracer := fun eas loc s =>
  match find_sub_element path mode (st_el s) with
  | (Some idxs, e') =>
      if negb (Nat.eqb (length idxs) 0) && Nat.eqb (length idxs) (length path)
      then t_on_path idxs (fun c => t eas loc (note_line loc c)) (set_el e' s)
      else []
  | (None, _) => []
  end.

(** factory model.py:236-242 and 350-356: pydantic is called unless extra data was found *)
Definition t_validate (cls : string) (m : mdef) (input : option val) (s : st) : list call :=
  match (if md_forbid m then check_extra (md_name m) (st_el s) (md_hide m) else None) with
  | Some _ => []
  | None => [CValidate cls input]
  end.

(** factory model.py:212-227: a field is read by its user validator, if it has one *)
Definition t_field (t : ser -> tracer) (cls : string) (m : mdef) (name : string) (fser : ser) (eas : bool)
    (s : st) : list call :=
  match md_cval m name with
  | Some _ => [CField cls name (st_el s)]
  | None => t fser eas [LKey name] s
  end.

Fixpoint t_fields (r : ser -> reader) (t : ser -> tracer) (cls : string) (m : mdef) (fs : list (string * ser))
    (eas : bool) (s : st) : list call :=
  match fs with
  | [] => []
  | (name, fser) :: fs' =>
      let s1 := note_line [LKey name] s in
      t_field t cls m name fser eas s1 ++
      match (match md_cval m name with
             | Some custom => run_custom custom s1
             | None => r fser eas [LKey name] s1
             end) with
      | (Ok _, s2) | (Raise (XValidation _), s2) => t_fields r t cls m fs' eas s2
      | _ => []
      end
  end.

(** factory model.py:198-242: the fields, and if all of them could be read the validation *)
Definition t_plain_model (r : ser -> reader) (t : ser -> tracer) (cls : string) (m : mdef) : tracer :=
  fun eas loc s =>
  t_fields r t cls m (md_fields m) eas s ++
  match read_fields r m (md_fields m) eas [] [] s with
  | (Ok (result, []), s') => t_validate cls m (Some (VDict result)) s'
  | _ => []
  end.

(** factory model.py:325-356 *)
Definition t_root_model (r : ser -> reader) (t : ser -> tracer) (cls : string) (m : mdef) : tracer :=
  fun eas loc s =>
  match md_fields m with
  | [] => []
  | (_, rser) :: _ =>
      t rser eas loc s ++
      match r rser eas loc s with
      | (Ok v, s') => t_validate cls m (if is_none v then None else Some v) s'
      | _ => []
      end
  end.

Definition t_model (r : ser -> reader) (t : ser -> tracer) (cls : string) (m : mdef) : tracer :=
  if md_root m then t_root_model r t cls m else t_plain_model r t cls m.

(** factory model.py:441-467 *)
Definition t_proxy (ev : env) (r : ser -> reader) (t : ser -> tracer) (p : proxy) : tracer := fun eas loc s =>
  match en_model ev (px_model p) with
  | None => []
  | Some m =>
      if px_computed p then []
      else
        t_with_found (pop_element (st_el s) (px_name p) (px_mode p))
          (fun c =>
             let c1 := note_line loc c in
             let (nil, e1) := is_element_nill (st_el c1) in
             if nil then [] else t_model r t (px_model p) m eas loc (set_el e1 c1)) s
  end.

(** dispatch on the serializer object, as [read_step]; what is not listed calls no user code *)
Definition trace_step (ev : env) (k : nat) (r : ser -> reader) (t : ser -> tracer) (s : ser) : tracer :=
  match s with
  | SHomo _ computed inner _ => fun eas loc s0 => if computed then [] else t_items k (r inner) (t inner) eas loc 0 s0
  | SHetero _ computed inners _ => fun eas loc s0 =>
      if computed then [] else t_tuple (map (fun i => (r i, t i)) inners) eas loc 0 s0
  | SUnionPrim computed inner => fun eas loc s0 => if computed then [] else t inner eas loc s0
  | SUnionModel _ computed variants _ => fun eas loc s0 =>
      if computed then []
      else t_variants (map (fun p => (read_proxy ev r p, t_proxy ev r t p)) variants) eas loc s0
  | STagged computed _ attr_name variants mode => fun eas loc s0 =>
      if computed then [] else t_tagged (t_proxy ev r t) attr_name mode variants eas loc s0
  | SWrap path _ mode computed inner => fun eas loc s0 =>
      if computed then [] else t_wrap path mode (t inner) eas loc s0
  | SProxy p => t_proxy ev r t p
  | _ => fun _ _ _ => []
  end.

(** the calls made by [serializer.deserialize(element, ...)], with the fuel of [read] *)
Fixpoint trace (n : nat) (ev : env) (s : ser) : tracer :=
  match n with
  | O => fun _ _ _ => []
  | S n' => trace_step ev n' (read n' ev) (trace n' ev) s
  end.

(** model.py:249-281: the calls made by [cls.from_xml_tree(root)] *)
Definition calls (n : nat) (ev : env) (cls : string) (root : native) (eas : bool) : list call :=
  match en_model ev cls with
  | None => []
  | Some m =>
      if tag_is (native_tag root) (md_elem_name m)
      then t_model (read n ev) (trace n ev) cls m eas [] (St (from_native (en_backend ev) root) [])
      else []
  end.
