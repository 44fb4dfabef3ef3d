(** Read.v -- model of every [deserialize] method and of [_check_extra].

    A reader takes the element and the source map and returns its outcome together with the
    updated element and source map; both are kept when it raises, because callers catch
    ValidationError and go on reading the same element. *)

From Verif Require Import Base Elem Native Errs Names Ser.

Record st := St { st_el : elem; st_sm : smap }.
Definition rres (A : Type) := (out A * st)%type.

(** [deserialize(element, loc=..., empty_as_string=...)]; the [element is None] guards are not
    modelled: every caller passes an element *)
Definition reader := bool -> location -> st -> rres val.

Definition set_el (e : elem) (s : st) : st := St e (st_sm s).

(** run [f] on the child at index [i] (Python holds a reference to it) *)
Definition on_child {A} (i : nat) (f : st -> rres A) (s : st) : rres A :=
  match nth_error (e_elems (st_el s)) i with
  | None => (Raise XIndexError, s)
  | Some c =>
      let (r, s') := f (St c (st_sm s)) in
      (r, St (put_child i (st_el s') (st_el s)) (st_sm s'))
  end.

(** [if (sub_element := <search>) is not None: <f> else: return None] *)
Definition with_found (r : found * elem) (f : st -> rres val) (s : st) : rres val :=
  match r with
  | (NotFound, e') => (Ok VNone, set_el e' s)
  | (IndexErr, e') => (Raise XIndexError, set_el e' s)
  | (Found i, e') => on_child i f (set_el e' s)
  end.

(** [sourcemap[loc] = element.get_sourceline()] *)
Definition note_line (loc : location) (s : st) : st :=
  St (st_el s) (sset loc (e_line (st_el s)) (st_sm s)).

Definition str_or_none (o : option string) : val :=
  match o with Some t => VStr t | None => VNone end.

(** [element.pop_text() or default] *)
Definition text_or_default (eas : bool) (o : option string) : val :=
  if str_truthy o then str_or_none o else if eas then VStr "" else VNone.

(** primitive.py:62-81 [TextSerializer.deserialize] *)
Definition read_text (computed nillable : bool) : reader := fun eas loc s =>
  if computed then (Ok VNone, s)
  else
    let (nil, e1) := if nillable then is_element_nill (st_el s) else (false, st_el s) in
    if nil then (Ok VNone, set_el e1 s)
    else
      let (t, e2) := pop_text e1 in
      (Ok (text_or_default eas t), set_el e2 s).

(** primitive.py:129-144 [AttributeSerializer.deserialize] *)
Definition read_attr (name : string) (computed : bool) : reader := fun eas loc s =>
  if computed then (Ok VNone, s)
  else let (v, e) := pop_attrib name (st_el s) in (Ok (str_or_none v), set_el e s).

(** primitive.py:200-221 [ElementSerializer.deserialize] *)
Definition read_elem (name : string) (mode : smode) (computed nillable : bool) : reader :=
  fun eas loc s =>
  if computed then (Ok VNone, s)
  else
    with_found (pop_element (st_el s) name mode)
      (fun c => read_text computed nillable eas loc (note_line loc c)) s.

(** mapping.py:64-67, the key of one attribute *)
Definition attrs_key (a : attrs_ser) (k : string) : string :=
  if as_namespaced a then q_tag (from_uri k) else k.

(** mapping.py:49-67 [AttributesSerializer.deserialize] *)
Definition read_attrs (a : attrs_ser) : reader := fun eas loc s =>
  if as_computed a then (Ok VNone, s)
  else
    match pop_attributes (st_el s) with
    | (None, e) => (Ok VNone, set_el e s)
    | (Some d, e) =>
        (Ok (VDict (dict_of (map (fun kv => (attrs_key a (fst kv), VStr (snd kv))) d))), set_el e s)
    end.

(** mapping.py:122-140 [ElementSerializer.deserialize] (an XmlElement is always truthy) *)
Definition read_map_elem (name : string) (mode : smode) (a : attrs_ser) : reader := fun eas loc s =>
  if as_computed a then (Ok VNone, s)
  else
    with_found (pop_element (st_el s) name mode)
      (fun c => read_attrs a eas loc (note_line loc c)) s.

(** homogeneous.py:83-104: the loop [for idx in it.count()] and what follows it.  [k] bounds
    the number of iterations. *)
Fixpoint read_items (k : nat) (r : reader) (title : string) (hide eas : bool) (loc : location)
    (idx : nat) (result : list val) (errors : list (option locitem * verr)) (s : st) : rres val :=
  match k with
  | O => (Fuel, s)
  | S k' =>
      match r eas (loc ++ [LIdx idx]) s with
      | (Ok VNone, s') =>
          match errors with
          | _ :: _ => (Raise (XValidation (into_validation_error title errors hide)), s')
          | [] => (Ok (match result with [] => VNone | _ => VList result end), s')
          end
      | (Ok v, s') => read_items k' r title hide eas loc (S idx) (result ++ [v]) errors s'
      | (Raise (XValidation err), s') =>
          read_items k' r title hide eas loc (S idx) result (errors ++ [(Some (LIdx idx), err)]) s'
      | (Raise x, s') => (Raise x, s')
      | (Fuel, s') => (Fuel, s')
      end
  end.

(** homogeneous.py:67-104 [ElementSerializer.deserialize] *)
Definition read_homo (k : nat) (title : string) (computed : bool) (r : reader) (hide : bool) : reader :=
  fun eas loc s =>
  if computed then (Ok VNone, s)
  else read_items k r title hide eas loc 0 [] [] s.

(** heterogeneous.py:76-99: the loop over the inner serializers and what follows it *)
Fixpoint read_tuple (rs : list reader) (title : string) (hide eas : bool) (loc : location)
    (idx : nat) (result : list val) (errors : list (option locitem * verr)) (s : st) : rres val :=
  match rs with
  | [] =>
      match errors with
      | _ :: _ => (Raise (XValidation (into_validation_error title errors hide)), s)
      | [] => (Ok (if forallb is_none result then VNone else VList result), s)
      end
  | r :: rs' =>
      match r eas (loc ++ [LIdx idx]) s with
      | (Ok v, s') => read_tuple rs' title hide eas loc (S idx) (result ++ [v]) errors s'
      | (Raise (XValidation err), s') =>
          read_tuple rs' title hide eas loc (S idx) result (errors ++ [(Some (LIdx idx), err)]) s'
      | (Raise x, s') => (Raise x, s')
      | (Fuel, s') => (Fuel, s')
      end
  end.

(** heterogeneous.py:61-99 [ElementSerializer.deserialize], named_tuple.py:50-61 *)
Definition read_hetero (title : string) (computed : bool) (rs : list reader) (hide : bool) : reader :=
  fun eas loc s =>
  if computed then (Ok VNone, s)
  else read_tuple rs title hide eas loc 0 [] [] s.

(** union.py:51-65 [PrimitiveTypeSerializer.deserialize] *)
Definition read_union_prim (computed : bool) (r : reader) : reader := fun eas loc s =>
  if computed then (Ok VNone, s) else r eas loc s.


(** union.py:135-158: the loop over the variants and what follows it.  The source map is shared
    by all attempts; the element is restored by working on a snapshot. *)
Fixpoint read_variants (rs : list reader) (title : string) (hide eas : bool) (loc : location)
    (errors : dict verr) (s : st) : rres val :=
  match rs with
  | [] =>
      match errors with
      | _ :: _ =>
          (Raise (XValidation (into_validation_error title
                    (map (fun kv => (Some (LKey (fst kv)), snd kv)) errors) hide)),
           set_el (step_forward (st_el s)) s)
      | [] => (Ok VNone, s)
      end
  | r :: rs' =>
      match r eas loc (set_el (create_snapshot (st_el s)) s) with
      | (Ok VNone, s') => read_variants rs' title hide eas loc errors (St (st_el s) (st_sm s'))
      | (Ok v, s') => (Ok v, St (apply_snapshot (st_el s) (st_el s')) (st_sm s'))
      | (Raise (XValidation err), s') =>
          read_variants rs' title hide eas loc (dset (ve_title err) err errors)
            (St (st_el s) (st_sm s'))
      | (Raise x, s') => (Raise x, St (st_el s) (st_sm s'))
      | (Fuel, s') => (Fuel, St (st_el s) (st_sm s'))
      end
  end.

(** union.py:120-158 [ModelSerializer.deserialize] *)
Definition read_union_model (title : string) (computed : bool) (rs : list reader) (hide : bool) : reader :=
  fun eas loc s =>
  if computed then (Ok VNone, s) else read_variants rs title hide eas loc [] s.

(** tagged_union.py:101-114, the loop over the variants *)
Fixpoint read_tagged (rp : proxy -> reader) (attr_name : string) (mode : smode)
    (vs : list (string * proxy)) (eas : bool) (loc : location) (s : st) : rres val :=
  match vs with
  | [] => (Ok VNone, s)
  | (tag, p) :: vs' =>
      match find_element (st_el s) (px_name p) mode false false with
      | (NotFound, e') => read_tagged rp attr_name mode vs' eas loc (set_el e' s)
      | (IndexErr, e') => (Raise XIndexError, set_el e' s)
      | (Found i, e') =>
          match nth_error (e_elems e') i with
          | None => (Raise XIndexError, set_el e' s)
          | Some c =>
              if match get_attrib attr_name c with Some t => String.eqb t tag | None => false end
              then rp p eas loc (St e' (sset loc (e_line c) (st_sm s)))
              else read_tagged rp attr_name mode vs' eas loc (set_el e' s)
          end
      end
  end.

(** run [f] on the descendant reached by a list of child indices *)
Fixpoint on_path {A} (path : list nat) (f : st -> rres A) (s : st) : rres A :=
  match path with
  | [] => f s
  | i :: rest => on_child i (on_path rest f) s
  end.

(** wrapper.py:67-92 [ElementPathSerializer.deserialize] *)
Definition read_wrap (path : list string) (mode : smode) (computed : bool) (r : reader) : reader :=
  fun eas loc s =>
  if computed then (Ok VNone, s)
  else
    match find_sub_element path mode (st_el s) with
    | (None, e') => (Raise XIndexError, set_el e' s)
    | (Some idxs, e') =>
        if negb (Nat.eqb (length idxs) 0) && Nat.eqb (length idxs) (length path)
        then on_path idxs (fun c => r eas loc (note_line loc c)) (set_el e' s)
        else (Ok VNone, set_el e' s)
    end.

(** raw.py:52-71 [ElementSerializer.deserialize].  [pop_element(remove=True)] returns a fresh
    element with the child's content and empties the child. *)
Definition read_raw (b : backend) (name : string) (mode : smode) (computed : bool) : reader :=
  fun eas loc s =>
  if computed then (Ok VNone, s)
  else
    with_found (pop_element (st_el s) name mode)
      (fun c =>
         let (fresh, c') := extract (st_el c) in
         (match to_native b fresh with Some n => Ok (VRaw n) | None => Raise XTypeError end,
          St c' (sset loc (e_line (st_el c)) (st_sm c)))) s.

(** factory model.py:46 [loc=tuple(el.tag for el in path) + ((f"@{attr}",) if attr else ())];
    a non-string tag has no counterpart in [location] and is shown as "?" *)
Definition unbound_loc (u : unbound) : location :=
  map (fun t => match t with TName s => LKey s | TSpecial => LKey "?" end) (u_path u) ++
  match u_attr u with
  | Some a => if String.eqb a "" then [] else [LKey (String "@"%char a)]
  | None => []
  end.

Definition extra_msg : string := "Extra inputs are not permitted".

Definition extra_error (u : unbound) : lerr :=
  LErr "extra_forbidden" (MLine (u_line u) (MText extra_msg)) (unbound_loc u) (VStr (u_value u)).

(** factory model.py:31-56 [BaseModelSerializer._check_extra]: the error raised, if any *)
Definition check_extra (title : string) (e : elem) (hide : bool) : option verr :=
  match get_unbound [] e with
  | [] => None
  | us => Some (VErr title (map extra_error us) hide)
  end.

(** factory model.py:236-242 and 350-356: extra check, then pydantic validation *)
Definition validate_result (m : mdef) (input : option val) (s : st) : out val :=
  match (if md_forbid m then check_extra (md_name m) (st_el s) (md_hide m) else None) with
  | Some err => Raise (XValidation err)
  | None =>
      match md_validate m input with
      | Valid v => Ok v
      | Invalid err => Raise (XValidation (set_validation_error_sourceline err (st_sm s) (md_hide m)))
      | Crashed what => Raise (XUser what)
      end
  end.

(** a custom field validator sees the element only *)
Definition run_custom (f : elem -> out val * elem) (s : st) : rres val :=
  let (r, e') := f (st_el s) in (r, set_el e' s).

(** factory model.py:212-227: the loop over the fields; [result] and [errors] accumulate *)
Fixpoint read_fields (r : ser -> reader) (m : mdef) (fs : list (string * ser)) (eas : bool)
    (result : list (string * val)) (errors : dict verr) (s : st)
  : rres (list (string * val) * dict verr) :=
  match fs with
  | [] => (Ok (result, errors), s)
  | (name, fser) :: fs' =>
      let s1 := note_line [LKey name] s in
      match (match md_cval m name with
             | Some custom => run_custom custom s1
             | None => r fser eas [LKey name] s1
             end) with
      | (Ok VNone, s2) => read_fields r m fs' eas result errors s2
      | (Ok v, s2) =>
          let key := match dget name (md_valias m) with Some a => a | None => name end in
          read_fields r m fs' eas (dset key v result) errors s2
      | (Raise (XValidation err), s2) => read_fields r m fs' eas result (dset name err errors) s2
      | (Raise x, s2) => (Raise x, s2)
      | (Fuel, s2) => (Fuel, s2)
      end
  end.

(** factory model.py:198-242 [ModelSerializer.deserialize] *)
Definition read_plain_model (r : ser -> reader) (m : mdef) : reader := fun eas loc s =>
  match read_fields r m (md_fields m) eas [] [] s with
  | (Ok (result, errors), s') =>
      match errors with
      | _ :: _ =>
          (Raise (XValidation (into_validation_error (md_name m)
                    (map (fun kv => (Some (LKey (fst kv)), snd kv)) errors) (md_hide m))), s')
      | [] => (validate_result m (Some (VDict result)) s', s')
      end
  | (Raise x, s') => (Raise x, s')
  | (Fuel, s') => (Fuel, s')
  end.

(** factory model.py:325-356 [RootModelSerializer.deserialize] *)
Definition read_root_model (r : ser -> reader) (m : mdef) : reader := fun eas loc s =>
  match md_fields m with
  | [] => (Raise XUnmodelled, s)
  | (_, rser) :: _ =>
      match r rser eas loc s with
      | (Ok v, s') =>
          (validate_result m (if is_none v then None else Some v) s', s')
      | (Raise (XValidation err), s') =>
          (Raise (XValidation (into_validation_error (md_name m) [(None, err)] (md_hide m))), s')
      | (Raise x, s') => (Raise x, s')
      | (Fuel, s') => (Fuel, s')
      end
  end.

Definition read_model (r : ser -> reader) (m : mdef) : reader :=
  if md_root m then read_root_model r m else read_plain_model r m.

(** factory model.py:441-467 [ModelProxySerializer.deserialize] *)
Definition read_proxy (ev : env) (r : ser -> reader) (p : proxy) : reader := fun eas loc s =>
  match en_model ev (px_model p) with
  | None => (Raise XAssertion, s)
  | Some m =>
      if px_computed p then (Ok VNone, s)
      else
        with_found (pop_element (st_el s) (px_name p) (px_mode p))
          (fun c =>
             let c1 := note_line loc c in
             let (nil, e1) := is_element_nill (st_el c1) in
             if nil then (Ok VNone, set_el e1 c1)
             else read_model r m eas loc (set_el e1 c1)) s
  end.

(** dispatch on the serializer object; [r] is the recursive call and [k] bounds list loops *)
Definition read_step (ev : env) (k : nat) (r : ser -> reader) (s : ser) : reader :=
  match s with
  | SText computed nillable => read_text computed nillable
  | SAttr name computed => read_attr name computed
  | SElem name _ mode computed nillable => read_elem name mode computed nillable
  | SAttrs a => read_attrs a
  | SMapElem name mode a => read_map_elem name mode a
  | SHomo title computed inner hide => read_homo k title computed (r inner) hide
  | SHetero title computed inners hide => read_hetero title computed (map r inners) hide
  | SUnionPrim computed inner => read_union_prim computed (r inner)
  | SUnionModel title computed variants hide =>
      read_union_model title computed (map (read_proxy ev r) variants) hide
  | STagged computed _ attr_name variants mode => fun eas loc s =>
      if computed then (Ok VNone, s)
      else read_tagged (read_proxy ev r) attr_name mode variants eas loc s
  | SWrap path _ mode computed inner => read_wrap path mode computed (r inner)
  | SRaw name mode computed => read_raw (en_backend ev) name mode computed
  | SProxy p => read_proxy ev r p
  end.

(** [serializer.deserialize(element, ...)]; the fuel bounds the call depth and list lengths *)
Fixpoint read (n : nat) (ev : env) (s : ser) : reader :=
  match n with
  | O => fun _ _ s => (Fuel, s)
  | S n' => read_step ev n' (read n' ev) s
  end.
