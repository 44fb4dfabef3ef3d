(** HeapRead2.v -- every [deserialize] method, [_check_extra], [from_native], [to_native] and
    [from_xml_tree] once more, over the heap of Heap.v.

    Read.v models reading on trees: "change the child through a reference" is "put the changed
    child back".  Here the same methods are written with references, the way the source is, and
    PropHeap2.v proves that nothing can tell the two apart: no element is reached through two
    references in a way the tree model would miss. *)

From Verif Require Import Base Elem Native Errs Names Ser Read Api Heap SpecHeap HeapRead.

(** a computation that works on the source map (shared by all serializers of one call) and on the
    heap; both survive an exception *)
Definition hm (A : Type) := smap -> heap -> (out A * smap) * heap.

Definition mret {A} (x : A) : hm A := fun sm h => (Ok x, sm, h).
Definition mraise {A} (x : exn) : hm A := fun sm h => (Raise x, sm, h).
Definition mfuel {A} : hm A := fun sm h => (Fuel, sm, h).
Definition mbind {A B} (m : hm A) (f : A -> hm B) : hm B := fun sm h =>
  match m sm h with
  | (Ok x, sm', h') => f x sm' h'
  | (Raise x, sm', h') => (Raise x, sm', h')
  | (Fuel, sm', h') => (Fuel, sm', h')
  end.

Notation "x <~ m ;; f" := (mbind m (fun x => f)) (at level 61, m at next level, right associativity).

(** [try: ... except pd.ValidationError as err] *)
Definition mtry {A} (m : hm A) : hm (A + verr) := fun sm h =>
  match m sm h with
  | (Ok x, sm', h') => (Ok (inl x), sm', h')
  | (Raise (XValidation err), sm', h') => (Ok (inr err), sm', h')
  | (Raise x, sm', h') => (Raise x, sm', h')
  | (Fuel, sm', h') => (Fuel, sm', h')
  end.

(** a method call on an element.  The exception it may raise on a heap whose elements are what
    they should be is the IndexError of the look-behind. *)
Definition lift {A} (m : hp A) : hm A := fun sm h =>
  match m h with
  | (Some x, h') => (Ok x, sm, h')
  | (None, h') => (Raise XIndexError, sm, h')
  end.

(** the same for a method that walks a whole tree with a recursion limit; if the limit is not enough
    (the size of the heap always is), the result is [Fuel] and nothing of the heap is kept, so that
    no theorem about what is left on the heap holds by accident *)
Definition lift_walk {A} (m : hp A) : hm A := fun sm h =>
  match m h with
  | (Some x, h') => (Ok x, sm, h')
  | (None, _) => (Fuel, sm, [])
  end.

(** element.py:498-502, native/lxml.py:53-54, native/std.py:42-43 [get_sourceline]; the line of an
    ElementTree element is -1 from the start (Native.v) *)
Definition h_get_sourceline (self : ref) : hp Z := n <- load_node self ;; ret (n_line n).

(** [sourcemap[loc] = element.get_sourceline()] *)
Definition h_note_line (loc : location) (self : ref) : hm unit :=
  l <~ lift (h_get_sourceline self) ;; fun sm h => (Ok tt, sset loc l sm, h).

(** primitive.py:62-81 [TextSerializer.deserialize] *)
Definition h_read_text (computed nillable : bool) : hreader := fun eas loc self =>
  if computed then mret VNone
  else
    nil <~ (if nillable then lift (h_is_element_nill self) else mret false) ;;
    if nil then mret VNone
    else t <~ lift (h_pop_text self) ;; mret (text_or_default eas t).

(** primitive.py:129-144 [AttributeSerializer.deserialize] *)
Definition h_read_attr (name : string) (computed : bool) : hreader := fun eas loc self =>
  if computed then mret VNone
  else v <~ lift (h_pop_attrib self name) ;; mret (str_or_none v).

(** primitive.py:200-221 [ElementSerializer.deserialize] *)
Definition h_read_elem (name : string) (mode : smode) (computed nillable : bool) : hreader :=
  fun eas loc self =>
  if computed then mret VNone
  else
    c <~ lift (h_pop_element self name mode false) ;;
    match c with
    | None => mret VNone
    | Some c' => _ <~ h_note_line loc c' ;; h_read_text computed nillable eas loc c'
    end.

(** mapping.py:49-67 [AttributesSerializer.deserialize]: [pop_attributes] hands out the dict
    itself, which is then read *)
Definition h_read_attrs (a : attrs_ser) : hreader := fun eas loc self =>
  if as_computed a then mret VNone
  else
    d <~ lift (r <- h_pop_attributes self ;; load_odict r) ;;
    match d with
    | None => mret VNone
    | Some d' => mret (VDict (dict_of (map (fun kv => (attrs_key a (fst kv), VStr (snd kv))) d')))
    end.

(** mapping.py:122-140 [ElementSerializer.deserialize] *)
Definition h_read_map_elem (name : string) (mode : smode) (a : attrs_ser) : hreader :=
  fun eas loc self =>
  if as_computed a then mret VNone
  else
    c <~ lift (h_pop_element self name mode false) ;;
    match c with
    | None => mret VNone
    | Some c' => _ <~ h_note_line loc c' ;; h_read_attrs a eas loc c'
    end.

(** homogeneous.py:83-104; [k] bounds the number of iterations *)
Fixpoint h_read_items (k : nat) (r : hreader) (title : string) (hide eas : bool) (loc : location)
    (idx : nat) (result : list val) (errors : list (option locitem * verr)) (self : ref) : hm val :=
  match k with
  | O => mfuel
  | S k' =>
      x <~ mtry (r eas (loc ++ [LIdx idx]) self) ;;
      match x with
      | inl VNone =>
          match errors with
          | _ :: _ => mraise (XValidation (into_validation_error title errors hide))
          | [] => mret (match result with [] => VNone | _ => VList result end)
          end
      | inl v => h_read_items k' r title hide eas loc (S idx) (result ++ [v]) errors self
      | inr err =>
          h_read_items k' r title hide eas loc (S idx) result (errors ++ [(Some (LIdx idx), err)]) self
      end
  end.

(** homogeneous.py:67-104 [ElementSerializer.deserialize] *)
Definition h_read_homo (k : nat) (title : string) (computed : bool) (r : hreader) (hide : bool)
  : hreader := fun eas loc self =>
  if computed then mret VNone else h_read_items k r title hide eas loc 0 [] [] self.

(** heterogeneous.py:76-99 *)
Fixpoint h_read_tuple (rs : list hreader) (title : string) (hide eas : bool) (loc : location)
    (idx : nat) (result : list val) (errors : list (option locitem * verr)) (self : ref) : hm val :=
  match rs with
  | [] =>
      match errors with
      | _ :: _ => mraise (XValidation (into_validation_error title errors hide))
      | [] => mret (if forallb is_none result then VNone else VList result)
      end
  | r :: rs' =>
      x <~ mtry (r eas (loc ++ [LIdx idx]) self) ;;
      match x with
      | inl v => h_read_tuple rs' title hide eas loc (S idx) (result ++ [v]) errors self
      | inr err =>
          h_read_tuple rs' title hide eas loc (S idx) result (errors ++ [(Some (LIdx idx), err)]) self
      end
  end.

(** heterogeneous.py:61-99 [ElementSerializer.deserialize], named_tuple.py:50-61 *)
Definition h_read_hetero (title : string) (computed : bool) (rs : list hreader) (hide : bool)
  : hreader := fun eas loc self =>
  if computed then mret VNone else h_read_tuple rs title hide eas loc 0 [] [] self.

(** union.py:51-65 [PrimitiveTypeSerializer.deserialize] *)
Definition h_read_union_prim (computed : bool) (r : hreader) : hreader := fun eas loc self =>
  if computed then mret VNone else r eas loc self.

(** union.py:120-158 [ModelSerializer.deserialize]; the loop is in HeapRead.v *)
Definition h_read_union_model (title : string) (computed : bool) (rs : list hreader) (hide : bool)
  : hreader := fun eas loc self =>
  if computed then mret VNone else h_read_variants rs title hide eas loc [] self.

(** tagged_union.py:101-114, the loop over the variants *)
Fixpoint h_read_tagged (rp : proxy -> hreader) (attr_name : string) (mode : smode)
    (vs : list (string * proxy)) (eas : bool) (loc : location) (self : ref) : hm val :=
  match vs with
  | [] => mret VNone
  | (tag, p) :: vs' =>
      c <~ lift (h_find_element self (px_name p) mode false false) ;;
      match c with
      | None => h_read_tagged rp attr_name mode vs' eas loc self
      | Some c' =>
          t <~ lift (h_get_attrib c' attr_name) ;;
          if match t with Some t' => String.eqb t' tag | None => false end
          then _ <~ h_note_line loc c' ;; rp p eas loc self
          else h_read_tagged rp attr_name mode vs' eas loc self
      end
  end.

(** wrapper.py:67-92 [ElementPathSerializer.deserialize].  No path is empty ([path.split('/')] of
    a string), and for an empty one [find_sub_element] would raise AssertionError; as in Read.v,
    the model lets it be None. *)
Definition h_read_wrap (path : list string) (mode : smode) (computed : bool) (r : hreader)
  : hreader := fun eas loc self =>
  if computed then mret VNone
  else
    match path with
    | [] => mret VNone
    | _ :: _ =>
        cs <~ lift (h_find_sub_element self path mode) ;;
        if negb (Nat.eqb (length cs) 0) && Nat.eqb (length cs) (length path)
        then _ <~ h_note_line loc (last cs self) ;; r eas loc (last cs self)
        else mret VNone
    end.

(** native/lxml.py:37-48, native/std.py:31-37 [to_native]; [fuel] is the recursion limit.  The
    inner [None] is the TypeError of [etree.Element] (Native.v). *)
Fixpoint h_to_native (fuel : nat) (b : backend) (self : ref) : hp (option native) :=
  match fuel with
  | O => raise
  | S fuel' =>
      n <- load_node self ;;
      at_ <- load_odict (n_attrib n) ;;
      ns <- load_odict (n_nsmap n) ;;
      let attrs := match at_ with Some d => d | None => [] end in
      match n_tag n with
      | TSpecial =>
          ret (match b with Lxml => None | Std => Some (NPI (n_text n) (n_tail n) attrs None) end)
      | TName t =>
          l <- load_list (n_elems n) ;;
          cs <- h_map (h_to_native fuel' b) l ;;
          ret (match map_opt (fun x => x) cs with
               | None => None
               | Some cs' =>
                   Some (NElem t (match b with Lxml => native_nsmap ns | Std => [] end)
                               (n_text n) (n_tail n) attrs cs' None)
               end)
      end
  end.

(** raw.py:52-71 [ElementSerializer.deserialize]; the recursion limit is the size of the heap,
    which bounds the depth of any tree on it *)
Definition h_read_raw (b : backend) (name : string) (mode : smode) (computed : bool) : hreader :=
  fun eas loc self =>
  if computed then mret VNone
  else
    c <~ lift (h_pop_element self name mode true) ;;
    match c with
    | None => mret VNone
    | Some c' =>
        _ <~ h_note_line loc c' ;;
        o <~ lift_walk (fun h => h_to_native (length h) b c' h) ;;
        match o with
        | Some n => mret (VRaw n)
        | None => mraise XTypeError
        end
    end.

(** element.py:469-488 [get_unbound]: [path] and the paths returned hold references, as in the
    source *)
Fixpoint h_get_unbound (fuel : nat) (path : list ref) (self : ref)
  : hp (list (list ref * option string * string)) :=
  match fuel with
  | O => raise
  | S fuel' =>
      n <- load_node self ;;
      at_ <- load_odict (n_attrib n) ;;
      l <- load_list (n_elems n) ;;
      rest <- h_map (fun c => h_get_unbound fuel' (path ++ [c]) c) l ;;
      ret (map (fun t => (path, None, t)) (opt_list (nonblank (n_text n))) ++
           map (fun t => (path, None, t)) (opt_list (nonblank (n_tail n))) ++
           map (fun kv => (path, Some (fst kv), snd kv)) (match at_ with Some d => d | None => [] end) ++
           concat rest)
  end.

(** one round of the loop of factory model.py:35-49: the line of
    [(path or (element,))[-1]] and the tags of the path *)
Definition h_extra_error (self : ref) (u : list ref * option string * string) : hp lerr :=
  let '(path, attr, value) := u in
  line <- h_get_sourceline (last path self) ;;
  ns <- h_map load_node path ;;
  ret (extra_error (Unbound (map n_tag ns) attr value line)).

(** factory model.py:31-56 [BaseModelSerializer._check_extra] *)
Definition h_check_extra (title : string) (self : ref) (hide : bool) : hp (option verr) := fun h =>
  (us <- h_get_unbound (length h) [] self ;;
   errs <- h_map (h_extra_error self) us ;;
   ret (match errs with [] => None | _ :: _ => Some (VErr title errs hide) end)) h.

(** factory model.py:236-242 and 350-356: extra check, then pydantic validation *)
Definition h_validate_result (m : mdef) (input : option val) (self : ref) : hm val :=
  x <~ (if md_forbid m then lift_walk (h_check_extra (md_name m) self (md_hide m)) else mret None) ;;
  match x with
  | Some err => mraise (XValidation err)
  | None => fun sm h =>
      match md_validate m input with
      | Valid v => (Ok v, sm, h)
      | Invalid err => (Raise (XValidation (set_validation_error_sourceline err sm (md_hide m))), sm, h)
      | Crashed what => (Raise (XUser what), sm, h)
      end
  end.

(** the custom field validators of the classes (model, field): they get a reference to the element
    and may do with it what they like *)
Definition hcvals := string -> string -> option (ref -> heap -> out val * heap).

Definition h_run_custom (f : ref -> heap -> out val * heap) (self : ref) : hm val := fun sm h =>
  let (r, h') := f self h in (r, sm, h').

(** factory model.py:212-227: the loop over the fields *)
Fixpoint h_read_fields (r : ser -> hreader) (hc : string -> option (ref -> heap -> out val * heap))
    (m : mdef) (fs : list (string * ser)) (eas : bool)
    (result : list (string * val)) (errors : dict verr) (self : ref)
  : hm (list (string * val) * dict verr) :=
  match fs with
  | [] => mret (result, errors)
  | (name, fser) :: fs' =>
      _ <~ h_note_line [LKey name] self ;;
      x <~ mtry (match hc name with
                 | Some custom => h_run_custom custom self
                 | None => r fser eas [LKey name] self
                 end) ;;
      match x with
      | inl VNone => h_read_fields r hc m fs' eas result errors self
      | inl v =>
          let key := match dget name (md_valias m) with Some a => a | None => name end in
          h_read_fields r hc m fs' eas (dset key v result) errors self
      | inr err => h_read_fields r hc m fs' eas result (dset name err errors) self
      end
  end.

(** factory model.py:198-242 [ModelSerializer.deserialize] *)
Definition h_read_plain_model (r : ser -> hreader)
    (hc : string -> option (ref -> heap -> out val * heap)) (m : mdef) : hreader :=
  fun eas loc self =>
  x <~ h_read_fields r hc m (md_fields m) eas [] [] self ;;
  match snd x with
  | _ :: _ =>
      mraise (XValidation (into_validation_error (md_name m)
                (map (fun kv => (Some (LKey (fst kv)), snd kv)) (snd x)) (md_hide m)))
  | [] => h_validate_result m (Some (VDict (fst x))) self
  end.

(** factory model.py:325-356 [RootModelSerializer.deserialize] *)
Definition h_read_root_model (r : ser -> hreader) (m : mdef) : hreader := fun eas loc self =>
  match md_fields m with
  | [] => mraise XUnmodelled
  | (_, rser) :: _ =>
      x <~ mtry (r rser eas loc self) ;;
      match x with
      | inl v => h_validate_result m (if is_none v then None else Some v) self
      | inr err => mraise (XValidation (into_validation_error (md_name m) [(None, err)] (md_hide m)))
      end
  end.

Definition h_read_model (r : ser -> hreader)
    (hc : string -> option (ref -> heap -> out val * heap)) (m : mdef) : hreader :=
  if md_root m then h_read_root_model r m else h_read_plain_model r hc m.

(** factory model.py:441-467 [ModelProxySerializer.deserialize] *)
Definition h_read_proxy (ev : env) (hc : hcvals) (r : ser -> hreader) (p : proxy) : hreader :=
  fun eas loc self =>
  match en_model ev (px_model p) with
  | None => mraise XAssertion
  | Some m =>
      if px_computed p then mret VNone
      else
        c <~ lift (h_pop_element self (px_name p) (px_mode p) false) ;;
        match c with
        | None => mret VNone
        | Some c' =>
            _ <~ h_note_line loc c' ;;
            nil <~ lift (h_is_element_nill c') ;;
            if nil then mret VNone else h_read_model r (hc (px_model p)) m eas loc c'
        end
  end.

(** dispatch on the serializer object *)
Definition h_read_step (ev : env) (hc : hcvals) (k : nat) (r : ser -> hreader) (s : ser) : hreader :=
  match s with
  | SText computed nillable => h_read_text computed nillable
  | SAttr name computed => h_read_attr name computed
  | SElem name _ mode computed nillable => h_read_elem name mode computed nillable
  | SAttrs a => h_read_attrs a
  | SMapElem name mode a => h_read_map_elem name mode a
  | SHomo title computed inner hide => h_read_homo k title computed (r inner) hide
  | SHetero title computed inners hide => h_read_hetero title computed (map r inners) hide
  | SUnionPrim computed inner => h_read_union_prim computed (r inner)
  | SUnionModel title computed variants hide =>
      h_read_union_model title computed (map (h_read_proxy ev hc r) variants) hide
  | STagged computed _ attr_name variants mode => fun eas loc self =>
      if computed then mret VNone
      else h_read_tagged (h_read_proxy ev hc r) attr_name mode variants eas loc self
  | SWrap path _ mode computed inner => h_read_wrap path mode computed (r inner)
  | SRaw name mode computed => h_read_raw (en_backend ev) name mode computed
  | SProxy p => h_read_proxy ev hc r p
  end.

(** [serializer.deserialize(element, ...)]; the fuel bounds the call depth and list lengths *)
Fixpoint h_read (n : nat) (ev : env) (hc : hcvals) (s : ser) : hreader :=
  match n with
  | O => fun _ _ _ => mfuel
  | S n' => h_read_step ev hc n' (h_read n' ev hc) s
  end.

(** native/lxml.py:19-35, native/std.py:17-29 [from_native]: the children are built before the
    element that holds them *)
Fixpoint h_from_native (b : backend) (n : native) : hp ref :=
  match n with
  | NElem tag _ text tail attrib children line =>
      es <- (fix each (l : list native) : hp (list ref) :=
               match l with
               | [] => ret []
               | c :: l' =>
                   if is_xml_comment c then each l'
                   else r <- h_from_native b c ;; rs <- each l' ;; ret (r :: rs)
               end) children ;;
      h_new (TName tag) text tail (Some attrib) es None (native_line b line)
  | NPI text tail attrib line => h_new TSpecial text tail (Some attrib) [] None (native_line b line)
  | NComment text tail => h_new TSpecial text tail (Some []) [] None (-1)
  end.

(** model.py:249-281 [BaseXmlModel.from_xml_tree]: the wrapper elements are built on whatever heap
    there is; [{}] is the source map *)
Definition h_from_xml_tree (n : nat) (ev : env) (hc : hcvals) (cls : string) (root : native) (eas : bool)
    (h : heap) : out val * heap :=
  match en_model ev cls with
  | None => (Raise XAssertion, h)
  | Some m =>
      if tag_is (native_tag root) (md_elem_name m)
      then
        match h_from_native (en_backend ev) root h with
        | (Some self, h1) =>
            match h_read_model (h_read n ev hc) (hc cls) m eas [] self [] h1 with
            | (o, _, h2) => (o, h2)
            end
        | (None, h1) => (Raise XIndexError, h1)
        end
      else (Raise XParsing, h)
  end.
