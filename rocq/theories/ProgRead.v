(** ProgRead.v -- every [deserialize] method, [_check_extra], [from_native], [to_native] and
    [from_xml_tree] as programs of single memory accesses (see Prog.v).  The text is that of
    HeapRead.v and HeapRead2.v in another monad. *)

From Verif Require Import Base Elem Native Errs Names Ser Read Api Heap Prog.

(** a computation that works on the source map (shared by all serializers of one call, but never
    by two calls) and on the memory *)
Definition pm (A : Type) := smap -> prog (out A * smap).

Definition pmret {A} (x : A) : pm A := fun sm => Ret (Ok x, sm).
Definition pmraise {A} (x : exn) : pm A := fun sm => Ret (Raise x, sm).
Definition pmfuel {A} : pm A := fun sm => Ret (Fuel, sm).
Definition pmbind {A B} (m : pm A) (f : A -> pm B) : pm B := fun sm =>
  andthen (m sm) (fun r =>
    match fst r with
    | Ok x => f x (snd r)
    | Raise x => Ret (Raise x, snd r)
    | Fuel => Ret (Fuel, snd r)
    end).

Notation "x <~| m ;; f" := (pmbind m (fun x => f)) (at level 61, m at next level, right associativity).

(** [try: ... except pd.ValidationError as err] *)
Definition pmtry {A} (m : pm A) : pm (A + verr) := fun sm =>
  andthen (m sm) (fun r =>
    match fst r with
    | Ok x => Ret (Ok (inl x), snd r)
    | Raise (XValidation err) => Ret (Ok (inr err), snd r)
    | Raise x => Ret (Raise x, snd r)
    | Fuel => Ret (Fuel, snd r)
    end).

(** a method call on an element; see [lift] and [lift_walk] in HeapRead2.v *)
Definition plift {A} (m : pp A) : pm A := fun sm =>
  andthen m (fun o => match o with Some x => Ret (Ok x, sm) | None => Ret (Raise XIndexError, sm) end).
Definition plift_walk {A} (m : pp A) : pm A := fun sm =>
  andthen m (fun o => match o with Some x => Ret (Ok x, sm) | None => Stop end).

(** [serializer.deserialize(element, ...)] *)
Definition preader := bool -> location -> ref -> pm val.

(** union.py:135-158, the loop of [ModelSerializer.deserialize] *)
Fixpoint p_read_variants (rs : list preader) (title : string) (hide eas : bool) (loc : location)
    (errors : dict verr) (self : ref) : pm val := fun sm =>
  match rs with
  | [] =>
      match errors with
      | _ :: _ =>
          andthen (p_step_forward self) (fun o =>
            match o with
            | Some _ =>
                Ret (Raise (XValidation (into_validation_error title
                       (map (fun kv => (Some (LKey (fst kv)), snd kv)) errors) hide)), sm)
            | None => Ret (Fuel, sm)
            end)
      | [] => Ret (Ok VNone, sm)
      end
  | r :: rs' =>
      andthen (Size (fun n => p_create_snapshot n self)) (fun s =>
        match s with
        | None => Stop
        | Some snapshot =>
            andthen (r eas loc snapshot sm) (fun x =>
              match fst x with
              | Ok VNone => p_read_variants rs' title hide eas loc errors self (snd x)
              | Ok v =>
                  andthen (p_apply_snapshot self snapshot) (fun o =>
                    match o with
                    | Some _ => Ret (Ok v, snd x)
                    | None => Ret (Fuel, snd x)
                    end)
              | Raise (XValidation err) =>
                  p_read_variants rs' title hide eas loc (dset (ve_title err) err errors) self (snd x)
              | Raise x' => Ret (Raise x', snd x)
              | Fuel => Ret (Fuel, snd x)
              end)
        end)
  end.

(** element.py:498-502, native/lxml.py:53-54, native/std.py:42-43 [get_sourceline]; the line of an
    ElementTree element is -1 from the start (Native.v) *)
Definition p_get_sourceline (self : ref) : pp Z := n <| p_load_node self ;; pret (n_line n).

(** [sourcemap[loc] = element.get_sourceline()] *)
Definition p_note_line (loc : location) (self : ref) : pm unit :=
  l <~| plift (p_get_sourceline self) ;; fun sm => Ret (Ok tt, sset loc l sm).

(** primitive.py:62-81 [TextSerializer.deserialize] *)
Definition p_read_text (computed nillable : bool) : preader := fun eas loc self =>
  if computed then pmret VNone
  else
    nil <~| (if nillable then plift (p_is_element_nill self) else pmret false) ;;
    if nil then pmret VNone
    else t <~| plift (p_pop_text self) ;; pmret (text_or_default eas t).

(** primitive.py:129-144 [AttributeSerializer.deserialize] *)
Definition p_read_attr (name : string) (computed : bool) : preader := fun eas loc self =>
  if computed then pmret VNone
  else v <~| plift (p_pop_attrib self name) ;; pmret (str_or_none v).

(** primitive.py:200-221 [ElementSerializer.deserialize] *)
Definition p_read_elem (name : string) (mode : smode) (computed nillable : bool) : preader :=
  fun eas loc self =>
  if computed then pmret VNone
  else
    c <~| plift (p_pop_element self name mode false) ;;
    match c with
    | None => pmret VNone
    | Some c' => _ <~| p_note_line loc c' ;; p_read_text computed nillable eas loc c'
    end.

(** mapping.py:49-67 [AttributesSerializer.deserialize]: [pop_attributes] hands out the dict
    itself, which is then read *)
Definition p_read_attrs (a : attrs_ser) : preader := fun eas loc self =>
  if as_computed a then pmret VNone
  else
    d <~| plift (r <| p_pop_attributes self ;; p_load_odict r) ;;
    match d with
    | None => pmret VNone
    | Some d' => pmret (VDict (dict_of (map (fun kv => (attrs_key a (fst kv), VStr (snd kv))) d')))
    end.

(** mapping.py:122-140 [ElementSerializer.deserialize] *)
Definition p_read_map_elem (name : string) (mode : smode) (a : attrs_ser) : preader :=
  fun eas loc self =>
  if as_computed a then pmret VNone
  else
    c <~| plift (p_pop_element self name mode false) ;;
    match c with
    | None => pmret VNone
    | Some c' => _ <~| p_note_line loc c' ;; p_read_attrs a eas loc c'
    end.

(** homogeneous.py:83-104; [k] bounds the number of iterations *)
Fixpoint p_read_items (k : nat) (r : preader) (title : string) (hide eas : bool) (loc : location)
    (idx : nat) (result : list val) (errors : list (option locitem * verr)) (self : ref) : pm val :=
  match k with
  | O => pmfuel
  | S k' =>
      x <~| pmtry (r eas (loc ++ [LIdx idx]) self) ;;
      match x with
      | inl VNone =>
          match errors with
          | _ :: _ => pmraise (XValidation (into_validation_error title errors hide))
          | [] => pmret (match result with [] => VNone | _ => VList result end)
          end
      | inl v => p_read_items k' r title hide eas loc (S idx) (result ++ [v]) errors self
      | inr err =>
          p_read_items k' r title hide eas loc (S idx) result (errors ++ [(Some (LIdx idx), err)]) self
      end
  end.

(** homogeneous.py:67-104 [ElementSerializer.deserialize] *)
Definition p_read_homo (k : nat) (title : string) (computed : bool) (r : preader) (hide : bool)
  : preader := fun eas loc self =>
  if computed then pmret VNone else p_read_items k r title hide eas loc 0 [] [] self.

(** heterogeneous.py:76-99 *)
Fixpoint p_read_tuple (rs : list preader) (title : string) (hide eas : bool) (loc : location)
    (idx : nat) (result : list val) (errors : list (option locitem * verr)) (self : ref) : pm val :=
  match rs with
  | [] =>
      match errors with
      | _ :: _ => pmraise (XValidation (into_validation_error title errors hide))
      | [] => pmret (if forallb is_none result then VNone else VList result)
      end
  | r :: rs' =>
      x <~| pmtry (r eas (loc ++ [LIdx idx]) self) ;;
      match x with
      | inl v => p_read_tuple rs' title hide eas loc (S idx) (result ++ [v]) errors self
      | inr err =>
          p_read_tuple rs' title hide eas loc (S idx) result (errors ++ [(Some (LIdx idx), err)]) self
      end
  end.

(** heterogeneous.py:61-99 [ElementSerializer.deserialize], named_tuple.py:50-61 *)
Definition p_read_hetero (title : string) (computed : bool) (rs : list preader) (hide : bool)
  : preader := fun eas loc self =>
  if computed then pmret VNone else p_read_tuple rs title hide eas loc 0 [] [] self.

(** union.py:51-65 [PrimitiveTypeSerializer.deserialize] *)
Definition p_read_union_prim (computed : bool) (r : preader) : preader := fun eas loc self =>
  if computed then pmret VNone else r eas loc self.

(** union.py:120-158 [ModelSerializer.deserialize]; the loop is above *)
Definition p_read_union_model (title : string) (computed : bool) (rs : list preader) (hide : bool)
  : preader := fun eas loc self =>
  if computed then pmret VNone else p_read_variants rs title hide eas loc [] self.

(** tagged_union.py:101-114, the loop over the variants *)
Fixpoint p_read_tagged (rp : proxy -> preader) (attr_name : string) (mode : smode)
    (vs : list (string * proxy)) (eas : bool) (loc : location) (self : ref) : pm val :=
  match vs with
  | [] => pmret VNone
  | (tag, p) :: vs' =>
      c <~| plift (p_find_element self (px_name p) mode false false) ;;
      match c with
      | None => p_read_tagged rp attr_name mode vs' eas loc self
      | Some c' =>
          t <~| plift (p_get_attrib c' attr_name) ;;
          if match t with Some t' => String.eqb t' tag | None => false end
          then _ <~| p_note_line loc c' ;; rp p eas loc self
          else p_read_tagged rp attr_name mode vs' eas loc self
      end
  end.

(** wrapper.py:67-92 [ElementPathSerializer.deserialize].  No path is empty ([path.split('/')] of
    a string), and for an empty one [find_sub_element] would praise AssertionError; as in Read.v,
    the model lets it be None. *)
Definition p_read_wrap (path : list string) (mode : smode) (computed : bool) (r : preader)
  : preader := fun eas loc self =>
  if computed then pmret VNone
  else
    match path with
    | [] => pmret VNone
    | _ :: _ =>
        cs <~| plift (p_find_sub_element self path mode) ;;
        if negb (Nat.eqb (length cs) 0) && Nat.eqb (length cs) (length path)
        then _ <~| p_note_line loc (last cs self) ;; r eas loc (last cs self)
        else pmret VNone
    end.

(** native/lxml.py:37-48, native/std.py:31-37 [to_native]; [fuel] is the recursion limit.  The
    inner [None] is the TypeError of [etree.Element] (Native.v). *)
Fixpoint p_to_native (fuel : nat) (b : backend) (self : ref) : pp (option native) :=
  match fuel with
  | O => Stop
  | S fuel' =>
      n <| p_load_node self ;;
      at_ <| p_load_odict (n_attrib n) ;;
      ns <| p_load_odict (n_nsmap n) ;;
      let attrs := match at_ with Some d => d | None => [] end in
      match n_tag n with
      | TSpecial =>
          pret (match b with Lxml => None | Std => Some (NPI (n_text n) (n_tail n) attrs None) end)
      | TName t =>
          l <| p_load_list (n_elems n) ;;
          cs <| p_map (p_to_native fuel' b) l ;;
          pret (match map_opt (fun x => x) cs with
               | None => None
               | Some cs' =>
                   Some (NElem t (match b with Lxml => native_nsmap ns | Std => [] end)
                               (n_text n) (n_tail n) attrs cs' None)
               end)
      end
  end.

(** raw.py:52-71 [ElementSerializer.deserialize]; the recursion limit is the size of the heap,
    which bounds the depth of any tree on it *)
Definition p_read_raw (b : backend) (name : string) (mode : smode) (computed : bool) : preader :=
  fun eas loc self =>
  if computed then pmret VNone
  else
    c <~| plift (p_pop_element self name mode true) ;;
    match c with
    | None => pmret VNone
    | Some c' =>
        _ <~| p_note_line loc c' ;;
        o <~| plift_walk (Size (fun n => p_to_native n b c')) ;;
        match o with
        | Some n => pmret (VRaw n)
        | None => pmraise XTypeError
        end
    end.

(** element.py:469-488 [get_unbound]: [path] and the paths returned hold references, as in the
    source *)
Fixpoint p_get_unbound (fuel : nat) (path : list ref) (self : ref)
  : pp (list (list ref * option string * string)) :=
  match fuel with
  | O => Stop
  | S fuel' =>
      n <| p_load_node self ;;
      at_ <| p_load_odict (n_attrib n) ;;
      l <| p_load_list (n_elems n) ;;
      rest <| p_map (fun c => p_get_unbound fuel' (path ++ [c]) c) l ;;
      pret (map (fun t => (path, None, t)) (opt_list (nonblank (n_text n))) ++
           map (fun t => (path, None, t)) (opt_list (nonblank (n_tail n))) ++
           map (fun kv => (path, Some (fst kv), snd kv)) (match at_ with Some d => d | None => [] end) ++
           concat rest)
  end.

(** one round of the loop of factory model.py:35-49: the line of
    [(path or (element,))[-1]] and the tags of the path *)
Definition p_extra_error (self : ref) (u : list ref * option string * string) : pp lerr :=
  let '(path, attr, value) := u in
  line <| p_get_sourceline (last path self) ;;
  ns <| p_map p_load_node path ;;
  pret (extra_error (Unbound (map n_tag ns) attr value line)).

(** factory model.py:31-56 [BaseModelSerializer._check_extra] *)
Definition p_check_extra (title : string) (self : ref) (hide : bool) : pp (option verr) := Size (fun n =>
  us <| p_get_unbound n [] self ;;
  errs <| p_map (p_extra_error self) us ;;
  pret (match errs with [] => None | _ :: _ => Some (VErr title errs hide) end)).

(** factory model.py:236-242 and 350-356: extra check, then pydantic validation *)
Definition p_validate_result (m : mdef) (input : option val) (self : ref) : pm val :=
  x <~| (if md_forbid m then plift_walk (p_check_extra (md_name m) self (md_hide m)) else pmret None) ;;
  match x with
  | Some err => pmraise (XValidation err)
  | None => fun sm =>
      match md_validate m input with
      | Valid v => Ret (Ok v, sm)
      | Invalid err => Ret (Raise (XValidation (set_validation_error_sourceline err sm (md_hide m))), sm)
      | Crashed what => Ret (Raise (XUser what), sm)
      end
  end.

(** the custom field validators of the classes (model, field): they get a reference to the element
    and may do with it what they like *)
Definition pcvals := string -> string -> option (ref -> prog (out val)).

Definition p_run_custom (f : ref -> prog (out val)) (self : ref) : pm val := fun sm =>
  andthen (f self) (fun r => Ret (r, sm)).

(** factory model.py:212-227: the loop over the fields *)
Fixpoint p_read_fields (r : ser -> preader) (hc : string -> option (ref -> prog (out val)))
    (m : mdef) (fs : list (string * ser)) (eas : bool)
    (result : list (string * val)) (errors : dict verr) (self : ref)
  : pm (list (string * val) * dict verr) :=
  match fs with
  | [] => pmret (result, errors)
  | (name, fser) :: fs' =>
      _ <~| p_note_line [LKey name] self ;;
      x <~| pmtry (match hc name with
                 | Some custom => p_run_custom custom self
                 | None => r fser eas [LKey name] self
                 end) ;;
      match x with
      | inl VNone => p_read_fields r hc m fs' eas result errors self
      | inl v =>
          let key := match dget name (md_valias m) with Some a => a | None => name end in
          p_read_fields r hc m fs' eas (dset key v result) errors self
      | inr err => p_read_fields r hc m fs' eas result (dset name err errors) self
      end
  end.

(** factory model.py:198-242 [ModelSerializer.deserialize] *)
Definition p_read_plain_model (r : ser -> preader)
    (hc : string -> option (ref -> prog (out val))) (m : mdef) : preader :=
  fun eas loc self =>
  x <~| p_read_fields r hc m (md_fields m) eas [] [] self ;;
  match snd x with
  | _ :: _ =>
      pmraise (XValidation (into_validation_error (md_name m)
                (map (fun kv => (Some (LKey (fst kv)), snd kv)) (snd x)) (md_hide m)))
  | [] => p_validate_result m (Some (VDict (fst x))) self
  end.

(** factory model.py:325-356 [RootModelSerializer.deserialize] *)
Definition p_read_root_model (r : ser -> preader) (m : mdef) : preader := fun eas loc self =>
  match md_fields m with
  | [] => pmraise XUnmodelled
  | (_, rser) :: _ =>
      x <~| pmtry (r rser eas loc self) ;;
      match x with
      | inl v => p_validate_result m (if is_none v then None else Some v) self
      | inr err => pmraise (XValidation (into_validation_error (md_name m) [(None, err)] (md_hide m)))
      end
  end.

Definition p_read_model (r : ser -> preader)
    (hc : string -> option (ref -> prog (out val))) (m : mdef) : preader :=
  if md_root m then p_read_root_model r m else p_read_plain_model r hc m.

(** factory model.py:441-467 [ModelProxySerializer.deserialize] *)
Definition p_read_proxy (ev : env) (hc : pcvals) (r : ser -> preader) (p : proxy) : preader :=
  fun eas loc self =>
  match en_model ev (px_model p) with
  | None => pmraise XAssertion
  | Some m =>
      if px_computed p then pmret VNone
      else
        c <~| plift (p_pop_element self (px_name p) (px_mode p) false) ;;
        match c with
        | None => pmret VNone
        | Some c' =>
            _ <~| p_note_line loc c' ;;
            nil <~| plift (p_is_element_nill c') ;;
            if nil then pmret VNone else p_read_model r (hc (px_model p)) m eas loc c'
        end
  end.

(** dispatch on the serializer object *)
Definition p_read_step (ev : env) (hc : pcvals) (k : nat) (r : ser -> preader) (s : ser) : preader :=
  match s with
  | SText computed nillable => p_read_text computed nillable
  | SAttr name computed => p_read_attr name computed
  | SElem name _ mode computed nillable => p_read_elem name mode computed nillable
  | SAttrs a => p_read_attrs a
  | SMapElem name mode a => p_read_map_elem name mode a
  | SHomo title computed inner hide => p_read_homo k title computed (r inner) hide
  | SHetero title computed inners hide => p_read_hetero title computed (map r inners) hide
  | SUnionPrim computed inner => p_read_union_prim computed (r inner)
  | SUnionModel title computed variants hide =>
      p_read_union_model title computed (map (p_read_proxy ev hc r) variants) hide
  | STagged computed _ attr_name variants mode => fun eas loc self =>
      if computed then pmret VNone
      else p_read_tagged (p_read_proxy ev hc r) attr_name mode variants eas loc self
  | SWrap path _ mode computed inner => p_read_wrap path mode computed (r inner)
  | SRaw name mode computed => p_read_raw (en_backend ev) name mode computed
  | SProxy p => p_read_proxy ev hc r p
  end.

(** [serializer.deserialize(element, ...)]; the fuel bounds the call depth and list lengths *)
Fixpoint p_read (n : nat) (ev : env) (hc : pcvals) (s : ser) : preader :=
  match n with
  | O => fun _ _ _ => pmfuel
  | S n' => p_read_step ev hc n' (p_read n' ev hc) s
  end.

(** native/lxml.py:19-35, native/std.py:17-29 [from_native]: the children are built before the
    element that holds them *)
Fixpoint p_from_native (b : backend) (n : native) : pp ref :=
  match n with
  | NElem tag _ text tail attrib children line =>
      es <| (fix each (l : list native) : pp (list ref) :=
               match l with
               | [] => pret []
               | c :: l' =>
                   if is_xml_comment c then each l'
                   else r <| p_from_native b c ;; rs <| each l' ;; pret (r :: rs)
               end) children ;;
      p_new (TName tag) text tail (Some attrib) es None (native_line b line)
  | NPI text tail attrib line => p_new TSpecial text tail (Some attrib) [] None (native_line b line)
  | NComment text tail => p_new TSpecial text tail (Some []) [] None (-1)
  end.

(** model.py:249-281 [BaseXmlModel.from_xml_tree] *)
Definition p_from_xml_tree (n : nat) (ev : env) (hc : pcvals) (cls : string) (root : native) (eas : bool)
    : prog (out val) :=
  match en_model ev cls with
  | None => Ret (Raise XAssertion)
  | Some m =>
      if tag_is (native_tag root) (md_elem_name m)
      then
        andthen (p_from_native (en_backend ev) root) (fun o =>
          match o with
          | Some self =>
              andthen (p_read_model (p_read n ev hc) (hc cls) m eas [] self []) (fun x => Ret (fst x))
          | None => Ret (Raise XIndexError)
          end)
      else Ret (Raise XParsing)
  end.
