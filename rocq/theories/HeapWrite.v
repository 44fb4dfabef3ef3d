(** HeapWrite.v -- every [serialize] method and [to_xml_tree] once more, over the heap of Heap.v.

    Write.v models writing on trees: an element is built and then put in place.  Here the same
    methods are written with references, the way the source is: a new element holds a reference to
    the serializer's own nsmap dict, sub-elements are appended by reference, and a wrapped field
    writes into an element that is already part of the tree.  PropHeap2.v proves that the two agree
    and that the nsmap dicts survive. *)

From Verif Require Import Base Elem Native Errs Names Ser Write Api Heap SpecHeap HeapRead HeapRead2.

(** a computation that works on the heap *)
Definition wm (A : Type) := heap -> out A * heap.

Definition wret {A} (x : A) : wm A := fun h => (Ok x, h).
Definition wraise {A} (x : exn) : wm A := fun h => (Raise x, h).
(** an expression that does not touch any element *)
Definition wpure {A} (o : out A) : wm A := fun h => (o, h).
Definition wbind {A B} (m : wm A) (f : A -> wm B) : wm B := fun h =>
  match m h with
  | (Ok x, h') => f x h'
  | (Raise x, h') => (Raise x, h')
  | (Fuel, h') => (Fuel, h')
  end.

Notation "x <-- m ;; f" := (wbind m (fun x => f)) (at level 61, m at next level, right associativity).

(** a method call on an element; see [lift] in HeapRead2.v *)
Definition wlift {A} (m : hp A) : wm A := fun h =>
  match m h with
  | (Some x, h') => (Ok x, h')
  | (None, h') => (Raise XIndexError, h')
  end.

(** a method that walks a whole tree; see [lift_walk] in HeapRead2.v *)
Definition wlift_walk {A} (m : hp A) : wm A := fun h =>
  match m h with
  | (Some x, h') => (Ok x, h')
  | (None, _) => (Fuel, [])
  end.

(** [serializer.serialize(element, value, encoded, ...)]; the reference it returns is ignored by
    all callers *)
Definition hwriter := flags -> ref -> val -> val -> wm unit.

(** the custom field serializers of the classes (model, field): they get the model, a reference to
    the element, and the field's value *)
Definition hcsers := string -> string -> option (val -> ref -> val -> wm unit).

Section Write.
  (** where the nsmap dicts of the serializers are *)
  Variable nsr : nsmap -> ref.

  (** primitive.py:43-60 [TextSerializer.serialize] *)
  Definition h_write_text (nillable : bool) : hwriter := fun fl self v enc =>
    if is_none v && (fl_skip_empty fl || fl_exclude_none fl) then wret tt
    else
      _ <-- (if nillable && is_none v then wlift (h_make_element_nill self) else wret tt) ;;
      s <-- wpure (encode_primitive enc) ;;
      wlift (h_set_text self s).

  (** primitive.py:112-127 [AttributeSerializer.serialize] *)
  Definition h_write_attr (name : string) : hwriter := fun fl self v enc =>
    if is_none v && (fl_skip_empty fl || fl_exclude_none fl) then wret tt
    else s <-- wpure (encode_primitive enc) ;; wlift (h_set_attribute self name s).

  (** [element.make_element(name, nsmap)]: the element gets the serializer's dict itself *)
  Definition h_make_sub (b : backend) (name : string) (nsm : option nsmap) : wm ref :=
    wlift (h_make_element b name (option_map nsr nsm)).

  (** the tail shared by primitive.py:194-198, mapping.py:116-120, raw.py:46-50 and
      model.py(factory):435-439 *)
  Definition h_append_unless_empty (fl : flags) (sub self : ref) : wm unit :=
    if fl_skip_empty fl then
      b <-- wlift (h_is_empty sub) ;;
      if b then wret tt else wlift (h_append_element self sub)
    else wlift (h_append_element self sub).

  (** primitive.py:177-198 [ElementSerializer.serialize] *)
  Definition h_write_elem (b : backend) (name : string) (nsm : option nsmap) (nillable : bool) : hwriter :=
    fun fl self v enc =>
    if is_none v && (fl_skip_empty fl || fl_exclude_none fl) then wret tt
    else
      sub <-- h_make_sub b name nsm ;;
      _ <-- h_write_text nillable fl sub v enc ;;
      h_append_unless_empty fl sub self.

  (** mapping.py:28-47 [AttributesSerializer.serialize] *)
  Definition h_write_attrs (a : attrs_ser) : hwriter := fun fl self v enc =>
    if is_none v then wret tt
    else
      match enc with
      | VDict d =>
          items <-- wpure (attrs_items (attrs_uri a) d) ;;
          wlift (h_set_attributes self (dict_of items))
      | _ => wraise XAttributeError
      end.

  (** mapping.py:99-120 [ElementSerializer.serialize] *)
  Definition h_write_map_elem (b : backend) (name : string) (a : attrs_ser) : hwriter :=
    fun fl self v enc =>
    let go :=
      sub <-- h_make_sub b name (as_nsmap a) ;;
      _ <-- h_write_attrs a fl sub v enc ;;
      h_append_unless_empty fl sub self in
    if fl_skip_empty fl then
      match py_len v with
      | None => wraise XTypeError
      | Some 0 => wret tt
      | Some (S _) => go
      end
    else go.

  (** homogeneous.py:57-63, the loop *)
  Fixpoint h_write_items (w : hwriter) (fl : flags) (self : ref) (vs encs : list val) : wm unit :=
    match vs, encs with
    | v :: vs', enc :: encs' =>
        if fl_skip_empty fl && is_none v then h_write_items w fl self vs' encs'
        else _ <-- w fl self v enc ;; h_write_items w fl self vs' encs'
    | _, _ => wret tt
    end.

  (** homogeneous.py:41-65 [ElementSerializer.serialize] *)
  Definition h_write_homo (w : hwriter) : hwriter := fun fl self v enc =>
    if is_none v then wret tt
    else
      vs <-- wpure (py_iter v) ;;
      if fl_skip_empty fl && Nat.eqb (length vs) 0 then wret tt
      else encs <-- wpure (py_iter enc) ;; h_write_items w fl self vs encs.

  (** heterogeneous.py:54-57, the loop *)
  Fixpoint h_write_tuple (ws : list hwriter) (fl : flags) (self : ref) (vs encs : list val) : wm unit :=
    match ws, vs, encs with
    | w :: ws', v :: vs', enc :: encs' =>
        _ <-- w fl self v enc ;; h_write_tuple ws' fl self vs' encs'
    | _, _, _ => wret tt
    end.

  (** heterogeneous.py:35-59 [ElementSerializer.serialize], named_tuple.py:36-48 *)
  Definition h_write_hetero (ws : list hwriter) : hwriter := fun fl self v enc =>
    if is_none v then wret tt
    else
      vs <-- wpure (py_iter v) ;;
      if fl_skip_empty fl && Nat.eqb (length vs) 0 then wret tt
      else if negb (Nat.eqb (length vs) (length ws)) then wraise XSerialization
      else encs <-- wpure (py_iter enc) ;; h_write_tuple ws fl self vs encs.

  (** union.py:109-118, the loop of [ModelSerializer.serialize] *)
  Fixpoint h_write_union (wp : proxy -> hwriter) (vs : list proxy) (fl : flags) (self : ref) (v enc : val)
    : wm unit :=
    match vs with
    | [] => wret tt
    | p :: vs' =>
        if match model_type v with Some c => String.eqb (px_model p) c | None => false end
        then wp p fl self v enc
        else h_write_union wp vs' fl self v enc
    end.

  (** tagged_union.py:69-84 [ModelSerializer.serialize] *)
  Definition h_write_tagged (wp : proxy -> hwriter) (disc : string) (vs : list (string * proxy)) : hwriter :=
    fun fl self v enc =>
    match enc with
    | VDict d =>
        match dget disc d with
        | None => wret tt
        | Some tag =>
            if py_truthy tag then
              match tag with
              | VStr t =>
                  match dget t vs with
                  | Some p => wp p fl self v enc
                  | None => wraise XKeyError
                  end
              | VList _ | VDict _ => wraise XTypeError
              | _ => wraise XKeyError
              end
            else wret tt
        end
    | _ => wraise XAttributeError
    end.

  (** wrapper.py:58-63: [for part in self._path: element = element.find_element_or_create(...)],
      then the inner serializer *)
  Fixpoint h_write_path (b : backend) (mode : smode) (nsm : option nsmap) (path : list string)
      (k : ref -> wm unit) (self : ref) : wm unit :=
    match path with
    | [] => k self
    | part :: rest =>
        c <-- wlift (h_find_element_or_create b self part mode (option_map nsr nsm)) ;;
        h_write_path b mode nsm rest k c
    end.

  (** wrapper.py:42-65 [ElementPathSerializer.serialize] *)
  Definition h_write_wrap (b : backend) (path : list string) (nsm : option nsmap) (mode : smode)
      (w : hwriter) : hwriter := fun fl self v enc =>
    if is_none v then wret tt
    else if fl_skip_empty fl && len_is_zero v then wret tt
    else h_write_path b mode nsm path (fun c => w fl c v enc) self.

  (** raw.py:32-50 [ElementSerializer.serialize] *)
  Definition h_write_raw (b : backend) : hwriter := fun fl self v _ =>
    match v with
    | VNone => wret tt
    | VRaw n => sub <-- wlift (h_from_native b n) ;; h_append_unless_empty fl sub self
    | _ => wraise XAttributeError
    end.

  (** factory model.py:180-194, the loop of [ModelSerializer.serialize] *)
  Fixpoint h_write_fields (w : ser -> hwriter) (hc : string -> option (val -> ref -> val -> wm unit))
      (m : mdef) (fs : list (string * ser)) (fl : flags) (self : ref) (v enc : val) : wm unit :=
    match fs with
    | [] => wret tt
    | (name, s) :: fs' =>
        if str_in name (md_sexclude m) then h_write_fields w hc m fs' fl self v enc
        else
          unset <-- wpure (if fl_exclude_unset fl then is_unset v name else Ok false) ;;
          if unset : bool then h_write_fields w hc m fs' fl self v enc
          else
            x <-- wpure (py_getattr v name) ;;
            _ <-- match hc name with
                 | Some custom => custom v self x
                 | None => xe <-- wpure (py_getitem enc name) ;; w s fl self x xe
                 end ;;
            h_write_fields w hc m fs' fl self v enc
    end.

  (** factory model.py:164-196 [ModelSerializer.serialize] and 297-323
      [RootModelSerializer.serialize] *)
  Definition h_write_model (w : ser -> hwriter) (hc : string -> option (val -> ref -> val -> wm unit))
      (m : mdef) : hwriter := fun fl self v enc =>
    if is_none v then wret tt
    else if md_root m then
      unset <-- wpure (if fl_exclude_unset fl then is_unset v "root" else Ok false) ;;
      if unset : bool then wret tt
      else
        match md_fields m with
        | (_, s) :: _ => x <-- wpure (py_getattr v "root") ;; w s (with_skip_empty m fl) self x enc
        | [] => wraise XUnmodelled
        end
    else h_write_fields w hc m (md_fields m) (with_skip_empty m fl) self v enc.

  (** factory model.py:407-439 [ModelProxySerializer.serialize] *)
  Definition h_write_proxy (ev : env) (hc : hcsers) (w : ser -> hwriter) (p : proxy) : hwriter :=
    fun fl self v enc =>
    match en_model ev (px_model p) with
    | None => wraise XAssertion
    | Some m =>
        if fl_exclude_none fl && is_none v then wret tt
        else if px_nillable p && is_none v then
          sub <-- h_make_sub (en_backend ev) (px_name p) (px_nsmap p) ;;
          _ <-- wlift (h_make_element_nill sub) ;;
          wlift (h_append_element self sub)
        else if is_none v then wret tt
        else
          sub <-- h_make_sub (en_backend ev) (px_name p) (px_nsmap p) ;;
          _ <-- h_write_model w (hc (px_model p)) m fl sub v enc ;;
          h_append_unless_empty fl sub self
    end.

  (** dispatch on the serializer object *)
  Definition h_write_step (ev : env) (hc : hcsers) (w : ser -> hwriter) (s : ser) : hwriter :=
    let b := en_backend ev in
    match s with
    | SText _ nillable => h_write_text nillable
    | SAttr name _ => h_write_attr name
    | SElem name nsm _ _ nillable => h_write_elem b name nsm nillable
    | SAttrs a => h_write_attrs a
    | SMapElem name _ a => h_write_map_elem b name a
    | SHomo _ _ inner _ => h_write_homo (w inner)
    | SHetero _ _ inners _ => h_write_hetero (map w inners)
    | SUnionPrim _ inner => w inner
    | SUnionModel _ _ variants _ => h_write_union (h_write_proxy ev hc w) variants
    | STagged _ disc _ variants _ => h_write_tagged (h_write_proxy ev hc w) disc variants
    | SWrap path nsm mode _ inner => h_write_wrap b path nsm mode (w inner)
    | SRaw _ _ _ => h_write_raw b
    | SProxy p => h_write_proxy ev hc w p
    end.

  (** [serializer.serialize(...)]; the fuel bounds the depth of the call stack *)
  Fixpoint h_write (n : nat) (ev : env) (hc : hcsers) (s : ser) : hwriter :=
    match n with
    | O => fun _ _ _ _ h => (Fuel, h)
    | S n' => h_write_step ev hc (h_write n' ev hc) s
    end.

  (** model.py:307-333 [BaseXmlModel.to_xml_tree]; the root holds the class's nsmap dict whatever
      the back end *)
  Definition h_to_xml_tree (n : nat) (ev : env) (hc : hcsers) (encode : val -> val) (v : val) (fl : flags)
    : wm native :=
    match model_type v with
    | None => wraise XAttributeError
    | Some cls =>
        match en_model ev cls with
        | None => wraise XAssertion
        | Some m =>
            root <-- wlift (h_new (TName (md_elem_name m)) None None None [] (option_map nsr (md_nsmap m)) (-1)) ;;
            _ <-- h_write_model (h_write n ev hc) (hc cls) m fl root v (encode v) ;;
            o <-- wlift_walk (fun h => h_to_native (length h) (en_backend ev) root h) ;;
            match o with
            | Some t => wret t
            | None => wraise XTypeError
            end
        end
    end.
End Write.
