(** ProgWrite.v -- every [serialize] method and [to_xml_tree] as programs of single memory accesses
    (see Prog.v).  The text is that of HeapWrite.v in another monad. *)

From Verif Require Import Base Elem Native Errs Names Ser Write Api Heap Prog ProgRead.

(** a computation that works on the memory *)
Definition pw (A : Type) := prog (out A).

Definition pwret {A} (x : A) : pw A := Ret (Ok x).
Definition pwraise {A} (x : exn) : pw A := Ret (Raise x).
(** an expression that does not touch any element *)
Definition pwpure {A} (o : out A) : pw A := Ret o.
Definition pwbind {A B} (m : pw A) (f : A -> pw B) : pw B :=
  andthen m (fun o =>
    match o with
    | Ok x => f x
    | Raise x => Ret (Raise x)
    | Fuel => Ret Fuel
    end).

Notation "x <-| m ;; f" := (pwbind m (fun x => f)) (at level 61, m at next level, right associativity).

(** a method call on an element; see [lift] and [lift_walk] in HeapRead2.v *)
Definition pwlift {A} (m : pp A) : pw A :=
  andthen m (fun o => match o with Some x => Ret (Ok x) | None => Ret (Raise XIndexError) end).
Definition pwlift_walk {A} (m : pp A) : pw A :=
  andthen m (fun o => match o with Some x => Ret (Ok x) | None => Stop end).

(** [serializer.serialize(element, value, encoded, ...)]; the reference it returns is ignored by
    all callers *)
Definition pwriter := flags -> ref -> val -> val -> pw unit.

(** the custom field serializers of the classes (model, field): they get the model, a reference to
    the element, and the field's value *)
Definition pcsers := string -> string -> option (val -> ref -> val -> pw unit).

Section Write.
  (** where the nsmap dicts of the serializers are *)
  Variable nsr : nsmap -> ref.

  (** primitive.py:43-60 [TextSerializer.serialize] *)
  Definition p_write_text (nillable : bool) : pwriter := fun fl self v enc =>
    if is_none v && (fl_skip_empty fl || fl_exclude_none fl) then pwret tt
    else
      _ <-| (if nillable && is_none v then pwlift (p_make_element_nill self) else pwret tt) ;;
      s <-| pwpure (encode_primitive enc) ;;
      pwlift (p_set_text self s).

  (** primitive.py:112-127 [AttributeSerializer.serialize] *)
  Definition p_write_attr (name : string) : pwriter := fun fl self v enc =>
    if is_none v && (fl_skip_empty fl || fl_exclude_none fl) then pwret tt
    else s <-| pwpure (encode_primitive enc) ;; pwlift (p_set_attribute self name s).

  (** [element.make_element(name, nsmap)]: the element gets the serializer's dict itself *)
  Definition p_make_sub (b : backend) (name : string) (nsm : option nsmap) : pw ref :=
    pwlift (p_make_element b name (option_map nsr nsm)).

  (** the tail shared by primitive.py:194-198, mapping.py:116-120, raw.py:46-50 and
      model.py(factory):435-439 *)
  Definition p_append_unless_empty (fl : flags) (sub self : ref) : pw unit :=
    if fl_skip_empty fl then
      b <-| pwlift (p_is_empty sub) ;;
      if b then pwret tt else pwlift (p_append_element self sub)
    else pwlift (p_append_element self sub).

  (** primitive.py:177-198 [ElementSerializer.serialize] *)
  Definition p_write_elem (b : backend) (name : string) (nsm : option nsmap) (nillable : bool) : pwriter :=
    fun fl self v enc =>
    if is_none v && (fl_skip_empty fl || fl_exclude_none fl) then pwret tt
    else
      sub <-| p_make_sub b name nsm ;;
      _ <-| p_write_text nillable fl sub v enc ;;
      p_append_unless_empty fl sub self.

  (** mapping.py:28-47 [AttributesSerializer.serialize] *)
  Definition p_write_attrs (a : attrs_ser) : pwriter := fun fl self v enc =>
    if is_none v then pwret tt
    else
      match enc with
      | VDict d =>
          items <-| pwpure (attrs_items (attrs_uri a) d) ;;
          pwlift (p_set_attributes self (dict_of items))
      | _ => pwraise XAttributeError
      end.

  (** mapping.py:99-120 [ElementSerializer.serialize] *)
  Definition p_write_map_elem (b : backend) (name : string) (a : attrs_ser) : pwriter :=
    fun fl self v enc =>
    let go :=
      sub <-| p_make_sub b name (as_nsmap a) ;;
      _ <-| p_write_attrs a fl sub v enc ;;
      p_append_unless_empty fl sub self in
    if fl_skip_empty fl then
      match py_len v with
      | None => pwraise XTypeError
      | Some 0 => pwret tt
      | Some (S _) => go
      end
    else go.

  (** homogeneous.py:57-63, the loop *)
  Fixpoint p_write_items (w : pwriter) (fl : flags) (self : ref) (vs encs : list val) : pw unit :=
    match vs, encs with
    | v :: vs', enc :: encs' =>
        if fl_skip_empty fl && is_none v then p_write_items w fl self vs' encs'
        else _ <-| w fl self v enc ;; p_write_items w fl self vs' encs'
    | _, _ => pwret tt
    end.

  (** homogeneous.py:41-65 [ElementSerializer.serialize] *)
  Definition p_write_homo (w : pwriter) : pwriter := fun fl self v enc =>
    if is_none v then pwret tt
    else
      vs <-| pwpure (py_iter v) ;;
      if fl_skip_empty fl && Nat.eqb (length vs) 0 then pwret tt
      else encs <-| pwpure (py_iter enc) ;; p_write_items w fl self vs encs.

  (** heterogeneous.py:54-57, the loop *)
  Fixpoint p_write_tuple (ws : list pwriter) (fl : flags) (self : ref) (vs encs : list val) : pw unit :=
    match ws, vs, encs with
    | w :: ws', v :: vs', enc :: encs' =>
        _ <-| w fl self v enc ;; p_write_tuple ws' fl self vs' encs'
    | _, _, _ => pwret tt
    end.

  (** heterogeneous.py:35-59 [ElementSerializer.serialize], named_tuple.py:36-48 *)
  Definition p_write_hetero (ws : list pwriter) : pwriter := fun fl self v enc =>
    if is_none v then pwret tt
    else
      vs <-| pwpure (py_iter v) ;;
      if fl_skip_empty fl && Nat.eqb (length vs) 0 then pwret tt
      else if negb (Nat.eqb (length vs) (length ws)) then pwraise XSerialization
      else encs <-| pwpure (py_iter enc) ;; p_write_tuple ws fl self vs encs.

  (** union.py:109-118, the loop of [ModelSerializer.serialize] *)
  Fixpoint p_write_union (wp : proxy -> pwriter) (vs : list proxy) (fl : flags) (self : ref) (v enc : val)
    : pw unit :=
    match vs with
    | [] => pwret tt
    | p :: vs' =>
        if match model_type v with Some c => String.eqb (px_model p) c | None => false end
        then wp p fl self v enc
        else p_write_union wp vs' fl self v enc
    end.

  (** tagged_union.py:69-84 [ModelSerializer.serialize] *)
  Definition p_write_tagged (wp : proxy -> pwriter) (disc : string) (vs : list (string * proxy)) : pwriter :=
    fun fl self v enc =>
    match enc with
    | VDict d =>
        match dget disc d with
        | None => pwret tt
        | Some tag =>
            if py_truthy tag then
              match tag with
              | VStr t =>
                  match dget t vs with
                  | Some p => wp p fl self v enc
                  | None => pwraise XKeyError
                  end
              | VList _ | VDict _ => pwraise XTypeError
              | _ => pwraise XKeyError
              end
            else pwret tt
        end
    | _ => pwraise XAttributeError
    end.

  (** wrapper.py:58-63: [for part in self._path: element = element.find_element_or_create(...)],
      then the inner serializer *)
  Fixpoint p_write_path (b : backend) (mode : smode) (nsm : option nsmap) (path : list string)
      (k : ref -> pw unit) (self : ref) : pw unit :=
    match path with
    | [] => k self
    | part :: rest =>
        c <-| pwlift (p_find_element_or_create b self part mode (option_map nsr nsm)) ;;
        p_write_path b mode nsm rest k c
    end.

  (** wrapper.py:42-65 [ElementPathSerializer.serialize] *)
  Definition p_write_wrap (b : backend) (path : list string) (nsm : option nsmap) (mode : smode)
      (w : pwriter) : pwriter := fun fl self v enc =>
    if is_none v then pwret tt
    else if fl_skip_empty fl && len_is_zero v then pwret tt
    else p_write_path b mode nsm path (fun c => w fl c v enc) self.

  (** raw.py:32-50 [ElementSerializer.serialize] *)
  Definition p_write_raw (b : backend) : pwriter := fun fl self v _ =>
    match v with
    | VNone => pwret tt
    | VRaw n => sub <-| pwlift (p_from_native b n) ;; p_append_unless_empty fl sub self
    | _ => pwraise XAttributeError
    end.

  (** factory model.py:180-194, the loop of [ModelSerializer.serialize] *)
  Fixpoint p_write_fields (w : ser -> pwriter) (hc : string -> option (val -> ref -> val -> pw unit))
      (m : mdef) (fs : list (string * ser)) (fl : flags) (self : ref) (v enc : val) : pw unit :=
    match fs with
    | [] => pwret tt
    | (name, s) :: fs' =>
        if str_in name (md_sexclude m) then p_write_fields w hc m fs' fl self v enc
        else
          unset <-| pwpure (if fl_exclude_unset fl then is_unset v name else Ok false) ;;
          if unset : bool then p_write_fields w hc m fs' fl self v enc
          else
            x <-| pwpure (py_getattr v name) ;;
            _ <-| match hc name with
                 | Some custom => custom v self x
                 | None => xe <-| pwpure (py_getitem enc name) ;; w s fl self x xe
                 end ;;
            p_write_fields w hc m fs' fl self v enc
    end.

  (** factory model.py:164-196 [ModelSerializer.serialize] and 297-323
      [RootModelSerializer.serialize] *)
  Definition p_write_model (w : ser -> pwriter) (hc : string -> option (val -> ref -> val -> pw unit))
      (m : mdef) : pwriter := fun fl self v enc =>
    if is_none v then pwret tt
    else if md_root m then
      unset <-| pwpure (if fl_exclude_unset fl then is_unset v "root" else Ok false) ;;
      if unset : bool then pwret tt
      else
        match md_fields m with
        | (_, s) :: _ => x <-| pwpure (py_getattr v "root") ;; w s (with_skip_empty m fl) self x enc
        | [] => pwraise XUnmodelled
        end
    else p_write_fields w hc m (md_fields m) (with_skip_empty m fl) self v enc.

  (** factory model.py:407-439 [ModelProxySerializer.serialize] *)
  Definition p_write_proxy (ev : env) (hc : pcsers) (w : ser -> pwriter) (p : proxy) : pwriter :=
    fun fl self v enc =>
    match en_model ev (px_model p) with
    | None => pwraise XAssertion
    | Some m =>
        if fl_exclude_none fl && is_none v then pwret tt
        else if px_nillable p && is_none v then
          sub <-| p_make_sub (en_backend ev) (px_name p) (px_nsmap p) ;;
          _ <-| pwlift (p_make_element_nill sub) ;;
          pwlift (p_append_element self sub)
        else if is_none v then pwret tt
        else
          sub <-| p_make_sub (en_backend ev) (px_name p) (px_nsmap p) ;;
          _ <-| p_write_model w (hc (px_model p)) m fl sub v enc ;;
          p_append_unless_empty fl sub self
    end.

  (** dispatch on the serializer object *)
  Definition p_write_step (ev : env) (hc : pcsers) (w : ser -> pwriter) (s : ser) : pwriter :=
    let b := en_backend ev in
    match s with
    | SText _ nillable => p_write_text nillable
    | SAttr name _ => p_write_attr name
    | SElem name nsm _ _ nillable => p_write_elem b name nsm nillable
    | SAttrs a => p_write_attrs a
    | SMapElem name _ a => p_write_map_elem b name a
    | SHomo _ _ inner _ => p_write_homo (w inner)
    | SHetero _ _ inners _ => p_write_hetero (map w inners)
    | SUnionPrim _ inner => w inner
    | SUnionModel _ _ variants _ => p_write_union (p_write_proxy ev hc w) variants
    | STagged _ disc _ variants _ => p_write_tagged (p_write_proxy ev hc w) disc variants
    | SWrap path nsm mode _ inner => p_write_wrap b path nsm mode (w inner)
    | SRaw _ _ _ => p_write_raw b
    | SProxy p => p_write_proxy ev hc w p
    end.

  (** [serializer.serialize(...)]; the fuel bounds the depth of the call stack *)
  Fixpoint p_write (n : nat) (ev : env) (hc : pcsers) (s : ser) : pwriter :=
    match n with
    | O => fun _ _ _ _ => Ret Fuel
    | S n' => p_write_step ev hc (p_write n' ev hc) s
    end.

  (** model.py:307-333 [BaseXmlModel.to_xml_tree]; the root holds the class's nsmap dict whatever
      the back end *)
  Definition p_to_xml_tree (n : nat) (ev : env) (hc : pcsers) (encode : val -> val) (v : val) (fl : flags)
    : pw native :=
    match model_type v with
    | None => pwraise XAttributeError
    | Some cls =>
        match en_model ev cls with
        | None => pwraise XAssertion
        | Some m =>
            root <-| pwlift (p_new (TName (md_elem_name m)) None None None [] (option_map nsr (md_nsmap m)) (-1)) ;;
            _ <-| p_write_model (p_write n ev hc) (hc cls) m fl root v (encode v) ;;
            o <-| pwlift_walk (Size (fun n => p_to_native n (en_backend ev) root)) ;;
            match o with
            | Some t => pwret t
            | None => pwraise XTypeError
            end
        end
    end.
End Write.
