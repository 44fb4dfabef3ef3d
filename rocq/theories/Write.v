(** Write.v -- model of every [serialize] method.

    Every method takes the element being written, the value and its JSON-encoded form.  The
    element reference the Python methods return is ignored by all callers, so the model returns
    the updated element.  [Raise]: the exception; the half-written tree is dropped by to_xml. *)

From Verif Require Import Base Elem Native Errs Names Ser.

(** the [serialize] method of some serializer *)
Definition writer := flags -> elem -> val -> val -> out elem.

(** primitive.py:43-60 [TextSerializer.serialize] *)
Definition write_text (nillable : bool) (fl : flags) (e : elem) (v enc : val) : out elem :=
  if is_none v && (fl_skip_empty fl || fl_exclude_none fl) then Ok e
  else
    let e := if nillable && is_none v then make_element_nill e else e in
    obind (encode_primitive enc) (fun s => Ok (set_text s e)).

(** primitive.py:112-127 [AttributeSerializer.serialize] *)
Definition write_attr (name : string) (fl : flags) (e : elem) (v enc : val) : out elem :=
  if is_none v && (fl_skip_empty fl || fl_exclude_none fl) then Ok e
  else obind (encode_primitive enc) (fun s => Ok (set_attribute name s e)).

(** the tail shared by primitive.py:194-198, mapping.py:116-120, raw.py:46-50 and
    model.py(factory):435-439 *)
Definition append_unless_empty (fl : flags) (sub e : elem) : elem :=
  if fl_skip_empty fl && is_empty sub then e else append_element sub e.

(** primitive.py:177-198 [ElementSerializer.serialize] *)
Definition write_elem (b : backend) (name : string) (nsm : option nsmap) (nillable : bool)
    (fl : flags) (e : elem) (v enc : val) : out elem :=
  if is_none v && (fl_skip_empty fl || fl_exclude_none fl) then Ok e
  else
    obind (write_text nillable fl (make_element b name nsm) v enc)
          (fun sub => Ok (append_unless_empty fl sub e)).

(** mapping.py:41: the namespace URI given to attribute names *)
Definition attrs_uri (a : attrs_ser) : option string :=
  if as_namespaced a && str_truthy (as_ns a) && nsmap_truthy (as_nsmap a) then
    match as_ns a with Some ns => nsmap_get (as_nsmap a) ns | None => None end
  else None.

(** mapping.py:42-45, the dict comprehension *)
Fixpoint attrs_items (ns : option string) (d : list (string * val)) : out (list (string * string)) :=
  match d with
  | [] => Ok []
  | (k, enc) :: d' =>
      obind (py_str enc) (fun s =>
      obind (attrs_items ns d') (fun r => Ok ((uri (QName k ns), s) :: r)))
  end.

(** mapping.py:28-47 [AttributesSerializer.serialize] *)
Definition write_attrs (a : attrs_ser) (fl : flags) (e : elem) (v enc : val) : out elem :=
  if is_none v then Ok e
  else
    match enc with
    | VDict d => obind (attrs_items (attrs_uri a) d) (fun items => Ok (set_attributes (dict_of items) e))
    | _ => Raise XAttributeError
    end.

(** mapping.py:99-120 [ElementSerializer.serialize]; [len(None)] is a TypeError *)
Definition write_map_elem (b : backend) (name : string) (a : attrs_ser)
    (fl : flags) (e : elem) (v enc : val) : out elem :=
  let go :=
    obind (write_attrs a fl (make_element b name (as_nsmap a)) v enc)
          (fun sub => Ok (append_unless_empty fl sub e)) in
  if fl_skip_empty fl then
    match py_len v with
    | None => Raise XTypeError
    | Some 0 => Ok e
    | Some (S _) => go
    end
  else go.

(** iterating over a value; anything but a list-like value is outside the model *)
Definition py_iter (v : val) : out (list val) :=
  match v with
  | VList l => Ok l
  | VNone | VBool _ | VInt _ => Raise XTypeError
  | _ => Raise XUnmodelled
  end.

(** homogeneous.py:57-63, the loop *)
Fixpoint write_items (w : writer) (fl : flags) (e : elem) (vs encs : list val) : out elem :=
  match vs, encs with
  | v :: vs', enc :: encs' =>
      if fl_skip_empty fl && is_none v then write_items w fl e vs' encs'
      else obind (w fl e v enc) (fun e' => write_items w fl e' vs' encs')
  | _, _ => Ok e
  end.

(** homogeneous.py:41-65 [ElementSerializer.serialize] *)
Definition write_homo (w : writer) (fl : flags) (e : elem) (v enc : val) : out elem :=
  if is_none v then Ok e
  else
    obind (py_iter v) (fun vs =>
    if fl_skip_empty fl && Nat.eqb (length vs) 0 then Ok e
    else obind (py_iter enc) (fun encs => write_items w fl e vs encs)).

(** heterogeneous.py:54-57, the loop *)
Fixpoint write_tuple (ws : list writer) (fl : flags) (e : elem) (vs encs : list val) : out elem :=
  match ws, vs, encs with
  | w :: ws', v :: vs', enc :: encs' =>
      obind (w fl e v enc) (fun e' => write_tuple ws' fl e' vs' encs')
  | _, _, _ => Ok e
  end.

(** heterogeneous.py:35-59 [ElementSerializer.serialize], named_tuple.py:36-48 *)
Definition write_hetero (ws : list writer) (fl : flags) (e : elem) (v enc : val) : out elem :=
  if is_none v then Ok e
  else
    obind (py_iter v) (fun vs =>
    if fl_skip_empty fl && Nat.eqb (length vs) 0 then Ok e
    else if negb (Nat.eqb (length vs) (length ws)) then Raise XSerialization
    else obind (py_iter enc) (fun encs => write_tuple ws fl e vs encs)).

(** [type(value)], as far as it can be a model class *)
Definition model_type (v : val) : option string :=
  match v with VModel cls _ _ => Some cls | _ => None end.

(** union.py:109-118, the loop of [ModelSerializer.serialize] *)
Fixpoint write_union (wp : proxy -> writer) (vs : list proxy) (fl : flags) (e : elem) (v enc : val)
  : out elem :=
  match vs with
  | [] => Ok e
  | p :: vs' =>
      if match model_type v with Some c => String.eqb (px_model p) c | None => false end
      then wp p fl e v enc
      else write_union wp vs' fl e v enc
  end.

(** tagged_union.py:69-84 [ModelSerializer.serialize] *)
Definition write_tagged (wp : proxy -> writer) (disc : string) (vs : list (string * proxy))
    (fl : flags) (e : elem) (v enc : val) : out elem :=
  match enc with
  | VDict d =>
      match dget disc d with
      | None => Ok e
      | Some tag =>
          if py_truthy tag then
            match tag with
            | VStr t =>
                match dget t vs with
                | Some p => wp p fl e v enc
                | None => Raise XKeyError
                end
            | VList _ | VDict _ => Raise XTypeError
            | _ => Raise XKeyError
            end
          else Ok e
      end
  | _ => Raise XAttributeError
  end.

(** wrapper.py:58-59, the loop over the path, followed by [k] on the innermost element *)
Fixpoint write_path (b : backend) (mode : smode) (nsm : option nsmap) (path : list string)
    (k : elem -> out elem) (e : elem) : out elem :=
  match path with
  | [] => k e
  | part :: rest =>
      match find_element_or_create b e part mode nsm with
      | (Found i, e') =>
          match nth_error (e_elems e') i with
          | Some c => obind (write_path b mode nsm rest k c) (fun c' => Ok (put_child i c' e'))
          | None => Raise XIndexError
          end
      | (_, _) => Raise XIndexError
      end
  end.

(** wrapper.py:42-65 [ElementPathSerializer.serialize] *)
Definition write_wrap (b : backend) (path : list string) (nsm : option nsmap) (mode : smode)
    (w : writer) (fl : flags) (e : elem) (v enc : val) : out elem :=
  if is_none v then Ok e
  else if fl_skip_empty fl && len_is_zero v then Ok e
  else write_path b mode nsm path (fun c => w fl c v enc) e.

(** raw.py:32-50 [ElementSerializer.serialize] *)
Definition write_raw (b : backend) (fl : flags) (e : elem) (v : val) : out elem :=
  match v with
  | VNone => Ok e
  | VRaw n => Ok (append_unless_empty fl (from_native b n) e)
  | _ => Raise XAttributeError
  end.

(** Python [getattr(value, name)] *)
Definition py_getattr (v : val) (name : string) : out val :=
  match v with
  | VModel _ attrs _ => match dget name attrs with Some x => Ok x | None => Raise XAttributeError end
  | _ => Raise XAttributeError
  end.

(** Python [encoded[name]] *)
Definition py_getitem (v : val) (name : string) : out val :=
  match v with
  | VDict d => match dget name d with Some x => Ok x | None => Raise XKeyError end
  | _ => Raise XTypeError
  end.

(** Python [name not in value.__pydantic_fields_set__], as an exclusion test *)
Definition is_unset (v : val) (name : string) : out bool :=
  match v with
  | VModel _ _ set => Ok (negb (str_in name set))
  | _ => Raise XAttributeError
  end.

(** factory model.py:180-194, the loop of [ModelSerializer.serialize] *)
Fixpoint write_fields (w : ser -> writer) (m : mdef) (fs : list (string * ser))
    (fl : flags) (e : elem) (v enc : val) : out elem :=
  match fs with
  | [] => Ok e
  | (name, s) :: fs' =>
      if str_in name (md_sexclude m) then write_fields w m fs' fl e v enc
      else
        obind (if fl_exclude_unset fl then is_unset v name else Ok false) (fun unset =>
        if unset then write_fields w m fs' fl e v enc
        else
          obind (py_getattr v name) (fun x =>
          obind (match md_cser m name with
                 | Some custom => custom v e x
                 | None => obind (py_getitem enc name) (fun xe => w s fl e x xe)
                 end)
                (fun e' => write_fields w m fs' fl e' v enc)))
  end.

Definition with_skip_empty (m : mdef) (fl : flags) : flags :=
  match md_skip_empty m with
  | Some s => Flags s (fl_exclude_none fl) (fl_exclude_unset fl)
  | None => fl
  end.

(** factory model.py:164-196 [ModelSerializer.serialize] and 297-323
    [RootModelSerializer.serialize] *)
Definition write_model (w : ser -> writer) (m : mdef) (fl : flags) (e : elem) (v enc : val) : out elem :=
  if is_none v then Ok e
  else if md_root m then
    obind (if fl_exclude_unset fl then is_unset v "root" else Ok false) (fun unset =>
    if unset then Ok e
    else
      match md_fields m with
      | (_, s) :: _ => obind (py_getattr v "root") (fun x => w s (with_skip_empty m fl) e x enc)
      | [] => Raise XUnmodelled
      end)
  else write_fields w m (md_fields m) (with_skip_empty m fl) e v enc.

(** factory model.py:407-439 [ModelProxySerializer.serialize] *)
Definition write_proxy (ev : env) (w : ser -> writer) (p : proxy) (fl : flags) (e : elem) (v enc : val)
  : out elem :=
  match en_model ev (px_model p) with
  | None => Raise XAssertion
  | Some m =>
      if fl_exclude_none fl && is_none v then Ok e
      else if px_nillable p && is_none v then
        Ok (append_element (make_element_nill (make_element (en_backend ev) (px_name p) (px_nsmap p))) e)
      else if is_none v then Ok e
      else
        obind (write_model w m fl (make_element (en_backend ev) (px_name p) (px_nsmap p)) v enc)
              (fun sub => Ok (append_unless_empty fl sub e))
  end.

(** dispatch on the serializer object; [w] is the recursive call *)
Definition write_step (ev : env) (w : ser -> writer) (s : ser) : writer :=
  let b := en_backend ev in
  match s with
  | SText _ nillable => write_text nillable
  | SAttr name _ => write_attr name
  | SElem name nsm _ _ nillable => write_elem b name nsm nillable
  | SAttrs a => write_attrs a
  | SMapElem name _ a => write_map_elem b name a
  | SHomo _ _ inner _ => write_homo (w inner)
  | SHetero _ _ inners _ => write_hetero (map w inners)
  | SUnionPrim _ inner => w inner
  | SUnionModel _ _ variants _ => write_union (write_proxy ev w) variants
  | STagged _ disc _ variants _ => write_tagged (write_proxy ev w) disc variants
  | SWrap path nsm mode _ inner => write_wrap b path nsm mode (w inner)
  | SRaw _ _ _ => fun fl e v _ => write_raw b fl e v
  | SProxy p => write_proxy ev w p
  end.

(** [serializer.serialize(element, value, encoded, ...)]; the fuel bounds the depth of the call
    stack *)
Fixpoint write (n : nat) (ev : env) (s : ser) : writer :=
  match n with
  | O => fun _ _ _ _ => Fuel
  | S n' => write_step ev (write n' ev) s
  end.
