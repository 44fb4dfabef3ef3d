(** Build.v -- how the serializer of a model class is built from the pydantic core schema of the
    class: serializers/serializer.py:97-274 and the [from_core_schema] functions of
    serializers/factories. *)

From Verif Require Import Base Elem Native Errs Names Fields Ser.

(** the META schema types that wrap an inner 'schema' (serializer.py:80-85) *)
Inductive cmeta := MBefore | MAfter | MWrap | MDefault | MNullable.

(** A pydantic core schema (pydantic_core.core_schema), reduced to the keys the builder reads.
    [CType ty]: any schema without inner schemas the builder looks at: the primitive types and
    the types pydantic-xml does not support.
    [CIsInstance raw]: 'is-instance'; [raw] is [issubclass(schema['cls'], native.ElementT)].
    [CModel cls root body]: 'model'; [body] is [schema['schema']].
    [CFields]: 'model-fields' with the computed fields (property name, alias, return schema).
    [CPlain]: 'function-plain' with its optional 'serialization' entry.
    [CList]: 'list', 'set', 'frozenset' (one item schema; "items_schema" of a variadic tuple is a
    one-element list there and is modelled by [CTuple (Some 0) [s]]).
    [CTuple]: 'tuple' with its 'variadic_item_index'.
    [CTypedDict]: 'typed-dict': the schemas of the fields, then of the computed fields.
    [CTagged]: 'tagged-union'; [None] stands for a discriminator or tag that is not a str.
    [CCall]: 'call'; the flag is [inspect.isclass(func) and issubclass(func, tuple)]; the list
    the schemas of the arguments. *)
Inductive cschema :=
| CType (ty : string)
| CIsInstance (raw : bool)
| CModel (cls : string) (root : bool) (body : cschema)
| CFields (fields : list (string * cfield)) (computed : list (string * (option string * cschema)))
| CMeta (k : cmeta) (inner : cschema)
| CPlain (ser : option cschema)
| CJsonOrPython (python : cschema)
| CDefinitions (defs : list (string * cschema)) (inner : cschema)
| CRef (ref : string)
| CList (item : cschema)
| CTuple (variadic : option nat) (items : list cschema)
| CDict (keys values : cschema)
| CTypedDict (values : list cschema)
| CUnion (choices : list cschema)
| CTagged (disc : option string) (choices : list (option string * cschema))
| CCall (tuple_class : bool) (args : list cschema)
(** an entry of 'model-fields': serialization_exclude, serialization_alias, validation_alias (when
    it is a non-empty str) and the schema *)
with cfield := CField (exclude : bool) (salias valias : option string) (schema : cschema).

(** serializer.py:29-43 [SchemaTypeFamily] *)
Inductive family :=
| FMeta | FPrim | FModel | FHomo | FTuple | FMapping | FTyped | FUnion | FTagged | FDefs | FRef
| FJsonOrPython | FIsInstance | FCall.

Definition family_eqb (a b : family) : bool :=
  match a, b with
  | FMeta, FMeta | FPrim, FPrim | FModel, FModel | FHomo, FHomo | FTuple, FTuple
  | FMapping, FMapping | FTyped, FTyped | FUnion, FUnion | FTagged, FTagged | FDefs, FDefs
  | FRef, FRef | FJsonOrPython, FJsonOrPython | FIsInstance, FIsInstance | FCall, FCall => true
  | _, _ => false
  end.

(** serializer.py:47-64, the keys of TYPE_FAMILY with value PRIMITIVE *)
Definition prim_types : list string :=
  ["none"; "bool"; "int"; "float"; "str"; "bytes"; "enum"; "date"; "time"; "datetime"; "timedelta";
   "uuid"; "decimal"; "url"; "multi-host-url"; "json"; "literal"; "lax-or-strict"].

(** serializer.py:46-94 [TYPE_FAMILY.get(schema['type'])]; 'model-fields' is not a key *)
Definition family_of (s : cschema) : option family :=
  match s with
  | CType ty => if str_in ty prim_types then Some FPrim else None
  | CIsInstance _ => Some FIsInstance
  | CModel _ _ _ => Some FModel
  | CFields _ _ => None
  | CMeta _ _ => Some FMeta
  | CPlain _ => Some FMeta
  | CJsonOrPython _ => Some FJsonOrPython
  | CDefinitions _ _ => Some FDefs
  | CRef _ => Some FRef
  | CList _ => Some FHomo
  | CTuple _ _ => Some FTuple
  | CDict _ _ => Some FMapping
  | CTypedDict _ => Some FTyped
  | CUnion _ => Some FUnion
  | CTagged _ _ => Some FTagged
  | CCall _ _ => Some FCall
  end.

(** serializer.py:99-115 [Serializer.Context] *)
Inductive ctx := Ctx {
  cx_model : string;
  cx_field : option string;
  cx_alias : option string;
  cx_computed : bool;
  cx_info : option einfo;
  cx_ns_attrs : bool;
  cx_mode : smode;
  cx_optional : bool;
  cx_has_default : bool;
  cx_defs : dict cschema;
  cx_hide : bool;
  cx_parent : option ctx
}.

(** serializer.py:117-119 [top]: not modelled as such; where the code asks for it, the context of a class is
    told from that of a field by the function that builds it *)

(** serializer.py:121-143, the properties reading [entity_info] *)
Definition of_info {A} (f : einfo -> option A) (i : option einfo) : option A :=
  match i with Some i => f i | None => None end.

Definition cx_location (c : ctx) : option eloc := of_info ei_location (cx_info c).
Definition cx_path (c : ctx) : option string := of_info ei_path (cx_info c).
Definition cx_ns (c : ctx) : option string := of_info ei_ns (cx_info c).
Definition cx_nsmap (c : ctx) : option nsmap := of_info ei_nsmap (cx_info c).
Definition cx_nillable (c : ctx) : bool := default false (of_info ei_nillable (cx_info c)).
Definition cx_wrapped (c : ctx) : option einfo := of_info ei_wrapped (cx_info c).

(** serializer.py:145-151 *)
Fixpoint parent_ns (c : ctx) : option string :=
  match cx_parent c with
  | Some p => select_ns [cx_ns p; parent_ns p]
  | None => None
  end.

(** serializer.py:153-161: the map of the parent's parents is written over the parent's *)
Fixpoint parent_nsmap (c : ctx) : option nsmap :=
  match cx_parent c with
  | Some p => Some (dupdate (dupdate [] (default [] (cx_nsmap p))) (default [] (parent_nsmap p)))
  | None => None
  end.

(** serializer.py:163-173 [child] / [replace] with the arguments the code passes *)
Definition child_wrapped (c : ctx) : ctx :=
  Ctx (cx_model c) (cx_field c) (cx_alias c) (cx_computed c) (cx_wrapped c) (cx_ns_attrs c)
      (cx_mode c) (cx_optional c) (cx_has_default c) (cx_defs c) (cx_hide c) (Some c).

Definition child_field (c : ctx) (name alias : option string) (computed : bool)
    (info : option einfo) (hide : bool) : ctx :=
  Ctx (cx_model c) name alias computed info (cx_ns_attrs c)
      (cx_mode c) (cx_optional c) (cx_has_default c) (cx_defs c) hide (Some c).

Definition replace_default (c : ctx) : ctx :=
  Ctx (cx_model c) (cx_field c) (cx_alias c) (cx_computed c) (cx_info c) (cx_ns_attrs c)
      (cx_mode c) (cx_optional c) true (cx_defs c) (cx_hide c) (cx_parent c).

Definition replace_optional (c : ctx) : ctx :=
  Ctx (cx_model c) (cx_field c) (cx_alias c) (cx_computed c) (cx_info c) (cx_ns_attrs c)
      (cx_mode c) true (cx_has_default c) (cx_defs c) (cx_hide c) (cx_parent c).

(** [ChainMap(definitions, ctx.definitions)], as the plain dict with the same lookups *)
Definition replace_defs (c : ctx) (defs : dict cschema) : ctx :=
  Ctx (cx_model c) (cx_field c) (cx_alias c) (cx_computed c) (cx_info c) (cx_ns_attrs c)
      (cx_mode c) (cx_optional c) (cx_has_default c) (dupdate (cx_defs c) defs) (cx_hide c)
      (cx_parent c).

(** serializer.py:180-221 [preprocess_schema]; [Fuel] stands for a reference cycle Python would
    follow until its recursion limit.  Simplification: a definition is never a falsy schema. *)
Fixpoint preprocess (n : nat) (s : cschema) (c : ctx) : out (cschema * ctx) :=
  match n with
  | O => Fuel
  | S n' =>
      match s with
      | CMeta k inner =>
          preprocess n' inner (match k with
                               | MDefault => replace_default c
                               | MNullable => replace_optional c
                               | _ => c
                               end)
      | CPlain (Some inner) => preprocess n' inner c
      | CPlain None => Raise XKeyError
      | CJsonOrPython inner => preprocess n' inner c
      | CDefinitions defs inner => preprocess n' inner (replace_defs c (dict_of defs))
      | CRef r => match dget r (cx_defs c) with
                  | Some d => preprocess n' d c
                  | None => Raise XModelError
                  end
      | _ => match family_of s with
             | None => Raise XModelError
             | Some _ => Ok (s, c)
             end
      end
  end.

(** QName.from_alias(...).uri, as all the constructors call it *)
Definition uri_of (tag : string) (ns : option string) (m : nsmap) (is_attr : bool) : out string :=
  obind (from_alias tag ns (Some m) is_attr) (fun q => Ok (uri q)).

(** primitive.py:33-37 *)
Definition build_text (c : ctx) : out ser := Ok (SText (cx_computed c) (cx_nillable c)).

(** [ctx.entity_path or ctx.field_alias or ctx.field_name] *)
Definition entity_name (c : ctx) : option string :=
  str_or (str_or (cx_path c) (cx_alias c)) (cx_field c).

(** [select_ns(ctx.entity_ns, ctx.parent_ns)], [merge_nsmaps(ctx.entity_nsmap, ctx.parent_nsmap)] *)
Definition entity_ns (c : ctx) : option string := select_ns [cx_ns c; parent_ns c].
Definition entity_nsmap (c : ctx) : nsmap := merge_nsmaps [cx_nsmap c; parent_nsmap c].

(** primitive.py:86-106 *)
Definition build_attr (c : ctx) : out ser :=
  let ns := select_ns [cx_ns c; if cx_ns_attrs c then parent_ns c else None] in
  if match ns with Some s => String.eqb s "" | None => false end then Raise XModelFieldError
  else match entity_name c with
       | None => Raise XModelFieldError
       | Some name =>
           obind (uri_of name ns (entity_nsmap c) true) (fun u => Ok (SAttr u (cx_computed c)))
       end.

(** primitive.py:149-175 *)
Definition build_elem (c : ctx) : out ser :=
  match entity_name c with
  | None => Raise XModelFieldError
  | Some name =>
      obind (uri_of name (entity_ns c) (entity_nsmap c) false) (fun u =>
      Ok (SElem u (Some (entity_nsmap c)) (cx_mode c) (cx_computed c) (cx_nillable c)))
  end.

(** primitive.py:224-232 *)
Definition build_prim (c : ctx) : out ser :=
  match cx_location c with
  | Some LocElement => build_elem c
  | Some LocAttribute => build_attr c
  | None => build_text c
  | Some LocWrapped => Raise XAssertion
  end.

(** mapping.py:14-26 *)
Definition attrs_of (c : ctx) : attrs_ser :=
  AttrsSer (entity_ns c) (Some (entity_nsmap c)) (cx_ns_attrs c) (cx_computed c).

(** mapping.py:72-97 *)
Definition build_map_elem (c : ctx) : out ser :=
  match entity_name c with
  | None => Raise XModelFieldError
  | Some name =>
      obind (uri_of name (entity_ns c) (entity_nsmap c) false) (fun u =>
      Ok (SMapElem u (cx_mode c) (attrs_of c)))
  end.

(** mapping.py:155-162, typed_mapping.py:26-33 *)
Definition build_mapping_at (c : ctx) : out ser :=
  match cx_location c with
  | Some LocElement => build_map_elem c
  | None => Ok (SAttrs (attrs_of c))
  | Some LocAttribute => Raise XModelFieldError
  | Some LocWrapped => Raise XAssertion
  end.

Definition is_family (f : family) (s : cschema) : bool :=
  match family_of s with Some g => family_eqb f g | None => false end.

(** mapping.py:143-162 *)
Definition build_mapping (n : nat) (keys values : cschema) (c : ctx) : out ser :=
  obind (preprocess n keys c) (fun '(k, _) =>
  obind (preprocess n values c) (fun '(v, _) =>
  if negb (is_family FPrim k) then Raise XModelFieldError
  else if negb (is_family FPrim v) then Raise XModelFieldError
  else build_mapping_at c)).

(** typed_mapping.py:20-24 *)
Fixpoint all_prim (n : nat) (values : list cschema) (c : ctx) : out unit :=
  match values with
  | [] => Ok tt
  | v :: rest =>
      obind (preprocess n v c) (fun '(v', _) =>
      if negb (is_family FPrim v') then Raise XModelFieldError else all_prim n rest c)
  end.

(** typed_mapping.py:12-33 *)
Definition build_typed_mapping (n : nat) (values : list cschema) (c : ctx) : out ser :=
  obind (all_prim n values c) (fun _ => build_mapping_at c).

(** raw.py:14-30 *)
Definition build_raw_elem (c : ctx) : out ser :=
  match entity_name c with
  | None => Raise XModelFieldError
  | Some name =>
      obind (uri_of name (entity_ns c) (entity_nsmap c) false) (fun u =>
      Ok (SRaw u (cx_mode c) (cx_computed c)))
  end.

(** raw.py:74-82 *)
Definition build_raw (c : ctx) : out ser :=
  match cx_location c with
  | Some LocElement | None => build_raw_elem c
  | Some LocAttribute => Raise XModelFieldError
  | Some LocWrapped => Raise XAssertion
  end.

(** is_instance.py:9-15 *)
Definition build_is_instance (raw : bool) (c : ctx) : out ser :=
  if raw then build_raw c else build_prim c.

(** What the builder reads of a model class: __name__, the __xml_...__ parameters, the metadata
    of model_fields[f], the ComputedXmlEntityInfo of a computed field (if it is one) and
    model_config.get('hide_input_in_errors').  A class that is not a BaseXmlModel has none. *)
Record cls_info := ClsInfo {
  ci_name : string;
  ci_params : cparams;
  ci_meta : string -> list meta;
  ci_computed : string -> option einfo;
  ci_hide : option bool
}.

Definition classes := string -> option cls_info.

(** type(serializer), as compared by union.py:28 *)
Definition kind (s : ser) : nat :=
  match s with
  | SText _ _ => 0 | SAttr _ _ => 1 | SElem _ _ _ _ _ => 2 | SAttrs _ => 3 | SMapElem _ _ _ => 4
  | SHomo _ _ _ _ => 5 | SHetero _ _ _ _ => 6 | SUnionPrim _ _ => 7 | SUnionModel _ _ _ _ => 8
  | STagged _ _ _ _ _ => 9 | SWrap _ _ _ _ _ => 10 | SRaw _ _ _ => 11 | SProxy _ => 12
  end.

(** an output sequence, left to right, stopping at the first exception *)
Fixpoint omap {A B} (f : A -> out B) (l : list A) : out (list B) :=
  match l with
  | [] => Ok []
  | x :: rest => obind (f x) (fun y => obind (omap f rest) (fun ys => Ok (y :: ys)))
  end.

Definition as_proxy (s : ser) : out proxy :=
  match s with SProxy p => Ok p | _ => Raise XAssertion end.

Section Build.
  Variable cl : classes.
  (** the serializers built so far (tagged_union.py looks into those of the variants) *)
  Variable ev : env.

  (** factory model.py:361-389 [ModelProxySerializer] *)
  Definition build_proxy (cls : string) (c : ctx) : out ser :=
    match cl cls with
    | None => Raise XAssertion
    | Some i =>
        let p := ci_params i in
        let name :=
          default (ci_name i)
            (if str_truthy (str_or (str_or (str_or (cx_path c) (c_tag p)) (cx_alias c)) (cx_field c))
             then str_or (str_or (str_or (cx_path c) (c_tag p)) (cx_alias c)) (cx_field c)
             else None) in
        let ns := select_ns [cx_ns c; c_ns p; parent_ns c] in
        let m := merge_nsmaps [cx_nsmap c; c_nsmap p; parent_nsmap c] in
        obind (uri_of name ns m false) (fun u =>
        Ok (SProxy (Proxy cls u (Some m) (cx_mode c) (cx_computed c) (cx_nillable c))))
    end.

  (** factory model.py:480-488, a model below the top *)
  Definition build_submodel (cls : string) (c : ctx) : out ser :=
    match cx_location c with
    | Some LocElement | None => build_proxy cls c
    | Some LocAttribute => Raise XModelFieldError
    | Some LocWrapped => Raise XAssertion
    end.

  Section Rec.
    (** [Serializer.parse_core_schema], and the fuel of [preprocess] *)
    Variable parse : cschema -> ctx -> out ser.
    Variable n : nat.

    (** wrapper.py:13-25, 36 *)
    Definition build_wrap (s : cschema) (c : ctx) : out ser :=
      match cx_path c with
      | None => Raise XAssertion
      | Some path =>
          obind (parse s (child_wrapped c)) (fun inner =>
          obind (omap (fun part => uri_of part (entity_ns c) (entity_nsmap c) false)
                      (py_split "/"%char path)) (fun parts =>
          Ok (SWrap parts (Some (entity_nsmap c)) (cx_mode c) (cx_computed c) inner)))
      end.

    Definition in_families (s : cschema) (l : list family) : bool :=
      existsb (fun f => is_family f s) l.

    (** homogeneous.py:107-147 and 22-33 *)
    Definition build_homo (item : cschema) (c : ctx) : out ser :=
      obind (preprocess n item c) (fun '(i, c) =>
      if negb (in_families i [FPrim; FModel; FMapping; FTyped; FUnion; FTagged; FIsInstance; FCall; FTuple])
      then Raise XModelFieldError
      else if negb (in_families i [FModel; FUnion; FTagged; FTuple; FCall])
              && match cx_location c with None => true | Some _ => false end
      then Raise XModelFieldError
      else match cx_location c with
           | Some LocElement | None =>
               obind (parse item c) (fun inner =>
               Ok (SHomo (cx_model c) (cx_computed c) inner (cx_hide c)))
           | Some LocAttribute => Raise XModelFieldError
           | Some LocWrapped => Raise XAssertion
           end).

    (** heterogeneous.py:103-122, named_tuple.py:66-86: the checks of the items; the context is
        threaded through *)
    Fixpoint check_items (items : list cschema) (c : ctx) : out ctx :=
      match items with
      | [] => Ok c
      | item :: rest =>
          obind (preprocess n item c) (fun '(i, c) =>
          if negb (in_families i [FPrim; FModel; FMapping; FTyped; FUnion; FTagged; FIsInstance; FCall])
          then Raise XModelFieldError
          else if negb (in_families i [FModel; FUnion])
                  && match cx_location c with None => true | Some _ => false end
          then Raise XModelFieldError
          else check_items rest c)
      end.

    (** heterogeneous.py:102-131 and 14-20; named_tuple.py:64-95 and 14-23 *)
    Definition build_hetero (items : list cschema) (c : ctx) : out ser :=
      obind (check_items items c) (fun c =>
      match cx_location c with
      | Some LocElement | None =>
          obind (omap (fun item => parse item c) items) (fun inners =>
          Ok (SHetero (cx_model c) (cx_computed c) inners (cx_hide c)))
      | Some LocAttribute => Raise XModelFieldError
      | Some LocWrapped => Raise XAssertion
      end).

    (** tuple.py:9-22 *)
    Definition build_tuple (variadic : option nat) (items : list cschema) (c : ctx) : out ser :=
      match variadic with
      | Some O => match items with [item] => build_homo item c | _ => Raise XAssertion end
      | Some (S _) => Raise XModelFieldError
      | None => build_hetero items c
      end.

    (** call.py:10-16 *)
    Definition build_call (tuple_class : bool) (args : list cschema) (c : ctx) : out ser :=
      if tuple_class then build_hetero args c else Raise XModelError.

    (** union.py:162-173: the families of the choices, with the context threaded through *)
    Fixpoint choice_families (choices : list cschema) (c : ctx) : out (list family * ctx) :=
      match choices with
      | [] => Ok ([], c)
      | s :: rest =>
          obind (preprocess n s c) (fun '(s', c) =>
          match family_of s' with
          | Some FPrim | Some FIsInstance | Some FModel =>
              obind (choice_families rest c) (fun '(fs, c) =>
              Ok (default FMeta (family_of s') :: fs, c))
          | _ => Raise XModelFieldError
          end)
      end.

    (** union.py:16-31 [PrimitiveTypeSerializer] *)
    Definition build_union_prim (choices : list cschema) (c : ctx) : out ser :=
      obind (omap (fun s => parse s c) choices) (fun inners =>
      match inners with
      | [] => Raise XAssertion
      | first :: rest =>
          if forallb (fun s => Nat.eqb (kind s) (kind first)) rest
          then Ok (SUnionPrim (cx_computed c) first)
          else Raise XTypeError
      end).

    (** union.py:70-85 [ModelSerializer] *)
    Definition build_union_model (choices : list cschema) (c : ctx) : out ser :=
      obind (omap (fun s => obind (parse s c) as_proxy) choices) (fun variants =>
      match variants with
      | [] => Raise XAssertion
      | _ => Ok (SUnionModel (cx_model c) (cx_computed c) variants (cx_hide c))
      end).

    (** union.py:161-187.  [choice_families.pop()] takes an arbitrary member of a set that is
        here {MODEL}, {PRIMITIVE}, {IS_INSTANCE} or {PRIMITIVE, IS_INSTANCE}; CPython returns
        PRIMITIVE in the last case (the members hash to 1 and 12: slots 1 and 4 of 8). *)
    Definition build_union (choices : list cschema) (c : ctx) : out ser :=
      obind (choice_families choices c) (fun '(fs, c) =>
      let has f := existsb (family_eqb f) fs in
      match fs with
      | [] => Raise XAssertion
      | _ => if (has FPrim || has FIsInstance) && has FModel then Raise XTypeError
             else if has FModel then build_union_model choices c
             else if has FPrim then build_union_prim choices c
             else Raise XAssertion
      end).

    (** tagged_union.py:117-127: the checks of the choices *)
    Fixpoint check_tagged (choices : list (option string * cschema)) (c : ctx) : out ctx :=
      match choices with
      | [] => Ok c
      | (_, s) :: rest =>
          obind (preprocess n s c) (fun '(s', c) =>
          match s' with
          | CModel _ root _ => if root then Raise XModelFieldError else check_tagged rest c
          | _ => Raise XModelFieldError
          end)
      end.

    (** tagged_union.py:27-49: one pass over the choices; [acc] is inner_serializers, [attr]
        discriminating_attr_name *)
    Fixpoint build_variants (disc : string) (choices : list (option string * cschema)) (c : ctx)
        (attr : option string) (acc : dict proxy) : out (option string * dict proxy) :=
      match choices with
      | [] => Ok (attr, acc)
      | (None, _) :: _ => Raise XModelFieldError
      | (Some tag, s) :: rest =>
          obind (parse s c) (fun s' =>
          obind (as_proxy s') (fun p =>
          match en_model ev (px_model p) with
          | Some m =>
              if md_root m then Raise XAssertion
              else match dget disc (md_fields m) with
                   | Some (SAttr a _) =>
                       match attr with
                       | Some b => if String.eqb a b
                                   then build_variants disc rest c (Some a) (dset tag p acc)
                                   else Raise XModelFieldError
                       | None => build_variants disc rest c (Some a) (dset tag p acc)
                       end
                   | _ => Raise XModelFieldError
                   end
          | None => Raise XAssertion
          end))
      end.

    (** tagged_union.py:117-129 and 18-53 *)
    Definition build_tagged (disc : option string) (choices : list (option string * cschema))
        (c : ctx) : out ser :=
      obind (check_tagged choices c) (fun c =>
      match disc with
      | None => Raise XModelFieldError
      | Some d =>
          obind (build_variants d choices c None []) (fun '(attr, variants) =>
          match attr with
          | None => Raise XAssertion
          | Some a => Ok (STagged (cx_computed c) d a variants (cx_mode c))
          end)
      end).

    (** serializer.py:223-274 [select_serializer], below the top *)
    Definition select (s : cschema) (c : ctx) : out ser :=
      match family_of s with
      | None => Raise XModelError
      | Some _ =>
          match cx_location c with
          | Some LocWrapped => build_wrap s c
          | _ =>
              match s with
              | CType _ => build_prim c
              | CModel cls _ _ => build_submodel cls c
              | CList item => build_homo item c
              | CTuple variadic items => build_tuple variadic items c
              | CDict keys values => build_mapping n keys values c
              | CTypedDict values => build_typed_mapping n values c
              | CUnion choices => build_union choices c
              | CTagged disc choices => build_tagged disc choices c
              | CIsInstance raw => build_is_instance raw c
              | CCall tuple_class args => build_call tuple_class args c
              | _ => Raise XAssertion
              end
          end
      end.
  End Rec.

  (** serializer.py:175-178 [parse_core_schema], below the top *)
  Fixpoint parse (n : nat) (s : cschema) (c : ctx) : out ser :=
    match n with
    | O => Fuel
    | S n' => obind (preprocess n' s c) (fun '(s', c') => select (parse n') n' s' c')
    end.

  (** the attributes of [ModelSerializer] / [RootModelSerializer] (factory model.py:128-146,
      269-283); a root model has the single field "root" *)
  Record bmodel := BModel {
    bm_cls : string;
    bm_root : bool;
    bm_elem_name : string;
    bm_nsmap : option nsmap;
    bm_fields : list (string * ser);
    bm_valias : dict string;
    bm_sexclude : list string;
    bm_hide : bool
  }.

  Definition is_noxml (m : meta) : bool := match m with MetaNoXml => true | _ => false end.

  (** factory model.py:78-98, the loop over the fields *)
  Fixpoint build_fields (n : nat) (i : cls_info) (hide : bool) (fields : list (string * cfield))
      (c : ctx) (sers : dict ser) (valias : dict string) (excl : list string)
    : out (dict ser * dict string * list string) :=
    match fields with
    | [] => Ok (sers, valias, excl)
    | (name, CField exclude salias va s) :: rest =>
        if existsb is_noxml (ci_meta i name) then build_fields n i hide rest c sers valias excl
        else
          obind (parse n s (child_field c (Some name) salias (cx_computed c)
                              (extract_info (ci_meta i name)) hide)) (fun ser =>
          build_fields n i hide rest c (dset name ser sers)
            (match va with Some a => dset name a valias | None => valias end)
            (if exclude then name :: excl else excl))
    end.

  (** factory model.py:100-117, the loop over the computed fields *)
  Fixpoint build_computed (n : nat) (i : cls_info) (hide : bool)
      (fields : list (string * (option string * cschema))) (c : ctx) (sers : dict ser)
    : out (dict ser) :=
    match fields with
    | [] => Ok sers
    | (name, (alias, s)) :: rest =>
        obind (parse n s (child_field c (Some name) alias true (ci_computed i name) hide)) (fun ser =>
        build_computed n i hide rest c (dset name ser sers))
    end.

  (** factory model.py:119-123 and 134: [__xml_tag__ or __name__], __xml_ns__, __xml_nsmap__ *)
  Definition class_elem_name (i : cls_info) : out string :=
    let p := ci_params i in
    obind (from_alias (default (ci_name i) (if str_truthy (c_tag p) then c_tag p else None))
             (c_ns p) (c_nsmap p) false)
      (fun q => Ok (uri q)).

  (** factory model.py:66-67 [while fields_schema['type'] == 'function-before'] *)
  Fixpoint skip_before (s : cschema) : cschema :=
    match s with CMeta MBefore s' => skip_before s' | _ => s end.

  (** factory model.py:61-126 [ModelSerializer.from_core_schema] *)
  Definition build_model (n : nat) (cls : string) (body : cschema) (c : ctx) : out bmodel :=
    match cl cls, skip_before body with
    | Some i, CFields fields computed =>
        let hide := default (cx_hide c) (ci_hide i) in
        obind (build_fields n i hide fields c [] [] []) (fun '(sers, valias, excl) =>
        obind (build_computed n i hide computed c sers) (fun sers =>
        obind (class_elem_name i) (fun name =>
        Ok (BModel cls false name (c_nsmap (ci_params i)) sers valias excl hide))))
    | _, _ => Raise XAssertion
    end.

  (** factory model.py:247-267 [RootModelSerializer.from_core_schema] *)
  Definition build_root_model (n : nat) (cls : string) (body : cschema) (c : ctx) : out bmodel :=
    match cl cls with
    | Some i =>
        let hide := default (cx_hide c) (ci_hide i) in
        obind (parse n body (child_field c None (cx_alias c) (cx_computed c)
                               (extract_info (ci_meta i "root")) hide)) (fun s =>
        obind (class_elem_name i) (fun name =>
        Ok (BModel cls true name (c_nsmap (ci_params i)) [("root", s)] [] [] hide)))
    | None => Raise XAssertion
    end.

  (** model.py:223-236, the context of a class *)
  Definition class_ctx (i : cls_info) : ctx :=
    let p := ci_params i in
    Ctx (ci_name i) None None false
        (Some (EInfo (Some LocElement) (c_tag p) (c_ns p) (c_nsmap p) None None))
        (c_ns_attrs p) (c_mode p) false false [] false None.

  (** model.py:222-239 [BaseXmlModel.__build_serializer__] for a complete class with core schema
      [s], and factory model.py:470-477 (the top).  Simplification: for a core schema that is not
      a model's, Python builds the serializer first and then fails the same assertion (or with
      the exception building it raises). *)
  Definition build_class (n : nat) (i : cls_info) (s : cschema) : out bmodel :=
    obind (preprocess n s (class_ctx i)) (fun '(s', c) =>
    match s' with
    | CModel cls root body =>
        if root then build_root_model n cls body c else build_model n cls body c
    | _ => Raise XAssertion
    end).
End Build.

(** the class at run time: the built serializer with what from_xml / to_xml read of the class
    itself (factory model.py:128-146; model_config extra; __xml_skip_empty__; field callbacks;
    pydantic's validator) *)
Definition mdef_of (b : bmodel) (name : string) (forbid : bool) (skip : option bool)
    (cser : string -> option (val -> elem -> val -> out elem))
    (cval : string -> option (elem -> out val * elem))
    (validate : option val -> verdict) : mdef :=
  MDef name (bm_root b) (bm_elem_name b) (bm_nsmap b) (bm_fields b) (bm_valias b) (bm_sexclude b)
       (bm_hide b) forbid skip cser cval validate.
