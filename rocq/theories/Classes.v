(** Classes.v -- what happens around a class statement: base classes and the method resolution
    order, the collection of field serializers and validators, building and rebuilding the
    serializer, create_model (model.py), aliases of field declarations (fields.py) and the
    pydantic version test (compat.py). *)

From Verif Require Import Base Elem Native Errs Names Fields Ser Build.

(** ---- method resolution order ---- *)

Definition nonempty {A} (l : list A) : bool := match l with [] => false | _ => true end.

Definition heads {A} (ls : list (list A)) : list A :=
  flat_map (fun l => match l with x :: _ => [x] | [] => [] end) ls.

Definition drop_head (c : string) (l : list string) : list string :=
  match l with x :: r => if String.eqb x c then r else l | [] => [] end.

(** no list has the class behind its first position *)
Definition good_head (ls : list (list string)) (c : string) : bool :=
  forallb (fun l => negb (str_in c (tl l))) ls.

(** the merge step of C3, the linearisation Python uses for [cls.__mro__] (not in /repo; the
    attribute lookups of model.py:188-198 depend on it).  [None]: TypeError, no consistent order. *)
Fixpoint c3_merge (n : nat) (ls : list (list string)) : option (list string) :=
  match filter nonempty ls with
  | [] => Some []
  | ls' =>
      match n with
      | O => None
      | S n' =>
          match find (good_head ls') (heads ls') with
          | None => None
          | Some c => option_map (cons c) (c3_merge n' (map (drop_head c) ls'))
          end
      end
  end.

(** the order of all ancestors, given the orders of the bases and the bases themselves *)
Definition c3 (mros : list (list string)) (bases : list string) : option (list string) :=
  c3_merge (length (concat (mros ++ [bases]))) (mros ++ [bases]).

(** a class: its [__mro__] (itself first) and its [__xml_...__] parameters, if it has them in its
    own namespace *)
Record pyclass := PyClass { k_mro : list string; k_params : option cparams }.

(** the classes defined so far *)
Definition world := dict pyclass.

(** the classes there are before the user defines any.  model.py:149-163: BaseXmlModel only
    declares the parameters, it has no values for them. *)
Definition builtin_world : world :=
  [("object", PyClass ["object"] None);
   ("BaseModel", PyClass ["BaseModel"; "object"] None);
   ("BaseXmlModel", PyClass ["BaseXmlModel"; "BaseModel"; "object"] None)].

Definition params_in (w : world) (c : string) : option cparams :=
  match dget c w with Some k => k_params k | None => None end.

(** Python [getattr(cls, '__xml_...__', default)] on a new class whose ancestors are [mro]: the
    parameters of the first ancestor that has them; [__init_subclass__] sets all six at once *)
Fixpoint nearest_params (w : world) (mro : list string) : option cparams :=
  match mro with
  | [] => None
  | c :: rest => match params_in w c with Some p => Some p | None => nearest_params w rest end
  end.

(** a class statement: name, bases, keyword arguments *)
Record cstmt := CStmt { cs_name : string; cs_bases : list string; cs_decl : cdecl }.

Definition no_decl : cdecl := CDecl None None None None None None.

Definition decl_given (d : cdecl) : bool :=
  match d with CDecl None None None None None None => false | _ => true end.

(** the [__mro__] lists of the bases *)
Fixpoint base_mros (w : world) (bases : list string) : option (list (list string)) :=
  match bases with
  | [] => Some []
  | b :: rest =>
      match dget b w, base_mros w rest with
      | Some k, Some l => Some (k_mro k :: l)
      | _, _ => None
      end
  end.

(** executing a class statement: Python computes the MRO, then [BaseXmlModel.__init_subclass__]
    (model.py:165-201) runs if BaseXmlModel is an ancestor; otherwise the class takes no XML
    arguments.  [None]: TypeError or NameError.  Simplifications: the attributes are not assigned
    in the class body; classes are identified by name, so a name is not defined twice. *)
Definition define_class (w : world) (s : cstmt) : option world :=
  if dmem (cs_name s) w then None else
  match base_mros w (cs_bases s) with
  | None => None
  | Some mros =>
      match c3 mros (cs_bases s) with
      | None => None
      | Some anc =>
          if str_in "BaseXmlModel" anc then
            Some (dset (cs_name s) (PyClass (cs_name s :: anc) (Some (init_subclass (nearest_params w anc) (cs_decl s)))) w)
          else if decl_given (cs_decl s) then None
          else Some (dset (cs_name s) (PyClass (cs_name s :: anc) None) w)
      end
  end.

(** a module: class statements one after the other *)
Fixpoint define_all (w : world) (ss : list cstmt) : option world :=
  match ss with
  | [] => Some w
  | s :: rest => match define_class w s with Some w' => define_all w' rest | None => None end
  end.

(** ---- create_model ---- *)

(** the arguments of [create_model] that concern classes: name, __tag__ ... __search_mode__,
    __base__, whether __config__ is given, __module__, and the keyword arguments of a
    [__cls_kwargs__] the caller passed *)
Record cm_args := CmArgs {
  cm_name : string; cm_decl : cdecl; cm_base : option (list string); cm_config : bool;
  cm_module : option string; cm_cls_kwargs : option cdecl
}.

(** model.py:66-74: the class keyword arguments; those of the caller's [__cls_kwargs__] are
    overwritten, also by None *)
Definition cm_kwargs (a : cm_args) : cdecl :=
  match cm_cls_kwargs a with Some _ | None => cm_decl a end.

(** model.py:76 [__base__ or BaseXmlModel]: an empty tuple counts as absent *)
Definition cm_bases (a : cm_args) : list string :=
  match cm_base a with Some (b :: rest) => b :: rest | Some [] | None => ["BaseXmlModel"] end.

(** model.py:82 [f'{__model_name}Base'] *)
Definition config_base (a : cm_args) : string := (cm_name a ++ "Base")%string.

(** model.py:35-93 [create_model] as class statements: with __config__ an extra plain pydantic base
    is created first and put behind the other bases *)
Definition create_model (w : world) (a : cm_args) : option world :=
  if cm_config a then
    match define_class w (CStmt (config_base a) ["BaseModel"] no_decl) with
    | None => None
    | Some w1 => define_class w1 (CStmt (cm_name a) (cm_bases a ++ [config_base a]) (cm_kwargs a))
    end
  else define_class w (CStmt (cm_name a) (cm_bases a) (cm_kwargs a)).

(** the [__module__] of the new class: model.py:91 does not pass it on, and pydantic then takes
    the module that called it *)
Definition cm_result_module (a : cm_args) : string := "pydantic_xml.model".

(** ---- custom field serializers and validators ---- *)

Section Collect.
  (** the callables *)
  Variable F : Type.

  (** an item of [field_info.metadata]: XmlFieldValidator, XmlFieldSerializer (fields.py:395-402),
      anything else *)
  Inductive fmeta := FmVal (f : F) | FmSer (f : F) | FmOther.

  (** what [getattr(cls, name)] gives: its truth value, the callable, and the field names in its
      [__xml_field_serializer__] and [__xml_field_validator__] attributes, set by the decorators
      (fields.py:359-392) *)
  Record cattr := CAttr { ca_true : bool; ca_func : F; ca_ser : list string; ca_val : list string }.

  (** the attributes visible on a class: for every name, the first class of the MRO that has it
      in its namespace ([nss]: the namespaces of the MRO, the class itself first) *)
  Definition visible (nss : list (dict cattr)) : dict cattr :=
    fold_right (fun ns acc => dupdate acc ns) [] nss.

  (** model.py:121-126: annotations, field by field *)
  Definition annotated (which : fmeta -> option F) (fields : list (string * list fmeta)) : dict F :=
    fold_left (fun d nf =>
      fold_left (fun d m => match which m with Some f => dset (fst nf) f d | None => d end) (snd nf) d)
      fields [].

  Definition meta_ser (m : fmeta) : option F := match m with FmSer f => Some f | _ => None end.
  Definition meta_val (m : fmeta) : option F := match m with FmVal f => Some f | _ => None end.

  (** model.py:132-139, the loop over the attributes, in the order [attrs] *)
  Definition marked (names : cattr -> list string) (attrs : list (string * cattr)) (d : dict F) : dict F :=
    fold_left (fun d na =>
      if ca_true (snd na)
      then fold_left (fun d field => dset field (ca_func (snd na)) d) (names (snd na)) d
      else d) attrs d.

  (** model.py:118-139 [_collect_xml_field_serializers_validators]: the two dicts.  [attrs] lists
      the attributes in the order Python happens to iterate [set(dir(cls)) - set(dir(BaseModel))] *)
  Definition collect (fields : list (string * list fmeta)) (attrs : list (string * cattr)) : dict F * dict F :=
    (marked ca_ser attrs (annotated meta_ser fields), marked ca_val attrs (annotated meta_val fields)).

  (** the candidates: attributes that are not attributes of pydantic's BaseModel *)
  Definition own_attrs (base : list string) (nss : list (dict cattr)) : list (string * cattr) :=
    filter (fun na => negb (str_in (fst na) base)) (visible nss).
End Collect.

Arguments FmVal {F} f.
Arguments FmSer {F} f.
Arguments FmOther {F}.
Arguments CAttr {F} ca_true ca_func ca_ser ca_val.

(** ---- building and rebuilding the serializer ---- *)

Section Life.
  Variable cl : classes.
  Variable ev : env.
  Variable n : nat.

  (** what pydantic knows about a class: [__pydantic_complete__], the core schema, and the metadata
      of the fields (serializers and validators in annotations that are still unresolved forward
      references are not there yet) *)
  Record pystate := PyState {
    py_complete : bool; py_schema : cschema; py_metas : list (string * list (fmeta string))
  }.

  (** what [__build_serializer__] looks at: is it a root model; are there unbound type parameters
      ([__pydantic_generic_metadata__['parameters']]); is the type of the root field missing or a
      bare type variable; pydantic's state; [__xml_serializer__]; and the collected field
      serializers and validators *)
  Record cstate := CState {
    ls_info : cls_info;
    ls_root : bool; ls_generic : bool; ls_root_var : bool;
    ls_py : pystate; ls_ser : option bmodel; ls_custom : dict string * dict string
  }.

  Definition set_ser (b : option bmodel) (s : cstate) : cstate :=
    CState (ls_info s) (ls_root s) (ls_generic s) (ls_root_var s) (ls_py s) b (ls_custom s).
  Definition set_py (p : pystate) (s : cstate) : cstate :=
    CState (ls_info s) (ls_root s) (ls_generic s) (ls_root_var s) p (ls_ser s) (ls_custom s).
  Definition set_custom (c : dict string * dict string) (s : cstate) : cstate :=
    CState (ls_info s) (ls_root s) (ls_generic s) (ls_root_var s) (ls_py s) (ls_ser s) c.

  (** model.py:208-217: some type parameter the serializer depends on is not given *)
  Definition open_params (s : cstate) : bool :=
    ls_generic s && (if ls_root s then ls_root_var s else true).

  (** model.py:203-240 [__build_serializer__] *)
  Definition build_serializer (s : cstate) : out cstate :=
    if open_params s then Ok (set_ser None s)
    else if py_complete (ls_py s) then
      obind (build_class cl ev n (ls_info s) (py_schema (ls_py s))) (fun b => Ok (set_ser (Some b) s))
    else Ok (set_ser None s).

  (** model.py:102-117 [XmlModelMeta.__new__]; an exception leaves no class behind *)
  Definition new_class (abstract : bool) (attrs : list (string * cattr string)) (s : cstate) : out cstate :=
    obind (if abstract then Ok s else build_serializer s)
      (fun s' => Ok (set_custom (collect (py_metas (ls_py s')) attrs) s')).

  (** model.py:242-247 [model_rebuild]; [py] is what pydantic's own model_rebuild does: raise, or
      leave the class in another state *)
  Definition model_rebuild (py : option pystate) (s : cstate) : out cstate :=
    match py with
    | None => Raise (XUser "model_rebuild")
    | Some p =>
        match ls_ser s with
        | None => if py_complete p then build_serializer (set_py p s) else Ok (set_py p s)
        | Some _ => Ok (set_py p s)
        end
    end.

  (** a history of calls of model_rebuild; after a call that raised, the class is what pydantic made
      of it, with the serializer it had ([__xml_serializer__] is assigned last) *)
  Fixpoint rebuilds (calls : list (option pystate)) (s : cstate) : out cstate :=
    match calls with
    | [] => Ok s
    | py :: rest =>
        match model_rebuild py s with
        | Ok s' => rebuilds rest s'
        | Raise _ => rebuilds rest (match py with None => s | Some p => set_py p s end)
        | Fuel => Fuel
        end
    end.

  (** model.py:265, 319: the assertion at the start of from_xml_tree and to_xml_tree *)
  Definition usable (s : cstate) : bool := match ls_ser s with Some _ => true | None => false end.
End Life.

(** ---- computed fields ---- *)

(** the keyword arguments a [computed_entity] decorator holds: path, ns, nsmap, nillable and those
    for pydantic *)
Record ckwargs := CKwargs {
  ck_path : option string; ck_ns : option string; ck_nsmap : option nsmap; ck_nillable : option bool;
  ck_rest : list (string * string)
}.

(** fields.py:260-277, one application of the decorator: the XML description of the property, the
    arguments passed to pydantic, and the arguments the decorator holds afterwards
    ([kwargs.pop] removes them) *)
Definition computed_apply (loc : eloc) (k : ckwargs) : (einfo * list (string * string)) * ckwargs :=
  ((EInfo (Some loc) (ck_path k) (ck_ns k) (ck_nsmap k) (ck_nillable k) None, ck_rest k),
   CKwargs None None None None (ck_rest k)).

(** the same decorator object applied to several properties, in order *)
Fixpoint computed_applies (loc : eloc) (k : ckwargs) (props : list string) : list (string * einfo) :=
  match props with
  | [] => []
  | p :: rest => let '((i, _), k') := computed_apply loc k in (p, i) :: computed_applies loc k' rest
  end.

(** fields.py:300-316 [computed_attr], 336-356 [computed_element]: the arguments of the decorator *)
Definition computed_attr (name ns : option string) (rest : list (string * string)) : eloc * ckwargs :=
  (LocAttribute, CKwargs name ns None None rest).
Definition computed_element (tag ns : option string) (m : option nsmap) (nillable : option bool)
    (rest : list (string * string)) : eloc * ckwargs :=
  (LocElement, CKwargs tag ns m nillable rest).

(** ---- aliases of field declarations ---- *)

(** the alias arguments of a field declaration, as explicitly given; [Some None] is an explicit
    None *)
Record fkwargs := FKwargs {
  fk_alias : option (option string); fk_salias : option (option string); fk_valias : option (option string)
}.

(** [kwargs.get(k)] / the attribute of the FieldInfo built from them *)
Definition kget (o : option (option string)) : option string := match o with Some v => v | None => None end.

(** fields.py:110-117 [prepare_field_kwargs] *)
Definition prepare_field_kwargs (k : fkwargs) : fkwargs :=
  FKwargs (fk_alias k)
    (match kget (fk_salias k) with Some a => Some (Some a) | None => Some (kget (fk_alias k)) end)
    (match kget (fk_valias k) with Some a => Some (Some a) | None => Some (kget (fk_alias k)) end).

(** a field declaration: alias arguments and metadata *)
Record fdecl := FDecl { fd_kwargs : fkwargs; fd_meta : list meta }.

(** fields.py:120-145 [attr], 148-177 [element] *)
Definition attr_decl (name ns : option string) (k : fkwargs) : fdecl :=
  FDecl (prepare_field_kwargs k) (attr name ns).
Definition element_decl (tag ns : option string) (m : option nsmap) (nillable : option bool) (k : fkwargs) : fdecl :=
  FDecl (prepare_field_kwargs k) (element tag ns m nillable).

(** compat.py:31-35 [merge_field_infos]: what pydantic does with two of them -- an argument given
    explicitly in the later one wins *)
Definition merge_kwargs (a b : fkwargs) : fkwargs :=
  FKwargs (or_else (fk_alias b) (fk_alias a)) (or_else (fk_salias b) (fk_salias a)) (or_else (fk_valias b) (fk_valias a)).

(** fields.py:180-220 [wrapped] *)
Definition wrapped_decl (path : string) (entity : option fdecl) (ns : option string) (m : option nsmap) (k : fkwargs) : fdecl :=
  match entity with
  | None => FDecl k (wrapped path None ns m)
  | Some inner => FDecl (merge_kwargs k (fd_kwargs inner)) (wrapped path (Some (fd_meta inner)) ns m)
  end.

(** the entry of the core schema pydantic generates for the field: the aliases of the FieldInfo.
    A validation alias that is not a str is outside the model; an empty one counts as absent
    (factory model.py:86). *)
Definition cfield_of (exclude : bool) (d : fdecl) (s : cschema) : cfield :=
  CField exclude (kget (fk_salias (fd_kwargs d)))
    (match kget (fk_valias (fd_kwargs d)) with
     | Some a => if String.eqb a "" then None else Some a
     | None => None
     end) s.

(** ---- compat.py ---- *)

(** the longest run of digits, and the rest *)
Fixpoint span_digits (s : string) : string * string :=
  match s with
  | String c s' => if is_digit c then let (a, b) := span_digits s' in (String c a, b) else (EmptyString, s)
  | EmptyString => (EmptyString, EmptyString)
  end.

(** Python [int(s)] on a string of digits *)
Fixpoint int_of (acc : N) (s : string) : N :=
  match s with
  | EmptyString => acc
  | String c s' => int_of (acc * 10 + (N_of_ascii c - 48))%N s'
  end.

(** an optional dot *)
Definition skip_dot (s : string) : string :=
  match s with String c s' => if Ascii.eqb c "."%char then s' else s | EmptyString => s end.

(** compat.py:12-28 [parse_version]: no part of the regular expression can fail, so every lazy
    [.*?] matches nothing.  [int(m.group(i) or 0)] of no digits is 0. *)
Definition parse_version (v : string) : N * N * N :=
  let (major, r1) := span_digits v in
  let (minor, r2) := span_digits (skip_dot r1) in
  let (micro, _) := span_digits (skip_dot r2) in
  (int_of 0 major, int_of 0 minor, int_of 0 micro).

(** Python's [>=] on tuples *)
Definition version_ge (a b : N * N * N) : bool :=
  match a, b with
  | (a1, a2, a3), (b1, b2, b3) =>
      (b1 <? a1)%N || ((a1 =? b1)%N && ((b2 <? a2)%N || ((a2 =? b2)%N && (b3 <=? a3)%N)))
  end.

(** compat.py:32, which of pydantic's two functions merges field infos: [FieldInfo._construct] *)
Definition uses_construct (version : string) : bool := version_ge (parse_version version) (2, 12, 0)%N.
