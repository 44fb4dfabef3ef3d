(** Ser.v -- the run-time serializer objects built from a model class (the instances of the
    [Serializer] subclasses of serializers/factories) and the model classes themselves.  Data
    types only; Write.v and Read.v give their methods, Build.v their construction. *)

From Verif Require Import Base Elem Native Errs Names.

(** mapping.py:22-26, the attributes of [AttributesSerializer] *)
Record attrs_ser := AttrsSer {
  as_ns : option string; as_nsmap : option nsmap; as_namespaced : bool; as_computed : bool
}.

(** model.py(factory):374-389, the attributes of [ModelProxySerializer]; [px_model] names the
    model class, whose own serializer is found through the environment (Python looks up
    [self._model.__xml_serializer__] at call time) *)
Record proxy := Proxy {
  px_model : string; px_name : string; px_nsmap : option nsmap; px_mode : smode;
  px_computed : bool; px_nillable : bool
}.

Inductive ser :=
(** primitive.py:31-41 [TextSerializer] *)
| SText (computed nillable : bool)
(** primitive.py:84-110 [AttributeSerializer] *)
| SAttr (name : string) (computed : bool)
(** primitive.py:147-175 [ElementSerializer] *)
| SElem (name : string) (nsm : option nsmap) (mode : smode) (computed nillable : bool)
(** mapping.py:12-26 [AttributesSerializer] *)
| SAttrs (a : attrs_ser)
(** mapping.py:70-97 [ElementSerializer] *)
| SMapElem (name : string) (mode : smode) (a : attrs_ser)
(** homogeneous.py:20-39 [ElementSerializer] *)
| SHomo (title : string) (computed : bool) (inner : ser) (hide : bool)
(** heterogeneous.py:12-33 [ElementSerializer]; named_tuple.py:13-61 delegates to it *)
| SHetero (title : string) (computed : bool) (inners : list ser) (hide : bool)
(** union.py:14-35 [PrimitiveTypeSerializer] *)
| SUnionPrim (computed : bool) (inner : ser)
(** union.py:68-97 [ModelSerializer] *)
| SUnionModel (title : string) (computed : bool) (variants : list proxy) (hide : bool)
(** tagged_union.py:16-67 [ModelSerializer]; [variants] is the dict tag -> serializer *)
| STagged (computed : bool) (disc attr_name : string) (variants : list (string * proxy)) (mode : smode)
(** wrapper.py:11-40 [ElementPathSerializer]; [path] are the qualified names of the parts *)
| SWrap (path : list string) (nsm : option nsmap) (mode : smode) (computed : bool) (inner : ser)
(** raw.py:12-30 [ElementSerializer] *)
| SRaw (name : string) (mode : smode) (computed : bool)
(** model.py(factory):359-405 [ModelProxySerializer] *)
| SProxy (p : proxy).

(** A model class with its serializer: factory model.py:128-146 [ModelSerializer.__init__] and
    269-283 [RootModelSerializer.__init__].
    [md_root]: a RootXmlModel ([md_fields] then holds the single entry "root").
    [md_cser], [md_cval]: __xml_field_serializers__ / __xml_field_validators__ (user code).
    [md_validate]: the oracle for pydantic's [model_validate(result, strict=False)]; [None]
    stands for PydanticUndefined.  The validation context is fixed and hidden in the oracle. *)
Record mdef := MDef {
  md_name : string;
  md_root : bool;
  md_elem_name : string;
  md_nsmap : option nsmap;
  md_fields : list (string * ser);
  md_valias : dict string;
  md_sexclude : list string;
  md_hide : bool;
  md_forbid : bool;
  md_skip_empty : option bool;
  md_cser : string -> option (val -> elem -> val -> out elem);
  md_cval : string -> option (elem -> out val * elem);
  md_validate : option val -> verdict
}.

(** everything from_xml / to_xml depend on besides their arguments: the XML back end in use and
    the model classes by identity ([None]: the class has no serializer yet) *)
Record env := Env { en_backend : backend; en_model : string -> option mdef }.

(** the keyword arguments of to_xml *)
Record flags := Flags { fl_skip_empty : bool; fl_exclude_none : bool; fl_exclude_unset : bool }.

(** ---- induction over serializers ---- *)
Unset Implicit Arguments.
Fixpoint ser_ind' (P : ser -> Prop)
    (HText : forall c n, P (SText c n))
    (HAttr : forall n c, P (SAttr n c))
    (HElem : forall n m md c ni, P (SElem n m md c ni))
    (HAttrs : forall a, P (SAttrs a))
    (HMapElem : forall n md a, P (SMapElem n md a))
    (HHomo : forall t c s h, P s -> P (SHomo t c s h))
    (HHetero : forall t c l h, Forall P l -> P (SHetero t c l h))
    (HUP : forall c s, P s -> P (SUnionPrim c s))
    (HUM : forall t c vs h, P (SUnionModel t c vs h))
    (HT : forall c d a vs md, P (STagged c d a vs md))
    (HW : forall p m md c s, P s -> P (SWrap p m md c s))
    (HR : forall n md c, P (SRaw n md c))
    (HP : forall p, P (SProxy p))
    (s : ser) : P s :=
  match s with
  | SText c n => HText c n
  | SAttr n c => HAttr n c
  | SElem n m md c ni => HElem n m md c ni
  | SAttrs a => HAttrs a
  | SMapElem n md a => HMapElem n md a
  | SHomo t c s h =>
      HHomo t c s h (ser_ind' P HText HAttr HElem HAttrs HMapElem HHomo HHetero HUP HUM HT HW HR HP s)
  | SHetero t c l h =>
      HHetero t c l h
        ((fix all (l : list ser) : Forall P l :=
            match l with
            | [] => Forall_nil P
            | x :: l' =>
                Forall_cons x
                  (ser_ind' P HText HAttr HElem HAttrs HMapElem HHomo HHetero HUP HUM HT HW HR HP x)
                  (all l')
            end) l)
  | SUnionPrim c s =>
      HUP c s (ser_ind' P HText HAttr HElem HAttrs HMapElem HHomo HHetero HUP HUM HT HW HR HP s)
  | SUnionModel t c vs h => HUM t c vs h
  | STagged c d a vs md => HT c d a vs md
  | SWrap p m md c s =>
      HW p m md c s (ser_ind' P HText HAttr HElem HAttrs HMapElem HHomo HHetero HUP HUM HT HW HR HP s)
  | SRaw n md c => HR n md c
  | SProxy p => HP p
  end.
