(** SpecAttrs.v -- attributes that no field is bound to (C83).

    [A]: [A t k] says that some field reads the attribute [k] of elements with the tag [t]; [W]: the tags of raw
    elements, whose whole content is a value. *)

From Verif Require Import Base Elem Native Errs Names Ser Read SpecElem SpecRead.

(** ---- which attributes the fields read ---- *)

(** the field reads the attribute [k] of the element its model is read from: an attribute field its own, a
    mapping all of them, a nillable text the mark xsi:nil *)
Inductive own_attr (k : string) : ser -> Prop :=
| oa_attr : own_attr k (SAttr k false)
| oa_attrs : forall a, as_computed a = false -> own_attr k (SAttrs a)
| oa_text : k = xsi_nil -> own_attr k (SText false true)
| oa_homo : forall t s h, own_attr k s -> own_attr k (SHomo t false s h)
| oa_hetero : forall t l h, Exists (own_attr k) l -> own_attr k (SHetero t false l h)
| oa_uprim : forall s, own_attr k s -> own_attr k (SUnionPrim false s).

Definition takes_attr (m : mdef) (k : string) : Prop := Exists (fun nf => own_attr k (snd nf)) (md_fields m).

(** an element called [px_name p] is read as a model, and asked for xsi:nil *)
Definition proxy_attrs (A : string -> string -> bool) (ev : env) (p : proxy) : Prop :=
  A (px_name p) xsi_nil = true /\
  forall m k, en_model ev (px_model p) = Some m -> takes_attr m k -> A (px_name p) k = true.

(** every attribute the field reads of other elements than the one its model is read from is in [A], and every
    element it takes as a whole has a tag in [W] *)
Inductive attrs_in (A : string -> string -> bool) (W : string -> bool) (ev : env) : ser -> Prop :=
| ai_text : forall c ni, attrs_in A W ev (SText c ni)
| ai_attr : forall n c, attrs_in A W ev (SAttr n c)
| ai_elem : forall n ns m c ni, (c = false -> ni = true -> A n xsi_nil = true) -> attrs_in A W ev (SElem n ns m c ni)
| ai_attrs : forall a, attrs_in A W ev (SAttrs a)
| ai_map : forall n m a, (as_computed a = false -> forall k, A n k = true) -> attrs_in A W ev (SMapElem n m a)
| ai_homo : forall t c s h, attrs_in A W ev s -> attrs_in A W ev (SHomo t c s h)
| ai_hetero : forall t c l h, Forall (attrs_in A W ev) l -> attrs_in A W ev (SHetero t c l h)
| ai_uprim : forall c s, attrs_in A W ev s -> attrs_in A W ev (SUnionPrim c s)
| ai_umodel : forall t c vs h, Forall (proxy_attrs A ev) vs -> attrs_in A W ev (SUnionModel t c vs h)
| ai_tagged : forall c d a vs m,
    Forall (fun kv : string * proxy => A (px_name (snd kv)) a = true /\ proxy_attrs A ev (snd kv)) vs ->
    attrs_in A W ev (STagged c d a vs m)
| ai_wrap : forall p ns m c s, (forall k, own_attr k s -> A (last p "") k = true) -> attrs_in A W ev s ->
    attrs_in A W ev (SWrap p ns m c s)
| ai_raw : forall n m c, W n = true -> attrs_in A W ev (SRaw n m c)
| ai_proxy : forall p, proxy_attrs A ev p -> attrs_in A W ev (SProxy p).

Definition env_attrs (A : string -> string -> bool) (W : string -> bool) (ev : env) : Prop :=
  forall cls m, en_model ev cls = Some m -> Forall (fun nf => attrs_in A W ev (snd nf)) (md_fields m).

(** ---- documents that differ in other attributes only ---- *)

(** the attributes that are asked for *)
Definition asked (A : string -> string -> bool) (tag : string) (a : dict string) : dict string :=
  filter (fun kv : string * string => A tag (fst kv)) a.

(** the same document, the attributes nobody asks for excepted; raw elements are the same altogether *)
Inductive same_but_attrs (A : string -> string -> bool) (W : string -> bool) : native -> native -> Prop :=
| sba_same : forall t, same_but_attrs A W t t
| sba_elem : forall tag ns text tail a a' cs cs' line, W tag = false -> asked A tag a = asked A tag a' ->
    Forall2 (same_but_attrs A W) cs cs' ->
    same_but_attrs A W (NElem tag ns text tail a cs line) (NElem tag ns text tail a' cs' line).

(** the same for partly read elements ([raw]: inside a raw element) *)
Definition tag_asked (A : string -> string -> bool) (t : xtag) (a : dict string) : dict string :=
  match t with TName s => asked A s a | TSpecial => a end.

Definition tag_raw (W : string -> bool) (t : xtag) : bool := match t with TName s => W s | TSpecial => false end.

Inductive differ_attrs (A : string -> string -> bool) (W : string -> bool) : bool -> elem -> elem -> Prop :=
| da_intro : forall (raw : bool) tag ns text tail a a' l l' next line,
    option_map (tag_asked A tag) a = option_map (tag_asked A tag) a' ->
    (raw || tag_raw W tag = true -> a = a') ->
    Forall2 (differ_attrs A W (raw || tag_raw W tag)) l l' ->
    differ_attrs A W raw (Elem tag ns text tail a l next line) (Elem tag ns text tail a' l' next line).

(** user validators that do not look at these attributes (and leave the tag alone) *)
Definition attrs_unseen (A : string -> string -> bool) (W : string -> bool) (ev : env) : Prop :=
  forall cls m name f, en_model ev cls = Some m -> md_cval m name = Some f ->
  forall raw e e', differ_attrs A W raw e e' ->
    fst (f e) = fst (f e') /\ differ_attrs A W raw (snd (f e)) (snd (f e')) /\ e_tag (snd (f e)) = e_tag e.
