(** SpecStable.v -- vocabulary for reading what was written for what was read. *)

From Verif Require Import Base Elem Native Errs Names Ser Write Read Api SpecElem SpecRead SpecNames SpecSim SpecRound.

(** ---- what pydantic does with the data read from a document ---- *)

(** the name under which pydantic is given the value of a field *)
Definition data_key (m : mdef) (name : string) : string :=
  match dget name (md_valias m) with Some alias => alias | None => name end.

(** [retold encode x y x']: pydantic has made [y] of what was read, [x], and [x'] is [y] told in the terms of a
    document again.  A text may become any value that has a text (an int, a date), but a text that is not empty
    has to stay so; lists and tuples are converted item by item; mappings keep their keys; instances and raw
    elements stay what they are. *)
Inductive retold (encode : val -> val) : val -> val -> val -> Prop :=
| rt_text : forall t y t', is_none y = false -> encode_primitive (encode y) = Ok t' -> (t' = "" -> t = "") ->
    retold encode (VStr t) y (VStr t')
| rt_list : forall xs ys xs', retold_all encode xs ys xs' -> retold encode (VList xs) (VList ys) (VList xs')
| rt_mapping : forall d d' ts, map fst d = map fst d' -> Forall2 (fun ky t => py_str (encode (snd ky)) = Ok t) d' ts ->
    retold encode (VDict d) (VDict d') (VDict (combine (map fst d') (map VStr ts)))
| rt_model : forall cls attrs set, retold encode (VModel cls attrs set) (VModel cls attrs set) (VModel cls attrs set)
| rt_raw : forall n, retold encode (VRaw n) (VRaw n) (VRaw n)
with retold_all (encode : val -> val) : list val -> list val -> list val -> Prop :=
| rt_nil : retold_all encode [] [] []
| rt_cons : forall x xs y ys x' xs', retold encode x y x' -> retold_all encode xs ys xs' ->
    retold_all encode (x :: xs) (y :: ys) (x' :: xs').

(** what can be read from a document: texts, lists, string mappings, instances, raw elements; a member of a tuple
    may be None *)
Inductive document_data : val -> Prop :=
| dd_text : forall t, document_data (VStr t)
| dd_list : forall l, Forall (fun x => x = VNone \/ document_data x) l -> document_data (VList l)
| dd_mapping : forall d, Forall (fun kx => exists t, snd kx = VStr t) d -> document_data (VDict d)
| dd_model : forall cls attrs set, document_data (VModel cls attrs set)
| dd_raw : forall n, document_data (VRaw n).

(** pydantic accepts what it has made in the terms of a document, and makes the same of it.  [always s]: there
    is always something to read for the field. *)
Definition settles (encode : val -> val) (always : ser -> Prop) (cls : string) (m : mdef) : Prop :=
  forall d v, Forall (fun kx => document_data (snd kx)) d -> md_validate m (Some (VDict d)) = Valid v ->
  exists attrs set, v = VModel cls attrs set /\
    (forall name s, In (name, s) (md_fields m) ->
       match dget (data_key m name) d with
       | Some x => In name set /\ exists y x', dget name attrs = Some y /\ retold encode x y x'
       | None => ~ In name set /\ ~ always s
       end) /\
    (forall d', map fst d' = map fst d ->
       (forall name s x y x', In (name, s) (md_fields m) -> dget (data_key m name) d = Some x -> dget name attrs = Some y ->
          dget (data_key m name) d' = Some x' -> retold encode x y x') ->
       md_validate m (Some (VDict d')) = Valid v).

(** the same for a root model, which needs a value *)
Definition root_settles (encode : val -> val) (cls : string) (m : mdef) : Prop :=
  (forall v, md_validate m None <> Valid v) /\
  forall x v, document_data x -> md_validate m (Some x) = Valid v ->
  exists attrs set y x', v = VModel cls attrs set /\ In "root" set /\ dget "root" attrs = Some y /\ retold encode x y x' /\
    md_validate m (Some x') = Valid v.

(** pydantic encodes instances attribute by attribute, lists and dicts item by item *)
Definition encodes (encode : val -> val) (ev : env) : Prop :=
  (forall cls m attrs set, en_model ev cls = Some m ->
     if md_root m
     then forall y, dget "root" attrs = Some y -> encode (VModel cls attrs set) = encode y
     else exists d, encode (VModel cls attrs set) = VDict d /\ forall name y, dget name attrs = Some y -> dget name d = Some (encode y)) /\
  (forall l, encode (VList l) = VList (map encode l)) /\
  (forall d, encode (VDict d) = VDict (map (fun ky => (fst ky, encode (snd ky))) d)).

(** ---- the classes ---- *)

(** fields there is always something to read for: a mapping over the attributes, and the text if an empty one counts *)
Definition always_read (eas : bool) (s : ser) : Prop := unwritten eas s <> VNone.

Definition xsi_namespace : string := "http://www.w3.org/2001/XMLSchema-instance".

(** the attributes of a mapping are in a namespace of its own, if any *)
Definition own_namespace (a : attrs_ser) : Prop :=
  as_namespaced a = true -> forall u, attrs_uri a = Some u -> u = "" \/ plain_ns u /\ u <> xsi_namespace.

(** an instance of the class of a variant has one of the tags of that variant *)
Definition has_tag (encode : val -> val) (ev : env) (disc aname : string) (vs : list (string * proxy)) (p : proxy) : Prop :=
  exists m c, en_model ev (px_model p) = Some m /\ md_root m = false /\ In (disc, SAttr aname c) (md_fields m) /\
  forall d attrs set, Forall (fun kx => document_data (snd kx)) d -> md_validate m (Some (VDict d)) = Valid (VModel (px_model p) attrs set) -> In disc set /\
    exists y t p', dget disc attrs = Some y /\ is_none y = false /\ encode y = VStr t /\ t <> "" /\
      dget t vs = Some p' /\ px_model p' = px_model p.

(** the variants of a union are of different classes, those of a discriminated union have their tags *)
Inductive tells_apart (encode : val -> val) (ev : env) : ser -> Prop :=
| ta_text : forall c n, tells_apart encode ev (SText c n)
| ta_attr : forall n c, tells_apart encode ev (SAttr n c)
| ta_elem : forall n ns m c ni, tells_apart encode ev (SElem n ns m c ni)
| ta_attrs : forall a, own_namespace a -> tells_apart encode ev (SAttrs a)
| ta_map : forall n m a, own_namespace a -> tells_apart encode ev (SMapElem n m a)
| ta_list : forall t c s h, tells_apart encode ev s -> tells_apart encode ev (SHomo t c s h)
| ta_tuple : forall t c l h, Forall (tells_apart encode ev) l -> tells_apart encode ev (SHetero t c l h)
| ta_prim : forall c s, primitive s -> tells_apart encode ev (SUnionPrim c s)
| ta_union : forall t c vs h, NoDup (map px_model vs) -> tells_apart encode ev (SUnionModel t c vs h)
| ta_tagged : forall c d a vs m, Forall (fun kv => has_tag encode ev d a vs (snd kv)) vs -> tells_apart encode ev (STagged c d a vs m)
| ta_wrap : forall p ns m c s, tells_apart encode ev s -> tells_apart encode ev (SWrap p ns m c s)
| ta_raw : forall n m c, tells_apart encode ev (SRaw n m c)
| ta_model : forall p, tells_apart encode ev (SProxy p).

(** a class that writes all it reads *)
Record steady_class (encode : val -> val) (eas : bool) (ev : env) (cls : string) (m : mdef) : Prop := {
  st_live : Forall (fun nf => live (snd nf) = true) (md_fields m);
  st_apart : Forall (fun nf => tells_apart encode ev (snd nf)) (md_fields m);
  st_names : NoDup (map fst (md_fields m));
  st_keys : NoDup (map (fun nf => data_key m (fst nf)) (md_fields m));
  st_own : forall name, md_cval m name = None;
  st_included : md_sexclude m = [];
  st_empties : md_skip_empty m <> Some true;
  st_instance : forall input v, md_validate m input = Valid v -> exists attrs set, v = VModel cls attrs set;
  st_plain : md_root m = false -> settles encode (always_read eas) cls m;
  st_root : md_root m = true -> root_settles encode cls m /\ exists s, md_fields m = [("root", s)]
}.

Definition steady (encode : val -> val) (eas : bool) (ev : env) : Prop :=
  keeps_apart ev eas /\ encodes encode ev /\ forall cls m, en_model ev cls = Some m -> steady_class encode eas ev cls m.

(** what the fields without data are set to is left out: by exclude_unset whatever it is, by exclude_none if it is
    None and the field can be written without a value *)
Definition none_if_missing (ev : env) : Prop :=
  forall cls m, en_model ev cls = Some m -> md_root m = false ->
  Forall (fun nf => match snd nf with SMapElem _ _ _ | STagged _ _ _ _ _ => False | _ => True end) (md_fields m) /\
  forall d attrs set, Forall (fun kx => document_data (snd kx)) d -> md_validate m (Some (VDict d)) = Valid (VModel cls attrs set) ->
  forall name s, In (name, s) (md_fields m) -> dget (data_key m name) d = None -> dget name attrs = Some VNone.

Definition leaves_out_missing (ev : env) (fl : flags) : Prop :=
  fl_skip_empty fl = false /\
  (fl_exclude_unset fl = true \/ fl_exclude_unset fl = false /\ fl_exclude_none fl = true /\ none_if_missing ev).

(** ---- the document and the value ---- *)

(** [P] holds of the name of every attribute of the document *)
Fixpoint attribute_names (P : string -> Prop) (d : native) : Prop :=
  match d with
  | NElem _ _ _ _ a children _ => Forall P (map fst a) /\ fold_right (fun c Q => attribute_names P c /\ Q) True children
  | NComment _ _ => True
  | NPI _ _ a _ => Forall P (map fst a)
  end.

(** as XML has it: no braces or line breaks in the local part *)
Definition proper_name (name : string) : Prop := plain_tag (q_tag (from_uri name)).

(** no mapping within [v] has an entry xsi:nil *)
Fixpoint no_nil_entry (v : val) : Prop :=
  match v with
  | VList l => fold_right (fun x Q => no_nil_entry x /\ Q) True l
  | VDict d => ~ In xsi_nil (map fst d)
  | VModel _ attrs _ => fold_right (fun kv Q => no_nil_entry (snd kv) /\ Q) True attrs
  | _ => True
  end.
