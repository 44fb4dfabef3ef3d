(** SpecRound.v -- vocabulary for the round trip: which classes give every field its own place in
    the document ([apart]), and what a reader of the document gets back for a value ([kept]). *)

From Verif Require Import Base Elem Native Errs Names Ser Write Read Api SpecElem SpecRead SpecNames SpecSim.

(** ---- the place of a field ---- *)

(** the names of the child elements a field is bound to (for a wrapped field, the outermost part
    of its path) *)
Fixpoint child_names (s : ser) : list string :=
  match s with
  | SText _ _ | SAttr _ _ | SAttrs _ => []
  | SElem n _ _ _ _ | SMapElem n _ _ | SRaw n _ _ => [n]
  | SHomo _ _ inner _ => child_names inner
  | SHetero _ _ inners _ => flat_map child_names inners
  | SUnionPrim _ inner => child_names inner
  | SUnionModel _ _ vs _ => map px_name vs
  | STagged _ _ _ vs _ => map (fun kv => px_name (snd kv)) vs
  | SWrap path _ _ _ _ => firstn 1 path
  | SProxy p => [px_name p]
  end.

(** the names of the attributes a field is bound to *)
Fixpoint attr_names (s : ser) : list string :=
  match s with
  | SAttr n _ => [n]
  | SUnionPrim _ inner => attr_names inner
  | _ => []
  end.

(** a field bound to all the attributes (a mapping without an element of its own) *)
Definition all_attrs (s : ser) : bool := match s with SAttrs _ => true | _ => false end.

(** a field bound to the text *)
Fixpoint own_text (s : ser) : bool :=
  match s with
  | SText _ _ => true
  | SUnionPrim _ inner => own_text inner
  | _ => false
  end.

(** a field with no computed part: it is written and read *)
Fixpoint live (s : ser) : bool :=
  match s with
  | SText c _ | SAttr _ c | SElem _ _ _ c _ | SRaw _ _ c => negb c
  | SAttrs a | SMapElem _ _ a => negb (as_computed a)
  | SHomo _ c inner _ | SUnionPrim c inner | SWrap _ _ _ c inner => negb c && live inner
  | SHetero _ c inners _ => negb c && forallb live inners
  | SUnionModel _ c vs _ => negb c && forallb (fun p => negb (px_computed p)) vs
  | STagged c _ _ vs _ => negb c && forallb (fun kv => negb (px_computed (snd kv))) vs
  | SProxy p => negb (px_computed p)
  end.

Definition primitive (s : ser) : Prop :=
  match s with SText _ _ | SAttr _ _ | SElem _ _ _ _ _ => True | _ => False end.

(** what may be repeated in a collection or be a member of a tuple: an element, a mapping with its
    own element, a raw element, a sub-model, a union of these.  The variants of a union of models must have different
    names and, as alternatives are tried one by one, must be searched for in strict mode (or, in a
    discriminated union, share one name) *)
Inductive repeatable (ev : env) : ser -> Prop :=
| rp_elem : forall n ns m c ni, repeatable ev (SElem n ns m c ni)
| rp_map : forall n m a, repeatable ev (SMapElem n m a)
| rp_raw : forall n m c, repeatable ev (SRaw n m c)
| rp_model : forall p, known ev p -> repeatable ev (SProxy p)
| rp_prim : forall c n ns m c' ni, repeatable ev (SUnionPrim c (SElem n ns m c' ni))
| rp_union : forall t c vs h, Forall (known ev) vs -> NoDup (map px_name vs) ->
    Forall (fun p => px_mode p = Strict) vs -> repeatable ev (SUnionModel t c vs h)
| rp_tagged : forall c d a vs, Forall (fun kv => known ev (snd kv)) vs -> repeatable ev (STagged c d a vs Strict)
| rp_tagged_same : forall c d a vs m n, Forall (fun kv => known ev (snd kv)) vs ->
    Forall (fun kv => px_name (snd kv) = n) vs -> repeatable ev (STagged c d a vs m)
| rp_tuple : forall t c l h, Forall (repeatable ev) l -> repeatable ev (SHetero t c l h).

(** a field without a wrapper *)
Inductive direct_field (ev : env) : ser -> Prop :=
| df_text : forall c ni, direct_field ev (SText c ni)
| df_attr : forall n c, n <> xsi_nil -> direct_field ev (SAttr n c)
| df_prim : forall c s, primitive s -> direct_field ev s -> direct_field ev (SUnionPrim c s)
| df_attrs : forall a, direct_field ev (SAttrs a)
| df_one : forall s, repeatable ev s -> direct_field ev s
| df_list : forall t c s h, repeatable ev s -> direct_field ev (SHomo t c s h)
| df_union : forall t c vs h, Forall (known ev) vs -> NoDup (map px_name vs) ->
    direct_field ev (SUnionModel t c vs h)
| df_tagged : forall c d a vs m, Forall (fun kv => known ev (snd kv)) vs -> direct_field ev (STagged c d a vs m).

(** a wrapped field, seen from the element its path starts in and from one step down *)
Record wrapped_field := Wrapped {
  wf_rest : list string; wf_nsmap : option nsmap; wf_mode : smode; wf_computed : bool; wf_inner : ser }.
Definition from_outside (p : string) (w : wrapped_field) : ser :=
  SWrap (p :: wf_rest w) (wf_nsmap w) (wf_mode w) (wf_computed w) (wf_inner w).
Definition from_inside (w : wrapped_field) : ser :=
  match wf_rest w with
  | [] => wf_inner w
  | rest => SWrap rest (wf_nsmap w) (wf_mode w) (wf_computed w) (wf_inner w)
  end.

(** [apart ev eas ss]: the fields [ss] of one element do not get in each other's way.  Different fields
    have different element names and different attribute names, at most one is bound to the text, and a mapping over all
    attributes does not meet attribute fields.  Wrapped fields may share the first part of their
    paths if they are next to each other and are [apart] inside it; but a wrapped text that is read as the
    empty string when it is empty ([eas]) is alone there.  Computed fields come last. *)
Inductive apart (ev : env) (eas : bool) : list ser -> Prop :=
| apart_nil : apart ev eas []
| apart_direct : forall s ss, direct_field ev s -> apart ev eas ss ->
    (forall t, In t (child_names s) -> ~ In t (flat_map child_names ss)) ->
    (forall a, In a (attr_names s) -> ~ In a (flat_map attr_names ss)) ->
    (own_text s = true -> Forall (fun s' => own_text s' = false) ss) ->
    (all_attrs s = true -> Forall (fun s' => attr_names s' = [] /\ all_attrs s' = false) ss) ->
    (attr_names s <> [] -> Forall (fun s' => all_attrs s' = false) ss) ->
    (computed ev s /\ Forall (computed ev) ss \/ live s = true) ->
    apart ev eas (s :: ss)
| apart_wrapped : forall p ws ss, apart ev eas (map from_inside ws) -> apart ev eas ss ->
    ~ In p (flat_map child_names ss) ->
    (forall w, In w ws -> all_attrs (from_inside w) = true -> ws = [w]) ->
    (forall w, In w ws -> eas = true -> own_text (from_inside w) = true -> ws = [w]) ->
    Forall (fun w => if wf_computed w then computed ev (from_inside w) else live (wf_inner w) = true) ws ->
    (Forall (fun w => wf_computed w = true) ws -> Forall (computed ev) ss) ->
    apart ev eas (map (from_outside p) ws ++ ss).

(** ---- the classes ---- *)

(** every class keeps its fields apart and has no user-written field serializers or validators;
    and, as the output of computed fields is never read, extra input may be forbidden only if no class
    has computed fields *)
Definition keeps_apart (ev : env) (eas : bool) : Prop :=
  forall cls m, en_model ev cls = Some m ->
    apart ev eas (map snd (md_fields m)) /\
    Forall (fun nf => md_cser m (fst nf) = None /\ md_cval m (fst nf) = None) (md_fields m).

Definition forbids_nothing (ev : env) : Prop :=
  forall cls m, en_model ev cls = Some m -> md_forbid m = false.

Definition computes_nothing (ev : env) : Prop :=
  forall cls m, en_model ev cls = Some m -> Forall (fun nf => ~ computed ev (snd nf)) (md_fields m).

(** ---- what is read back ---- *)

(** None values that are not written at all *)
Definition drops (fl : flags) (v : val) : bool :=
  is_none v && (fl_skip_empty fl || fl_exclude_none fl).

(** the text of an element or of a field; no text and empty text are both read as None, or as the
    empty string if the caller asks for it ([eas]) *)
Definition text_back (eas : bool) (t : string) : val :=
  if String.eqb t "" then (if eas then VStr "" else VNone) else VStr t.

(** a field that was not written is read as None, a mapping over the attributes as an empty one, the
    text like an empty text *)
Definition unwritten (eas : bool) (s : ser) : val :=
  if all_attrs s then VDict [] else if own_text s then text_back eas "" else VNone.

(** a string mapping that [a] can write and read: [ts] are its texts *)
Definition mapping_ok (a : attrs_ser) (d : dict val) (ts : list string) : Prop :=
  NoDup (dkeys d) /\ Forall2 (fun kv t => py_str (snd kv) = Ok t) d ts /\
  ~ In xsi_nil (map (fun k => uri (QName k (attrs_uri a))) (dkeys d)) /\
  (as_namespaced a = true ->
     Forall plain_tag (dkeys d) /\ (forall u, attrs_uri a = Some u -> u = "" \/ plain_ns u)).
Definition strings (d : dict val) (ts : list string) : val :=
  VDict (combine (dkeys d) (map VStr ts)).

Definition list_back (rs : list val) : val := match rs with [] => VNone | _ => VList rs end.

(** values that take some room in a document *)
Definition substantial (eas : bool) (r : val) : Prop :=
  r <> VNone /\ r <> VDict [] /\ (eas = true -> r <> VStr "").

(** the data handed to pydantic: what was read for each field, unless it is None, under the
    field's name or alias *)
Definition read_data (m : mdef) (rs : list (string * val)) : val :=
  VDict (dict_of (map (fun kv => (match dget (fst kv) (md_valias m) with Some a => a | None => fst kv end, snd kv))
                      (filter (fun kv => negb (is_none (snd kv))) rs))).

(** is field [name] of [v] written at all? *)
Definition is_written (fl : flags) (m : mdef) (v : val) (name : string) : Prop :=
  str_in name (md_sexclude m) = false /\ (fl_exclude_unset fl = true -> is_unset v name = Ok false).
Definition is_left_out (fl : flags) (m : mdef) (v : val) (name : string) : Prop :=
  str_in name (md_sexclude m) = true \/ (fl_exclude_unset fl = true /\ is_unset v name = Ok true).

(** [kept ev eas fl s v enc r]: [v], encoded to [enc] and written by [s], is read back as [r].
    [kept_model ev eas fl m v enc rs w]: the instance [v] of class [m] is read back as [w], pydantic's
    result on the data [rs] read for the fields. *)
Inductive kept (ev : env) (eas : bool) : flags -> ser -> val -> val -> val -> Prop :=
| kept_dropped : forall fl s v enc, primitive s -> drops fl v = true -> kept ev eas fl s v enc (unwritten eas s)
| kept_text : forall fl c ni v enc t, drops fl v = false -> ni = false \/ is_none v = false ->
    encode_primitive enc = Ok t -> kept ev eas fl (SText c ni) v enc (text_back eas t)
| kept_attr : forall fl n c v enc t, drops fl v = false ->
    encode_primitive enc = Ok t -> kept ev eas fl (SAttr n c) v enc (VStr t)
| kept_elem : forall fl n ns m c ni v enc t, drops fl v = false -> encode_primitive enc = Ok t ->
    (is_none v = true -> enc = VNone) ->
    kept ev eas fl (SElem n ns m c ni) v enc 
      (if ni && is_none v || fl_skip_empty fl && String.eqb t "" then VNone else text_back eas t)
| kept_prim : forall fl c s v enc r, primitive s -> kept ev eas fl s v enc r -> kept ev eas fl (SUnionPrim c s) v enc r
| kept_attrs_none : forall fl a v enc, is_none v = true -> kept ev eas fl (SAttrs a) v enc (VDict [])
| kept_attrs : forall fl a v d ts, is_none v = false -> mapping_ok a d ts ->
    kept ev eas fl (SAttrs a) v (VDict d) (strings d ts)
| kept_map_none : forall fl n m a v enc, fl_skip_empty fl = false -> is_none v = true ->
    kept ev eas fl (SMapElem n m a) v enc (VDict [])
| kept_map_skipped : forall fl n m a v enc, fl_skip_empty fl = true -> py_len v = Some 0 ->
    kept ev eas fl (SMapElem n m a) v enc VNone
| kept_map : forall fl n m a v d ts, is_none v = false -> mapping_ok a d ts ->
    (fl_skip_empty fl = true -> d <> [] /\ exists k, py_len v = Some (S k)) ->
    kept ev eas fl (SMapElem n m a) v (VDict d) (strings d ts)
| kept_list_none : forall fl t c s h v enc, is_none v = true -> kept ev eas fl (SHomo t c s h) v enc VNone
| kept_list : forall fl t c s h vs encs rs, kept_items ev eas fl s vs encs rs ->
    kept ev eas fl (SHomo t c s h) (VList vs) (VList encs) (list_back rs)
| kept_tuple_none : forall fl t c l h v enc, is_none v = true -> kept ev eas fl (SHetero t c l h) v enc VNone
| kept_tuple : forall fl t c l h vs encs rs, kept_members ev eas fl l vs encs rs ->
    kept ev eas fl (SHetero t c l h) (VList vs) (VList encs) (list_back rs)
| kept_union : forall fl t c before p after h v enc cls r, model_type v = Some cls -> px_model p = cls ->
    Forall (fun q => px_model q <> cls) before -> kept ev eas fl (SProxy p) v enc r -> r <> VNone ->
    kept ev eas fl (SUnionModel t c (before ++ p :: after) h) v enc r
| kept_union_none : forall fl t c vs h v enc,
    (forall cls, model_type v = Some cls -> Forall (fun q => px_model q <> cls) vs) ->
    kept ev eas fl (SUnionModel t c vs h) v enc VNone
| kept_tagged : forall fl c disc aname vs mode v d t p m c' x r,
    dget disc d = Some (VStr t) -> t <> "" -> dget t vs = Some p ->
    en_model ev (px_model p) = Some m -> md_root m = false ->
    In (disc, SAttr aname c') (md_fields m) -> NoDup (map fst (md_fields m)) ->
    is_written (with_skip_empty m fl) m v disc -> py_getattr v disc = Ok x -> is_none x = false ->
    kept ev eas fl (SProxy p) v (VDict d) r -> r <> VNone ->
    kept ev eas fl (STagged c disc aname vs mode) v (VDict d) r
| kept_wrap_none : forall fl path ns m c s v enc, is_none v = true \/ fl_skip_empty fl && len_is_zero v = true ->
    kept ev eas fl (SWrap path ns m c s) v enc VNone
| kept_wrap : forall fl path ns m c s v enc r, is_none v = false -> fl_skip_empty fl && len_is_zero v = false ->
    kept ev eas fl s v enc r -> kept ev eas fl (SWrap path ns m c s) v enc r
| kept_raw_none : forall fl n m c enc, kept ev eas fl (SRaw n m c) VNone enc VNone
| kept_raw : forall fl n m c enc x x', native_tag x = TName n -> no_pi x -> bare_copy x x' ->
    (fl_skip_empty fl = true -> is_empty (from_native (en_backend ev) x) = false) ->
    kept ev eas fl (SRaw n m c) (VRaw x) enc (VRaw x')
| kept_model_none : forall fl p v enc, is_none v = true -> known ev p -> kept ev eas fl (SProxy p) v enc VNone
| kept_submodel : forall fl p m v enc rs w, en_model ev (px_model p) = Some m ->
    kept_model ev eas fl m v enc rs w -> (fl_skip_empty fl = true -> Exists (substantial eas) rs) ->
    kept ev eas fl (SProxy p) v enc w

(** items of a list, none of them None or read as None *)
with kept_items (ev : env) (eas : bool) : flags -> ser -> list val -> list val -> list val -> Prop :=
| kept_no_items : forall fl s, kept_items ev eas fl s [] [] []
| kept_item : forall fl s v vs enc encs r rs, is_none v = false -> kept ev eas fl s v enc r -> r <> VNone ->
    kept_items ev eas fl s vs encs rs -> kept_items ev eas fl s (v :: vs) (enc :: encs) (r :: rs)

(** members of a tuple, none of them read as None *)
with kept_members (ev : env) (eas : bool) : flags -> list ser -> list val -> list val -> list val -> Prop :=
| kept_no_members : forall fl, kept_members ev eas fl [] [] [] []
| kept_member : forall fl s ss v vs enc encs r rs, kept ev eas fl s v enc r -> r <> VNone ->
    kept_members ev eas fl ss vs encs rs -> kept_members ev eas fl (s :: ss) (v :: vs) (enc :: encs) (r :: rs)

(** fields of a model; a computed field is never read *)
with kept_fields (ev : env) (eas : bool) : flags -> mdef -> list (string * ser) -> val -> val -> list (string * val) -> Prop :=
| kept_no_fields : forall fl m v enc, kept_fields ev eas fl m [] v enc []
| kept_left_out : forall fl m name s fs v enc rs r, is_left_out fl m v name ->
    (computed ev s /\ r = VNone \/ live s = true /\ r = unwritten eas s) ->
    kept_fields ev eas fl m fs v enc rs -> kept_fields ev eas fl m ((name, s) :: fs) v enc ((name, r) :: rs)
| kept_field : forall fl m name s fs v enc rs x xe r r', is_written fl m v name ->
    py_getattr v name = Ok x -> py_getitem enc name = Ok xe -> kept ev eas fl s x xe r ->
    (computed ev s /\ r' = VNone \/ live s = true /\ r' = r) ->
    kept_fields ev eas fl m fs v enc rs -> kept_fields ev eas fl m ((name, s) :: fs) v enc ((name, r') :: rs)

with kept_model (ev : env) (eas : bool) : flags -> mdef -> val -> val -> list val -> val -> Prop :=
| kept_plain : forall fl m v enc rs w, md_root m = false -> is_none v = false ->
    kept_fields ev eas (with_skip_empty m fl) m (md_fields m) v enc rs ->
    md_validate m (Some (read_data m rs)) = Valid w ->
    kept_model ev eas fl m v enc (map snd rs) w
| kept_root : forall fl m v enc name s x r w, md_root m = true -> is_none v = false -> md_fields m = [(name, s)] ->
    (fl_exclude_unset fl = true -> is_unset v "root" = Ok false) -> live s = true ->
    py_getattr v "root" = Ok x -> kept ev eas (with_skip_empty m fl) s x enc r ->
    md_validate m (if is_none r then None else Some r) = Valid w ->
    kept_model ev eas fl m v enc [r] w.

(** ---- collections of texts, some of them empty or None: what is lost ---- *)

(** a text that may be missing *)
Definition maybe_text (v : val) : Prop := v = VNone \/ exists t, v = VStr t.
Definition item_text (v : val) : string := match v with VStr t => t | _ => "" end.

(** is no element written for the item? *)
Definition not_sent (fl : flags) (v : val) : bool :=
  match v with
  | VNone => fl_skip_empty fl || fl_exclude_none fl
  | _ => fl_skip_empty fl && String.eqb (item_text v) ""
  end.

(** what a reader sees in the elements written for the items, one after another; [ni]: the elements are
    nillable, so that None is written as xsi:nil *)
Definition seen (eas ni : bool) (fl : flags) (vs : list val) : list val :=
  map (fun v => if ni && is_none v then VNone else text_back eas (item_text v)) (filter (fun v => negb (not_sent fl v)) vs).

(** the part before the first None *)
Fixpoint cut (vs : list val) : list val :=
  match vs with
  | [] => []
  | VNone :: _ => []
  | v :: vs' => v :: cut vs'
  end.

(** at least [k] items *)
Definition padded (k : nat) (vs : list val) : list val := vs ++ repeat VNone (k - length vs).

(** the data read for a class with one field [f] *)
Definition data_of (f : string) (r : val) : val := VDict (if is_none r then [] else [(f, r)]).

(** a class with one field *)
Definition one_field (b : backend) (cls tag f : string) (s : ser) (validate : option val -> verdict) : env :=
  Env b (fun c => if String.eqb c cls
                  then Some (MDef cls false tag None [(f, s)] [] [] false false None (fun _ => None) (fun _ => None) validate)
                  else None).
Definition instance (cls f : string) (x : val) : val := VModel cls [(f, x)] [f].

(** from_xml_tree (to_xml_tree v) gives [w] *)
Definition comes_back (ev : env) (eas : bool) (encode : val -> val) (cls : string) (v : val) (fl : flags) (w : val) : Prop :=
  exists n0, forall n, n0 <= n -> exists doc,
    to_xml_tree n ev encode v fl = Ok doc /\ from_xml_tree n ev cls doc eas = Ok w.
