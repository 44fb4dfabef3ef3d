(** Context.v -- the validation context.  Every [deserialize] method once more, with its [context]
    keyword argument, which from_xml and from_xml_tree take and pass on.  Read.v fixes the context
    and hides it in the oracle for pydantic; here the oracle takes it, and every call below passes
    the context that the Python call passes. *)

From Verif Require Import Base Elem Native Errs Names Ser Read Api.

Section Context.
  (** the values of a context dict *)
  Variable X : Type.

  (** [context: Optional[Dict[str, Any]]] *)
  Definition context := option (dict X).

  (** the model classes, and [model_validate(result, strict=False, context=context)] of each *)
  Record cenv := CEnv { ce_env : env; ce_validate : string -> context -> option val -> verdict }.

  Variable ce : cenv.

  Definition creader := context -> reader.

  (** primitive.py:62-81: no use of the context *)
  Definition cread_text (computed nillable : bool) : creader := fun ctx => read_text computed nillable.

  (** primitive.py:129-144: no use of the context *)
  Definition cread_attr (name : string) (computed : bool) : creader := fun ctx => read_attr name computed.

  (** primitive.py:200-221 *)
  Definition cread_elem (name : string) (mode : smode) (computed nillable : bool) : creader := fun ctx eas loc s =>
    if computed then (Ok VNone, s)
    else
      with_found (pop_element (st_el s) name mode)
        (fun c => cread_text computed nillable ctx eas loc (note_line loc c)) s.

  (** mapping.py:49-67: no use of the context *)
  Definition cread_attrs (a : attrs_ser) : creader := fun ctx => read_attrs a.

  (** mapping.py:122-140 *)
  Definition cread_map_elem (name : string) (mode : smode) (a : attrs_ser) : creader := fun ctx eas loc s =>
    if as_computed a then (Ok VNone, s)
    else
      with_found (pop_element (st_el s) name mode)
        (fun c => cread_attrs a ctx eas loc (note_line loc c)) s.

  (** homogeneous.py:83-104 *)
  Fixpoint cread_items (k : nat) (r : creader) (title : string) (hide : bool) (ctx : context) (eas : bool) (loc : location)
      (idx : nat) (result : list val) (errors : list (option locitem * verr)) (s : st) : rres val :=
    match k with
    | O => (Fuel, s)
    | S k' =>
        match r ctx eas (loc ++ [LIdx idx]) s with
        | (Ok VNone, s') =>
            match errors with
            | _ :: _ => (Raise (XValidation (into_validation_error title errors hide)), s')
            | [] => (Ok (match result with [] => VNone | _ => VList result end), s')
            end
        | (Ok v, s') => cread_items k' r title hide ctx eas loc (S idx) (result ++ [v]) errors s'
        | (Raise (XValidation err), s') =>
            cread_items k' r title hide ctx eas loc (S idx) result (errors ++ [(Some (LIdx idx), err)]) s'
        | (Raise x, s') => (Raise x, s')
        | (Fuel, s') => (Fuel, s')
        end
    end.

  (** homogeneous.py:67-104 *)
  Definition cread_homo (k : nat) (title : string) (computed : bool) (r : creader) (hide : bool) : creader :=
    fun ctx eas loc s =>
    if computed then (Ok VNone, s)
    else cread_items k r title hide ctx eas loc 0 [] [] s.

  (** heterogeneous.py:76-99 *)
  Fixpoint cread_tuple (rs : list creader) (title : string) (hide : bool) (ctx : context) (eas : bool) (loc : location)
      (idx : nat) (result : list val) (errors : list (option locitem * verr)) (s : st) : rres val :=
    match rs with
    | [] =>
        match errors with
        | _ :: _ => (Raise (XValidation (into_validation_error title errors hide)), s)
        | [] => (Ok (if forallb is_none result then VNone else VList result), s)
        end
    | r :: rs' =>
        match r ctx eas (loc ++ [LIdx idx]) s with
        | (Ok v, s') => cread_tuple rs' title hide ctx eas loc (S idx) (result ++ [v]) errors s'
        | (Raise (XValidation err), s') =>
            cread_tuple rs' title hide ctx eas loc (S idx) result (errors ++ [(Some (LIdx idx), err)]) s'
        | (Raise x, s') => (Raise x, s')
        | (Fuel, s') => (Fuel, s')
        end
    end.

  (** heterogeneous.py:61-99; named_tuple.py:50-61 passes the context on to it *)
  Definition cread_hetero (title : string) (computed : bool) (rs : list creader) (hide : bool) : creader :=
    fun ctx eas loc s =>
    if computed then (Ok VNone, s)
    else cread_tuple rs title hide ctx eas loc 0 [] [] s.

  (** union.py:51-65 *)
  Definition cread_union_prim (computed : bool) (r : creader) : creader := fun ctx eas loc s =>
    if computed then (Ok VNone, s) else r ctx eas loc s.

  (** union.py:135-158 *)
  Fixpoint cread_variants (rs : list creader) (title : string) (hide : bool) (ctx : context) (eas : bool) (loc : location)
      (errors : dict verr) (s : st) : rres val :=
    match rs with
    | [] =>
        match errors with
        | _ :: _ =>
            (Raise (XValidation (into_validation_error title
                      (map (fun kv => (Some (LKey (fst kv)), snd kv)) errors) hide)),
             set_el (step_forward (st_el s)) s)
        | [] => (Ok VNone, s)
        end
    | r :: rs' =>
        match r ctx eas loc (set_el (create_snapshot (st_el s)) s) with
        | (Ok VNone, s') => cread_variants rs' title hide ctx eas loc errors (St (st_el s) (st_sm s'))
        | (Ok v, s') => (Ok v, St (apply_snapshot (st_el s) (st_el s')) (st_sm s'))
        | (Raise (XValidation err), s') =>
            cread_variants rs' title hide ctx eas loc (dset (ve_title err) err errors)
              (St (st_el s) (st_sm s'))
        | (Raise x, s') => (Raise x, St (st_el s) (st_sm s'))
        | (Fuel, s') => (Fuel, St (st_el s) (st_sm s'))
        end
    end.

  (** union.py:120-158 *)
  Definition cread_union_model (title : string) (computed : bool) (rs : list creader) (hide : bool) : creader :=
    fun ctx eas loc s =>
    if computed then (Ok VNone, s) else cread_variants rs title hide ctx eas loc [] s.

  (** tagged_union.py:101-114 *)
  Fixpoint cread_tagged (rp : proxy -> creader) (attr_name : string) (mode : smode)
      (vs : list (string * proxy)) (ctx : context) (eas : bool) (loc : location) (s : st) : rres val :=
    match vs with
    | [] => (Ok VNone, s)
    | (tag, p) :: vs' =>
        match find_element (st_el s) (px_name p) mode false false with
        | (NotFound, e') => cread_tagged rp attr_name mode vs' ctx eas loc (set_el e' s)
        | (IndexErr, e') => (Raise XIndexError, set_el e' s)
        | (Found i, e') =>
            match nth_error (e_elems e') i with
            | None => (Raise XIndexError, set_el e' s)
            | Some c =>
                if match get_attrib attr_name c with Some t => String.eqb t tag | None => false end
                then rp p ctx eas loc (St e' (sset loc (e_line c) (st_sm s)))
                else cread_tagged rp attr_name mode vs' ctx eas loc (set_el e' s)
            end
        end
    end.

  (** wrapper.py:67-92 *)
  Definition cread_wrap (path : list string) (mode : smode) (computed : bool) (r : creader) : creader :=
    fun ctx eas loc s =>
    if computed then (Ok VNone, s)
    else
      match find_sub_element path mode (st_el s) with
      | (None, e') => (Raise XIndexError, set_el e' s)
      | (Some idxs, e') =>
          if negb (Nat.eqb (length idxs) 0) && Nat.eqb (length idxs) (length path)
          then on_path idxs (fun c => r ctx eas loc (note_line loc c)) (set_el e' s)
          else (Ok VNone, set_el e' s)
      end.

  (** raw.py:52-71: no use of the context *)
  Definition cread_raw (name : string) (mode : smode) (computed : bool) : creader := fun ctx =>
    read_raw (en_backend (ce_env ce)) name mode computed.

  (** factory model.py:236-242 and 350-356: the extra check, then
      [model_validate(result, strict=False, context=context)] *)
  Definition cvalidate_result (cls : string) (m : mdef) (ctx : context) (input : option val) (s : st) : out val :=
    match (if md_forbid m then check_extra (md_name m) (st_el s) (md_hide m) else None) with
    | Some err => Raise (XValidation err)
    | None =>
        match ce_validate ce cls ctx input with
        | Valid v => Ok v
        | Invalid err => Raise (XValidation (set_validation_error_sourceline err (st_sm s) (md_hide m)))
        | Crashed what => Raise (XUser what)
        end
    end.

  (** factory model.py:212-227 (custom field validators are not given the context) *)
  Fixpoint cread_fields (r : ser -> creader) (m : mdef) (fs : list (string * ser)) (ctx : context) (eas : bool)
      (result : list (string * val)) (errors : dict verr) (s : st)
    : rres (list (string * val) * dict verr) :=
    match fs with
    | [] => (Ok (result, errors), s)
    | (name, fser) :: fs' =>
        let s1 := note_line [LKey name] s in
        match (match md_cval m name with
               | Some custom => run_custom custom s1
               | None => r fser ctx eas [LKey name] s1
               end) with
        | (Ok VNone, s2) => cread_fields r m fs' ctx eas result errors s2
        | (Ok v, s2) =>
            let key := match dget name (md_valias m) with Some a => a | None => name end in
            cread_fields r m fs' ctx eas (dset key v result) errors s2
        | (Raise (XValidation err), s2) => cread_fields r m fs' ctx eas result (dset name err errors) s2
        | (Raise x, s2) => (Raise x, s2)
        | (Fuel, s2) => (Fuel, s2)
        end
    end.

  (** factory model.py:198-242 *)
  Definition cread_plain_model (r : ser -> creader) (cls : string) (m : mdef) : creader := fun ctx eas loc s =>
    match cread_fields r m (md_fields m) ctx eas [] [] s with
    | (Ok (result, errors), s') =>
        match errors with
        | _ :: _ =>
            (Raise (XValidation (into_validation_error (md_name m)
                      (map (fun kv => (Some (LKey (fst kv)), snd kv)) errors) (md_hide m))), s')
        | [] => (cvalidate_result cls m ctx (Some (VDict result)) s', s')
        end
    | (Raise x, s') => (Raise x, s')
    | (Fuel, s') => (Fuel, s')
    end.

  (** factory model.py:325-356 *)
  Definition cread_root_model (r : ser -> creader) (cls : string) (m : mdef) : creader := fun ctx eas loc s =>
    match md_fields m with
    | [] => (Raise XUnmodelled, s)
    | (_, rser) :: _ =>
        match r rser ctx eas loc s with
        | (Ok v, s') =>
            (cvalidate_result cls m ctx (if is_none v then None else Some v) s', s')
        | (Raise (XValidation err), s') =>
            (Raise (XValidation (into_validation_error (md_name m) [(None, err)] (md_hide m))), s')
        | (Raise x, s') => (Raise x, s')
        | (Fuel, s') => (Fuel, s')
        end
    end.

  Definition cread_model (r : ser -> creader) (cls : string) (m : mdef) : creader :=
    if md_root m then cread_root_model r cls m else cread_plain_model r cls m.

  (** factory model.py:441-467 *)
  Definition cread_proxy (r : ser -> creader) (p : proxy) : creader := fun ctx eas loc s =>
    match en_model (ce_env ce) (px_model p) with
    | None => (Raise XAssertion, s)
    | Some m =>
        if px_computed p then (Ok VNone, s)
        else
          with_found (pop_element (st_el s) (px_name p) (px_mode p))
            (fun c =>
               let c1 := note_line loc c in
               let (nil, e1) := is_element_nill (st_el c1) in
               if nil then (Ok VNone, set_el e1 c1)
               else cread_model r (px_model p) m ctx eas loc (set_el e1 c1)) s
    end.

  Definition cread_step (k : nat) (r : ser -> creader) (s : ser) : creader :=
    match s with
    | SText computed nillable => cread_text computed nillable
    | SAttr name computed => cread_attr name computed
    | SElem name _ mode computed nillable => cread_elem name mode computed nillable
    | SAttrs a => cread_attrs a
    | SMapElem name mode a => cread_map_elem name mode a
    | SHomo title computed inner hide => cread_homo k title computed (r inner) hide
    | SHetero title computed inners hide => cread_hetero title computed (map r inners) hide
    | SUnionPrim computed inner => cread_union_prim computed (r inner)
    | SUnionModel title computed variants hide =>
        cread_union_model title computed (map (cread_proxy r) variants) hide
    | STagged computed _ attr_name variants mode => fun ctx eas loc s =>
        if computed then (Ok VNone, s)
        else cread_tagged (cread_proxy r) attr_name mode variants ctx eas loc s
    | SWrap path _ mode computed inner => cread_wrap path mode computed (r inner)
    | SRaw name mode computed => cread_raw name mode computed
    | SProxy p => cread_proxy r p
    end.

  Fixpoint cread (n : nat) (s : ser) : creader :=
    match n with
    | O => fun _ _ _ s => (Fuel, s)
    | S n' => cread_step n' (cread n') s
    end.

  (** model.py:249-281 [BaseXmlModel.from_xml_tree] *)
  Definition from_xml_tree_in (n : nat) (cls : string) (root : native) (ctx : context) (eas : bool) : out val :=
    match en_model (ce_env ce) cls with
    | None => Raise XAssertion
    | Some m =>
        if tag_is (native_tag root) (md_elem_name m)
        then fst (cread_model (cread n) cls m ctx eas [] (St (from_native (en_backend (ce_env ce)) root) []))
        else Raise XParsing
    end.

  (** model.py:283-305 [BaseXmlModel.from_xml]; [parse] is the oracle for [etree.fromstring] *)
  Definition from_xml_in (D : Type) (parse : D -> out native) (n : nat) (cls : string) (source : D) (ctx : context) (eas : bool) : out val :=
    obind (parse source) (fun root => from_xml_tree_in n cls root ctx eas).
End Context.

Arguments CEnv {X} ce_env ce_validate.
