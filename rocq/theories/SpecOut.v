(** SpecOut.v -- what is written for a value, piece by piece.  Nothing here mentions the functions that write:
    a value of a field gives a list of pieces, which depends neither on the element written to nor on what has been
    written before, and the document is what the pieces make of the empty root element. *)

From Verif Require Import Base Elem Native Errs Names Ser SpecScalar SpecSim.

(** ---- documents under construction ---- *)

(** an element made by the library, or a raw element of the user *)
Inductive draft :=
| Draft (tag : string) (ns : option nsmap) (text : option string) (attrs : dict string) (children : list draft)
| Given (n : native).

Definition fresh (tag : string) (ns : option nsmap) : draft := Draft tag ns None [] [].

Definition draft_tag (d : draft) : option string :=
  match d with
  | Draft tag _ _ _ _ => Some tag
  | Given (NElem tag _ _ _ _ _ _) => Some tag
  | Given _ => None
  end.

(** one thing to write: a text, an attribute, all attributes at once, a child, or something inside a wrapper *)
Inductive piece :=
| PText (s : string)
| PAttr (name value : string)
| PAttrs (attrs : dict string)
| PChild (d : draft)
| PIn (tag : string) (ns : option nsmap) (ps : list piece).

(** the last child and those before it *)
Fixpoint split_last (l : list draft) : option (list draft * draft) :=
  match l with
  | [] => None
  | c :: l' => match split_last l' with None => Some ([], c) | Some (front, z) => Some (c :: front, z) end
  end.

(** putting a piece into an element.  A wrapper is the last child if that has its name, or else a new child.
    [None]: there is no telling, because the wrapper meets a raw element with its name. *)
Fixpoint put (p : piece) (d : draft) {struct p} : option draft :=
  match d with
  | Given _ => None
  | Draft tag ns text attrs ch =>
      match p with
      | PText s => Some (Draft tag ns (Some s) attrs ch)
      | PAttr name value => Some (Draft tag ns text (dset name value attrs) ch)
      | PAttrs m => Some (Draft tag ns text m ch)
      | PChild c => Some (Draft tag ns text attrs (ch ++ [c]))
      | PIn t tns ps =>
          let puts := fix puts (ps : list piece) (d : draft) : option draft :=
                        match ps with
                        | [] => Some d
                        | q :: qs => match put q d with Some d' => puts qs d' | None => None end
                        end in
          let (front, c) := match split_last ch with
                            | Some (front, c) =>
                                if match draft_tag c with Some t' => String.eqb t' t | None => false end
                                then (front, c) else (ch, fresh t tns)
                            | None => (ch, fresh t tns)
                            end in
          match c with
          | Given _ => None
          | Draft _ _ _ _ _ =>
              match puts ps c with
              | Some c' => Some (Draft tag ns text attrs (front ++ [c']))
              | None => None
              end
          end
      end
  end.

Fixpoint puts (ps : list piece) (d : draft) : option draft :=
  match ps with
  | [] => Some d
  | q :: qs => match put q d with Some d' => puts qs d' | None => None end
  end.

(** nothing in it: no text, no attributes, no children *)
Definition blank_text (t : option string) : Prop := t = None \/ t = Some "".
Definition blank (d : draft) : Prop :=
  match d with
  | Draft _ _ text attrs ch => blank_text text /\ attrs = [] /\ ch = []
  | Given (NElem _ _ text tail attrs ch _) =>
      blank_text text /\ blank_text tail /\ attrs = [] /\ no_comments ch = []
  | Given _ => False
  end.

(** ---- the finished document ---- *)

(** a raw element comes out without comments, prefix declarations and lines; lxml refuses processing instructions *)
Inductive copied (b : backend) : native -> native -> Prop :=
| cp_elem : forall tag ns text tail attrib cs cs' line, Forall2 (copied b) (no_comments cs) cs' ->
    copied b (NElem tag ns text tail attrib cs line) (NElem tag [] text tail attrib cs' None)
| cp_pi : forall text tail attrib line, b = Std ->
    copied b (NPI text tail attrib line) (NPI text tail attrib None).

(** the prefixes an element declares *)
Definition declarations (b : backend) (ns : option nsmap) : list (option string * string) :=
  match b, ns with
  | Lxml, Some m => map (fun kv : string * string => let (k, u) := kv in
                           (match k with EmptyString => None | _ => Some k end, u)) m
  | _, _ => []
  end.

Inductive shown (b : backend) : draft -> native -> Prop :=
| sh_draft : forall tag ns text attrs ch cs, Forall2 (shown b) ch cs ->
    shown b (Draft tag ns text attrs ch) (NElem tag (declarations b ns) text None attrs cs None)
| sh_given : forall n n', copied b n n' -> shown b (Given n) n'.

(** ---- the pieces of a value ---- *)

Definition nil_attribute : string := "{http://www.w3.org/2001/XMLSchema-instance}nil".

(** None is left out *)
Definition omitted (fl : flags) (v : val) : Prop :=
  v = VNone /\ (fl_skip_empty fl = true \/ fl_exclude_none fl = true).

(** a scalar as the content of an element *)
Definition content (nillable : bool) (v : val) (text : string) : list piece :=
  match nillable, v with
  | true, VNone => [PAttr nil_attribute "true"; PText text]
  | _, _ => [PText text]
  end.

(** an element as a child, unless it is empty and empty elements are skipped *)
Inductive as_child (fl : flags) (d : draft) : list piece -> Prop :=
| ac_kept : ~ (fl_skip_empty fl = true /\ blank d) -> as_child fl d [PChild d]
| ac_skipped : fl_skip_empty fl = true -> blank d -> as_child fl d [].

(** the namespace of the attributes of a mapping *)
Inductive mapping_namespace (a : attrs_ser) : option string -> Prop :=
| mn_some : forall alias m, as_namespaced a = true -> as_ns a = Some alias -> alias <> "" -> as_nsmap a = Some m ->
    m <> [] -> mapping_namespace a (dget alias m)
| mn_none : as_namespaced a = false \/ as_ns a = None \/ as_ns a = Some "" \/ as_nsmap a = None \/ as_nsmap a = Some [] ->
    mapping_namespace a None.

(** values Python can take the length of *)
Definition countable (v : val) : Prop :=
  match v with VStr _ | VList _ | VDict _ | VRaw _ | VOther _ (Some _) => True | _ => False end.

(** values Python takes for false *)
Definition falsy (v : val) : Prop := v = VNone \/ v = VBool false \/ v = VInt 0 \/ empty_value v.

(** skip_empty of the class, if it has one, holds for everything below *)
Definition class_flags (m : mdef) (fl : flags) : flags :=
  match md_skip_empty m with
  | Some s => Flags s (fl_exclude_none fl) (fl_exclude_unset fl)
  | None => fl
  end.

(** the pieces inside a wrapper path *)
Fixpoint nested (path : list string) (ns : option nsmap) (ps : list piece) : list piece :=
  match path with
  | [] => ps
  | t :: rest => [PIn t ns (nested rest ns ps)]
  end.

(** a raw element as the XML library sees it *)
Definition is_element (n : native) : Prop := match n with NElem _ _ _ _ _ _ _ => True | _ => False end.

(** scalar fields *)
Inductive scalar_field : ser -> Prop :=
| sf_text : forall c n, scalar_field (SText c n)
| sf_attr : forall n c, scalar_field (SAttr n c)
| sf_elem : forall n ns m c ni, scalar_field (SElem n ns m c ni).

(** [writes ev fl s v enc ps]: for the value [v] of the field [s], encoded as [enc], the pieces [ps] are written *)
Inductive writes (ev : env) : flags -> ser -> val -> val -> list piece -> Prop :=
| w_omitted : forall fl s v enc, scalar_field s -> omitted fl v -> writes ev fl s v enc []
| w_text : forall fl c nillable v enc t, ~ omitted fl v -> written_as enc t ->
    writes ev fl (SText c nillable) v enc (content nillable v t)
| w_attr : forall fl name c v enc t, ~ omitted fl v -> written_as enc t ->
    writes ev fl (SAttr name c) v enc [PAttr name t]
| w_elem : forall fl name ns m c nillable v enc t d ps, ~ omitted fl v -> written_as enc t ->
    puts (content nillable v t) (fresh name ns) = Some d -> as_child fl d ps ->
    writes ev fl (SElem name ns m c nillable) v enc ps
| w_no_mapping : forall fl a enc, writes ev fl (SAttrs a) VNone enc []
| w_mapping : forall fl a u v items attrs, v <> VNone -> mapping_namespace a u ->
    Forall2 (fun kv ks => fst ks = uri (QName (fst kv) u) /\ shown_as (snd kv) (snd ks)) items attrs ->
    writes ev fl (SAttrs a) v (VDict items) [PAttrs (dict_of attrs)]
| w_empty_mapping : forall fl name m a v enc, fl_skip_empty fl = true -> empty_value v ->
    writes ev fl (SMapElem name m a) v enc []
| w_mapping_element : forall fl name m a v enc ps0 d ps,
    (fl_skip_empty fl = true -> countable v /\ ~ empty_value v) ->
    writes ev fl (SAttrs a) v enc ps0 -> puts ps0 (fresh name (as_nsmap a)) = Some d -> as_child fl d ps ->
    writes ev fl (SMapElem name m a) v enc ps
| w_no_list : forall fl t c s h enc, writes ev fl (SHomo t c s h) VNone enc []
| w_empty_list : forall fl t c s h enc, fl_skip_empty fl = true -> writes ev fl (SHomo t c s h) (VList []) enc []
| w_list : forall fl t c s h vs encs ps, (fl_skip_empty fl = true -> vs <> []) ->
    writes_items ev fl s vs encs ps -> writes ev fl (SHomo t c s h) (VList vs) (VList encs) ps
| w_no_tuple : forall fl t c l h enc, writes ev fl (SHetero t c l h) VNone enc []
| w_empty_tuple : forall fl t c l h enc, fl_skip_empty fl = true -> writes ev fl (SHetero t c l h) (VList []) enc []
| w_tuple : forall fl t c l h vs encs ps, (fl_skip_empty fl = true -> vs <> []) -> length vs = length l ->
    writes_tuple ev fl l vs encs ps -> writes ev fl (SHetero t c l h) (VList vs) (VList encs) ps
| w_scalar_union : forall fl c s v enc ps, writes ev fl s v enc ps -> writes ev fl (SUnionPrim c s) v enc ps
| w_union : forall fl t c before p after h cls attrs set enc ps, px_model p = cls ->
    Forall (fun q => px_model q <> cls) before -> writes_sub ev fl p (VModel cls attrs set) enc ps ->
    writes ev fl (SUnionModel t c (before ++ p :: after) h) (VModel cls attrs set) enc ps
| w_no_variant : forall fl t c vs h v enc,
    (forall cls attrs set, v = VModel cls attrs set -> Forall (fun q => px_model q <> cls) vs) ->
    writes ev fl (SUnionModel t c vs h) v enc []
| w_tagged : forall fl c disc a vs m v d tag p ps, dget disc d = Some (VStr tag) -> tag <> "" ->
    dget tag vs = Some p -> writes_sub ev fl p v (VDict d) ps ->
    writes ev fl (STagged c disc a vs m) v (VDict d) ps
| w_no_tag : forall fl c disc a vs m v d, (forall x, dget disc d = Some x -> falsy x) ->
    writes ev fl (STagged c disc a vs m) v (VDict d) []
| w_no_wrapped : forall fl path ns m c s enc, writes ev fl (SWrap path ns m c s) VNone enc []
| w_empty_wrapped : forall fl path ns m c s v enc, fl_skip_empty fl = true -> empty_value v ->
    writes ev fl (SWrap path ns m c s) v enc []
| w_wrapped : forall fl path ns m c s v enc ps, v <> VNone -> ~ (fl_skip_empty fl = true /\ empty_value v) ->
    writes ev fl s v enc ps -> writes ev fl (SWrap path ns m c s) v enc (nested path ns ps)
| w_no_raw : forall fl n m c enc, writes ev fl (SRaw n m c) VNone enc []
| w_raw : forall fl n m c x enc ps, is_element x -> as_child fl (Given x) ps -> writes ev fl (SRaw n m c) (VRaw x) enc ps
| w_sub : forall fl p v enc ps, writes_sub ev fl p v enc ps -> writes ev fl (SProxy p) v enc ps

(** the items of a list in order; None is passed over when empty elements are skipped *)
with writes_items (ev : env) : flags -> ser -> list val -> list val -> list piece -> Prop :=
| wi_end : forall fl s encs, writes_items ev fl s [] encs []
| wi_cut : forall fl s vs, writes_items ev fl s vs [] []
| wi_none : forall fl s vs enc encs ps, fl_skip_empty fl = true -> writes_items ev fl s vs encs ps ->
    writes_items ev fl s (VNone :: vs) (enc :: encs) ps
| wi_item : forall fl s v vs enc encs ps ps', ~ (fl_skip_empty fl = true /\ v = VNone) ->
    writes ev fl s v enc ps -> writes_items ev fl s vs encs ps' ->
    writes_items ev fl s (v :: vs) (enc :: encs) (ps ++ ps')

(** the members of a tuple in order *)
with writes_tuple (ev : env) : flags -> list ser -> list val -> list val -> list piece -> Prop :=
| wt_end : forall fl l vs encs, l = [] \/ vs = [] \/ encs = [] -> writes_tuple ev fl l vs encs []
| wt_member : forall fl s l v vs enc encs ps ps', writes ev fl s v enc ps -> writes_tuple ev fl l vs encs ps' ->
    writes_tuple ev fl (s :: l) (v :: vs) (enc :: encs) (ps ++ ps')

(** a sub-model: an element of its own with the pieces of the instance *)
with writes_sub (ev : env) : flags -> proxy -> val -> val -> list piece -> Prop :=
| ws_nil : forall fl p m enc, en_model ev (px_model p) = Some m -> px_nillable p = true -> fl_exclude_none fl = false ->
    writes_sub ev fl p VNone enc [PChild (Draft (px_name p) (px_nsmap p) None [(nil_attribute, "true")] [])]
| ws_none : forall fl p m enc, en_model ev (px_model p) = Some m -> px_nillable p = false \/ fl_exclude_none fl = true ->
    writes_sub ev fl p VNone enc []
| ws_value : forall fl p m v enc ps0 d ps, en_model ev (px_model p) = Some m -> v <> VNone ->
    writes_model ev fl m v enc ps0 -> puts ps0 (fresh (px_name p) (px_nsmap p)) = Some d -> as_child fl d ps ->
    writes_sub ev fl p v enc ps

(** an instance: its fields in order of declaration, or its root *)
with writes_model (ev : env) : flags -> mdef -> val -> val -> list piece -> Prop :=
| wm_fields : forall fl m v enc ps, md_root m = false -> v <> VNone ->
    writes_fields ev (class_flags m fl) m (md_fields m) v enc ps -> writes_model ev fl m v enc ps
| wm_root_unset : forall fl m cls attrs set enc, md_root m = true -> fl_exclude_unset fl = true -> ~ In "root" set ->
    writes_model ev fl m (VModel cls attrs set) enc []
| wm_root : forall fl m cls attrs set enc name s rest x ps, md_root m = true ->
    ~ (fl_exclude_unset fl = true /\ ~ In "root" set) -> md_fields m = (name, s) :: rest -> dget "root" attrs = Some x ->
    writes ev (class_flags m fl) s x enc ps -> writes_model ev fl m (VModel cls attrs set) enc ps

with writes_fields (ev : env) : flags -> mdef -> list (string * ser) -> val -> val -> list piece -> Prop :=
| wf_end : forall fl m v enc, writes_fields ev fl m [] v enc []
| wf_excluded : forall fl m name s fs v enc ps, In name (md_sexclude m) -> writes_fields ev fl m fs v enc ps ->
    writes_fields ev fl m ((name, s) :: fs) v enc ps
| wf_unset : forall fl m name s fs cls attrs set enc ps, ~ In name (md_sexclude m) -> fl_exclude_unset fl = true ->
    ~ In name set -> writes_fields ev fl m fs (VModel cls attrs set) enc ps ->
    writes_fields ev fl m ((name, s) :: fs) (VModel cls attrs set) enc ps
| wf_field : forall fl m name s fs cls attrs set d x xe ps ps', ~ In name (md_sexclude m) ->
    ~ (fl_exclude_unset fl = true /\ ~ In name set) -> dget name attrs = Some x -> dget name d = Some xe ->
    writes ev fl s x xe ps -> writes_fields ev fl m fs (VModel cls attrs set) (VDict d) ps' ->
    writes_fields ev fl m ((name, s) :: fs) (VModel cls attrs set) (VDict d) (ps ++ ps').

(** the document of an instance: the root element with its pieces *)
Inductive document (ev : env) (fl : flags) : val -> val -> native -> Prop :=
| doc_intro : forall cls attrs set enc m ps d t, en_model ev cls = Some m ->
    writes_model ev fl m (VModel cls attrs set) enc ps ->
    puts ps (fresh (md_elem_name m) (md_nsmap m)) = Some d -> shown (en_backend ev) d t ->
    document ev fl (VModel cls attrs set) enc t.

(** ---- raw elements apart from wrappers ---- *)

(** [raw_in n v]: the raw element [n] is somewhere in the value *)
Inductive raw_in (n : native) : val -> Prop :=
| ri_here : raw_in n (VRaw n)
| ri_list : forall l v, In v l -> raw_in n v -> raw_in n (VList l)
| ri_model : forall cls attrs set name v, In (name, v) attrs -> raw_in n v -> raw_in n (VModel cls attrs set).

(** [step_of t s]: a wrapper path of the field goes through elements called [t] *)
Inductive step_of (t : string) : ser -> Prop :=
| so_path : forall path ns m c s, In t path -> step_of t (SWrap path ns m c s)
| so_wrap : forall path ns m c s, step_of t s -> step_of t (SWrap path ns m c s)
| so_homo : forall ti c s h, step_of t s -> step_of t (SHomo ti c s h)
| so_hetero : forall ti c l h s, In s l -> step_of t s -> step_of t (SHetero ti c l h)
| so_union : forall c s, step_of t s -> step_of t (SUnionPrim c s).

(** every raw value is an element, and no wrapper has its name *)
Definition raws_apart (ev : env) (v : val) : Prop :=
  forall n, raw_in n v -> is_element n /\
    forall cls m name s tag, en_model ev cls = Some m -> In (name, s) (md_fields m) -> step_of tag s ->
      draft_tag (Given n) <> Some tag.

(** ---- one class renamed ---- *)

(** the classes with [cls] given the element name [tag] and the prefixes [ns] *)
Definition named_as (tag : string) (ns : option nsmap) (m : mdef) : mdef :=
  MDef (md_name m) (md_root m) tag ns (md_fields m) (md_valias m) (md_sexclude m) (md_hide m) (md_forbid m)
       (md_skip_empty m) (md_cser m) (md_cval m) (md_validate m).
Definition with_class_named (cls tag : string) (ns : option nsmap) (ev : env) : env :=
  Env (en_backend ev) (fun c => match en_model ev c with
                                | Some m => Some (if String.eqb c cls then named_as tag ns m else m)
                                | None => None
                                end).
