(** SpecSub.v -- where the values of the fields come from. *)

From Verif Require Import Base Elem Native Errs Names Ser Read Api.

(** the element or processing instruction [k] stands directly below [d] *)
Definition below (d k : native) : Prop :=
  match d with
  | NElem _ _ _ _ _ children _ => In k children /\ is_xml_comment k = false
  | _ => False
  end.

(** [k] is reached from [d] through elements with these names *)
Fixpoint reached (path : list string) (d k : native) : Prop :=
  match path with
  | [] => k = d
  | t :: rest => exists c, below d c /\ native_tag c = TName t /\ reached rest c k
  end.

Definition own_text (d : native) : option string :=
  match d with NElem _ _ text _ _ _ _ => text | NComment text _ => text | NPI text _ _ _ => text end.

Definition own_attributes (d : native) : dict string :=
  match d with NElem _ _ _ _ a _ _ => a | NComment _ _ => [] | NPI _ _ a _ => a end.

(** the same element without its xsi:nil attribute *)
Definition without_nil (d : native) : native :=
  match d with
  | NElem tag ns text tail a children line => NElem tag ns text tail (ddel xsi_nil a) children line
  | NPI text tail a line => NPI text tail (ddel xsi_nil a) line
  | NComment text tail => NComment text tail
  end.

(** the classes, except that [cls] is declared with [tag=t] *)
Definition tagged_class (t : string) (m : mdef) : mdef :=
  MDef (md_name m) (md_root m) t (md_nsmap m) (md_fields m) (md_valias m) (md_sexclude m) (md_hide m) (md_forbid m)
       (md_skip_empty m) (md_cser m) (md_cval m) (md_validate m).

Definition with_tag (t cls : string) (ev : env) : env :=
  Env (en_backend ev)
    (fun c => match en_model ev c with
              | Some m => Some (if String.eqb c cls then tagged_class t m else m)
              | None => None
              end).

(** a string that stands in the document as this text; the empty string only when missing
    text is asked to be read so *)
Definition text_of (eas : bool) (d : native) (v : val) : Prop :=
  exists t, v = VStr t /\ ((own_text d = Some t /\ t <> "") \/ (eas = true /\ t = "")).

(** a mapping all of whose entries are attributes of [d], with different keys; with [namespaced] keys lose their namespace *)
Definition attributes_of (namespaced : bool) (d : native) (v : val) : Prop :=
  exists entries, v = VDict entries /\ NoDup (map fst entries) /\
    forall key x, In (key, x) entries ->
      exists name t, In (name, t) (own_attributes d) /\ x = VStr t /\
        key = if namespaced then q_tag (from_uri name) else name.

(** [part ev eas d s v]: [v] is what a field bound by [s] may take from the element [d] *)
Inductive part (ev : env) (eas : bool) : native -> ser -> val -> Prop :=
| pt_none d s : part ev eas d s VNone
| pt_text d c n v : text_of eas d v -> part ev eas d (SText c n) v
| pt_attr d name c t : In (name, t) (own_attributes d) -> part ev eas d (SAttr name c) (VStr t)
| pt_elem d k name ns m c n v :
    below d k -> native_tag k = TName name -> text_of eas k v -> part ev eas d (SElem name ns m c n) v
| pt_attrs d a v : attributes_of (as_namespaced a) d v -> part ev eas d (SAttrs a) v
| pt_map d k name m a v :
    below d k -> native_tag k = TName name -> attributes_of (as_namespaced a) k v -> part ev eas d (SMapElem name m a) v
| pt_raw d k name m c x :
    below d k -> native_tag k = TName name ->
    to_native (en_backend ev) (from_native (en_backend ev) k) = Some x -> part ev eas d (SRaw name m c) (VRaw x)
(** a sub-model is what [from_xml_tree] of its class makes of the element alone *)
| pt_model d k p v n :
    below d k -> native_tag k = TName (px_name p) ->
    from_xml_tree n (with_tag (px_name p) (px_model p) ev) (px_model p) (without_nil k) eas = Ok v ->
    part ev eas d (SProxy p) v
(** lists are not empty and have no None among their items; of the members of a tuple some, but not all, may be None *)
| pt_list d title c s hide vs : vs <> [] -> Forall (fun v => v <> VNone) vs -> Forall (part ev eas d s) vs -> part ev eas d (SHomo title c s hide) (VList vs)
| pt_tuple d title c ss hide vs : Exists (fun v => v <> VNone) vs -> Forall2 (part ev eas d) ss vs -> part ev eas d (SHetero title c ss hide) (VList vs)
| pt_prim d c s v : part ev eas d s v -> part ev eas d (SUnionPrim c s) v
| pt_union d title c ps hide p v : In p ps -> part ev eas d (SProxy p) v -> part ev eas d (SUnionModel title c ps hide) v
| pt_tagged d c disc attr ps m tag p v :
    In (tag, p) ps -> part ev eas d (SProxy p) v -> part ev eas d (STagged c disc attr ps m) v
| pt_wrap d k path ns m c s v : reached path d k -> part ev eas k s v -> part ev eas d (SWrap path ns m c s) v.

(** an element that has been made from [d] and partly read since: text and attributes may be
    gone, children up to the cursor may be partly read, the others are as in the document *)
Inductive made_from (b : backend) : native -> elem -> Prop :=
| mf_intro d e :
    e_tag e = native_tag d ->
    (e_text e = None \/ e_text e = own_text d) ->
    (forall a, e_attrib e = Some a -> incl a (own_attributes d)) ->
    (forall i c, nth_error (e_elems e) i = Some c ->
       exists k, below d k /\ made_from b k c /\ (e_next e <= i -> c = from_native b k)) ->
    made_from b d e.

(** custom field validators only read *)
Definition validators_read (ev : env) : Prop :=
  forall cls m name f, en_model ev cls = Some m -> md_cval m name = Some f ->
  forall d e, made_from (en_backend ev) d e -> made_from (en_backend ev) d (snd (f e)).

(** the key of a field in what pydantic is given *)
Definition input_key (m : mdef) (name : string) : string :=
  match dget name (md_valias m) with Some alias => alias | None => name end.

(** what is found for a field of the class in the element [d]; a custom validator returns what it likes *)
Definition field_from (ev : env) (m : mdef) (eas : bool) (d : native) (field : string * ser) (found : string * val) : Prop :=
  fst field = fst found /\ (md_cval m (fst field) = None -> part ev eas d (snd field) (snd found)).

(** the dict pydantic is given: what was found, field by field, unless it is None *)
Definition given (m : mdef) (found : list (string * val)) : dict val :=
  dict_of (map (fun nv => (input_key m (fst nv), snd nv)) (filter (fun nv => negb (is_none (snd nv))) found)).

(** all that pydantic is given for one instance *)
Definition input_from (ev : env) (m : mdef) (eas : bool) (d : native) (input : option val) : Prop :=
  if md_root m
  then input = None \/ exists name s rest x, md_fields m = (name, s) :: rest /\ input = Some x /\ x <> VNone /\ part ev eas d s x
  else exists found, Forall2 (field_from ev m eas d) (md_fields m) found /\ input = Some (VDict (given m found)).
