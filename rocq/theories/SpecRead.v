(** SpecRead.v -- vocabulary for what reading a field does to the element it is read from. *)

From Verif Require Import Base Elem Native Errs Names Ser Read SpecElem.

(** [bound_to ev tag m s]: the (not computed) field serializer [s] reads one child element called
    [tag] with search mode [m]: a primitive, a union of primitives, a mapping, a raw element or
    a sub-model (whose class has been defined) *)
Inductive bound_to (ev : env) (tag : string) (m : smode) : ser -> Prop :=
| bound_prim : forall nsm nillable, bound_to ev tag m (SElem tag nsm m false nillable)
| bound_union : forall nsm nillable,
    bound_to ev tag m (SUnionPrim false (SElem tag nsm m false nillable))
| bound_map : forall a, as_computed a = false -> bound_to ev tag m (SMapElem tag m a)
| bound_raw : bound_to ev tag m (SRaw tag m false)
| bound_model : forall cls nsm nillable md, en_model ev cls = Some md ->
    bound_to ev tag m (SProxy (Proxy cls tag nsm m false nillable)).

(** the value a plain primitive field must report for the child [c]: its text; an empty or
    missing text counts as absent, or as the empty string under empty_as_string *)
Definition text_value (eas : bool) (c : elem) (v : val) : Prop :=
  (exists t, e_text c = Some t /\ t <> "" /\ v = VStr t) \/
  ((e_text c = None \/ e_text c = Some "") /\ v = (if eas then VStr "" else VNone)).

(** [s] reads a plain primitive (neither nillable nor a union) *)
Definition plain_prim (s : ser) : Prop :=
  match s with SElem _ _ _ _ false => True | _ => False end.

(** the outcome [r] of field [s] is what the child [c] prescribes (said for plain primitives) *)
Definition value_of_child (s : ser) (eas : bool) (c : elem) (r : out val) (c' : elem) : Prop :=
  plain_prim s ->
  exists v, r = Ok v /\ text_value eas c v /\ e_text c' = None /\
            e_attrib c' = e_attrib c /\ e_elems c' = e_elems c.

(** one field read of an element called [tag] in mode [m]: from element [e] with outcome [r] to
    element [e'].  Either no child was taken, the outcome is "absent" and nothing changed at
    all; or a child [c] was taken as [takes] prescribes and the only change besides the moved
    read position is that [c] became [c'] (what is left of [c] after reading it). *)
Definition field_takes (tag : string) (m : smode) (s : ser) (eas : bool) (e : elem) (r : out val)
    (e' : elem) : Prop :=
  (takes tag m (passed e, unread e) None (passed e, unread e) /\ r = Ok VNone /\ e' = e) \/
  (exists c c' before rest,
     takes tag m (passed e, unread e) (Some c) (before ++ [c], rest) /\
     passed e' = before ++ [c'] /\ unread e' = rest /\ same_shell e e' /\
     value_of_child s eas c r c').

(** ---- extra='forbid' ---- *)

(** some datum left over at place [p] of the descendant at child positions [idxs] *)
Definition loose_in (e : elem) (idxs : list nat) (p : place) : Prop :=
  exists path d a v, reach e idxs path d /\ loose_at d p a v.

(** the location of a left-over datum: the tags leading to its element, then "@name" for an
    attribute *)
Definition tag_key (t : xtag) : locitem := match t with TName s => LKey s | TSpecial => LKey "?" end.
Definition attr_key (a : option string) : location :=
  match a with Some k => if String.eqb k "" then [] else [LKey (String "@"%char k)] | None => [] end.

(** the error line [l] describes the datum at position [ip] of [e] *)
Definition extra_line (e : elem) (ip : list nat * place) (l : lerr) : Prop :=
  exists path d a v, reach e (fst ip) path d /\ loose_at d (snd ip) a v /\
    le_type l = "extra_forbidden" /\
    le_msg l = MLine (e_line d) (MText "Extra inputs are not permitted") /\
    le_loc l = map tag_key path ++ attr_key a /\ le_input l = VStr v.

(** the same model without extra='forbid' *)
Definition no_forbid (m : mdef) : mdef :=
  MDef (md_name m) (md_root m) (md_elem_name m) (md_nsmap m) (md_fields m) (md_valias m)
       (md_sexclude m) (md_hide m) false (md_skip_empty m) (md_cser m) (md_cval m) (md_validate m).

(** ---- well-formed models, sound documents ---- *)

(** every read position inside its element and every tag allowed by [T], at every depth *)
Inductive sound (T : xtag -> Prop) : elem -> Prop :=
| sound_intro : forall e, e_next e <= length (e_elems e) -> T (e_tag e) ->
    Forall (sound T) (e_elems e) -> sound T e.

Definition any_tag (t : xtag) : Prop := True.
Definition named_tag (t : xtag) : Prop := t <> TSpecial.

(** the model class of a sub-model has been defined *)
Definition known (ev : env) (p : proxy) : Prop := en_model ev (px_model p) <> None.

(** every sub-model a serializer refers to is known *)
Inductive wf_ser (ev : env) : ser -> Prop :=
| wf_text : forall c n, wf_ser ev (SText c n)
| wf_attr : forall n c, wf_ser ev (SAttr n c)
| wf_elem : forall n ns m c ni, wf_ser ev (SElem n ns m c ni)
| wf_attrs : forall a, wf_ser ev (SAttrs a)
| wf_map : forall n m a, wf_ser ev (SMapElem n m a)
| wf_homo : forall t c s h, wf_ser ev s -> wf_ser ev (SHomo t c s h)
| wf_hetero : forall t c l h, Forall (wf_ser ev) l -> wf_ser ev (SHetero t c l h)
| wf_uprim : forall c s, wf_ser ev s -> wf_ser ev (SUnionPrim c s)
| wf_umodel : forall t c vs h, Forall (known ev) vs -> wf_ser ev (SUnionModel t c vs h)
| wf_tagged : forall c d a vs m, Forall (fun kv => known ev (snd kv)) vs -> wf_ser ev (STagged c d a vs m)
| wf_wrap : forall p ns m c s, wf_ser ev s -> wf_ser ev (SWrap p ns m c s)
| wf_raw : forall n m c, wf_ser ev (SRaw n m c)
| wf_proxy : forall p, known ev p -> wf_ser ev (SProxy p).

(** an exception a user has to expect from from_xml: pydantic's ValidationError or one of the
    exceptions [U] of user code *)
Definition expected (U : string -> Prop) (x : exn) : Prop :=
  match x with XValidation _ => True | XUser what => U what | _ => False end.

(** user validators keep read positions inside the document (the element API they are given
    offers nothing else) and raise nothing but ValidationError or their own exceptions *)
Definition good_custom (T : xtag -> Prop) (U : string -> Prop) (f : elem -> out val * elem) : Prop :=
  forall e, sound T e ->
    sound T (snd (f e)) /\ match fst (f e) with Raise x => expected U x | Ok _ => True | Fuel => False end.

(** a model class as the builder leaves it: sub-models known, a root model has its root field; user
    code called by pydantic raises nothing but [U] (besides what pydantic reports as ValidationError) *)
Definition wf_model (T : xtag -> Prop) (U : string -> Prop) (ev : env) (m : mdef) : Prop :=
  Forall (fun nf => wf_ser ev (snd nf)) (md_fields m) /\
  (md_root m = true -> md_fields m <> []) /\
  (forall name f, md_cval m name = Some f -> good_custom T U f) /\
  (forall input what, md_validate m input = Crashed what -> U what).

Definition wf_env (T : xtag -> Prop) (U : string -> Prop) (ev : env) : Prop :=
  forall cls m, en_model ev cls = Some m -> wf_model T U ev m.

(** a parsed document without processing instructions *)
Inductive no_pi : native -> Prop :=
| no_pi_elem : forall tag ns text tail attrib children line,
    Forall (fun c => is_xml_comment c = true \/ no_pi c) children ->
    no_pi (NElem tag ns text tail attrib children line).

(** ---- termination ---- *)

(** nesting depth of an element *)
Fixpoint height (e : elem) : nat :=
  match e with Elem _ _ _ _ _ l _ _ => S (fold_right (fun c n => Nat.max (height c) n) 0 l) end.

(** how much of an element has not been read yet: its text, its attributes, the children ahead of
    the read position and all that is left inside the children *)
Fixpoint left_to_read (e : elem) : nat :=
  match e with
  | Elem _ _ text _ attrib l next _ =>
      (if str_truthy text then 1 else 0) +
      match attrib with Some d => S (length d) | None => 0 end +
      (length l - next) + fold_right (fun c n => left_to_read c + n) 0 l
  end.

(** a user validator that only reads: it neither extends the document nor rewinds it, and it
    returns *)
Definition only_reads (f : elem -> out val * elem) : Prop :=
  forall e, height (snd (f e)) <= height e /\ left_to_read (snd (f e)) <= left_to_read e /\
            fst (f e) <> Fuel.

(** the value of [s] comes from sub-elements or attributes, never from the text of the element the
    field belongs to *)
Inductive from_elements : ser -> Prop :=
| fe_text : forall n, from_elements (SText true n)
| fe_attr : forall n c, from_elements (SAttr n c)
| fe_elem : forall n ns m c ni, from_elements (SElem n ns m c ni)
| fe_attrs : forall a, from_elements (SAttrs a)
| fe_map : forall n m a, from_elements (SMapElem n m a)
| fe_homo : forall t c s h, from_elements s -> from_elements (SHomo t c s h)
| fe_hetero : forall t c l h, Forall from_elements l -> from_elements (SHetero t c l h)
| fe_uprim : forall c s, from_elements s -> from_elements (SUnionPrim c s)
| fe_umodel : forall t c vs h, from_elements (SUnionModel t c vs h)
| fe_tagged : forall c d a vs m, from_elements (STagged c d a vs m)
| fe_wrap : forall p ns m c s, from_elements s -> from_elements (SWrap p ns m c s)
| fe_raw : forall n m c, from_elements (SRaw n m c)
| fe_proxy : forall p, from_elements (SProxy p).

(** no collection under empty_as_string takes its items from the element's text *)
Inductive lists_ok (eas : bool) : ser -> Prop :=
| lo_text : forall c n, lists_ok eas (SText c n)
| lo_attr : forall n c, lists_ok eas (SAttr n c)
| lo_elem : forall n ns m c ni, lists_ok eas (SElem n ns m c ni)
| lo_attrs : forall a, lists_ok eas (SAttrs a)
| lo_map : forall n m a, lists_ok eas (SMapElem n m a)
| lo_homo : forall t c s h, (eas = true -> from_elements s) -> lists_ok eas s -> lists_ok eas (SHomo t c s h)
| lo_hetero : forall t c l h, Forall (lists_ok eas) l -> lists_ok eas (SHetero t c l h)
| lo_uprim : forall c s, lists_ok eas s -> lists_ok eas (SUnionPrim c s)
| lo_umodel : forall t c vs h, lists_ok eas (SUnionModel t c vs h)
| lo_tagged : forall c d a vs m, lists_ok eas (STagged c d a vs m)
| lo_wrap : forall p ns m c s, lists_ok eas s -> lists_ok eas (SWrap p ns m c s)
| lo_raw : forall n m c, lists_ok eas (SRaw n m c)
| lo_proxy : forall p, lists_ok eas (SProxy p).

Definition env_lists_ok (eas : bool) (ev : env) : Prop :=
  forall cls m, en_model ev cls = Some m ->
    Forall (fun nf => lists_ok eas (snd nf)) (md_fields m) /\
    (forall name f, md_cval m name = Some f -> only_reads f).

(** ---- counting data ---- *)

Definition hit (X : string) (o : option string) : nat :=
  match o with Some t => if String.eqb t X then 1 else 0 | None => 0 end.

Definition hits (X : string) (d : dict string) : nat :=
  fold_right (fun kv n => hit X (Some (snd kv)) + n) 0 d.

(** occurrences of the string [X] as a text, tail or attribute value of an element tree *)
Fixpoint count_elem (X : string) (e : elem) : nat :=
  match e with
  | Elem _ _ text tail attrib l _ _ =>
      hit X text + hit X tail + match attrib with Some d => hits X d | None => 0 end +
      fold_right (fun c n => count_elem X c + n) 0 l
  end.

(** the same in a native tree *)
Fixpoint count_native (X : string) (n : native) : nat :=
  match n with
  | NElem _ _ text tail attrib l _ =>
      hit X text + hit X tail + hits X attrib + fold_right (fun c n => count_native X c + n) 0 l
  | NComment text tail => hit X text + hit X tail
  | NPI text tail attrib _ => hit X text + hit X tail + hits X attrib
  end.

(** occurrences of [X] as a string inside a value *)
Fixpoint count_val (X : string) (v : val) : nat :=
  match v with
  | VStr s => if String.eqb s X then 1 else 0
  | VList l => fold_right (fun y n => count_val X y + n) 0 l
  | VDict d => fold_right (fun (kv : string * val) n => (let (_, y) := kv in count_val X y) + n) 0 d
  | VModel _ a _ => fold_right (fun (kv : string * val) n => (let (_, y) := kv in count_val X y) + n) 0 a
  | VRaw n => count_native X n
  | _ => 0
  end.

(** neither pydantic's validation nor a user validator makes copies of [X] *)
Definition copies_nothing (X : string) (ev : env) : Prop :=
  forall cls m, en_model ev cls = Some m ->
    (forall i v, md_validate m i = Valid v ->
       count_val X v <= match i with Some w => count_val X w | None => 0 end) /\
    (forall name f, md_cval m name = Some f -> forall e,
       match fst (f e) with Ok v => count_val X v | _ => 0 end + count_elem X (snd (f e)) <= count_elem X e).
