(** SpecStray.v -- documents that differ in elements no field asks for (C39). *)

From Verif Require Import Base Elem Native Errs Names Ser Read Api SpecElem SpecRead SpecSim.

(** [U] says which tags are unknown, [W] which tags belong to raw elements.  A child nobody asks
    for: a comment, a processing instruction or an element with an unknown tag. *)
Definition stray (U : string -> bool) (c : native) : bool :=
  match c with NElem tag _ _ _ _ _ _ => U tag | _ => true end.

Definition wanted (U : string -> bool) (l : list native) : list native :=
  filter (fun c => negb (stray U c)) l.

Definition strays (U : string -> bool) (l : list native) : list native := filter (stray U) l.

(** the children that are no comments *)
Definition elements (l : list native) : list native := filter (fun c => negb (is_xml_comment c)) l.

(** nothing but whitespace *)
Definition oblank (o : option string) : Prop := forall s, o = Some s -> blank s.

(** an element without attributes and text, at any depth (comments are no content) *)
Inductive bare : native -> Prop :=
| bare_elem : forall tag ns text tail cs line, oblank text -> oblank tail -> Forall bare cs ->
    bare (NElem tag ns text tail [] cs line)
| bare_comment : forall text tail, bare (NComment text tail).

(** the same document except for strays, anywhere and any number of them, on either side (and for
    line numbers, prefix declarations and text behind elements, which no field reads); elements
    with a tag in [W], whose whole content is a value, differ in comments at most.  If [quiet], the
    strays are bare and the text behind elements is whitespace on both sides or on neither.  If [loose],
    the other siblings may come in another order. *)
Inductive like_but_strays (loose quiet : bool) (U W : string -> bool) : native -> native -> Prop :=
| lbs_elem : forall tag ns ns' text tail tail' attrib cs cs' l line line',
    (if loose then Permutation (wanted U cs') l else l = wanted U cs') ->
    Forall2 (like_but_strays loose quiet U W) (wanted U cs) l ->
    (W tag = true -> same_but_comments (NElem tag ns text tail attrib cs line)
                                       (NElem tag ns' text tail' attrib cs' line')) ->
    (quiet = true -> Forall bare (strays U cs) /\ Forall bare (strays U cs') /\ (oblank tail <-> oblank tail')) ->
    like_but_strays loose quiet U W (NElem tag ns text tail attrib cs line)
                                    (NElem tag ns' text tail' attrib cs' line').

Definition same_but_strays : bool -> (string -> bool) -> (string -> bool) -> native -> native -> Prop :=
  like_but_strays false.

(** the same document except for the order of siblings and for comments (and for line numbers, prefix
    declarations and text behind elements); elements with a tag in [W] differ in comments at most *)
Inductive same_but_order (W : string -> bool) : native -> native -> Prop :=
| sbo_elem : forall tag ns ns' text tail tail' attrib cs cs' l line line',
    Permutation (elements cs') l -> Forall2 (same_but_order W) (elements cs) l ->
    (W tag = true -> same_but_comments (NElem tag ns text tail attrib cs line)
                                       (NElem tag ns' text tail' attrib cs' line')) ->
    (oblank tail <-> oblank tail') ->
    same_but_order W (NElem tag ns text tail attrib cs line) (NElem tag ns' text tail' attrib cs' line').

(** no two siblings (strays aside) share a tag *)
Inductive siblings_differ (U : string -> bool) : native -> Prop :=
| sd_elem : forall tag ns text tail attrib cs line,
    NoDup (map native_tag (wanted U cs)) -> Forall (siblings_differ U) (wanted U cs) ->
    siblings_differ U (NElem tag ns text tail attrib cs line).

(** a field that searches in mode [M] only, for tags that are not unknown, and for raw elements
    with a tag in [W] only *)
Definition proxy_asks (U : string -> bool) (M : smode) (p : proxy) : Prop :=
  U (px_name p) = false /\ px_mode p = M.

Inductive asks (U W : string -> bool) (M : smode) : ser -> Prop :=
| as_text : forall c n, asks U W M (SText c n)
| as_attr : forall n c, asks U W M (SAttr n c)
| as_elem : forall n ns c ni, U n = false -> asks U W M (SElem n ns M c ni)
| as_attrs_ : forall a, asks U W M (SAttrs a)
| as_map : forall n a, U n = false -> asks U W M (SMapElem n M a)
| as_homo : forall t c s h, asks U W M s -> asks U W M (SHomo t c s h)
| as_hetero : forall t c l h, Forall (asks U W M) l -> asks U W M (SHetero t c l h)
| as_uprim : forall c s, asks U W M s -> asks U W M (SUnionPrim c s)
| as_umodel : forall t c vs h, Forall (proxy_asks U M) vs -> asks U W M (SUnionModel t c vs h)
| as_tagged : forall c d a vs, Forall (fun kv : string * proxy => proxy_asks U M (snd kv)) vs ->
    asks U W M (STagged c d a vs M)
| as_wrap : forall p ns c s, Forall (fun t => U t = false) p -> asks U W M s ->
    asks U W M (SWrap p ns M c s)
| as_raw : forall n c, U n = false -> W n = true -> asks U W M (SRaw n M c)
| as_proxy : forall p, proxy_asks U M p -> asks U W M (SProxy p).

(** all models do so, and none of them has user validators *)
Definition env_asks (U W : string -> bool) (M : smode) (ev : env) : Prop :=
  forall cls m, en_model ev cls = Some m ->
    Forall (fun nf => asks U W M (snd nf)) (md_fields m) /\ (forall name, md_cval m name = None).

(** the same value, or an exception of the same class *)
Definition same_result (a b : out val) : Prop :=
  match a, b with
  | Ok v, Ok w => v = w
  | Raise (XValidation _), Raise (XValidation _) => True
  | Raise x, Raise y => x = y
  | _, _ => False
  end.
