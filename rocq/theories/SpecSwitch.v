(** SpecSwitch.v -- vocabulary for C79: what the switches of to_xml (skip_empty, exclude_none,
    exclude_unset) leave out. *)

From Verif Require Import Base Elem Native Errs Names Ser Write SpecRound.

(** the second call has all the switches of the first, and possibly more *)
Definition more_switches (fl fl' : flags) : Prop :=
  (fl_skip_empty fl = true -> fl_skip_empty fl' = true) /\
  (fl_exclude_none fl = true -> fl_exclude_none fl' = true) /\
  (fl_exclude_unset fl = true -> fl_exclude_unset fl' = true).

(** some items of a list, in the same order *)
Inductive some_of (A : Type) : list A -> list A -> Prop :=
| some_none : some_of [] []
| some_keep : forall x l' l, some_of l' l -> some_of (x :: l') (x :: l)
| some_drop : forall x l' l, some_of l' l -> some_of l' (x :: l).

(** a text, or no text instead of it *)
Definition text_or_none (t' t : option string) : Prop := t' = t \/ t' = None.

(** [left_out t' t]: the tree [t'] is the tree [t] with some things left out: texts, attributes and
    whole elements.  What is left has the same place, name, value and order.  (Prefix declarations,
    which do not matter to a reader of the document, are not compared, C75.) *)
Inductive left_out : native -> native -> Prop :=
| lo_elem : forall tag ns' ns text' text tail' tail attrib' attrib cs' cs line,
    text_or_none text' text -> text_or_none tail' tail -> some_of attrib' attrib -> all_left_out cs' cs ->
    left_out (NElem tag ns' text' tail' attrib' cs' line) (NElem tag ns text tail attrib cs line)
| lo_comment : forall text tail, left_out (NComment text tail) (NComment text tail)
| lo_pi : forall text' text tail' tail attrib' attrib line,
    text_or_none text' text -> text_or_none tail' tail -> some_of attrib' attrib ->
    left_out (NPI text' tail' attrib' line) (NPI text tail attrib line)
with all_left_out : list native -> list native -> Prop :=
| lo_none : all_left_out [] []
| lo_keep : forall c' c cs' cs, left_out c' c -> all_left_out cs' cs -> all_left_out (c' :: cs') (c :: cs)
| lo_drop : forall c cs' cs, all_left_out cs' cs -> all_left_out cs' (c :: cs).

(** ---- which classes ---- *)

(** what only adds child elements: the entities that may be items of collections and tuples.
    [M]: mappings bound to an element of their own are allowed *)
Inductive adds_children (M : Prop) : ser -> Prop :=
| ac_elem : forall n ns m c ni, adds_children M (SElem n ns m c ni)
| ac_map : forall n m a, M -> adds_children M (SMapElem n m a)
| ac_raw : forall n m c, adds_children M (SRaw n m c)
| ac_list : forall t c s h, adds_children M s -> adds_children M (SHomo t c s h)
| ac_tuple : forall t c l h, Forall (adds_children M) l -> adds_children M (SHetero t c l h)
| ac_prim : forall c s, adds_children M s -> adds_children M (SUnionPrim c s)
| ac_union : forall t c vs h, adds_children M (SUnionModel t c vs h)
| ac_tagged : forall c d a vs m, adds_children M (STagged c d a vs m)
| ac_model : forall p, adds_children M (SProxy p).

(** a field without a wrapper *)
Inductive unwrapped (M : Prop) : ser -> Prop :=
| uw_text : forall c ni, unwrapped M (SText c ni)
| uw_attr : forall n c, unwrapped M (SAttr n c)
| uw_attrs : forall a, unwrapped M (SAttrs a)
| uw_prim : forall c s, primitive s -> unwrapped M s -> unwrapped M (SUnionPrim c s)
| uw_children : forall s, adds_children M s -> unwrapped M s.

(** the attributes a field sets *)
Fixpoint sets_attrs (s : ser) : list string :=
  match s with
  | SAttr n _ => [n]
  | SText _ ni => if ni then [xsi_nil] else []
  | SUnionPrim _ inner => sets_attrs inner
  | _ => []
  end.

(** a field that may write a raw element, which has a name of its own *)
Fixpoint any_name (s : ser) : bool :=
  match s with
  | SRaw _ _ _ => true
  | SHomo _ _ inner _ | SUnionPrim _ inner => any_name inner
  | SHetero _ _ inners _ => existsb any_name inners
  | _ => false
  end.

(** the first parts of the wrapper paths *)
Definition wrapper_names (ss : list ser) : list string :=
  flat_map (fun s => match s with SWrap (p :: _) _ _ _ _ => [p] | _ => [] end) ss.

(** [neat M ss]: the fields [ss] of one element do not overwrite each other: at most one sets the text,
    none an attribute another one sets; and wrapped fields that share the first part of their paths are next
    to each other, neat inside it, and the name of that part is not that of an element written before *)
Inductive neat (M : Prop) : list ser -> Prop :=
| neat_nil : neat M []
| neat_direct : forall s ss, unwrapped M s -> neat M ss ->
    (forall p, In p (wrapper_names ss) -> ~ In p (child_names s)) ->
    (any_name s = true -> wrapper_names ss = []) ->
    (forall a, In a (sets_attrs s) -> ~ In a (flat_map sets_attrs ss)) ->
    (own_text s = true -> Forall (fun s' => own_text s' = false) ss) ->
    (all_attrs s = true -> Forall (fun s' => sets_attrs s' = [] /\ all_attrs s' = false) ss) ->
    (sets_attrs s <> [] -> Forall (fun s' => all_attrs s' = false) ss) ->
    neat M (s :: ss)
| neat_wrapped : forall p w ws ss, neat M (map from_inside (w :: ws)) -> neat M ss ->
    ~ In p (wrapper_names ss) ->
    neat M (map (from_outside p) (w :: ws) ++ ss).

(** every class is neat and has no user-written field serializers *)
Definition neat_classes (M : Prop) (ev : env) : Prop :=
  forall cls m, en_model ev cls = Some m ->
    neat M (map snd (md_fields m)) /\ (forall name, md_cser m name = None).
