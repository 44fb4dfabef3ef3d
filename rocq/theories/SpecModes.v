(** SpecModes.v -- vocabulary for comparing the search modes: a class with search_mode='strict',
    classes whose fields ask for elements in turn, documents without empty elements. *)

From Verif Require Import Base Elem Native Errs Names Ser Read Api SpecElem SpecRead SpecStray SpecRound.

(** ---- the same classes in strict mode ---- *)
Definition strict_proxy (p : proxy) : proxy :=
  Proxy (px_model p) (px_name p) (px_nsmap p) Strict (px_computed p) (px_nillable p).

Fixpoint strictly (s : ser) : ser :=
  match s with
  | SText _ _ | SAttr _ _ | SAttrs _ => s
  | SElem n ns _ c ni => SElem n ns Strict c ni
  | SMapElem n _ a => SMapElem n Strict a
  | SHomo t c i h => SHomo t c (strictly i) h
  | SHetero t c l h => SHetero t c (map strictly l) h
  | SUnionPrim c i => SUnionPrim c (strictly i)
  | SUnionModel t c vs h => SUnionModel t c (map strict_proxy vs) h
  | STagged c d a vs _ => STagged c d a (map (fun kv => (fst kv, strict_proxy (snd kv))) vs) Strict
  | SWrap path ns _ c i => SWrap path ns Strict c (strictly i)
  | SRaw n _ c => SRaw n Strict c
  | SProxy p => SProxy (strict_proxy p)
  end.

Definition strict_model (m : mdef) : mdef :=
  MDef (md_name m) (md_root m) (md_elem_name m) (md_nsmap m) (map (fun nf => (fst nf, strictly (snd nf))) (md_fields m))
       (md_valias m) (md_sexclude m) (md_hide m) (md_forbid m) (md_skip_empty m) (md_cser m) (md_cval m) (md_validate m).

Definition strict_env (ev : env) : env := Env (en_backend ev) (fun cls => option_map strict_model (en_model ev cls)).

(** ---- classes whose fields ask for elements in turn ---- *)

(** a list of sets of names, one after the other: a name comes back in the next set or not at all *)
Inductive in_turn : list (list string) -> Prop :=
| it_nil : in_turn []
| it_new : forall N l, (forall t, In t N -> ~ In t (concat l)) -> in_turn l -> in_turn (N :: l)
| it_again : forall n l, in_turn ([n] :: l) -> in_turn ([n] :: [n] :: l).

(** the names a field asks for, one after the other (the members of a tuple) *)
Definition places (s : ser) : list (list string) :=
  match s with
  | SHetero _ _ l _ => map child_names l
  | _ => match child_names s with [] => [] | N => [N] end
  end.

(** the fields below the element [p], for wrapped fields whose path starts with [p] *)
Definition inside_one (p : string) (s : ser) : list ser :=
  match s with
  | SWrap (q :: rest) ns m c i =>
      if String.eqb q p then [match rest with [] => i | _ :: _ => SWrap rest ns m c i end] else []
  | _ => []
  end.
Definition inside (p : string) (ss : list ser) : list ser := flat_map (inside_one p) ss.

(** a field read from at most one element.  The models of a union have different element names. *)
Inductive lone : ser -> Prop :=
| lone_elem : forall n ns m c ni, lone (SElem n ns m c ni)
| lone_map : forall n m a, lone (SMapElem n m a)
| lone_raw : forall n m c, lone (SRaw n m c)
| lone_model : forall p, lone (SProxy p)
| lone_prim : forall c n ns m c' ni, lone (SUnionPrim c (SElem n ns m c' ni))
| lone_union : forall t c vs h, NoDup (map px_name vs) -> lone (SUnionModel t c vs h)
| lone_tagged : forall c d a vs m, lone (STagged c d a vs m).

(** a field that does not look at child elements *)
Inductive still : ser -> Prop :=
| still_text : forall c ni, still (SText c ni)
| still_attr : forall n c, still (SAttr n c)
| still_attrs : forall a, still (SAttrs a)
| still_prim : forall c s, still s -> still (SUnionPrim c s).

(** a field: the items of a list ask for elements of one name, or are searched for strictly in any case *)
Inductive plain_field : ser -> Prop :=
| pf_still : forall s, still s -> plain_field s
| pf_lone : forall s, lone s -> plain_field s
| pf_list : forall t c s h, lone s -> (exists n, Forall (eq n) (child_names s)) \/ strictly s = s ->
    plain_field (SHomo t c s h)
| pf_tuple : forall t c l h, Forall lone l -> plain_field (SHetero t c l h)
| pf_wrap : forall p path ns m c s, plain_field (SWrap (p :: path) ns m c s).

(** [orderly ss]: the fields [ss] of one element ask for child elements in turn, and so do the fields
    below each of the elements that wrapped fields share *)
Inductive orderly : list ser -> Prop :=
| orderly_intro : forall ss, Forall plain_field ss -> in_turn (flat_map places ss) ->
    (forall p, inside p ss <> [] -> orderly (inside p ss)) -> orderly ss.

Definition orderly_env (ev : env) : Prop :=
  forall cls m, en_model ev cls = Some m ->
    orderly (map snd (md_fields m)) /\ (md_root m = true -> length (md_fields m) <= 1) /\
    (forall name, md_cval m name = None).

Definition forbids_everything (ev : env) : Prop :=
  forall cls m, en_model ev cls = Some m -> md_forbid m = true.

(** ---- documents ---- *)

(** every element below the root has a text or an attribute, in itself or in an element below it;
    there are no processing instructions *)
Inductive no_bare_elements : native -> Prop :=
| nb_intro : forall tag ns text tail attrib cs line,
    (forall c, In c cs -> is_xml_comment c = false -> ~ bare c) ->
    (forall c, In c cs -> is_xml_comment c = false -> no_bare_elements c) ->
    no_bare_elements (NElem tag ns text tail attrib cs line).
