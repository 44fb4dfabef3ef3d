(** SpecSim.v -- vocabulary for comparing two documents, two environments or two results. *)

From Verif Require Import Base Elem Native Errs Names Ser Read SpecElem SpecRead.

(** a field computed from others: written, never read *)
Inductive computed (ev : env) : ser -> Prop :=
| co_text : forall n, computed ev (SText true n)
| co_attr : forall n, computed ev (SAttr n true)
| co_elem : forall n ns m ni, computed ev (SElem n ns m true ni)
| co_attrs : forall a, as_computed a = true -> computed ev (SAttrs a)
| co_map : forall n m a, as_computed a = true -> computed ev (SMapElem n m a)
| co_homo : forall t s h, computed ev (SHomo t true s h)
| co_hetero : forall t l h, computed ev (SHetero t true l h)
| co_uprim : forall s, computed ev (SUnionPrim true s)
| co_umodel : forall t vs h, computed ev (SUnionModel t true vs h)
| co_tagged : forall d a vs m, computed ev (STagged true d a vs m)
| co_wrap : forall p ns m s, computed ev (SWrap p ns m true s)
| co_raw : forall n m, computed ev (SRaw n m true)
| co_proxy : forall p, px_computed p = true -> known ev p -> computed ev (SProxy p).

(** [drops_computed ev m fs fs']: [fs'] is [fs] without some computed fields (that have no user validator) *)
Inductive drops_computed (ev : env) (m : mdef) : list (string * ser) -> list (string * ser) -> Prop :=
| dc_nil : drops_computed ev m [] []
| dc_keep : forall name s fs fs', drops_computed ev m fs fs' ->
    drops_computed ev m ((name, s) :: fs) ((name, s) :: fs')
| dc_drop : forall name s fs fs', computed ev s -> md_cval m name = None -> drops_computed ev m fs fs' ->
    drops_computed ev m ((name, s) :: fs) fs'.

(** two messages, error lines, errors, outcomes that differ at most in line numbers *)
Inductive same_msg : emsg -> emsg -> Prop :=
| sm_text : forall s, same_msg (MText s) (MText s)
| sm_line : forall l l' m m', same_msg m m' -> same_msg (MLine l m) (MLine l' m').

Definition same_lerr (a b : lerr) : Prop :=
  le_type a = le_type b /\ same_msg (le_msg a) (le_msg b) /\ le_loc a = le_loc b /\ le_input a = le_input b.

Definition same_verr (a b : verr) : Prop :=
  ve_title a = ve_title b /\ Forall2 same_lerr (ve_lines a) (ve_lines b) /\ ve_hide a = ve_hide b.

Definition same_out (a b : out val) : Prop :=
  match a, b with
  | Ok v, Ok w => v = w
  | Raise (XValidation e), Raise (XValidation f) => same_verr e f
  | Raise x, Raise y => x = y
  | Fuel, Fuel => True
  | _, _ => False
  end.

(** ---- documents that differ in one respect only ---- *)

Definition no_comments (l : list native) : list native := filter (fun c => negb (is_xml_comment c)) l.

(** the same document except for comments and line numbers: the children that are not comments
    correspond one to one, in order *)
Inductive same_but_comments : native -> native -> Prop :=
| sbc_elem : forall tag ns text tail attrib cs cs' line line',
    Forall2 same_but_comments (no_comments cs) (no_comments cs') ->
    same_but_comments (NElem tag ns text tail attrib cs line) (NElem tag ns text tail attrib cs' line')
| sbc_pi : forall text tail attrib line, same_but_comments (NPI text tail attrib line) (NPI text tail attrib line).

(** the attributes whose local name is [k] *)
Definition locals (k : string) (d : dict string) : dict string :=
  filter (fun kv => String.eqb (q_tag (from_uri (fst kv))) k) d.

(** the same attributes in another order; attributes that share a local name (in different
    namespaces) stay in the same relative order *)
Definition shuffled (a a' : dict string) : Prop :=
  Permutation a a' /\ NoDup (dkeys a) /\ forall k, locals k a = locals k a'.

(** the same document with the attributes of any elements shuffled *)
Inductive reordered : native -> native -> Prop :=
| ro_elem : forall tag ns text tail a a' cs cs' line, shuffled a a' -> Forall2 reordered cs cs' ->
    reordered (NElem tag ns text tail a cs line) (NElem tag ns text tail a' cs' line)
| ro_comment : forall text tail, reordered (NComment text tail) (NComment text tail)
| ro_pi : forall text tail a a' line, shuffled a a' -> reordered (NPI text tail a line) (NPI text tail a' line).

(** the same value up to the key order of dicts (and of the attributes of raw elements) *)
Inductive same_val : val -> val -> Prop :=
| sv_refl : forall v, same_val v v
| sv_list : forall l l', Forall2 same_val l l' -> same_val (VList l) (VList l')
| sv_dict : forall d d1 d', Permutation d d1 ->
    Forall2 (fun a b : string * val => fst a = fst b /\ same_val (snd a) (snd b)) d1 d' ->
    same_val (VDict d) (VDict d')
| sv_model : forall cls d d1 d' s s', Permutation d d1 ->
    Forall2 (fun a b : string * val => fst a = fst b /\ same_val (snd a) (snd b)) d1 d' ->
    Permutation s s' -> same_val (VModel cls d s) (VModel cls d' s')
| sv_raw : forall n n', reordered n n' -> same_val (VRaw n) (VRaw n').

(** the same error: same lines up to their order, inputs up to key order *)
Definition same_line (a b : lerr) : Prop :=
  le_type a = le_type b /\ le_msg a = le_msg b /\ le_loc a = le_loc b /\ same_val (le_input a) (le_input b).

Definition same_error (a b : verr) : Prop :=
  ve_title a = ve_title b /\ ve_hide a = ve_hide b /\
  exists l, Permutation (ve_lines a) l /\ Forall2 same_line l (ve_lines b).

Definition same_outcome (a b : out val) : Prop :=
  match a, b with
  | Ok v, Ok w => same_val v w
  | Raise (XValidation e), Raise (XValidation f) => same_error e f
  | Raise x, Raise y => x = y
  | Fuel, Fuel => True
  | _, _ => False
  end.

(** ---- the same for partly read elements (what user validators see) ---- *)

(** [differ T A L N e e']: the same tree, except that texts are related by [T], attributes by [A],
    lines by [L] and prefix declarations by [N] *)
Inductive differ (T : option string -> option string -> Prop) (A : option (dict string) -> option (dict string) -> Prop)
    (L : Z -> Z -> Prop) (N : option nsmap -> option nsmap -> Prop) : elem -> elem -> Prop :=
| differ_intro : forall tag ns ns' text text' tail tail' a a' l l' next line line',
    T text text' -> T tail tail' -> A a a' -> L line line' -> N ns ns' -> Forall2 (differ T A L N) l l' ->
    differ T A L N (Elem tag ns text tail a l next line) (Elem tag ns' text' tail' a' l' next line').

Definition any_line (a b : Z) : Prop := True.
Definition any_prefixes (a b : option nsmap) : Prop := True.
Definition oshuffled (a a' : option (dict string)) : Prop :=
  match a, a' with Some d, Some d' => shuffled d d' | None, None => True | _, _ => False end.

(** user validators that do not look at line numbers *)
Definition lines_unseen (ev : env) : Prop :=
  forall cls m name f, en_model ev cls = Some m -> md_cval m name = Some f ->
  forall e e', differ eq eq any_line eq e e' -> same_out (fst (f e)) (fst (f e')) /\ differ eq eq any_line eq (snd (f e)) (snd (f e')).

(** user validators and pydantic's validation that do not depend on the order of attributes and dict keys *)
Definition order_unseen (ev : env) : Prop :=
  forall cls m, en_model ev cls = Some m ->
  (forall name f, md_cval m name = Some f -> forall e e', differ eq oshuffled eq eq e e' ->
     same_outcome (fst (f e)) (fst (f e')) /\ differ eq oshuffled eq eq (snd (f e)) (snd (f e'))) /\
  (forall v v', same_val v v' ->
     match md_validate m (Some v), md_validate m (Some v') with
     | Valid w, Valid w' => same_val w w'
     | Invalid x, Invalid x' => same_error x x'
     | Crashed a, Crashed a' => a = a'
     | _, _ => False
     end).

(** [ev] with other computed fields: every model of [ev'] is the one of [ev] without some of its computed fields *)
Definition with_fields (m : mdef) (fs : list (string * ser)) : mdef :=
  MDef (md_name m) (md_root m) (md_elem_name m) (md_nsmap m) fs (md_valias m)
       (md_sexclude m) (md_hide m) (md_forbid m) (md_skip_empty m) (md_cser m) (md_cval m) (md_validate m).

Definition without_computed (ev ev' : env) : Prop :=
  en_backend ev = en_backend ev' /\
  forall cls, match en_model ev cls, en_model ev' cls with
              | Some m, Some m' => exists fs, m' = with_fields m fs /\ drops_computed ev m (md_fields m) fs /\
                                              (md_root m = true -> fs = md_fields m)
              | None, None => True
              | _, _ => False
              end.

(** no processing instruction inside and no prefix declarations, as in a parsed document *)
Inductive clean : elem -> Prop :=
| clean_intro : forall e, e_tag e <> TSpecial -> e_nsmap e = None -> Forall clean (e_elems e) -> clean e.

(** user validators add no processing instructions and no prefix declarations to the document *)
Definition keeps_clean (ev : env) : Prop :=
  forall cls m name f, en_model ev cls = Some m -> md_cval m name = Some f -> forall e, clean e -> clean (snd (f e)).

(** the same model classes on the other back end *)
Definition on_backend (b : backend) (ev : env) : env := Env b (en_model ev).

(** ---- output trees ---- *)

(** the same output tree except for prefix declarations (and line numbers) *)
Inductive same_but_prefixes : native -> native -> Prop :=
| sbp_elem : forall tag ns ns' text tail attrib cs cs' line line', Forall2 same_but_prefixes cs cs' ->
    same_but_prefixes (NElem tag ns text tail attrib cs line) (NElem tag ns' text tail attrib cs' line').

Definition same_tree (a b : out native) : Prop :=
  match a, b with
  | Ok t, Ok u => same_but_prefixes t u
  | Raise x, Raise y => x = y
  | Fuel, Fuel => True
  | _, _ => False
  end.

(** the raw elements inside a value hold no processing instructions *)
Inductive raws_ok : val -> Prop :=
| ra_none : raws_ok VNone
| ra_bool : forall b, raws_ok (VBool b)
| ra_int : forall z, raws_ok (VInt z)
| ra_str : forall s, raws_ok (VStr s)
| ra_other : forall r l, raws_ok (VOther r l)
| ra_list : forall l, Forall raws_ok l -> raws_ok (VList l)
| ra_dict : forall d, Forall (fun kv : string * val => raws_ok (snd kv)) d -> raws_ok (VDict d)
| ra_model : forall c d s, Forall (fun kv : string * val => raws_ok (snd kv)) d -> raws_ok (VModel c d s)
| ra_raw : forall n, no_pi n -> raws_ok (VRaw n).

(** every tag of the tree is a string *)
Inductive named : elem -> Prop :=
| named_intro : forall e, e_tag e <> TSpecial -> Forall named (e_elems e) -> named e.

(** user serializers that do not look at prefix declarations or lines *)
Definition prefixes_unseen (ev : env) : Prop :=
  forall cls m name f, en_model ev cls = Some m -> md_cser m name = Some f ->
  forall v x e e', differ eq eq any_line any_prefixes e e' -> named e ->
  match f v e x, f v e' x with
  | Ok r, Ok r' => differ eq eq any_line any_prefixes r r' /\ named r
  | Raise y, Raise y' => y = y'
  | Fuel, Fuel => True
  | _, _ => False
  end.

(** ---- conversions ---- *)

(** [bare_copy n n']: [n'] is [n] without comments, prefix declarations and line numbers *)
Inductive bare_copy : native -> native -> Prop :=
| bc_elem : forall tag ns text tail attrib cs cs' line, Forall2 bare_copy (no_comments cs) cs' ->
    bare_copy (NElem tag ns text tail attrib cs line) (NElem tag [] text tail attrib cs' None).

(** the same tag, text, tail, attributes (none and an empty dict being the same) and children *)
Inductive same_content : elem -> elem -> Prop :=
| same_content_intro : forall e e', e_tag e = e_tag e' -> e_text e = e_text e' -> e_tail e = e_tail e' ->
    match e_attrib e with Some d => d | None => [] end = match e_attrib e' with Some d => d | None => [] end ->
    Forall2 same_content (e_elems e) (e_elems e') -> same_content e e'.
