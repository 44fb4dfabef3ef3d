(** SpecWrite.v -- vocabulary for statements about writing. *)

From Verif Require Import Base Elem Native Errs Names Ser Write SpecElem SpecRead.

(** nesting depth of a value *)
Fixpoint vdepth (v : val) : nat :=
  match v with
  | VList l => S (fold_right (fun y n => Nat.max (vdepth y) n) 0 l)
  | VDict d => S (fold_right (fun (kv : string * val) n => Nat.max (let (_, y) := kv in vdepth y) n) 0 d)
  | VModel _ a _ => S (fold_right (fun (kv : string * val) n => Nat.max (let (_, y) := kv in vdepth y) n) 0 a)
  | _ => 0
  end.

(** user serializers return *)
Definition customs_return (ev : env) : Prop :=
  forall cls m name f, en_model ev cls = Some m -> md_cser m name = Some f -> forall v e x, f v e x <> Fuel.

(** ---- None values ---- *)

(** every kind of field except a mapping bound to its own element and a discriminated union *)
Inductive drops_none : ser -> Prop :=
| dn_text : forall c n, drops_none (SText c n)
| dn_attr : forall n c, drops_none (SAttr n c)
| dn_elem : forall n ns m c ni, drops_none (SElem n ns m c ni)
| dn_attrs : forall a, drops_none (SAttrs a)
| dn_homo : forall t c s h, drops_none (SHomo t c s h)
| dn_hetero : forall t c l h, drops_none (SHetero t c l h)
| dn_uprim : forall c s, drops_none s -> drops_none (SUnionPrim c s)
| dn_umodel : forall t c vs h, drops_none (SUnionModel t c vs h)
| dn_wrap : forall p ns m c s, drops_none (SWrap p ns m c s)
| dn_raw : forall n m c, drops_none (SRaw n m c)
| dn_proxy : forall p, drops_none (SProxy p).

(** ---- order of the output ---- *)

(** the write position is at the end, in every element of the tree (as in any tree built by
    append_element; not so for a parsed raw element) *)
Inductive written : elem -> Prop :=
| written_intro : forall e, e_next e = length (e_elems e) -> Forall written (e_elems e) -> written e.

(** [grown l l']: the children [l'] are the children [l], in the same order, followed by new ones;
    only the last child of [l] may have been changed, and only by growing itself *)
Inductive grown : list elem -> list elem -> Prop :=
| grown_app : forall l new, grown l (l ++ new)
| grown_last : forall front c c' new, e_tag c' = e_tag c -> grown (e_elems c) (e_elems c') ->
    grown (front ++ [c]) (front ++ c' :: new).

(** no raw element among the entities of a field *)
Inductive no_raw : ser -> Prop :=
| nr_text : forall c n, no_raw (SText c n)
| nr_attr : forall n c, no_raw (SAttr n c)
| nr_elem : forall n ns m c ni, no_raw (SElem n ns m c ni)
| nr_attrs : forall a, no_raw (SAttrs a)
| nr_map : forall n m a, no_raw (SMapElem n m a)
| nr_homo : forall t c s h, no_raw s -> no_raw (SHomo t c s h)
| nr_hetero : forall t c l h, Forall no_raw l -> no_raw (SHetero t c l h)
| nr_uprim : forall c s, no_raw s -> no_raw (SUnionPrim c s)
| nr_umodel : forall t c vs h, no_raw (SUnionModel t c vs h)
| nr_tagged : forall c d a vs m, no_raw (STagged c d a vs m)
| nr_wrap : forall p ns m c s, no_raw s -> no_raw (SWrap p ns m c s)
| nr_proxy : forall p, no_raw (SProxy p).

(** what writing a field may do to the element it writes to *)
Definition extends (e e' : elem) : Prop :=
  written e' /\ grown (e_elems e) (e_elems e') /\ e_tag e' = e_tag e.

(** no model has raw fields, and user serializers extend the element they are given *)
Definition env_extends (ev : env) : Prop :=
  forall cls m, en_model ev cls = Some m ->
    Forall (fun nf => no_raw (snd nf)) (md_fields m) /\
    (forall name f, md_cser m name = Some f -> forall v e x e', written e -> f v e x = Ok e' -> extends e e').

(** no wrapper among the entities of a field *)
Inductive no_wrap : ser -> Prop :=
| nw_text : forall c n, no_wrap (SText c n)
| nw_attr : forall n c, no_wrap (SAttr n c)
| nw_elem : forall n ns m c ni, no_wrap (SElem n ns m c ni)
| nw_attrs : forall a, no_wrap (SAttrs a)
| nw_map : forall n m a, no_wrap (SMapElem n m a)
| nw_homo : forall t c s h, no_wrap s -> no_wrap (SHomo t c s h)
| nw_hetero : forall t c l h, Forall no_wrap l -> no_wrap (SHetero t c l h)
| nw_uprim : forall c s, no_wrap s -> no_wrap (SUnionPrim c s)
| nw_umodel : forall t c vs h, no_wrap (SUnionModel t c vs h)
| nw_tagged : forall c d a vs m, no_wrap (STagged c d a vs m)
| nw_raw : forall n m c, no_wrap (SRaw n m c)
| nw_proxy : forall p, no_wrap (SProxy p).

(** ---- wrappers ---- *)

(** [wraps b ns k path e e']: [e'] is [e] after following [path] -- at each step into the last child
    if it has the right name, and into a new last child otherwise -- and doing [k] at the end *)
Inductive wraps (b : backend) (ns : option nsmap) (k : elem -> elem -> Prop) : list string -> elem -> elem -> Prop :=
| wraps_end : forall e e', k e e' -> wraps b ns k [] e e'
| wraps_reuse : forall p rest e e' front c c',
    e_elems e = front ++ [c] -> called p c -> wraps b ns k rest c c' ->
    same_shell e e' -> e_next e' = e_next e -> e_elems e' = front ++ [c'] ->
    wraps b ns k (p :: rest) e e'
| wraps_create : forall p rest e e' c',
    (forall front c, e_elems e = front ++ [c] -> ~ called p c) ->
    wraps b ns k rest (make_element b p ns) c' ->
    same_shell e e' -> e_next e' = S (e_next e) -> e_elems e' = e_elems e ++ [c'] ->
    wraps b ns k (p :: rest) e e'.

(** following [path] through last children only, creating nothing *)
Inductive inside (k : elem -> elem -> Prop) : list string -> elem -> elem -> Prop :=
| inside_end : forall e e', k e e' -> inside k [] e e'
| inside_last : forall p rest e e' front c c',
    e_elems e = front ++ [c] -> called p c -> inside k rest c c' ->
    same_shell e e' -> e_next e' = e_next e -> e_elems e' = front ++ [c'] ->
    inside k (p :: rest) e e'.

(** ---- skip_empty ---- *)

(** the parts of all wrapper paths of a field satisfy [W] *)
Inductive wrappers_in (W : string -> Prop) : ser -> Prop :=
| wi_text : forall c n, wrappers_in W (SText c n)
| wi_attr : forall n c, wrappers_in W (SAttr n c)
| wi_elem : forall n ns m c ni, wrappers_in W (SElem n ns m c ni)
| wi_attrs : forall a, wrappers_in W (SAttrs a)
| wi_map : forall n m a, wrappers_in W (SMapElem n m a)
| wi_homo : forall t c s h, wrappers_in W s -> wrappers_in W (SHomo t c s h)
| wi_hetero : forall t c l h, Forall (wrappers_in W) l -> wrappers_in W (SHetero t c l h)
| wi_uprim : forall c s, wrappers_in W s -> wrappers_in W (SUnionPrim c s)
| wi_umodel : forall t c vs h, wrappers_in W (SUnionModel t c vs h)
| wi_tagged : forall c d a vs m, wrappers_in W (STagged c d a vs m)
| wi_wrap : forall p ns m c s, Forall W p -> wrappers_in W s -> wrappers_in W (SWrap p ns m c s)
| wi_proxy : forall p, wrappers_in W (SProxy p).

(** a native element without text, tail, attributes and children *)
Definition bare (n : native) : Prop :=
  match n with
  | NElem _ _ text tail attrib children _ =>
      (text = None \/ text = Some "") /\ (tail = None \/ tail = Some "") /\ attrib = [] /\ children = []
  | _ => False
  end.

(** [below n d]: [d] is a proper descendant of [n] *)
Inductive below : native -> native -> Prop :=
| below_child : forall tag ns text tail attrib children line c, In c children ->
    below (NElem tag ns text tail attrib children line) c
| below_deep : forall tag ns text tail attrib children line c d, In c children -> below c d ->
    below (NElem tag ns text tail attrib children line) d.

(** no model switches skip_empty off, has custom serializers or raw fields; its wrapper paths are in [W] *)
Definition env_skips (W : string -> Prop) (ev : env) : Prop :=
  forall cls m, en_model ev cls = Some m ->
    md_skip_empty m <> Some false /\ (forall name, md_cser m name = None) /\
    Forall (fun nf => wrappers_in W (snd nf)) (md_fields m).

(** ---- exclude_unset ---- *)

(** the model restricted to some of its fields *)
Definition only_fields (names : list string) (m : mdef) : mdef :=
  MDef (md_name m) (md_root m) (md_elem_name m) (md_nsmap m)
       (filter (fun nf => str_in (fst nf) names) (md_fields m)) (md_valias m)
       (md_sexclude m) (md_hide m) (md_forbid m) (md_skip_empty m) (md_cser m) (md_cval m) (md_validate m).

(** the model without the fields whose value is None *)
Definition none_in (attrs : list (string * val)) (name : string) : bool :=
  match dget name attrs with Some VNone => true | _ => false end.
Definition without_none (attrs : list (string * val)) (m : mdef) : mdef :=
  MDef (md_name m) (md_root m) (md_elem_name m) (md_nsmap m)
       (filter (fun nf => negb (none_in attrs (fst nf))) (md_fields m)) (md_valias m)
       (md_sexclude m) (md_hide m) (md_forbid m) (md_skip_empty m) (md_cser m) (md_cval m) (md_validate m).

(** the two attribute lists agree on some names *)
Definition agree_on (names : list string) (d d' : list (string * val)) : Prop :=
  forall k, In k names -> dget k d = dget k d'.

(** [alike ev s v enc v' enc']: as values of a field [s], [v] (encoded as [enc]) and [v'] (encoded as
    [enc']) have the same explicitly set fields in every model instance in them, and those are alike;
    fields not set may differ in any way, except for the discriminator of a tagged union *)
Inductive alike (ev : env) : ser -> val -> val -> val -> val -> Prop :=
| alike_same : forall s v enc, alike ev s v enc v enc
| alike_list : forall t c s h (its : list ((val * val) * (val * val))),
    Forall (fun q => alike ev s (fst (fst q)) (snd (fst q)) (fst (snd q)) (snd (snd q))) its ->
    alike ev (SHomo t c s h)
      (VList (map (fun q => fst (fst q)) its)) (VList (map (fun q => snd (fst q)) its))
      (VList (map (fun q => fst (snd q)) its)) (VList (map (fun q => snd (snd q)) its))
| alike_tuple : forall t c l h (its : list ((val * val) * (val * val))), 
    Forall2 (fun s q => alike ev s (fst (fst q)) (snd (fst q)) (fst (snd q)) (snd (snd q))) l its ->
    alike ev (SHetero t c l h)
      (VList (map (fun q => fst (fst q)) its)) (VList (map (fun q => snd (fst q)) its))
      (VList (map (fun q => fst (snd q)) its)) (VList (map (fun q => snd (snd q)) its))
| alike_wrap : forall path ns m c s v enc v' enc', alike ev s v enc v' enc' ->
    alike ev (SWrap path ns m c s) v enc v' enc'
| alike_union : forall t c vs h cls attrs attrs' set enc enc',
    alike_inst ev cls (VModel cls attrs set) enc (VModel cls attrs' set) enc' ->
    alike ev (SUnionModel t c vs h) (VModel cls attrs set) enc (VModel cls attrs' set) enc'
| alike_tagged : forall c disc a vs m cls attrs attrs' set d d', dget disc d = dget disc d' ->
    (forall tag p, dget disc d = Some (VStr tag) -> dget tag vs = Some p ->
       alike_inst ev (px_model p) (VModel cls attrs set) (VDict d) (VModel cls attrs' set) (VDict d')) ->
    alike ev (STagged c disc a vs m) (VModel cls attrs set) (VDict d) (VModel cls attrs' set) (VDict d')
| alike_sub : forall p v enc v' enc', alike_inst ev (px_model p) v enc v' enc' ->
    alike ev (SProxy p) v enc v' enc'
(** two instances written with the model class [cls] *)
with alike_inst (ev : env) : string -> val -> val -> val -> val -> Prop :=
| alike_model : forall cls m c attrs attrs' set d d', en_model ev cls = Some m -> md_root m = false ->
    (forall name s, In (name, s) (md_fields m) -> In name set ->
       alike_field ev s (dget name attrs) (dget name d) (dget name attrs') (dget name d')) ->
    alike_inst ev cls (VModel c attrs set) (VDict d) (VModel c attrs' set) (VDict d')
| alike_root : forall cls m c attrs attrs' set enc enc', en_model ev cls = Some m -> md_root m = true ->
    (forall name s, In (name, s) (md_fields m) -> In "root" set ->
       alike_field ev s (dget "root" attrs) (Some enc) (dget "root" attrs') (Some enc')) ->
    alike_inst ev cls (VModel c attrs set) enc (VModel c attrs' set) enc'
with alike_field (ev : env) : ser -> option val -> option val -> option val -> option val -> Prop :=
| alike_missing : forall s e e', alike_field ev s None e None e'
| alike_no_code : forall s v v', alike_field ev s (Some v) None (Some v') None
| alike_present : forall s v enc v' enc', alike ev s v enc v' enc' ->
    alike_field ev s (Some v) (Some enc) (Some v') (Some enc').

(** no model has custom serializers *)
Definition no_customs (ev : env) : Prop :=
  forall cls m name, en_model ev cls = Some m -> md_cser m name = None.

(** ---- order ---- *)

(** writing [v] appends the children [block], whatever is in the element already *)
Definition adds (w : elem -> out elem) (block : list elem) : Prop :=
  forall e, exists e', w e = Ok e' /\ e_elems e' = e_elems e ++ block.

(** what one field of the instance [v] adds: nothing if it is excluded or unset, else the children its
    serializer adds for its value *)
Inductive field_adds (n : nat) (ev : env) (m : mdef) (fl : flags) (v enc : val) : string * ser -> list elem -> Prop :=
| fa_excluded : forall name s, In name (md_sexclude m) -> field_adds n ev m fl v enc (name, s) []
| fa_unset : forall name s cls attrs set, v = VModel cls attrs set -> fl_exclude_unset fl = true ->
    ~ In name set -> field_adds n ev m fl v enc (name, s) []
| fa_value : forall name s x xe block, py_getattr v name = Ok x -> py_getitem enc name = Ok xe ->
    adds (fun e => write n ev s fl e x xe) block -> field_adds n ev m fl v enc (name, s) block.

(** what one item of a collection adds *)
Inductive item_adds (w : flags -> elem -> val -> val -> out elem) (fl : flags) : val * val -> list elem -> Prop :=
| ia_skipped : forall enc, fl_skip_empty fl = true -> item_adds w fl (VNone, enc) []
| ia_value : forall v enc block, adds (fun e => w fl e v enc) block -> item_adds w fl (v, enc) block.

(** ---- custom serializers ---- *)

(** the model with the serializer of the fields called [name] replaced *)
Definition with_field (name : string) (s : ser) (m : mdef) : mdef :=
  MDef (md_name m) (md_root m) (md_elem_name m) (md_nsmap m)
       (map (fun nf => if String.eqb (fst nf) name then (fst nf, s) else nf) (md_fields m)) (md_valias m)
       (md_sexclude m) (md_hide m) (md_forbid m) (md_skip_empty m) (md_cser m) (md_cval m) (md_validate m).

(** the model with other user serializers and validators *)
Definition with_customs (cs : string -> option (val -> elem -> val -> out elem))
    (cv : string -> option (elem -> out val * elem)) (m : mdef) : mdef :=
  MDef (md_name m) (md_root m) (md_elem_name m) (md_nsmap m) (md_fields m) (md_valias m)
       (md_sexclude m) (md_hide m) (md_forbid m) (md_skip_empty m) cs cv (md_validate m).
