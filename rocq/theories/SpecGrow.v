(** SpecGrow.v -- classes that get new fields, and documents that know nothing of them. *)

From Verif Require Import Base Elem Native Errs Names Ser Read Api SpecElem SpecRead.

(** [U] says which element names are new, [A] which attribute names are new.  A document without them
    (below the root, whose name does not matter). *)
Inductive without_new (U A : string -> bool) : native -> Prop :=
| wn_elem : forall tag ns text tail attrib cs line,
    Forall (fun kv : string * string => A (fst kv) = false) attrib ->
    (forall c, In c cs -> is_xml_comment c = false -> forall t, native_tag c = TName t -> U t = false) ->
    (forall c, In c cs -> is_xml_comment c = false -> without_new U A c) ->
    without_new U A (NElem tag ns text tail attrib cs line)
| wn_pi : forall text tail attrib line,
    Forall (fun kv : string * string => A (fst kv) = false) attrib -> without_new U A (NPI text tail attrib line).

(** a field that is looked for under new names only *)
Inductive new_field (U A : string -> bool) (ev : env) : ser -> Prop :=
| nf_attr : forall n c, A n = true -> new_field U A ev (SAttr n c)
| nf_elem : forall n ns m c ni, U n = true -> new_field U A ev (SElem n ns m c ni)
| nf_map : forall n m a, U n = true -> new_field U A ev (SMapElem n m a)
| nf_raw : forall n m c, U n = true -> new_field U A ev (SRaw n m c)
| nf_model : forall p, U (px_name p) = true -> known ev p -> new_field U A ev (SProxy p)
| nf_list : forall t c s h, new_field U A ev s -> new_field U A ev (SHomo t c s h)
| nf_tuple : forall t c l h, Forall (new_field U A ev) l -> new_field U A ev (SHetero t c l h)
| nf_prim : forall c s, new_field U A ev s -> new_field U A ev (SUnionPrim c s)
| nf_union : forall t c vs h, Forall (fun p => U (px_name p) = true /\ known ev p) vs -> new_field U A ev (SUnionModel t c vs h)
| nf_tagged : forall c d a vs m, Forall (fun kv : string * proxy => U (px_name (snd kv)) = true) vs -> new_field U A ev (STagged c d a vs m)
| nf_wrap : forall p path ns m c s, U p = true -> new_field U A ev (SWrap (p :: path) ns m c s).

(** the old fields, in the same order, with new fields anywhere among them *)
Inductive more_fields (U A : string -> bool) (ev : env) (new : string -> bool) :
    list (string * ser) -> list (string * ser) -> Prop :=
| mf_nil : more_fields U A ev new [] []
| mf_old : forall f fs fs', new (fst f) = false -> more_fields U A ev new fs fs' -> more_fields U A ev new (f :: fs) (f :: fs')
| mf_new : forall f fs fs', new (fst f) = true -> new_field U A ev (snd f) -> more_fields U A ev new fs fs' ->
    more_fields U A ev new fs (f :: fs').

(** the same value, except that instances may have attributes for new fields ([new] cls field) *)
Inductive same_but_new (new : string -> string -> bool) : val -> val -> Prop :=
| sn_same : forall v, same_but_new new v v
| sn_list : forall l l', Forall2 (same_but_new new) l l' -> same_but_new new (VList l) (VList l')
| sn_dict : forall d d', Forall2 (fun a b : string * val => fst a = fst b /\ same_but_new new (snd a) (snd b)) d d' ->
    same_but_new new (VDict d) (VDict d')
| sn_model : forall cls fs fs' set,
    Forall2 (fun a b : string * val => fst a = fst b /\ same_but_new new (snd a) (snd b)) fs
            (filter (fun kv => negb (new cls (fst kv))) fs') ->
    same_but_new new (VModel cls fs set) (VModel cls fs' set).

Definition oboth (R : val -> val -> Prop) (i i' : option val) : Prop :=
  match i, i' with Some v, Some v' => R v v' | None, None => True | _, _ => False end.

(** what the old class hands to pydantic: a dict with values for its fields only, under their names or
    aliases (root models: any value or none) *)
Definition asked_for (m : mdef) (i : option val) : Prop :=
  md_root m = false ->
  exists d, i = Some (VDict d) /\
    Forall (fun kv : string * val => exists f, In f (map fst (md_fields m)) /\
              fst kv = match dget f (md_valias m) with Some a => a | None => f end) d.

(** pydantic's validation of the class with new fields accepts, without values for them, what its
    validation of the old class accepts *)
Definition validates_alike (new : string -> string -> bool) (m m' : mdef) : Prop :=
  forall i i', oboth (same_but_new new) i i' -> asked_for m i ->
    match md_validate m i, md_validate m' i' with
    | Valid v, Valid v' => same_but_new new v v'
    | Invalid _, Invalid _ => True
    | Crashed a, Crashed a' => a = a'
    | _, _ => False
    end.

(** an element read so far, without new names below it and its read positions in bounds; custom
    validators keep elements so *)
Inductive old_only (U A : string -> bool) : elem -> Prop :=
| oo_intro : forall e, e_next e <= length (e_elems e) ->
    (forall d, e_attrib e = Some d -> Forall (fun kv : string * string => A (fst kv) = false) d) ->
    (forall c, In c (e_elems e) -> (forall t, e_tag c = TName t -> U t = false)) ->
    (forall c, In c (e_elems e) -> old_only U A c) -> old_only U A e.

Record grown_class (U A : string -> bool) (ev' : env) (new : string -> string -> bool) (cls : string) (m m' : mdef) : Prop := {
  gc_name : md_name m' = md_name m;
  gc_elem_name : md_elem_name m' = md_elem_name m;
  gc_root : md_root m' = md_root m;
  gc_fields : more_fields U A ev' (new cls) (md_fields m) (md_fields m');
  gc_root_fields : md_root m = true -> md_fields m' = md_fields m;
  gc_forbid : md_forbid m' = md_forbid m;
  gc_aliases : forall f, new cls f = false -> dget f (md_valias m') = dget f (md_valias m);
  gc_cval : forall f, md_cval m' f = if new cls f then None else md_cval m f;
  gc_cval_old : forall f g, md_cval m f = Some g -> forall e, e_tag (snd (g e)) = e_tag e /\ (old_only U A e -> old_only U A (snd (g e)));
  gc_validate : validates_alike new m m'
}.

(** classes with the same names and parameters and new fields *)
Definition grown (U A : string -> bool) (new : string -> string -> bool) (ev ev' : env) : Prop :=
  en_backend ev' = en_backend ev /\
  forall cls, match en_model ev cls, en_model ev' cls with
              | Some m, Some m' => grown_class U A ev' new cls m m'
              | None, None => True
              | _, _ => False
              end.

(** two ValidationErrors, or the same exception *)
Definition same_class (x y : exn) : Prop :=
  match x, y with XValidation _, XValidation _ => True | _, _ => x = y end.

(** the same value but for the new fields, or an exception of the same class *)
Definition same_outcome (new : string -> string -> bool) (a b : out val) : Prop :=
  match a, b with
  | Ok v, Ok w => same_but_new new v w
  | Raise x, Raise y => same_class x y
  | _, _ => False
  end.
