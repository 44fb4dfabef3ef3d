(** SpecCalls.v -- vocabulary for C78: how much user code reading a document runs. *)

From Verif Require Import Base Elem Native Errs Names Ser Calls SpecCrash.

(** ---- the size of a document ---- *)

(** the nodes of a document, comments not counted *)
Fixpoint elements (n : native) : nat :=
  match n with
  | NElem _ _ _ _ _ children _ => S (fold_right (fun c k => elements c + k) 0 children)
  | NPI _ _ _ _ => 1
  | NComment _ _ => 0
  end.

(** the nodes directly inside a node, comments not counted *)
Definition inside (n : native) : list native :=
  match n with
  | NElem _ _ _ _ _ children _ => filter (fun c => negb (is_xml_comment c)) children
  | _ => []
  end.

(** levels of nesting below the root: 0 for a root with nothing inside *)
Fixpoint levels (n : native) : nat :=
  match n with
  | NElem _ _ _ _ _ children _ =>
      fold_right (fun c k => Nat.max (if is_xml_comment c then 0 else S (levels c)) k) 0 children
  | _ => 0
  end.

(** no node has more than [w] nodes directly inside it *)
Inductive at_most_wide (w : nat) : native -> Prop :=
| wide_intro : forall n, length (inside n) <= w -> Forall (at_most_wide w) (inside n) -> at_most_wide w n.

(** ---- counting ---- *)

Definition is_validation (c : call) : bool := match c with CValidate _ _ => true | CField _ _ _ => false end.
Definition is_run_of (cls field : string) (c : call) : bool :=
  match c with CField cls' field' _ => String.eqb cls cls' && String.eqb field field' | _ => false end.
Definition count (q : call -> bool) (l : list call) : nat := length (filter q l).

(** ---- programs ---- *)

(** every union of models inside the field has at most [k] variants (tagged unions may have any number) *)
Inductive unions_upto (k : nat) : ser -> Prop :=
| uu_text : forall c n, unions_upto k (SText c n)
| uu_attr : forall n c, unions_upto k (SAttr n c)
| uu_elem : forall n ns m c ni, unions_upto k (SElem n ns m c ni)
| uu_attrs : forall a, unions_upto k (SAttrs a)
| uu_map : forall n m a, unions_upto k (SMapElem n m a)
| uu_homo : forall t c s h, unions_upto k s -> unions_upto k (SHomo t c s h)
| uu_hetero : forall t c l h, Forall (unions_upto k) l -> unions_upto k (SHetero t c l h)
| uu_uprim : forall c s, unions_upto k s -> unions_upto k (SUnionPrim c s)
| uu_umodel : forall t c vs h, length vs <= k -> unions_upto k (SUnionModel t c vs h)
| uu_tagged : forall c d a vs m, unions_upto k (STagged c d a vs m)
| uu_wrap : forall p ns m c s, unions_upto k s -> unions_upto k (SWrap p ns m c s)
| uu_raw : forall n m c, unions_upto k (SRaw n m c)
| uu_proxy : forall p, unions_upto k (SProxy p).

(** [e'] is what is left of [e] when some of it has been read: no more children ahead of the read position,
    and every child comes from a child of [e] of its own, of which some may have been read *)
Inductive less_left : elem -> elem -> Prop :=
| less_intro : forall e e' from dropped,
    length (e_elems e') - e_next e' <= length (e_elems e) - e_next e ->
    Permutation (from ++ dropped) (e_elems e) ->
    Forall2 less_left from (e_elems e') -> less_left e e'.

(** a program with at most [k] variants per union whose field validators only read *)
Definition frugal (k : nat) (ev : env) : Prop :=
  forall cls m, en_model ev cls = Some m ->
    Forall (fun nf => unions_upto k (snd nf)) (md_fields m) /\
    NoDup (map fst (md_fields m)) /\
    (forall name f, md_cval m name = Some f -> forall e, less_left e (snd (f e))).

(** validating an instance yields an instance, not None *)
Definition yields_instances (ev : env) : Prop :=
  forall cls m, en_model ev cls = Some m -> forall input, md_validate m input <> Valid VNone.

(** ---- other user code ---- *)

(** the same classes, but for what their user code does *)
Definition same_classes (ev ev' : env) : Prop :=
  en_backend ev = en_backend ev' /\
  forall cls, both_there (fun m m' =>
      m' = with_code m (md_cser m') (md_cval m') (md_validate m') /\
      forall name, both_there (fun _ _ => True) (md_cval m name) (md_cval m' name))
    (en_model ev cls) (en_model ev' cls).

(** what the call yields: the verdict of pydantic, or what a field validator returns or raises and leaves *)
Inductive answer := AVerdict (v : verdict) | AField (o : out val) (e : elem).
Definition answers (ev : env) (c : call) (a : answer) : Prop :=
  match c with
  | CValidate cls input => exists m, en_model ev cls = Some m /\ a = AVerdict (md_validate m input)
  | CField cls field e =>
      exists m f, en_model ev cls = Some m /\ md_cval m field = Some f /\ a = AField (fst (f e)) (snd (f e))
  end.

(** the call yields the same in both programs *)
Definition agree (ev ev' : env) (c : call) : Prop := forall a, answers ev c a <-> answers ev' c a.

(** the call raises the exception [what] *)
Definition raises (ev : env) (what : string) (c : call) : Prop :=
  forall a, answers ev c a ->
    a = AVerdict (Crashed what) \/ (exists e, a = AField (Raise (XUser what)) e).
