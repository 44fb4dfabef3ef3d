(** SpecLayout.v -- text that no field is bound to, such as indentation (C73).

    [T]: the tags of the elements whose text some field reads; [W]: the tags of raw elements, whose whole
    content is a value. *)

From Verif Require Import Base Elem Native Errs Names Ser Read SpecElem SpecRead SpecSim SpecText SpecStray.

(** ---- which texts the fields read ---- *)

(** the field reads the text of the element its model is read from *)
Inductive own_text : ser -> Prop :=
| ot_text : forall ni, own_text (SText false ni)
| ot_homo : forall t s h, own_text s -> own_text (SHomo t false s h)
| ot_hetero : forall t l h, Exists own_text l -> own_text (SHetero t false l h)
| ot_uprim : forall s, own_text s -> own_text (SUnionPrim false s).

Definition takes_text (m : mdef) : Prop := Exists (fun nf => own_text (snd nf)) (md_fields m).

(** an element called [px_name p] is read as a model: if the model takes its text, the name is in [T] *)
Definition proxy_texts (T : string -> bool) (ev : env) (p : proxy) : Prop :=
  forall m, en_model ev (px_model p) = Some m -> takes_text m -> T (px_name p) = true.

(** every element whose text the field reads, other than the one its model is read from, has a tag in [T],
    and every element it takes as a whole has a tag in [W] *)
Inductive texts_in (T W : string -> bool) (ev : env) : ser -> Prop :=
| ti_text : forall c ni, texts_in T W ev (SText c ni)
| ti_attr : forall n c, texts_in T W ev (SAttr n c)
| ti_elem : forall n ns m c ni, (c = false -> T n = true) -> texts_in T W ev (SElem n ns m c ni)
| ti_attrs : forall a, texts_in T W ev (SAttrs a)
| ti_map : forall n m a, texts_in T W ev (SMapElem n m a)
| ti_homo : forall t c s h, texts_in T W ev s -> texts_in T W ev (SHomo t c s h)
| ti_hetero : forall t c l h, Forall (texts_in T W ev) l -> texts_in T W ev (SHetero t c l h)
| ti_uprim : forall c s, texts_in T W ev s -> texts_in T W ev (SUnionPrim c s)
| ti_umodel : forall t c vs h, Forall (proxy_texts T ev) vs -> texts_in T W ev (SUnionModel t c vs h)
| ti_tagged : forall c d a vs m, Forall (fun kv : string * proxy => proxy_texts T ev (snd kv)) vs ->
    texts_in T W ev (STagged c d a vs m)
| ti_wrap : forall p ns m c s, (own_text s -> T (last p "") = true) -> texts_in T W ev s ->
    texts_in T W ev (SWrap p ns m c s)
| ti_raw : forall n m c, W n = true -> texts_in T W ev (SRaw n m c)
| ti_proxy : forall p, proxy_texts T ev p -> texts_in T W ev (SProxy p).

Definition env_texts (T W : string -> bool) (ev : env) : Prop :=
  forall cls m, en_model ev cls = Some m -> Forall (fun nf => texts_in T W ev (snd nf)) (md_fields m).

(** ---- documents that differ in other texts only ---- *)

(** the same once stripped, nothing being the same as whitespace *)
Definition same_stripped (a b : option string) : Prop := nonblank a = nonblank b.

(** the same document except for texts of elements with a tag outside [T] and for tails, which may be
    anything (if [quiet]: only as far as whitespace goes), and for comments, prefix declarations and line
    numbers; with [raw], and inside the elements with a tag in [W], all texts are the same *)
Inductive same_but_texts (T W : string -> bool) (quiet : bool) : bool -> native -> native -> Prop :=
| sbt_elem : forall (raw : bool) tag ns ns' text text' tail tail' attrib cs cs' line line',
    (raw || W tag || T tag = true -> same_text text text') ->
    (raw || W tag = true -> same_text tail tail') ->
    (quiet = true -> same_stripped text text' /\ same_stripped tail tail') ->
    Forall2 (same_but_texts T W quiet (raw || W tag)) (no_comments cs) (no_comments cs') ->
    same_but_texts T W quiet raw (NElem tag ns text tail attrib cs line) (NElem tag ns' text' tail' attrib cs' line')
| sbt_pi : forall (raw : bool) text text' tail tail' attrib line line',
    (raw = true -> same_text text text' /\ same_text tail tail') ->
    (quiet = true -> same_stripped text text' /\ same_stripped tail tail') ->
    same_but_texts T W quiet raw (NPI text tail attrib line) (NPI text' tail' attrib line').

(** the same for partly read elements *)
Definition tag_in (T : string -> bool) (t : xtag) : bool := match t with TName s => T s | TSpecial => false end.

Inductive differ_texts (T W : string -> bool) (quiet : bool) : bool -> elem -> elem -> Prop :=
| dt_intro : forall (raw : bool) tag ns text text' tail tail' a l l' next line line',
    (raw || tag_in W tag || tag_in T tag = true -> same_text text text') ->
    (raw || tag_in W tag = true -> same_text tail tail') ->
    (quiet = true -> same_stripped text text' /\ same_stripped tail tail') ->
    Forall2 (differ_texts T W quiet (raw || tag_in W tag)) l l' ->
    differ_texts T W quiet raw (Elem tag ns text tail a l next line) (Elem tag ns text' tail' a l' next line').

(** user validators that do not look at these texts (and leave the tag alone), and a pydantic validation that
    does not tell a raw element from the same one parsed again *)
Definition texts_unseen (T W : string -> bool) (quiet : bool) (ev : env) : Prop :=
  forall cls m, en_model ev cls = Some m ->
  (forall name f, md_cval m name = Some f -> forall raw e e', differ_texts T W quiet raw e e' ->
     alike_out (fst (f e)) (fst (f e')) /\ differ_texts T W quiet raw (snd (f e)) (snd (f e')) /\
     e_tag (snd (f e)) = e_tag e) /\
  (forall v v', alike v v' ->
     match md_validate m (Some v), md_validate m (Some v') with
     | Valid w, Valid w' => alike w w'
     | Invalid x, Invalid x' => alike_verr x x'
     | Crashed a, Crashed a' => a = a'
     | _, _ => False
     end).

(** ---- indentation ---- *)

(** [indent pad d n]: whitespace put before every child and behind the last one, [pad] saying what an
    element at depth [d] is preceded by, as ElementTree.indent and lxml's pretty printer do: texts and tails
    other than whitespace are kept, elements without children are left alone *)
Definition pad_over (s : string) (o : option string) : option string :=
  match nonblank o with Some _ => o | None => Some s end.

Definition set_native_tail (f : option string -> option string) (n : native) : native :=
  match n with
  | NElem tag ns text tail a cs line => NElem tag ns text (f tail) a cs line
  | NComment text tail => NComment text (f tail)
  | NPI text tail a line => NPI text (f tail) a line
  end.

Fixpoint indent (pad : nat -> string) (d : nat) (n : native) : native :=
  match n with
  | NElem tag ns text tail a cs line =>
      NElem tag ns (match cs with [] => text | _ => pad_over (pad (S d)) text end) tail a
        ((fix go (l : list native) : list native :=
            match l with
            | [] => []
            | [c] => [set_native_tail (pad_over (pad d)) (indent pad (S d) c)]
            | c :: l' => set_native_tail (pad_over (pad (S d))) (indent pad (S d) c) :: go l'
            end) cs) line
  | _ => n
  end.

(** no element of the document that has children is read for its text, and none is taken as a whole *)
Inductive indentable (T W : string -> bool) : native -> Prop :=
| in_elem : forall tag ns text tail a cs line, (cs <> [] -> T tag = false) -> W tag = false ->
    Forall (indentable T W) cs -> indentable T W (NElem tag ns text tail a cs line)
| in_comment : forall text tail, indentable T W (NComment text tail)
| in_pi : forall text tail a line, indentable T W (NPI text tail a line).

(** a printer that indents, and a parser that is faithful to it otherwise *)
Definition indents (pad : nat -> string) (D : Type) (print : native -> out D) (parse : D -> out native) : Prop :=
  forall t s, document t -> print t = Ok s -> exists t', parse s = Ok t' /\ reparsed (indent pad 0 t) t'.
