(** SpecTail.v -- documents with elements nobody asks for behind all others (C86).

    [U]: the tags that no field asks for; [W]: the tags of raw elements, whose whole content is a value. *)

From Verif Require Import Base Elem Native Errs Names Ser Read SpecElem SpecRead SpecStray SpecAttrs.

(** the field searches, in whatever mode, for tags that are not in [U], and for raw elements with a tag in [W] *)
Inductive looks_for (U W : string -> bool) : ser -> Prop :=
| lf_text : forall c ni, looks_for U W (SText c ni)
| lf_attr : forall n c, looks_for U W (SAttr n c)
| lf_elem : forall n ns m c ni, U n = false -> looks_for U W (SElem n ns m c ni)
| lf_attrs : forall a, looks_for U W (SAttrs a)
| lf_map : forall n m a, U n = false -> looks_for U W (SMapElem n m a)
| lf_homo : forall t c s h, looks_for U W s -> looks_for U W (SHomo t c s h)
| lf_hetero : forall t c l h, Forall (looks_for U W) l -> looks_for U W (SHetero t c l h)
| lf_uprim : forall c s, looks_for U W s -> looks_for U W (SUnionPrim c s)
| lf_umodel : forall t c vs h, Forall (fun p => U (px_name p) = false) vs -> looks_for U W (SUnionModel t c vs h)
| lf_tagged : forall c d a vs m, Forall (fun kv : string * proxy => U (px_name (snd kv)) = false) vs ->
    looks_for U W (STagged c d a vs m)
| lf_wrap : forall p ns m c s, Forall (fun t => U t = false) p -> looks_for U W s -> looks_for U W (SWrap p ns m c s)
| lf_raw : forall n m c, U n = false -> W n = true -> looks_for U W (SRaw n m c)
| lf_proxy : forall p, U (px_name p) = false -> looks_for U W (SProxy p).

Definition env_looks (U W : string -> bool) (ev : env) : Prop :=
  forall cls m, en_model ev cls = Some m -> Forall (fun nf => looks_for U W (snd nf)) (md_fields m).

(** the same document, but any element that is not raw may have more children: behind its own come any number of
    comments, processing instructions and elements with a tag in [U], whatever they hold *)
Inductive same_but_tail (U W : string -> bool) : native -> native -> Prop :=
| sbt_same : forall t, same_but_tail U W t t
| sbt_elem : forall tag ns text tail a cs cs' more line, W tag = false ->
    Forall2 (same_but_tail U W) cs cs' -> Forall (fun c => stray U c = true) more ->
    same_but_tail U W (NElem tag ns text tail a cs line) (NElem tag ns text tail a (cs' ++ more) line).

(** the same for partly read elements ([raw]: inside a raw element): the next child to be read is one that both have,
    or they are at the end of what both have *)
Definition tag_stray (U : string -> bool) (t : xtag) : bool := match t with TName s => U s | TSpecial => true end.

Inductive differ_tail (U W : string -> bool) : bool -> elem -> elem -> Prop :=
| dt_intro : forall (raw : bool) tag ns text tail a l l' more next line,
    Forall2 (differ_tail U W (raw || tag_raw W tag)) l l' -> next <= length l ->
    Forall (fun c => tag_stray U (e_tag c) = true) more -> (raw || tag_raw W tag = true -> more = []) ->
    differ_tail U W raw (Elem tag ns text tail a l next line) (Elem tag ns text tail a (l' ++ more) next line).

(** user validators that do not look at these children (and leave the tag alone) *)
Definition tails_unseen (U W : string -> bool) (ev : env) : Prop :=
  forall cls m name f, en_model ev cls = Some m -> md_cval m name = Some f ->
  forall raw e e', differ_tail U W raw e e' ->
    fst (f e) = fst (f e') /\ differ_tail U W raw (snd (f e)) (snd (f e')) /\ e_tag (snd (f e)) = e_tag e.

(** ---- classes that get new fields behind their old ones ---- *)

(** the field is written as text or attributes of the element its model is written as, not as children *)
Inductive inline : ser -> Prop :=
| il_text : forall c ni, inline (SText c ni)
| il_attr : forall n c, inline (SAttr n c)
| il_attrs : forall a, inline (SAttrs a)
| il_prim : forall c s, inline s -> inline (SUnionPrim c s).

(** no old field that is written as children stands behind a new one that is *)
Definition appended (new : string -> bool) (fs : list (string * ser)) : Prop :=
  forall before f behind, fs = before ++ f :: behind -> new (fst f) = true -> ~ inline (snd f) ->
  forall g, In g behind -> new (fst g) = false -> inline (snd g).

Definition env_appended (new : string -> string -> bool) (ev : env) : Prop :=
  forall cls m, en_model ev cls = Some m -> appended (new cls) (md_fields m).
