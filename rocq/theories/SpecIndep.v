(** SpecIndep.v -- settings that concern one direction only. *)

From Verif Require Import Base Elem Native Errs Names Ser Write SpecWrite.

(** [m] with other output settings: prefixes, excluded fields, skip_empty, user serializers *)
Definition with_output (m : mdef) (ns : option nsmap) (excluded : list string) (skip : option bool)
    (cser : string -> option (val -> elem -> val -> out elem)) : mdef :=
  MDef (md_name m) (md_root m) (md_elem_name m) ns (md_fields m) (md_valias m)
       excluded (md_hide m) (md_forbid m) skip cser (md_cval m) (md_validate m).

(** the same classes up to output settings *)
Definition same_input_side (ev ev' : env) : Prop :=
  en_backend ev = en_backend ev' /\
  forall cls, match en_model ev cls, en_model ev' cls with
              | Some m, Some m' => exists ns excluded skip cser, m' = with_output m ns excluded skip cser
              | None, None => True
              | _, _ => False
              end.

(** the same element of a sub-model; the search mode may differ, and one may be computed *)
Definition same_proxy (p p' : proxy) : Prop :=
  px_model p = px_model p' /\ px_name p = px_name p' /\ px_nsmap p = px_nsmap p' /\ px_nillable p = px_nillable p'.

Definition same_mapping (a a' : attrs_ser) : Prop :=
  as_ns a = as_ns a' /\ as_nsmap a = as_nsmap a' /\ as_namespaced a = as_namespaced a'.

(** fields with the same output side: search modes, error titles, the hide_input_in_errors setting and
    being a computed field do not count, nor does the name of a discriminator attribute *)
Inductive same_output : ser -> ser -> Prop :=
| so_text : forall c c' ni, same_output (SText c ni) (SText c' ni)
| so_attr : forall k c c', same_output (SAttr k c) (SAttr k c')
| so_elem : forall tag ns m m' c c' ni, same_output (SElem tag ns m c ni) (SElem tag ns m' c' ni)
| so_attrs : forall a a', same_mapping a a' -> same_output (SAttrs a) (SAttrs a')
| so_map : forall tag m m' a a', same_mapping a a' -> same_output (SMapElem tag m a) (SMapElem tag m' a')
| so_homo : forall t t' c c' s s' h h', same_output s s' -> same_output (SHomo t c s h) (SHomo t' c' s' h')
| so_hetero : forall t t' c c' l l' h h', Forall2 same_output l l' -> same_output (SHetero t c l h) (SHetero t' c' l' h')
| so_uprim : forall c c' s s', same_output s s' -> same_output (SUnionPrim c s) (SUnionPrim c' s')
| so_umodel : forall t t' c c' vs vs' h h', Forall2 same_proxy vs vs' ->
    same_output (SUnionModel t c vs h) (SUnionModel t' c' vs' h')
| so_tagged : forall c c' d a a' vs vs' m m',
    Forall2 (fun x y : string * proxy => fst x = fst y /\ same_proxy (snd x) (snd y)) vs vs' ->
    same_output (STagged c d a vs m) (STagged c' d a' vs' m')
| so_wrap : forall path ns m m' c c' s s', same_output s s' -> same_output (SWrap path ns m c s) (SWrap path ns m' c' s')
| so_proxy : forall p p', same_proxy p p' -> same_output (SProxy p) (SProxy p').

(** the same classes up to input settings: extra, validation aliases, user validators, pydantic's
    validation, the class name in error reports, and those of the fields *)
Definition same_output_model (m m' : mdef) : Prop :=
  md_root m = md_root m' /\ md_elem_name m = md_elem_name m' /\ md_nsmap m = md_nsmap m' /\
  md_sexclude m = md_sexclude m' /\ md_skip_empty m = md_skip_empty m' /\
  (forall name, md_cser m name = md_cser m' name) /\
  Forall2 (fun x y : string * ser => fst x = fst y /\ same_output (snd x) (snd y)) (md_fields m) (md_fields m').

Definition same_output_side (ev ev' : env) : Prop :=
  en_backend ev = en_backend ev' /\
  forall cls, match en_model ev cls, en_model ev' cls with
              | Some m, Some m' => same_output_model m m'
              | None, None => True
              | _, _ => False
              end.

(** [m] without its excluded fields *)
Definition without_excluded (m : mdef) : mdef :=
  MDef (md_name m) (md_root m) (md_elem_name m) (md_nsmap m)
       (filter (fun nf => negb (str_in (fst nf) (md_sexclude m))) (md_fields m)) (md_valias m)
       (md_sexclude m) (md_hide m) (md_forbid m) (md_skip_empty m) (md_cser m) (md_cval m) (md_validate m).
