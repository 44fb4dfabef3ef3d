(** SpecPrefix.v -- which namespace prefixes the elements of a document declare. *)

From Verif Require Import Base Elem Native Errs Names Ser Write SpecWrite.

(** [declares s tag ns]: the field [s] is declared to write elements called [tag], with the prefixes [ns] *)
Inductive declares : ser -> string -> option nsmap -> Prop :=
| decl_elem : forall tag ns m c ni, declares (SElem tag ns m c ni) tag ns
| decl_map : forall tag m a, declares (SMapElem tag m a) tag (as_nsmap a)
| decl_proxy : forall p, declares (SProxy p) (px_name p) (px_nsmap p)
| decl_wrapper : forall path ns m c s w, In w path -> declares (SWrap path ns m c s) w ns
| decl_wrapped : forall path ns m c s tag ns', declares s tag ns' -> declares (SWrap path ns m c s) tag ns'
| decl_list : forall t c s h tag ns, declares s tag ns -> declares (SHomo t c s h) tag ns
| decl_tuple : forall t c l h s tag ns, In s l -> declares s tag ns -> declares (SHetero t c l h) tag ns
| decl_uprim : forall c s tag ns, declares s tag ns -> declares (SUnionPrim c s) tag ns
| decl_umodel : forall t c vs h p, In p vs -> declares (SUnionModel t c vs h) (px_name p) (px_nsmap p)
| decl_tagged : forall c d a vs m k p, In (k, p) vs -> declares (STagged c d a vs m) (px_name p) (px_nsmap p).

(** some field of some class of the library does *)
Definition declared_in (ev : env) (tag : string) (ns : option nsmap) : Prop :=
  exists cls m name s, en_model ev cls = Some m /\ In (name, s) (md_fields m) /\ declares s tag ns.

(** [prefixed b ns decls]: [decls] are the prefixes an element with the declared namespace map [ns]
    introduces.  lxml: exactly those of the map, the empty prefix being the default namespace;
    ElementTree cannot declare prefixes on an element. *)
Definition prefixed (b : backend) (ns : option nsmap) (decls : list (option string * string)) : Prop :=
  match b with
  | Std => decls = []
  | Lxml =>
      forall prefix u, In (prefix, u) decls <->
        exists m, ns = Some m /\
          match prefix with
          | None => In ("", u) m
          | Some p => p <> "" /\ In (p, u) m
          end
  end.

(** no raw element fields *)
Definition env_no_raw (ev : env) : Prop :=
  forall cls m, en_model ev cls = Some m -> Forall (fun nf => no_raw (snd nf)) (md_fields m).
