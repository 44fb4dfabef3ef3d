(** SpecNest.v -- vocabulary for C82: a wrapper with a path and one wrapper per step of the path. *)

From Verif Require Import Base Elem Native Errs Names Fields Ser Build SpecSim.

(** ---- declarations ---- *)

(** wrapped(b1, wrapped(b2, ... w)) *)
Fixpoint step_infos (steps : list string) (w : option einfo) : option einfo :=
  match steps with
  | [] => w
  | b :: rest => Some (EInfo (Some LocWrapped) (Some b) None None None (step_infos rest w))
  end.

(** the declaration with every path 'a/b/c' (of a wrapper that declares no prefixes) replaced by
    nested wrappers a, b, c; a namespace stays with the outermost *)
Fixpoint nest_info (i : einfo) : einfo :=
  match i with
  | EInfo l p ns m ni w =>
      let w' := match w with Some j => Some (nest_info j) | None => None end in
      match l, p, m with
      | Some LocWrapped, Some path, None =>
          match py_split "/"%char path with
          | a :: rest => EInfo l (Some a) ns None ni (step_infos rest w')
          | [] => EInfo l p ns m ni w'
          end
      | _, _, _ => EInfo l p ns m ni w'
      end
  end.

Definition nest_oinfo (i : option einfo) : option einfo :=
  match i with Some i => Some (nest_info i) | None => None end.

(** two classes that differ only in how paths of wrappers are written *)
Definition same_class (i i' : cls_info) : Prop :=
  ci_name i = ci_name i' /\ ci_params i = ci_params i' /\ ci_hide i = ci_hide i' /\
  (forall f, existsb is_noxml (ci_meta i f) = existsb is_noxml (ci_meta i' f)) /\
  (forall f, nest_oinfo (extract_info (ci_meta i f)) = nest_oinfo (extract_info (ci_meta i' f))) /\
  (forall f, nest_oinfo (ci_computed i f) = nest_oinfo (ci_computed i' f)).

Definition same_classes (cl cl' : classes) : Prop :=
  forall c, match cl c, cl' c with
            | Some i, Some i' => same_class i i'
            | None, None => True
            | _, _ => False
            end.

(** ---- what is built of them ---- *)

Fixpoint nest_steps (path : list string) (nsm : option nsmap) (md : smode) (c : bool) (s : ser) : ser :=
  match path with
  | [] => s
  | a :: rest => SWrap [a] nsm md c (nest_steps rest nsm md c s)
  end.

Fixpoint nest (s : ser) : ser :=
  match s with
  | SHomo t c i h => SHomo t c (nest i) h
  | SHetero t c l h => SHetero t c (map nest l) h
  | SUnionPrim c i => SUnionPrim c (nest i)
  | SWrap path nsm md c i =>
      match path with
      | [] => SWrap [] nsm md c (nest i)
      | _ => nest_steps path nsm md c (nest i)
      end
  | _ => s
  end.

Definition nest_fields (fs : list (string * ser)) : list (string * ser) :=
  map (fun kv => (fst kv, nest (snd kv))) fs.

Definition nest_bmodel (b : bmodel) : bmodel :=
  BModel (bm_cls b) (bm_root b) (bm_elem_name b) (bm_nsmap b) (nest_fields (bm_fields b)) (bm_valias b)
         (bm_sexclude b) (bm_hide b).

Definition nest_model (m : mdef) : mdef := with_fields m (nest_fields (md_fields m)).

(** two sets of classes at run time that differ only in how paths of wrappers are written *)
Definition same_env (ev ev' : env) : Prop :=
  en_backend ev = en_backend ev' /\
  forall c, option_map nest_model (en_model ev c) = option_map nest_model (en_model ev' c).
