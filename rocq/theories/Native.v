(** Native.v -- model of element/native/lxml.py and element/native/std.py: conversion between
    the XML library's trees and [elem]. *)

From Verif Require Import Base Elem.

(** A node of an lxml / ElementTree tree.  [NElem]: an element; its [nsmap] field holds only
    the prefix declarations passed to the constructor ([None] = default namespace); [line] is
    [element.sourceline] ([None] when the library knows none; always [None] for std).
    [NComment]: a comment.  [NPI]: a processing instruction (or, for lxml, an entity
    reference); its [.tag] is a Python function, not a string. *)
Inductive native :=
| NElem (tag : string) (nsmap : list (option string * string)) (text tail : option string)
        (attrib : dict string) (children : list native) (line : option Z)
| NComment (text tail : option string)
| NPI (text tail : option string) (attrib : dict string) (line : option Z).

(** native/lxml.py:64-65 and native/std.py:46-47 [is_xml_comment] *)
Definition is_xml_comment (n : native) : bool :=
  match n with NComment _ _ => true | _ => false end.

(** native/lxml.py:34 [sourceline=...]; native/std.py:18-29 passes no sourceline, so the
    constructor's default -1 is used, and std's [get_sourceline] (42-43) is -1 as well *)
Definition native_line (b : backend) (line : option Z) : Z :=
  match b, line with
  | Lxml, Some l => l
  | _, _ => (-1)%Z
  end.

(** native/lxml.py:19-35 and native/std.py:17-29 [from_native]. [force_str] (lxml.py:57-61)
    is the identity on [str].  A comment is never converted (it is filtered out by the parent
    and never a root); the model maps it like a processing instruction to stay total. *)
Fixpoint from_native (b : backend) (n : native) : elem :=
  match n with
  | NElem tag _ text tail attrib children line =>
      new_elem (TName tag) text tail (Some attrib)
        (flat_map (fun c => if is_xml_comment c then [] else [from_native b c]) children)
        None (native_line b line)
  | NPI text tail attrib line => new_elem TSpecial text tail (Some attrib) [] None (native_line b line)
  | NComment text tail => new_elem TSpecial text tail (Some []) [] None (-1)
  end.

(** native/lxml.py:42: [{ns or None: uri for ns, uri in self._nsmap.items()} if self._nsmap
    else None] *)
Definition native_nsmap (ns : option nsmap) : list (option string * string) :=
  match ns with
  | None => []
  | Some m => map (fun kv => ((if String.eqb (fst kv) "" then None else Some (fst kv)), snd kv)) m
  end.

(** all-or-nothing map *)
Section MapOpt.
  Variables (A B : Type) (f : A -> option B).
  Fixpoint map_opt (l : list A) : option (list B) :=
    match l with
    | [] => Some []
    | x :: l' =>
        match f x with
        | None => None
        | Some y => match map_opt l' with None => None | Some ys => Some (y :: ys) end
        end
    end.
End MapOpt.
Arguments map_opt {A B} f l.

(** native/lxml.py:37-48 and native/std.py:31-37 [to_native].  [None] is the TypeError
    [etree.Element] of lxml raises for a tag that is not a string; ElementTree accepts it.
    Not modelled: the ValueError lxml raises for malformed names and non-XML characters. *)
Fixpoint to_native (b : backend) (e : elem) : option native :=
  match e with
  | Elem tag ns text tail attrib elements _ _ =>
      let attrs := match attrib with Some d => d | None => [] end in
      match tag with
      | TSpecial => match b with Lxml => None | Std => Some (NPI text tail attrs None) end
      | TName t =>
          match map_opt (to_native b) elements with
          | None => None
          | Some cs =>
              Some (NElem t (match b with Lxml => native_nsmap ns | Std => [] end)
                          text tail attrs cs None)
          end
      end
  end.

(** ---- induction over native trees ---- *)
Unset Implicit Arguments.
Fixpoint native_ind' (P : native -> Prop)
    (HE : forall tag ns text tail attrib children line,
        Forall P children -> P (NElem tag ns text tail attrib children line))
    (HC : forall text tail, P (NComment text tail))
    (HP : forall text tail attrib line, P (NPI text tail attrib line))
    (n : native) : P n :=
  match n with
  | NElem tag ns text tail attrib children line =>
      HE tag ns text tail attrib children line
        ((fix all (l : list native) : Forall P l :=
            match l with
            | [] => Forall_nil P
            | c :: l' => Forall_cons c (native_ind' P HE HC HP c) (all l')
            end) children)
  | NComment text tail => HC text tail
  | NPI text tail attrib line => HP text tail attrib line
  end.
