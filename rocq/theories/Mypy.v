(** Mypy.v -- model of mypy.py, the type checker plugin. *)

From Verif Require Import Base Names.

(** the expressions of mypy the plugin tells apart.  [XTemp]: [TempNode], there is no right-hand side.
    [XName], [XMember]: [NameExpr] and [MemberExpr], the two sub-classes of [RefExpr], with the full name mypy
    resolved them to.  [XCall]: [CallExpr] with its [args] and [arg_names] ([None]: positional or starred). *)
Inductive expr :=
| XTemp
| XEllipsis
| XStr (value : string)
| XName (fullname : string)
| XMember (fullname : string)
| XCall (callee : expr) (args : list expr) (arg_names : list (option string))
| XOther.

(** what pydantic's own transformer answers about the right-hand side of a field; not modelled *)
Record transformer := Transformer {
  tr_has_default : expr -> bool;
  tr_alias_info : expr -> option string * bool;
  tr_strict : expr -> option bool;
  tr_frozen : expr -> bool
}.

(** mypy.py:7-11 *)
Definition model_metaclass : string := "pydantic_xml.model.XmlModelMeta".
Definition entities : list string :=
  ["pydantic_xml.model.attr"; "pydantic_xml.model.element"; "pydantic_xml.model.wrapped"].

(** mypy.py:19-22 [get_metaclass_hook]: whether the class is treated as a pydantic model; [sup] is the answer of
    pydantic's plugin *)
Definition metaclass_hook (sup : string -> bool) (fullname : string) : bool :=
  if String.eqb fullname model_metaclass then true else sup fullname.

(** the test at mypy.py:36-40, 57-61, 75-79 and 98-102: a call of one of the three functions *)
Definition entity_call (e : expr) : option (list (expr * option string)) :=
  match e with
  | XCall callee args names =>
      match callee with
      | XName f | XMember f => if str_in f entities then Some (combine args names) else None
      | _ => None
      end
  | _ => None
  end.

Definition is_name (o : option string) (s : string) : bool :=
  match o with Some t => String.eqb t s | None => false end.

(** [arg.__class__ is not nodes.EllipsisExpr] *)
Definition not_ellipsis (a : expr) : bool := match a with XEllipsis => false | _ => true end.

(** [isinstance(arg, nodes.NameExpr) and arg.fullname == s] *)
Definition names_builtin (a : expr) (s : string) : bool :=
  match a with XName f => String.eqb f s | _ => false end.

(** mypy.py:41-47, the loop *)
Fixpoint default_among (args : list (expr * option string)) : bool :=
  match args with
  | [] => false
  | (a, n) :: rest =>
      if is_name n "default" then not_ellipsis a
      else if is_name n "default_factory" then negb (names_builtin a "builtins.None")
      else default_among rest
  end.

(** mypy.py:30-49 [get_has_default] *)
Definition get_has_default (sup : transformer) (e : expr) : bool :=
  match e with
  | XTemp => false
  | _ => match entity_call e with Some args => default_among args | None => tr_has_default sup e end
  end.

(** mypy.py:62-68, the loop; [None]: it ends without an answer *)
Fixpoint alias_among (args : list (expr * option string)) : option (option string * bool) :=
  match args with
  | [] => None
  | (a, n) :: rest =>
      if is_name n "alias" then
        Some (match a with XStr v => (Some v, false) | _ => (None, true) end)
      else alias_among rest
  end.

(** mypy.py:51-70 [get_alias_info] *)
Definition get_alias_info (sup : transformer) (e : expr) : option string * bool :=
  match e with
  | XTemp => (None, false)
  | _ =>
      match entity_call e with
      | Some args => match alias_among args with Some r => r | None => tr_alias_info sup e end
      | None => tr_alias_info sup e
      end
  end.

(** mypy.py:80-88, the loop *)
Fixpoint strict_among (args : list (expr * option string)) : option (option bool) :=
  match args with
  | [] => None
  | (a, n) :: rest =>
      if is_name n "strict" then
        Some (if names_builtin a "builtins.True" then Some true
              else if names_builtin a "builtins.False" then Some false else None)
      else strict_among rest
  end.

(** mypy.py:72-90 [get_strict] *)
Definition get_strict (sup : transformer) (e : expr) : option bool :=
  match entity_call e with
  | Some args => match strict_among args with Some r => r | None => tr_strict sup e end
  | None => tr_strict sup e
  end.

(** mypy.py:105-108, the loop *)
Fixpoint frozen_among (args : list (expr * option string)) : option bool :=
  match args with
  | [] => None
  | (a, n) :: rest =>
      if is_name n "frozen" then Some (names_builtin a "builtins.True") else frozen_among rest
  end.

(** mypy.py:92-110 [is_field_frozen] *)
Definition is_field_frozen (sup : transformer) (e : expr) : bool :=
  match e with
  | XTemp => false
  | _ =>
      match entity_call e with
      | None => false
      | Some args => match frozen_among args with Some r => r | None => tr_frozen sup e end
      end
  end.
