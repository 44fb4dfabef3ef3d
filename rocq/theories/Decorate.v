(** Decorate.v -- model of the decorators [xml_field_validator] and [xml_field_serializer], and of the calls
    of the functions they mark. *)

From Verif Require Import Base Names Classes.

(** the two attributes the decorators set on an object *)
Record marks := Marks { mk_ser : option (list string); mk_val : option (list string) }.
Definition no_marks : marks := Marks None None.

(** What a method of a class body is before the class is made: a function, or the [classmethod] or
    [staticmethod] object around one; each of the two objects carries attributes of its own.  A function is
    given by its identity; it is decorated in one place only (fields.py:372,389 change the function itself). *)
Inductive pymeth :=
| MFunc (id : string) (m : marks)
| MClass (id : string) (m own : marks)
| MStatic (id : string) (m own : marks).

(** decorators: [xml_field_validator(field, *more)], [xml_field_serializer(field, *more)] and Python's own *)
Inductive deco :=
| DVal (field : string) (more : list string)
| DSer (field : string) (more : list string)
| DClass
| DStatic.

(** fields.py:369-373: a class or static method is unwrapped first, the function under it is marked *)
Definition mark_validator (field : string) (more : list string) (x : pymeth) : pymeth :=
  match x with
  | MFunc id m | MClass id m _ | MStatic id m _ => MFunc id (Marks (mk_ser m) (Some (field :: more)))
  end.

(** fields.py:388-390: the object itself is marked, whatever it is *)
Definition mark_serializer (field : string) (more : list string) (x : pymeth) : pymeth :=
  match x with
  | MFunc id m => MFunc id (Marks (Some (field :: more)) (mk_val m))
  | MClass id m own => MClass id m (Marks (Some (field :: more)) (mk_val own))
  | MStatic id m own => MStatic id m (Marks (Some (field :: more)) (mk_val own))
  end.

(** one decorator.  [classmethod] and [staticmethod] of an object that is one already are left out (what they
    do changed with Python 3.9, 3.10 and 3.13).  Their objects take over the attributes the function has by
    then (Python 3.10 on), which nobody looks at *)
Definition decorate_one (d : deco) (x : pymeth) : option pymeth :=
  match d, x with
  | DVal f more, _ => Some (mark_validator f more x)
  | DSer f more, _ => Some (mark_serializer f more x)
  | DClass, MFunc id m => Some (MClass id m m)
  | DStatic, MFunc id m => Some (MStatic id m m)
  | _, _ => None
  end.

(** the decorators of a function, in the order of the text (the last one is applied first) *)
Fixpoint decorated (id : string) (ds : list deco) : option pymeth :=
  match ds with
  | [] => Some (MFunc id no_marks)
  | d :: ds => match decorated id ds with Some x => decorate_one d x | None => None end
  end.

(** what [getattr(cls, name)] gives (model.py:133): the function, for a class method bound to the class *)
Definition callable : Type := string * bool.

(** model.py:133-139: the callable and its marks; a bound method looks them up on its function *)
Definition class_attr (x : pymeth) : cattr callable :=
  let listed o := match o with Some l => l | None => [] end in
  match x with
  | MFunc id m | MStatic id m _ => CAttr true (id, false) (listed (mk_ser m)) (listed (mk_val m))
  | MClass id m _ => CAttr true (id, true) (listed (mk_ser m)) (listed (mk_val m))
  end.

(** positional arguments *)
Inductive arg := AClass | AInstance | AElement | AValue | AField (name : string).

(** a bound method puts the class in front *)
Definition called_with (c : callable) (args : list arg) : string * list arg :=
  (fst c, if snd c then AClass :: args else args).

(** factories/model.py:216-217 *)
Definition call_validator (field : string) (c : callable) : string * list arg :=
  called_with c [AClass; AElement; AField field].

(** factories/model.py:186-187 *)
Definition call_serializer (field : string) (c : callable) : string * list arg :=
  called_with c [AInstance; AElement; AValue; AField field].

(** the methods of a class body: attribute name, function, decorators *)
Definition method : Type := string * (string * list deco).

(** model.py:132: the attributes of the class that are methods *)
Fixpoint method_attrs (ms : list method) : option (list (string * cattr callable)) :=
  match ms with
  | [] => Some []
  | (name, (id, ds)) :: ms =>
      match decorated id ds, method_attrs ms with
      | Some x, Some l => Some ((name, class_attr x) :: l)
      | _, _ => None
      end
  end.

(** model.py:118-139 and factories/model.py:186,216: the calls for a field, given the methods in the order they
    are visited in and the annotations: the one that reads it and the one that writes it *)
Definition field_calls (metas : list (string * list (fmeta callable))) (ms : list method) (field : string)
  : option (option (string * list arg) * option (string * list arg)) :=
  match method_attrs ms with
  | None => None
  | Some attrs =>
      Some (option_map (call_validator field) (dget field (snd (collect metas attrs))),
            option_map (call_serializer field) (dget field (fst (collect metas attrs))))
  end.
