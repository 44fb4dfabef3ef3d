(** WCalls.v -- which user code writing calls, with what, and in what order.

    Write.v models what [serialize] does to the element.  Here the same methods are modelled as far as the
    calls of field serializers defined with [xml_field_serializer] are concerned.  A tracer returns the
    calls made, in order; the elements on the way are those of Write.v. *)

From Verif Require Import Base Elem Native Errs Names Ser Write Api.

(** one call of a field serializer of the class [cls], made for the instance at [place] in the value to_xml
    was called on: [field_serializer(instance, element, x, field)] *)
Record wcall := WCall {
  wc_place : list locitem;
  wc_class : string;
  wc_field : string;
  wc_instance : val;
  wc_element : elem;
  wc_value : val }.

(** the calls made when the value at a place is written *)
Definition wtracer := list locitem -> flags -> elem -> val -> val -> list wcall.

(** homogeneous.py:57-63, the loop *)
Fixpoint wt_items (w : writer) (t : wtracer) (pl : list locitem) (idx : nat) (fl : flags) (e : elem) (vs encs : list val)
  : list wcall :=
  match vs, encs with
  | v :: vs', enc :: encs' =>
      if fl_skip_empty fl && is_none v then wt_items w t pl (S idx) fl e vs' encs'
      else
        t (pl ++ [LIdx idx]) fl e v enc ++
        match w fl e v enc with
        | Ok e' => wt_items w t pl (S idx) fl e' vs' encs'
        | _ => []
        end
  | _, _ => []
  end.

(** homogeneous.py:41-65 *)
Definition wt_homo (w : writer) (t : wtracer) : wtracer := fun pl fl e v enc =>
  if is_none v then []
  else
    match py_iter v with
    | Ok vs =>
        if fl_skip_empty fl && Nat.eqb (length vs) 0 then []
        else match py_iter enc with Ok encs => wt_items w t pl 0 fl e vs encs | _ => [] end
    | _ => []
    end.

(** heterogeneous.py:54-57, the loop *)
Fixpoint wt_tuple (ws : list (writer * wtracer)) (pl : list locitem) (idx : nat) (fl : flags) (e : elem) (vs encs : list val)
  : list wcall :=
  match ws, vs, encs with
  | (w, t) :: ws', v :: vs', enc :: encs' =>
      t (pl ++ [LIdx idx]) fl e v enc ++
      match w fl e v enc with
      | Ok e' => wt_tuple ws' pl (S idx) fl e' vs' encs'
      | _ => []
      end
  | _, _, _ => []
  end.

(** heterogeneous.py:35-59, named_tuple.py:36-48 *)
Definition wt_hetero (ws : list (writer * wtracer)) : wtracer := fun pl fl e v enc =>
  if is_none v then []
  else
    match py_iter v with
    | Ok vs =>
        if fl_skip_empty fl && Nat.eqb (length vs) 0 then []
        else if negb (Nat.eqb (length vs) (length ws)) then []
        else match py_iter enc with Ok encs => wt_tuple ws pl 0 fl e vs encs | _ => [] end
    | _ => []
    end.

(** union.py:109-118 *)
Fixpoint wt_union (tp : proxy -> wtracer) (vs : list proxy) (pl : list locitem) (fl : flags) (e : elem) (v enc : val)
  : list wcall :=
  match vs with
  | [] => []
  | p :: vs' =>
      if match model_type v with Some c => String.eqb (px_model p) c | None => false end
      then tp p pl fl e v enc
      else wt_union tp vs' pl fl e v enc
  end.

(** tagged_union.py:69-84 *)
Definition wt_tagged (tp : proxy -> wtracer) (disc : string) (vs : list (string * proxy)) : wtracer := fun pl fl e v enc =>
  match enc with
  | VDict d =>
      match dget disc d with
      | Some (VStr t) =>
          if py_truthy (VStr t) then match dget t vs with Some p => tp p pl fl e v enc | None => [] end else []
      | _ => []
      end
  | _ => []
  end.

(** wrapper.py:58-59, the loop over the path; [t]: the calls made on the innermost element *)
Fixpoint wt_path (b : backend) (mode : smode) (nsm : option nsmap) (path : list string)
    (t : elem -> list wcall) (e : elem) : list wcall :=
  match path with
  | [] => t e
  | part :: rest =>
      match find_element_or_create b e part mode nsm with
      | (Found i, e') =>
          match nth_error (e_elems e') i with
          | Some c => wt_path b mode nsm rest t c
          | None => []
          end
      | (_, _) => []
      end
  end.

(** wrapper.py:42-65 *)
Definition wt_wrap (b : backend) (path : list string) (nsm : option nsmap) (mode : smode) (t : wtracer) : wtracer :=
  fun pl fl e v enc =>
  if is_none v then []
  else if fl_skip_empty fl && len_is_zero v then []
  else wt_path b mode nsm path (fun c => t pl fl c v enc) e.

(** factory model.py:180-194, the loop of [ModelSerializer.serialize] *)
Fixpoint wt_fields (w : ser -> writer) (t : ser -> wtracer) (cls : string) (m : mdef) (fs : list (string * ser))
    (pl : list locitem) (fl : flags) (e : elem) (v enc : val) : list wcall :=
  match fs with
  | [] => []
  | (name, s) :: fs' =>
      if str_in name (md_sexclude m) then wt_fields w t cls m fs' pl fl e v enc
      else
        match (if fl_exclude_unset fl then is_unset v name else Ok false) with
        | Ok true => wt_fields w t cls m fs' pl fl e v enc
        | Ok false =>
            match py_getattr v name with
            | Ok x =>
                match md_cser m name with
                | Some custom =>
                    WCall pl cls name v e x ::
                    match custom v e x with
                    | Ok e' => wt_fields w t cls m fs' pl fl e' v enc
                    | _ => []
                    end
                | None =>
                    match py_getitem enc name with
                    | Ok xe =>
                        t s (pl ++ [LKey name]) fl e x xe ++
                        match w s fl e x xe with
                        | Ok e' => wt_fields w t cls m fs' pl fl e' v enc
                        | _ => []
                        end
                    | _ => []
                    end
                end
            | _ => []
            end
        | _ => []
        end
  end.

(** factory model.py:164-196 and 297-323 *)
Definition wt_model (w : ser -> writer) (t : ser -> wtracer) (cls : string) (m : mdef) : wtracer := fun pl fl e v enc =>
  if is_none v then []
  else if md_root m then
    match (if fl_exclude_unset fl then is_unset v "root" else Ok false) with
    | Ok false =>
        match md_fields m with
        | (_, s) :: _ =>
            match py_getattr v "root" with
            | Ok x => t s (pl ++ [LKey "root"]) (with_skip_empty m fl) e x enc
            | _ => []
            end
        | [] => []
        end
    | _ => []
    end
  else wt_fields w t cls m (md_fields m) pl (with_skip_empty m fl) e v enc.

(** factory model.py:407-439 *)
Definition wt_proxy (ev : env) (w : ser -> writer) (t : ser -> wtracer) (p : proxy) : wtracer := fun pl fl e v enc =>
  match en_model ev (px_model p) with
  | None => []
  | Some m =>
      if is_none v then []
      else wt_model w t (px_model p) m pl fl (make_element (en_backend ev) (px_name p) (px_nsmap p)) v enc
  end.

(** dispatch on the serializer object, as [write_step]; what is not listed calls no user code *)
Definition wtrace_step (ev : env) (w : ser -> writer) (t : ser -> wtracer) (s : ser) : wtracer :=
  let b := en_backend ev in
  match s with
  | SHomo _ _ inner _ => wt_homo (w inner) (t inner)
  | SHetero _ _ inners _ => wt_hetero (map (fun i => (w i, t i)) inners)
  | SUnionPrim _ inner => t inner
  | SUnionModel _ _ variants _ => wt_union (wt_proxy ev w t) variants
  | STagged _ disc _ variants _ => wt_tagged (wt_proxy ev w t) disc variants
  | SWrap path nsm mode _ inner => wt_wrap b path nsm mode (t inner)
  | SProxy p => wt_proxy ev w t p
  | _ => fun _ _ _ _ _ => []
  end.

(** the calls made by [serializer.serialize(element, ...)], with the fuel of [write] *)
Fixpoint wtrace (n : nat) (ev : env) (s : ser) : wtracer :=
  match n with
  | O => fun _ _ _ _ _ => []
  | S n' => wtrace_step ev (write n' ev) (wtrace n' ev) s
  end.

(** model.py:307-333: the calls made by [value.to_xml_tree()] *)
Definition wcalls (n : nat) (ev : env) (encode : val -> val) (v : val) (fl : flags) : list wcall :=
  match model_type v with
  | None => []
  | Some cls =>
      match en_model ev cls with
      | None => []
      | Some m =>
          wt_model (write n ev) (wtrace n ev) cls m [] fl
            (new_elem (TName (md_elem_name m)) None None None [] (md_nsmap m) (-1)) v (encode v)
      end
  end.
