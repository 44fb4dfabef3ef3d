(** Fields.v -- model of fields.py: field annotations and their merging. *)

From Verif Require Import Base Elem Native Errs Names.

(** typedefs.py:8-15 [EntityLocation] *)
Inductive eloc := LocElement | LocAttribute | LocWrapped.

(** fields.py:47-58 [XmlEntityInfo] (also ComputedXmlEntityInfo, 223-236) *)
Inductive einfo := EInfo {
  ei_location : option eloc;
  ei_path : option string;
  ei_ns : option string;
  ei_nsmap : option nsmap;
  ei_nillable : option bool;
  ei_wrapped : option einfo
}.

Definition empty_info : einfo := EInfo None None None None None None.

(** fields.py:73-85, one iteration of the loop in [XmlEntityInfo.merge] *)
Definition merge_step (acc i : einfo) : einfo :=
  EInfo (or_else (ei_location i) (ei_location acc))
        (or_else (ei_path i) (ei_path acc))
        (or_else (ei_ns i) (ei_ns acc))
        (match ei_nsmap i with
         | Some m => Some (merge_nsmaps [Some m; ei_nsmap acc])
         | None => ei_nsmap acc
         end)
        (or_else (ei_nillable i) (ei_nillable acc))
        (or_else (ei_wrapped i) (ei_wrapped acc)).

(** fields.py:64-94 [XmlEntityInfo.merge] *)
Definition merge_infos (l : list einfo) : einfo := fold_left merge_step l empty_info.

(** an item of [FieldInfo.metadata]: an XmlEntityInfo, the NoXml marker, or anything else *)
Inductive meta := MetaInfo (i : einfo) | MetaNoXml | MetaOther (s : string).

Definition infos_of (l : list meta) : list einfo :=
  flat_map (fun m => match m with MetaInfo i => [i] | _ => [] end) l.

(** fields.py:97-104 [extract_field_xml_entity_info] *)
Definition extract_info (l : list meta) : option einfo :=
  match infos_of l with
  | [] => None
  | is_ => Some (merge_infos is_)
  end.

(** fields.py:120-145 [attr] (metadata only; the other keyword arguments go to pydantic) *)
Definition attr (name ns : option string) : list meta :=
  [MetaInfo (EInfo (Some LocAttribute) name ns None None None)].

(** fields.py:148-177 [element] *)
Definition element (tag ns : option string) (m : option nsmap) (nillable : option bool) : list meta :=
  [MetaInfo (EInfo (Some LocElement) tag ns m nillable None)].

(** fields.py:180-220 [wrapped].  Simplification: [merge_field_infos] is taken to keep the
    remaining metadata of the inner field. *)
Definition wrapped (path : string) (entity : option (list meta)) (ns : option string)
    (m : option nsmap) : list meta :=
  match entity with
  | None => [MetaInfo (EInfo (Some LocWrapped) (Some path) ns m None None)]
  | Some inner =>
      filter (fun x => match x with MetaInfo _ => false | _ => true end) inner ++
      [MetaInfo (EInfo (Some LocWrapped) (Some path) ns m None (extract_info inner))]
  end.
