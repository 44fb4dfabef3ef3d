(** SpecHeap3.v -- what the theorems about writing over references are stated with. *)

From Verif Require Import Base Elem Native Errs Names Ser Write Api Heap SpecHeap HeapRead HeapRead2 HeapWrite.

(** the nsmaps of a serializer object and of a model class *)
Fixpoint ser_maps (s : ser) : list nsmap :=
  match s with
  | SText _ _ | SAttr _ _ | SAttrs _ | SRaw _ _ _ => []
  | SElem _ nsm _ _ _ => opt_list nsm
  | SMapElem _ _ a => opt_list (as_nsmap a)
  | SHomo _ _ inner _ | SUnionPrim _ inner => ser_maps inner
  | SHetero _ _ inners _ => flat_map ser_maps inners
  | SUnionModel _ _ variants _ => flat_map (fun p => opt_list (px_nsmap p)) variants
  | STagged _ _ _ variants _ => flat_map (fun tp => opt_list (px_nsmap (snd tp))) variants
  | SWrap _ nsm _ _ inner => opt_list nsm ++ ser_maps inner
  | SProxy p => opt_list (px_nsmap p)
  end.

Definition model_maps (m : mdef) : list nsmap :=
  opt_list (md_nsmap m) ++ flat_map (fun f => ser_maps (snd f)) (md_fields m).

(** [maps] covers every nsmap of every model class *)
Definition covers (maps : list nsmap) (ev : env) : Prop :=
  forall cls m, en_model ev cls = Some m -> incl (model_maps m) maps.

(** the nsmaps are on the heap, where [nsr] says *)
Definition placed (nsr : nsmap -> ref) (maps : list nsmap) (h : heap) : Prop :=
  forall m, In m maps -> nth_error h (nsr m) = Some (ODict m).

(** [m] does on the element at [a] what [f] does on trees, or raises the same exception; only the
    element's own parts change, and none of the nsmap dicts at [X] becomes one of them *)
Definition writes (X : list ref) (m : ref -> wm unit) (f : elem -> out elem) (h : heap) : Prop :=
  forall a e F N, tree h a e F N -> (forall x, In x X -> ~ In x F) ->
  exists h',
    match f e with
    | Ok e' =>
        m a h = (Ok tt, h') /\
        exists F' N', tree h' a e' F' N' /\ from_or_new F h F' /\ from_or_new (X ++ F ++ N) h N'
    | Raise x => m a h = (Raise x, h')
    | Fuel => m a h = (Fuel, h')
    end /\ only_changes F h h'.

(** a heap writer does what a tree writer does, on every heap that holds the nsmaps *)
Definition writes_as (nsr : nsmap -> ref) (maps : list nsmap) (hw : hwriter) (w : writer) : Prop :=
  forall fl v enc h, placed nsr maps h ->
  writes (map nsr maps) (fun a => hw fl a v enc) (fun e => w fl e v enc) h.

(** the two models are given the same custom field serializers *)
Definition custom_sers_as (nsr : nsmap -> ref) (maps : list nsmap) (hc : hcsers) (ev : env) : Prop :=
  forall cls m name, en_model ev cls = Some m ->
  match hc cls name, md_cser m name with
  | Some hf, Some f =>
      forall v x h, placed nsr maps h -> writes (map nsr maps) (fun a => hf v a x) (fun e => f v e x) h
  | None, None => True
  | _, _ => False
  end.

(** a call a program makes: read a tree into a class, or write a model; and its outcome *)
Inductive call :=
| CallRead (cls : string) (root : native) (eas : bool)
| CallWrite (v : val) (fl : flags).

Inductive outcome := Read (o : out val) | Written (o : out native).

(** a program that makes calls one after the other, on the heap earlier calls left *)
Fixpoint run_calls (nsr : nsmap -> ref) (n : nat) (ev : env) (hv : hcvals) (hs : hcsers) (encode : val -> val)
    (cs : list call) (h : heap) : list outcome * heap :=
  match cs with
  | [] => ([], h)
  | CallRead cls root eas :: cs' =>
      let (o, h1) := h_from_xml_tree n ev hv cls root eas h in
      let (os, h2) := run_calls nsr n ev hv hs encode cs' h1 in
      (Read o :: os, h2)
  | CallWrite v fl :: cs' =>
      let (o, h1) := h_to_xml_tree nsr n ev hs encode v fl h in
      let (os, h2) := run_calls nsr n ev hv hs encode cs' h1 in
      (Written o :: os, h2)
  end.

(** what one call gives on its own, with no heap at all *)
Definition alone (n : nat) (ev : env) (encode : val -> val) (c : call) : outcome :=
  match c with
  | CallRead cls root eas => Read (from_xml_tree n ev cls root eas)
  | CallWrite v fl => Written (to_xml_tree n ev encode v fl)
  end.
