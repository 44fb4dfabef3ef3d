(** SpecErrors.v -- vocabulary for C81: what a ValidationError of from_xml says. *)

From Verif Require Import Base Elem Native Errs Names Ser Calls SpecCalls.

(** ---- where a location leads ---- *)

(** the title a union gives to the errors of a variant: the name of its class or the title pydantic gives them *)
Definition titled (m : mdef) (title : string) : Prop :=
  title = md_name m \/ exists input err, md_validate m input = Invalid err /\ ve_title err = title.

(** from the class (from a field declaration) the location leads to a class: by field names, by positions in lists and
    tuples and by titles in unions.  Wrappers, discriminated unions and root models have no part in it. *)
Inductive class_leads (ev : env) : string -> location -> string -> Prop :=
| cl_here : forall cls, class_leads ev cls [] cls
| cl_field : forall cls m name s l c, en_model ev cls = Some m -> md_root m = false -> In (name, s) (md_fields m) ->
    leads ev s l c -> class_leads ev cls (LKey name :: l) c
| cl_root : forall cls m name s rest l c, en_model ev cls = Some m -> md_root m = true -> md_fields m = (name, s) :: rest ->
    leads ev s l c -> class_leads ev cls l c
with leads (ev : env) : ser -> location -> string -> Prop :=
| l_model : forall p l c, class_leads ev (px_model p) l c -> leads ev (SProxy p) l c
| l_item : forall title comp s hide i l c, leads ev s l c -> leads ev (SHomo title comp s hide) (LIdx i :: l) c
| l_component : forall title comp ss hide i s l c, nth_error ss i = Some s -> leads ev s l c ->
    leads ev (SHetero title comp ss hide) (LIdx i :: l) c
| l_variant : forall title comp ps hide p m name l c, In p ps -> en_model ev (px_model p) = Some m -> titled m name ->
    class_leads ev (px_model p) l c -> leads ev (SUnionModel title comp ps hide) (LKey name :: l) c
| l_primitives : forall comp s l c, leads ev s l c -> leads ev (SUnionPrim comp s) l c
| l_tagged : forall comp disc attr tag p ps mode l c, In (tag, p) ps -> class_leads ev (px_model p) l c ->
    leads ev (STagged comp disc attr ps mode) l c
| l_wrapped : forall path ns mode comp s l c, leads ev s l c -> leads ev (SWrap path ns mode comp s) l c.

(** ---- what user code has to complain about ---- *)

(** the errors a call gives: those pydantic finds, or those of the ValidationError a field validator raises *)
Definition complaints (ev : env) (c : call) : list lerr :=
  match c with
  | CValidate cls input =>
      match en_model ev cls with
      | Some m => match md_validate m input with Invalid err => ve_lines err | _ => [] end
      | None => []
      end
  | CField cls field e =>
      match en_model ev cls with
      | Some m =>
          match md_cval m field with
          | Some f => match fst (f e) with Raise (XValidation err) => ve_lines err | _ => [] end
          | None => []
          end
      | None => []
      end
  end.

(** all of them, call by call, each with the call that gives it *)
Definition all_complaints (ev : env) (cs : list call) : list (call * lerr) :=
  flat_map (fun c => map (pair c) (complaints ev c)) cs.

(** the call has succeeded *)
Definition accepted (ev : env) (c : call) : Prop :=
  exists a v, answers ev c a /\ (a = AVerdict (Valid v) \/ exists e, a = AField (Ok v) e).

(** the error line [l] passes on what the call has complained about: at the place of the class (and the field)
    in the data, with pydantic's text behind a line number *)
Definition passes_on (to : location -> string -> Prop) (cl : call * lerr) (l : lerr) : Prop :=
  let (c, l0) := cl in
  le_type l = le_type l0 /\ le_input l = le_input l0 /\
  match c with
  | CValidate cls _ => exists place line, to place cls /\ le_loc l = place ++ le_loc l0 /\ le_msg l = MLine line (le_msg l0)
  | CField cls field _ => exists place, to place cls /\ le_loc l = place ++ LKey field :: le_loc l0 /\ le_msg l = le_msg l0
  end.

(** the error line [l] reports unbound data found by a class with extra='forbid' *)
Definition reports_extra (ev : env) (to : location -> string -> Prop) (l : lerr) : Prop :=
  exists place cls m line inside, to place cls /\ en_model ev cls = Some m /\ md_forbid m = true /\
    le_type l = "extra_forbidden" /\ le_loc l = place ++ inside /\ le_msg l = MLine line (MText "Extra inputs are not permitted").

(** the error lines pass on the complaints, each once and in their order; other lines report unbound data *)
Inductive tells (ev : env) (to : location -> string -> Prop) : list (call * lerr) -> list lerr -> Prop :=
| tells_nil : tells ev to [] []
| tells_complaint : forall cl l cls ls, passes_on to cl l -> tells ev to cls ls -> tells ev to (cl :: cls) (l :: ls)
| tells_extra : forall l cls ls, reports_extra ev to l -> tells ev to cls ls -> tells ev to cls (l :: ls).

(** no class has a union of several models that is not discriminated *)
Definition no_unions (ev : env) : Prop :=
  forall cls m, en_model ev cls = Some m -> Forall (fun nf => unions_upto 0 (snd nf)) (md_fields m).
