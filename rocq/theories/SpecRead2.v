(** SpecRead2.v -- vocabulary for composite fields: wrapped fields, collections, tuples, unions, error
    reports and error lines. *)

From Verif Require Import Base Elem Native Errs Names Ser Read SpecElem SpecRead SpecSim.

(** ---- wrapped fields ---- *)

(** [goes_into tag m before h after]: entering the wrapper element [tag], on (children passed,
    children ahead): the element just passed if it is called [tag] (the one a preceding field has
    entered), else the one the search mode takes *)
Inductive goes_into (tag : string) (m : smode) :
    list elem * list elem -> option elem -> list elem * list elem -> Prop :=
| go_again : forall p c u, called tag c -> goes_into tag m (p ++ [c], u) (Some c) (p ++ [c], u)
| go_on : forall p u h after, (forall q c, p = q ++ [c] -> ~ called tag c) ->
    takes tag m (p, u) h after -> goes_into tag m (p, u) h after.

(** [through path m inner e r e']: a value is read from the element reached from [e] by the segments
    [path]; [inner c r c'] says what reading that element gives.  If a segment is missing, the value
    is absent and nothing is read. *)
Inductive through (m : smode) (inner : elem -> out val -> elem -> Prop) : list string -> elem -> out val -> elem -> Prop :=
| th_end : forall e r e', inner e r e' -> through m inner [] e r e'
| th_missing : forall tag path e, goes_into tag m (passed e, unread e) None (passed e, unread e) ->
    through m inner (tag :: path) e (Ok VNone) e
| th_inside : forall tag path e c before ahead r c' e',
    goes_into tag m (passed e, unread e) (Some c) (before ++ [c], ahead) ->
    through m inner path c r c' ->
    same_shell e e' -> passed e' = before ++ [c'] -> unread e' = ahead ->
    through m inner (tag :: path) e r e'.

(** ---- collections, tuples, models: all errors are reported ---- *)

(** the error lines of [e], each location prefixed by [k] *)
Definition lines_under (k : locitem) (e : verr) : list lerr :=
  map (fun l => LErr (le_type l) (le_msg l) (k :: le_loc l) (le_input l)) (ve_lines e).

(** the error lines of a list of outcomes, each prefixed by its key, in order *)
Fixpoint lines_of (os : list (locitem * out val)) : list lerr :=
  match os with
  | [] => []
  | (k, Raise (XValidation e)) :: os' => lines_under k e ++ lines_of os'
  | _ :: os' => lines_of os'
  end.

(** the outcome is an error (there may be errors without lines) *)
Definition failed (o : out val) : Prop := exists e, o = Raise (XValidation e).

(** outcomes of the items numbered from [i] on: [r] is called for each until it yields no value *)
Inductive item_outcomes (r : reader) (eas : bool) (loc : location) : nat -> st -> list (locitem * out val) -> st -> Prop :=
| io_end : forall i s s', r eas (loc ++ [LIdx i]) s = (Ok VNone, s') -> item_outcomes r eas loc i s [] s'
| io_value : forall i s v s1 os s', r eas (loc ++ [LIdx i]) s = (Ok v, s1) -> v <> VNone ->
    item_outcomes r eas loc (S i) s1 os s' -> item_outcomes r eas loc i s ((LIdx i, Ok v) :: os) s'
| io_error : forall i s e s1 os s', r eas (loc ++ [LIdx i]) s = (Raise (XValidation e), s1) ->
    item_outcomes r eas loc (S i) s1 os s' ->
    item_outcomes r eas loc i s ((LIdx i, Raise (XValidation e)) :: os) s'.

(** outcomes of the components of a tuple, one reader each *)
Inductive component_outcomes (eas : bool) (loc : location) : nat -> list reader -> st -> list (locitem * out val) -> st -> Prop :=
| co_end : forall i s, component_outcomes eas loc i [] s [] s
| co_next : forall i r rs s o s1 os s', r eas (loc ++ [LIdx i]) s = (o, s1) ->
    (exists v, o = Ok v) \/ failed o ->
    component_outcomes eas loc (S i) rs s1 os s' -> component_outcomes eas loc i (r :: rs) s ((LIdx i, o) :: os) s'.

(** outcomes of the fields of a model: each field is read by its user validator, if it has one, or by [r] *)
Inductive field_outcomes (r : ser -> reader) (m : mdef) (eas : bool) : list (string * ser) -> st -> list (locitem * out val) -> st -> Prop :=
| fo_end : forall s, field_outcomes r m eas [] s [] s
| fo_next : forall name f fs s o s1 os s',
    match md_cval m name with
    | Some g => run_custom g (note_line [LKey name] s)
    | None => r f eas [LKey name] (note_line [LKey name] s)
    end = (o, s1) ->
    (exists v, o = Ok v) \/ failed o ->
    field_outcomes r m eas fs s1 os s' -> field_outcomes r m eas ((name, f) :: fs) s ((LKey name, o) :: os) s'.

(** the values among outcomes *)
Fixpoint values_of (os : list (locitem * out val)) : list val :=
  match os with
  | [] => []
  | (_, Ok v) :: os' => v :: values_of os'
  | _ :: os' => values_of os'
  end.

(** the value of a collection field: absent if it has no items *)
Definition list_value (l : list val) : val := match l with [] => VNone | _ => VList l end.

(** what pydantic is given for a model: the values of the fields that have one, by alias or name *)
Fixpoint given (m : mdef) (os : list (locitem * out val)) : list (string * val) :=
  match os with
  | (LKey name, Ok v) :: os' =>
      match v with
      | VNone => given m os'
      | _ => (match dget name (md_valias m) with Some a => a | None => name end, v) :: given m os'
      end
  | _ :: os' => given m os'
  | [] => []
  end.

(** [reports os good title hide o]: the outcome [o] is [good] if nothing failed, else one
    ValidationError with the lines of all failures and nothing else *)
Definition reports (os : list (locitem * out val)) (good : out val) (title : string) (hide : bool) (o : out val) : Prop :=
  (Forall (fun ko => ~ failed (snd ko)) os /\ o = good) \/
  (Exists (fun ko => failed (snd ko)) os /\ o = Raise (XValidation (VErr title (lines_of os) hide))).

(** no exception other than a ValidationError *)
Definition orderly (o : out val) : Prop := match o with Ok _ | Raise (XValidation _) => True | _ => False end.

(** ---- collections of plain values ---- *)

(** the children an element list named [tag] consists of: in strict mode the run at the read
    position, otherwise all of them *)
Fixpoint items_ahead (m : smode) (tag : string) (u : list elem) : list elem :=
  match u with
  | [] => []
  | c :: u' =>
      if tag_is (e_tag c) tag then c :: items_ahead m tag u'
      else match m with Strict => [] | _ => items_ahead m tag u' end
  end.

(** [texts eas cs ts]: the texts of the elements [cs]; an element without text ends the list, or
    counts as the empty string under empty_as_string *)
Inductive texts (eas : bool) : list elem -> list string -> Prop :=
| tx_end : texts eas [] []
| tx_stop : forall c cs, eas = false -> e_text c = None \/ e_text c = Some "" -> texts eas (c :: cs) []
| tx_blank : forall c cs ts, eas = true -> e_text c = None \/ e_text c = Some "" -> texts eas cs ts ->
    texts eas (c :: cs) ("" :: ts)
| tx_next : forall c cs t ts, e_text c = Some t -> t <> "" -> texts eas cs ts -> texts eas (c :: cs) (t :: ts).

(** ---- unions ---- *)

(** reading a sub-model variant on its own, from the element [e] *)
Definition variant_alone (n : nat) (ev : env) (eas : bool) (loc : location) (p : proxy) (e : elem) : out val * elem :=
  let (o, s) := read n ev (SProxy p) eas loc (St e []) in (o, st_el s).

(** the variant, on its own, finds nothing or fails *)
Definition unfit (n : nat) (ev : env) (eas : bool) (loc : location) (e : elem) (p : proxy) : Prop :=
  fst (variant_alone n ev eas loc p e) = Ok VNone \/ failed (fst (variant_alone n ev eas loc p e)).

(** the outcomes of all variants, each on its own *)
Definition alone_all (n : nat) (ev : env) (eas : bool) (loc : location) (e : elem) (vs : list proxy) : list (out val) :=
  map (fun p => fst (variant_alone n ev eas loc p e)) vs.

(** the variants that failed, in order: title and error *)
Fixpoint failures (os : list (out val)) : list verr :=
  match os with
  | [] => []
  | Raise (XValidation e) :: os' => e :: failures os'
  | _ :: os' => failures os'
  end.

(** ---- discriminated unions ---- *)

(** [peeks tag m e h e1]: looking for the next element called [tag] without taking it; in
    unordered mode the element found is moved to the read position *)
Inductive peeks (tag : string) (m : smode) (e : elem) : option elem -> elem -> Prop :=
| pk_none : forall after, takes tag m (passed e, unread e) None after -> peeks tag m e None e
| pk_some : forall c after, m <> Unordered -> takes tag m (passed e, unread e) (Some c) after -> peeks tag m e (Some c) e
| pk_moved : forall c after e1 rest, m = Unordered -> takes tag m (passed e, unread e) (Some c) after ->
    same_shell e e1 -> passed e1 = passed e -> unread e1 = c :: rest -> Permutation (c :: rest) (unread e) ->
    peeks tag m e (Some c) e1.

(** [dispatches attr m vs e r e1]: [r] is the first variant whose next element carries its
    discriminator value in the attribute [attr], and that element *)
Inductive dispatches (attr : string) (m : smode) : list (string * proxy) -> elem -> option (proxy * elem) -> elem -> Prop :=
| di_none : forall e, dispatches attr m [] e None e
| di_hit : forall tag p vs e c e1, peeks (px_name p) m e (Some c) e1 -> attr_of c attr = Some tag ->
    dispatches attr m ((tag, p) :: vs) e (Some (p, c)) e1
| di_miss : forall tag p vs e h e1 r e2, peeks (px_name p) m e h e1 ->
    (forall c, h = Some c -> attr_of c attr <> Some tag) ->
    dispatches attr m vs e1 r e2 -> dispatches attr m ((tag, p) :: vs) e r e2.

(** ---- error lines ---- *)

(** [recorded sm loc z]: the line recorded last for the location *)
Definition recorded (sm : smap) (loc : location) (z : Z) : Prop :=
  exists older newer, sm = newer ++ (loc, z) :: older /\ ~ In loc (map fst newer).

(** [useful sm loc z]: a real line number is recorded for the location *)
Definition useful (sm : smap) (loc : location) (z : Z) : Prop := recorded sm loc z /\ z <> (-1)%Z.

(** the line reported for an error at [loc]: that of the longest non-empty prefix with a useful line *)
Definition reported (sm : smap) (loc : location) (z : Z) : Prop :=
  (exists pre post, loc = pre ++ post /\ pre <> [] /\ useful sm pre z /\
     forall more rest z', post = more ++ rest -> more <> [] -> ~ useful sm (pre ++ more) z') \/
  ((forall pre post z', loc = pre ++ post -> pre <> [] -> ~ useful sm pre z') /\ z = (-1)%Z).

(** [line_in e z]: [z] is the line of the element or of one of its descendants *)
Inductive line_in : elem -> Z -> Prop :=
| li_here : forall e, line_in e (e_line e)
| li_below : forall e c z, In c (e_elems e) -> line_in c z -> line_in e z.

(** user validators put no elements with other lines into the document *)
Definition keeps_lines (ev : env) : Prop :=
  forall cls m name f, en_model ev cls = Some m -> md_cval m name = Some f ->
  forall e z, line_in (snd (f e)) z -> line_in e z.

(** [reaches ev s cls]: reading [s] may read an instance of the model class [cls], at any depth *)
Inductive reaches (ev : env) : ser -> string -> Prop :=
| rc_homo : forall t c s h cls, reaches ev s cls -> reaches ev (SHomo t c s h) cls
| rc_hetero : forall t c l h s cls, In s l -> reaches ev s cls -> reaches ev (SHetero t c l h) cls
| rc_uprim : forall c s cls, reaches ev s cls -> reaches ev (SUnionPrim c s) cls
| rc_umodel : forall t c vs h p cls, In p vs -> reaches ev (SProxy p) cls -> reaches ev (SUnionModel t c vs h) cls
| rc_tagged : forall c d a vs m tag p cls, In (tag, p) vs -> reaches ev (SProxy p) cls -> reaches ev (STagged c d a vs m) cls
| rc_wrap : forall p ns m c s cls, reaches ev s cls -> reaches ev (SWrap p ns m c s) cls
| rc_model : forall p, reaches ev (SProxy p) (px_model p)
| rc_field : forall p m name s cls, en_model ev (px_model p) = Some m -> In (name, s) (md_fields m) ->
    reaches ev s cls -> reaches ev (SProxy p) cls.

(** no model read inside [s] has a field called [name] *)
Definition name_unused (ev : env) (name : string) (s : ser) : Prop :=
  forall cls m, reaches ev s cls -> en_model ev cls = Some m -> ~ In name (map fst (md_fields m)).

(** the class of a sub-model field is not a root model *)
Definition not_root (ev : env) (s : ser) : Prop :=
  match s with SProxy p => forall m, en_model ev (px_model p) = Some m -> md_root m = false | _ => True end.
