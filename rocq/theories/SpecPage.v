(** SpecPage.v -- what is read from a document, rule by rule.  Nothing here mentions the functions that read: no
    cursor, no indices, no snapshots, no bound on the depth.  A page is what is left to read of an element. *)

From Verif Require Import Base Elem Native Errs Names Ser SpecSim SpecOut SpecSub.

(** ---- pages ---- *)

(** text, tail and attributes that nobody has taken ([None]: all attributes have been taken at once), the children
    passed by, first to last, each with what is left of it, and the children ahead, not touched yet *)
Inductive page := Page {
  pg_text : option string;
  pg_tail : option string;
  pg_attrs : option (dict string);
  pg_passed : list (native * page);
  pg_ahead : list native
}.

Definition own_tail (d : native) : option string :=
  match d with NElem _ _ _ tail _ _ _ => tail | NComment _ tail => tail | NPI _ tail _ _ => tail end.

Definition own_children (d : native) : list native :=
  match d with NElem _ _ _ _ _ children _ => no_comments children | _ => [] end.

(** an element nobody has read from; comments do not count *)
Definition unopened (d : native) : page :=
  Page (own_text d) (own_tail d) (Some (own_attributes d)) [] (own_children d).

Definition named (tag : string) (d : native) : Prop :=
  match d with NElem t _ _ _ _ _ _ => t = tag | _ => False end.

(** an attribute of a page *)
Definition attribute (name : string) (p : page) : option string :=
  match pg_attrs p with Some d => dget name d | None => None end.

Definition drop_attribute (name : string) (p : page) : page :=
  Page (pg_text p) (pg_tail p) (match pg_attrs p with Some d => Some (ddel name d) | None => None end)
       (pg_passed p) (pg_ahead p).

Definition drop_attributes (p : page) : page :=
  Page (pg_text p) (pg_tail p) None (pg_passed p) (pg_ahead p).

Definition drop_text (p : page) : page :=
  Page None (pg_tail p) (pg_attrs p) (pg_passed p) (pg_ahead p).

(** nothing is left, white space aside *)
Definition no_words (t : option string) : Prop := match t with Some s => py_strip s = "" | None => True end.

Inductive bare : native -> Prop :=
| bare_intro : forall d, no_words (own_text d) -> no_words (own_tail d) -> own_attributes d = [] ->
    Forall bare (own_children d) -> bare d.

Inductive used_up : page -> Prop :=
| used_intro : forall p, no_words (pg_text p) -> no_words (pg_tail p) -> (pg_attrs p = None \/ pg_attrs p = Some []) ->
    Forall (fun c => used_up (snd c)) (pg_passed p) -> Forall bare (pg_ahead p) -> used_up p.

(** ---- looking for a child ---- *)

(** [seeks mode tag ahead skipped c rest]: of the children ahead, [c] is the one taken for [tag]; [skipped] are passed
    by on the way, [rest] stays ahead.  Out of order, the child taken changes places with the next one. *)
Inductive seeks : smode -> string -> list native -> list native -> native -> list native -> Prop :=
| sk_strict : forall tag c rest, named tag c -> seeks Strict tag (c :: rest) [] c rest
| sk_ordered : forall tag skipped c rest, Forall (fun k => ~ named tag k) skipped -> named tag c ->
    seeks Ordered tag (skipped ++ c :: rest) skipped c rest
| sk_next : forall tag c rest, named tag c -> seeks Unordered tag (c :: rest) [] c rest
| sk_later : forall tag k between c rest, ~ named tag k -> Forall (fun k => ~ named tag k) between -> named tag c ->
    seeks Unordered tag (k :: between ++ c :: rest) [] c (between ++ k :: rest).

(** no child ahead will do *)
Definition missing (mode : smode) (tag : string) (ahead : list native) : Prop :=
  match mode with
  | Strict => match ahead with c :: _ => ~ named tag c | [] => True end
  | Ordered | Unordered => Forall (fun k => ~ named tag k) ahead
  end.

(** the child [c] has been passed by, [left] is left of it *)
Definition pass (p : page) (skipped : list native) (c : native) (left : page) (rest : list native) : page :=
  Page (pg_text p) (pg_tail p) (pg_attrs p)
       (pg_passed p ++ map (fun k => (k, unopened k)) skipped ++ [(c, left)]) rest.

(** the child [c] has been looked at only *)
Definition peek (mode : smode) (p : page) (c : native) (rest : list native) : page :=
  match mode with
  | Unordered => Page (pg_text p) (pg_tail p) (pg_attrs p) (pg_passed p) (c :: rest)
  | _ => p
  end.

(** the child passed by last *)
Definition last_passed (p : page) (front : list (native * page)) (c : native) (left : page) : Prop :=
  pg_passed p = front ++ [(c, left)].

Definition reopen (p : page) (front : list (native * page)) (c : native) (left : page) : page :=
  Page (pg_text p) (pg_tail p) (pg_attrs p) (front ++ [(c, left)]) (pg_ahead p).

(** ---- what is answered ---- *)

(** one error of a ValidationError: where, of what type, what it says (line numbers aside) and about what *)
Record remark := Remark { rk_loc : location; rk_type : string; rk_text : string; rk_input : val }.

(** a value ([Got VNone]: nothing there), a ValidationError with a title and errors, or another exception that user code
    called by pydantic has raised *)
Inductive answer := Got (v : val) | Refused (title : string) (remarks : list remark) | Stopped (what : string).

(** a message without line numbers, and an error line as a remark *)
Fixpoint said (m : emsg) : string := match m with MText s => s | MLine _ m => said m end.
Definition remark_of (l : lerr) : remark := Remark (le_loc l) (le_type l) (said (le_msg l)) (le_input l).

(** remarks on a part are remarks on the whole, with the part in front of the location *)
Definition under (i : locitem) (r : remark) : remark := Remark (i :: rk_loc r) (rk_type r) (rk_text r) (rk_input r).

(** what is said about the items of a list, from number [i] on *)
Fixpoint numbered (i : nat) (l : list answer) : list remark :=
  match l with
  | [] => []
  | a :: l => match a with Refused _ rs => map (under (LIdx i)) rs | _ => [] end ++ numbered (S i) l
  end.

(** what is said about fields or variants, name by name *)
Definition under_names (d : list (string * list remark)) : list remark :=
  flat_map (fun kr => map (under (LKey (fst kr))) (snd kr)) d.

Definition refusals (l : list (string * answer)) : list (string * list remark) :=
  flat_map (fun ka => match snd ka with Refused _ rs => [(fst ka, rs)] | _ => [] end) l.

Definition refused (a : answer) : Prop := match a with Refused _ _ => True | _ => False end.
Definition goes_on (a : answer) : Prop := match a with Stopped _ => False | _ => True end.

(** what becomes of the whole when some parts are not accepted: it is refused with the remarks [rs] on all of them, but
    an exception ends everything *)
Inductive fails (title : string) (rs : list remark) (l : list answer) : answer -> Prop :=
| fl_refused : Exists refused l -> Forall goes_on l -> fails title rs l (Refused title rs)
| fl_stopped : forall w, In (Stopped w) l -> fails title rs l (Stopped w).

(** the text of a page as a value *)
Definition text_value (eas : bool) (t : option string) : val :=
  match t with
  | Some EmptyString | None => if eas then VStr "" else VNone
  | Some s => VStr s
  end.

(** a list without items is no list; neither is a tuple without values *)
Definition as_list (vs : list val) : val := match vs with [] => VNone | _ => VList vs end.
Inductive as_tuple : list val -> val -> Prop :=
| at_none : forall vs, Forall (fun v => v = VNone) vs -> as_tuple vs VNone
| at_some : forall vs, Exists (fun v => v <> VNone) vs -> as_tuple vs (VList vs).

(** what is left of a page, as remarks: text and tail, attributes, then the children one after the other *)
Definition words (t : option string) : list string :=
  match t with Some s => if String.eqb (py_strip s) "" then [] else [py_strip s] | None => [] end.
Definition extra (loc : location) (value : string) : remark :=
  Remark loc "extra_forbidden" "Extra inputs are not permitted" (VStr value).
Definition strays (loc : location) (text tail : option string) (attrs : dict string) : list remark :=
  map (extra loc) (words text) ++ map (extra loc) (words tail) ++
  map (fun kv => extra (loc ++ if String.eqb (fst kv) "" then [] else [LKey (String "@"%char (fst kv))]) (snd kv)) attrs.
Definition step_name (d : native) : locitem := LKey (match d with NElem t _ _ _ _ _ _ => t | _ => "?" end).

Fixpoint untouched (loc : location) (d : native) : list remark :=
  strays loc (own_text d) (own_tail d) (own_attributes d) ++
  match d with
  | NElem _ _ _ _ _ children _ =>
      flat_map (fun c => if is_xml_comment c then [] else untouched (loc ++ [step_name c]) c) children
  | _ => []
  end.

Fixpoint left_over (loc : location) (p : page) : list remark :=
  match p with
  | Page text tail attrs passed ahead =>
      strays loc text tail (match attrs with Some d => d | None => [] end) ++
      flat_map (fun c => left_over (loc ++ [step_name (fst c)]) (snd c)) passed ++
      flat_map (fun c => untouched (loc ++ [step_name c]) c) ahead
  end.

(** what pydantic makes of the input, once a class that forbids extra data has found none *)
Inductive judged (m : mdef) (p : page) (input : option val) : answer -> Prop :=
| jg_extra : md_forbid m = true -> ~ used_up p -> judged m p input (Refused (md_name m) (left_over [] p))
| jg_valid : forall v, (md_forbid m = true -> used_up p) -> md_validate m input = Valid v -> judged m p input (Got v)
| jg_invalid : forall err, (md_forbid m = true -> used_up p) -> md_validate m input = Invalid err ->
    judged m p input (Refused (ve_title err) (map remark_of (ve_lines err)))
| jg_crashed : forall w, (md_forbid m = true -> used_up p) -> md_validate m input = Crashed w -> judged m p input (Stopped w).

(** ---- scalars and mappings ---- *)

(** the text of an element; an element marked as nil has none, and its text stays *)
Inductive reads_text (eas : bool) : bool -> page -> val -> page -> Prop :=
| rt_plain : forall p, reads_text eas false p (text_value eas (pg_text p)) (drop_text p)
| rt_nil : forall p, attribute nil_attribute p = Some "true" ->
    reads_text eas true p VNone (drop_attribute nil_attribute p)
| rt_not_nil : forall p, attribute nil_attribute p <> Some "true" ->
    reads_text eas true p (text_value eas (pg_text p)) (drop_text (drop_attribute nil_attribute p)).

(** all attributes as a mapping; of a class with a namespace for attributes the keys are the local names *)
Inductive reads_attrs (x : attrs_ser) (p : page) : val -> Prop :=
| ra_taken : pg_attrs p = None -> reads_attrs x p VNone
| ra_mapping : forall d, pg_attrs p = Some d ->
    reads_attrs x p (VDict (dict_of (map (fun kv => (if as_namespaced x then q_tag (from_uri (fst kv)) else fst kv,
                                                     VStr (snd kv))) d))).

(** ---- the rules ---- *)

(** [reads ev eas s p a p']: the field bound by [s], reading the page [p], gets the answer [a] and leaves [p'] *)
Inductive reads (ev : env) (eas : bool) : ser -> page -> answer -> page -> Prop :=
| rd_computed : forall s p, computed ev s -> reads ev eas s p (Got VNone) p
| rd_text : forall nillable p v p', reads_text eas nillable p v p' -> reads ev eas (SText false nillable) p (Got v) p'
| rd_attr : forall name p,
    reads ev eas (SAttr name false) p
          (Got (match attribute name p with Some v => VStr v | None => VNone end)) (drop_attribute name p)
| rd_no_elem : forall name ns mode nillable p, missing mode name (pg_ahead p) ->
    reads ev eas (SElem name ns mode false nillable) p (Got VNone) p
| rd_elem : forall name ns mode nillable p skipped c rest v left, seeks mode name (pg_ahead p) skipped c rest ->
    reads_text eas nillable (unopened c) v left ->
    reads ev eas (SElem name ns mode false nillable) p (Got v) (pass p skipped c left rest)
| rd_attrs : forall x p v, as_computed x = false -> reads_attrs x p v -> reads ev eas (SAttrs x) p (Got v) (drop_attributes p)
| rd_no_map : forall name mode x p, as_computed x = false -> missing mode name (pg_ahead p) ->
    reads ev eas (SMapElem name mode x) p (Got VNone) p
| rd_map : forall name mode x p skipped c rest v, as_computed x = false -> seeks mode name (pg_ahead p) skipped c rest ->
    reads_attrs x (unopened c) v ->
    reads ev eas (SMapElem name mode x) p (Got v) (pass p skipped c (drop_attributes (unopened c)) rest)
| rd_list : forall title s hide p vs p', reads_items ev eas s p (map Got vs) p' ->
    reads ev eas (SHomo title false s hide) p (Got (as_list vs)) p'
| rd_bad_list : forall title s hide p answers a p', reads_items ev eas s p answers p' ->
    fails title (numbered 0 answers) answers a -> reads ev eas (SHomo title false s hide) p a p'
| rd_tuple : forall title ss hide p vs v p', reads_each ev eas ss p (map Got vs) p' ->
    as_tuple vs v -> reads ev eas (SHetero title false ss hide) p (Got v) p'
| rd_bad_tuple : forall title ss hide p answers a p', reads_each ev eas ss p answers p' ->
    fails title (numbered 0 answers) answers a -> reads ev eas (SHetero title false ss hide) p a p'
| rd_prim : forall s p a p', reads ev eas s p a p' -> reads ev eas (SUnionPrim false s) p a p'
| rd_union : forall title variants hide p a p', tries ev eas title variants p [] a p' ->
    reads ev eas (SUnionModel title false variants hide) p a p'
| rd_tagged : forall disc attr variants mode p a p', picks ev eas attr mode variants p a p' ->
    reads ev eas (STagged false disc attr variants mode) p a p'
| rd_wrap : forall path ns mode s p a p', path <> [] -> reads_in ev eas mode s path p a p' ->
    reads ev eas (SWrap path ns mode false s) p a p'
| rd_no_raw : forall name mode p, missing mode name (pg_ahead p) -> reads ev eas (SRaw name mode false) p (Got VNone) p
| rd_raw : forall name mode p skipped c rest x, seeks mode name (pg_ahead p) skipped c rest ->
    copied (en_backend ev) c x ->
    reads ev eas (SRaw name mode false) p (Got (VRaw x)) (pass p skipped c (Page None None None [] []) rest)
| rd_model : forall q p a p', reads_sub ev eas q p a p' -> reads ev eas (SProxy q) p a p'

(** the items of a list: as many as there are, good or bad *)
with reads_items (ev : env) (eas : bool) : ser -> page -> list answer -> page -> Prop :=
| ri_end : forall s p p', reads ev eas s p (Got VNone) p' -> reads_items ev eas s p [] p'
| ri_item : forall s p a p1 l p', reads ev eas s p a p1 -> a <> Got VNone -> goes_on a -> reads_items ev eas s p1 l p' ->
    reads_items ev eas s p (a :: l) p'
| ri_stop : forall s p w p', reads ev eas s p (Stopped w) p' -> reads_items ev eas s p [Stopped w] p'

(** the members of a tuple, in turn *)
with reads_each (ev : env) (eas : bool) : list ser -> page -> list answer -> page -> Prop :=
| re_end : forall p, reads_each ev eas [] p [] p
| re_member : forall s ss p a p1 l p', reads ev eas s p a p1 -> goes_on a -> reads_each ev eas ss p1 l p' ->
    reads_each ev eas (s :: ss) p (a :: l) p'
| re_stop : forall s ss p w p', reads ev eas s p (Stopped w) p' -> reads_each ev eas (s :: ss) p [Stopped w] p'

(** the models of a union, in turn, all from the same page.  The first that gives a value is taken; if there is none
    and some models have refused, so does the union, with what they have remarked ([noted], by their titles: of models
    with one title, the last one), and the next child is passed by. *)
with tries (ev : env) (eas : bool) : string -> list proxy -> page -> dict (list remark) -> answer -> page -> Prop :=
| tr_none : forall title p, tries ev eas title [] p [] (Got VNone) p
| tr_refused : forall title p noted c rest, noted <> [] -> pg_ahead p = c :: rest ->
    tries ev eas title [] p noted (Refused title (under_names noted)) (pass p [] c (unopened c) rest)
| tr_fits : forall title q qs p noted v p', reads_sub ev eas q p (Got v) p' -> v <> VNone ->
    tries ev eas title (q :: qs) p noted (Got v) p'
| tr_nothing : forall title q qs p noted p1 a p', reads_sub ev eas q p (Got VNone) p1 -> tries ev eas title qs p noted a p' ->
    tries ev eas title (q :: qs) p noted a p'
| tr_bad : forall title q qs p noted t rs p1 a p', reads_sub ev eas q p (Refused t rs) p1 ->
    tries ev eas title qs p (dset t rs noted) a p' -> tries ev eas title (q :: qs) p noted a p'
| tr_stop : forall title q qs p noted w p1, reads_sub ev eas q p (Stopped w) p1 -> tries ev eas title (q :: qs) p noted (Stopped w) p

(** the models of a discriminated union: the first whose element is there with its tag in the attribute [attr] *)
with picks (ev : env) (eas : bool) : string -> smode -> list (string * proxy) -> page -> answer -> page -> Prop :=
| pk_none : forall attr mode p, picks ev eas attr mode [] p (Got VNone) p
| pk_missing : forall attr mode tag q qs p a p', missing mode (px_name q) (pg_ahead p) ->
    picks ev eas attr mode qs p a p' -> picks ev eas attr mode ((tag, q) :: qs) p a p'
| pk_other : forall attr mode tag q qs p skipped c rest a p', seeks mode (px_name q) (pg_ahead p) skipped c rest ->
    dget attr (own_attributes c) <> Some tag -> picks ev eas attr mode qs (peek mode p c rest) a p' ->
    picks ev eas attr mode ((tag, q) :: qs) p a p'
| pk_match : forall attr mode tag q qs p skipped c rest a p', seeks mode (px_name q) (pg_ahead p) skipped c rest ->
    dget attr (own_attributes c) = Some tag -> reads_sub ev eas q (peek mode p c rest) a p' ->
    picks ev eas attr mode ((tag, q) :: qs) p a p'

(** inside a path of wrappers: a wrapper is the child passed by last, if that has the name, or else one ahead *)
with reads_in (ev : env) (eas : bool) : smode -> ser -> list string -> page -> answer -> page -> Prop :=
| in_here : forall mode s p a p', reads ev eas s p a p' -> reads_in ev eas mode s [] p a p'
| in_again : forall mode s tag path p front c left a left', last_passed p front c left -> named tag c ->
    reads_in ev eas mode s path left a left' ->
    reads_in ev eas mode s (tag :: path) p a (reopen p front c left')
| in_missing : forall mode s tag path p, (forall front c left, last_passed p front c left -> ~ named tag c) ->
    missing mode tag (pg_ahead p) -> reads_in ev eas mode s (tag :: path) p (Got VNone) p
| in_next : forall mode s tag path p skipped c rest a left, (forall front c left, last_passed p front c left -> ~ named tag c) ->
    seeks mode tag (pg_ahead p) skipped c rest -> reads_in ev eas mode s path (unopened c) a left ->
    reads_in ev eas mode s (tag :: path) p a (pass p skipped c left rest)

(** a sub-model in an element of its own; an element marked as nil has none *)
with reads_sub (ev : env) (eas : bool) : proxy -> page -> answer -> page -> Prop :=
| rs_computed : forall q m p, en_model ev (px_model q) = Some m -> px_computed q = true ->
    reads_sub ev eas q p (Got VNone) p
| rs_missing : forall q m p, en_model ev (px_model q) = Some m -> px_computed q = false ->
    missing (px_mode q) (px_name q) (pg_ahead p) -> reads_sub ev eas q p (Got VNone) p
| rs_nil : forall q m p skipped c rest, en_model ev (px_model q) = Some m -> px_computed q = false ->
    seeks (px_mode q) (px_name q) (pg_ahead p) skipped c rest -> attribute nil_attribute (unopened c) = Some "true" ->
    reads_sub ev eas q p (Got VNone) (pass p skipped c (drop_attribute nil_attribute (unopened c)) rest)
| rs_model : forall q m p skipped c rest a left, en_model ev (px_model q) = Some m -> px_computed q = false ->
    seeks (px_mode q) (px_name q) (pg_ahead p) skipped c rest -> attribute nil_attribute (unopened c) <> Some "true" ->
    reads_model ev eas m (drop_attribute nil_attribute (unopened c)) a left ->
    reads_sub ev eas q p a (pass p skipped c left rest)

(** the fields of a class, in turn *)
with reads_fields (ev : env) (eas : bool) : list (string * ser) -> page -> list answer -> page -> Prop :=
| rf_end : forall p, reads_fields ev eas [] p [] p
| rf_field : forall name s fs p a p1 l p', reads ev eas s p a p1 -> goes_on a -> reads_fields ev eas fs p1 l p' ->
    reads_fields ev eas ((name, s) :: fs) p (a :: l) p'
| rf_stop : forall name s fs p w p', reads ev eas s p (Stopped w) p' -> reads_fields ev eas ((name, s) :: fs) p [Stopped w] p'

(** an instance: pydantic is given what was found for the fields, None aside; for a root model, what was found for
    its root *)
with reads_model (ev : env) (eas : bool) : mdef -> page -> answer -> page -> Prop :=
| rm_fields : forall m p vs a p', md_root m = false -> reads_fields ev eas (md_fields m) p (map Got vs) p' ->
    judged m p' (Some (VDict (given m (combine (map fst (md_fields m)) vs)))) a -> reads_model ev eas m p a p'
| rm_bad_field : forall m p answers a p', md_root m = false -> reads_fields ev eas (md_fields m) p answers p' ->
    fails (md_name m) (under_names (dict_of (refusals (combine (map fst (md_fields m)) answers)))) answers a ->
    reads_model ev eas m p a p'
| rm_root : forall m p name s rest v a p', md_root m = true -> md_fields m = (name, s) :: rest ->
    reads ev eas s p (Got v) p' -> judged m p' (match v with VNone => None | _ => Some v end) a ->
    reads_model ev eas m p a p'
| rm_bad_root : forall m p name s rest t rs p', md_root m = true -> md_fields m = (name, s) :: rest ->
    reads ev eas s p (Refused t rs) p' -> reads_model ev eas m p (Refused (md_name m) rs) p'
| rm_stop_root : forall m p name s rest w p', md_root m = true -> md_fields m = (name, s) :: rest ->
    reads ev eas s p (Stopped w) p' -> reads_model ev eas m p (Stopped w) p'.

(** ---- the classes considered ---- *)

(** a wrapper has a path *)
Fixpoint has_paths (s : ser) : Prop :=
  match s with
  | SHomo _ _ s _ => has_paths s
  | SHetero _ _ l _ => fold_right (fun s P => has_paths s /\ P) True l
  | SUnionPrim _ s => has_paths s
  | SWrap path _ _ _ s => path <> [] /\ has_paths s
  | _ => True
  end.

(** no custom field validators, and every wrapper has a path *)
Definition plain_classes (ev : env) : Prop :=
  forall cls m, en_model ev cls = Some m ->
  (forall name, md_cval m name = None) /\ forall name s, In (name, s) (md_fields m) -> has_paths s.
