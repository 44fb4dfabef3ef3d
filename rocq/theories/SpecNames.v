(** SpecNames.v -- what name resolution, class parameters and field annotations should do. *)

From Verif Require Import Base Elem Native Errs Names Fields.

(** the character [c] occurs in [s] *)
Definition occurs (c : ascii) (s : string) : Prop := exists a b, s = (a ++ String c b)%string.

Definition newline : ascii := "010"%char.

(** a tag as XML allows it: no closing brace and no line break *)
Definition plain_tag (s : string) : Prop := ~ occurs "}"%char s /\ ~ occurs newline s.

(** a namespace name: not empty, no line break *)
Definition plain_ns (s : string) : Prop := s <> "" /\ ~ occurs newline s.

(** [m] declares [u] for the prefix [p] *)
Definition declares (m : option nsmap) (p u : string) : Prop :=
  exists d, m = Some d /\ dget p d = Some u.

Definition declares_nothing (m : option nsmap) : Prop := m = None \/ m = Some [].

(** the namespace an entity with alias [ns] gets *)
Inductive resolves (m : option nsmap) : bool -> option string -> option string -> Prop :=
| res_alias : forall is_attr a u, declares m a u -> resolves m is_attr (Some a) (Some u)
| res_alias_no_map : forall is_attr a, declares_nothing m -> resolves m is_attr (Some a) None
| res_default : forall u, declares m "" u -> resolves m false None (Some u)
| res_no_default : (forall u, ~ declares m "" u) -> resolves m false None None
| res_attr : resolves m true None None.

(** [first_of f l x]: [x] is what the first item of [l] having an [f] says *)
Inductive first_of {A B} (f : A -> option B) : list A -> B -> Prop :=
| first_here : forall a l b, f a = Some b -> first_of f (a :: l) b
| first_later : forall a l b, f a = None -> first_of f l b -> first_of f (a :: l) b.

(** [last_of f l x]: [x] is what the last item of [l] having an [f] says *)
Inductive last_of {A B} (f : A -> option B) : list A -> B -> Prop :=
| last_here : forall a l b, f a = Some b -> Forall (fun x => f x = None) l -> last_of f (a :: l) b
| last_later : forall a l b, last_of f l b -> last_of f (a :: l) b.

(** exactly: the result [o] is the last item's word, or nothing if no item has one *)
Definition is_last {A B} (f : A -> option B) (l : list A) (o : option B) : Prop :=
  match o with Some b => last_of f l b | None => Forall (fun x => f x = None) l end.

Definition is_first {A B} (f : A -> option B) (l : list A) (o : option B) : Prop :=
  match o with Some b => first_of f l b | None => Forall (fun x => f x = None) l end.

(** what an optional namespace map says about a prefix *)
Definition says (p : string) (m : option nsmap) : option string :=
  match m with Some d => dget p d | None => None end.

(** two annotations that no later code can tell apart: equal up to the order of namespace map
    entries *)
Definition same_info (a b : einfo) : Prop :=
  ei_location a = ei_location b /\ ei_path a = ei_path b /\ ei_ns a = ei_ns b /\
  (forall p, says p (ei_nsmap a) = says p (ei_nsmap b)) /\
  (ei_nsmap a = None <-> ei_nsmap b = None) /\
  ei_nillable a = ei_nillable b /\ ei_wrapped a = ei_wrapped b.

(** a decimal digit *)
Definition digit_char (c : ascii) : Prop :=
  In c ["0"; "1"; "2"; "3"; "4"; "5"; "6"; "7"; "8"; "9"]%char.

Inductive digits : string -> Prop :=
| digits_nil : digits ""
| digits_cons : forall c s, digit_char c -> digits s -> digits (String c s).

(** prefixes of the form ns<digits>; Python's [$] also matches before one final line break *)
Definition ns_number (p : string) : Prop :=
  exists c ds, digit_char c /\ digits ds /\
    (p = ("ns" ++ String c ds)%string \/ p = ("ns" ++ String c (ds ++ String newline ""))%string).

(** equal up to the case of ASCII letters *)
Definition upper_of (u l : ascii) : Prop :=
  (65 <= N_of_ascii u <= 90 /\ N_of_ascii l = N_of_ascii u + 32)%N.

Inductive same_letters : string -> string -> Prop :=
| same_nil : same_letters "" ""
| same_cons : forall a b s t, a = b \/ upper_of a b \/ upper_of b a -> same_letters s t ->
    same_letters (String a s) (String b t).

(** a parameter of the class a chain of class statements ends in (none for BaseXmlModel itself) *)
Definition chain_get {B} (f : cparams -> option B) (o : option cparams) : option B :=
  match o with Some p => f p | None => None end.

(** the namespace map of an annotation is a Python dict: one entry per prefix *)
Definition good_map (i : einfo) : Prop :=
  match ei_nsmap i with Some m => NoDup (dkeys m) | None => True end.
