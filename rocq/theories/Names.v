(** Names.v -- model of utils.py (QName, merge_nsmaps, register_nsmap, select_ns), config.py and
    the class parameter inheritance of model.py. *)

From Verif Require Import Base Elem Native Errs.

(** utils.py:16-26 [QName] *)
Record qname := QName { q_tag : string; q_ns : option string }.

(** "." of a regular expression stops at a newline *)
Fixpoint take_line (s : string) : string :=
  match s with
  | EmptyString => EmptyString
  | String c s' => if Ascii.eqb c "010"%char then EmptyString else String c (take_line s')
  end.

(** split at the last occurrence of [ch] *)
Fixpoint split_last (ch : ascii) (s : string) : option (string * string) :=
  match s with
  | EmptyString => None
  | String c s' =>
      match split_last ch s' with
      | Some (a, b) => Some (String c a, b)
      | None => if Ascii.eqb c ch then Some (EmptyString, s') else None
      end
  end.

(** utils.py:28-40 [QName.from_uri]: an optional greedy group in braces followed by the rest of
    the line.  The first group is greedy, so the namespace extends to the last brace closing on
    the first line. *)
Definition from_uri (uri : string) : qname :=
  let line := take_line uri in
  match line with
  | String c rest =>
      if Ascii.eqb c "{"%char then
        match split_last "}"%char rest with
        | Some (ns, tag) => QName tag (Some ns)
        | None => QName line None
        end
      else QName line None
  | EmptyString => QName line None
  end.

(** Python truthiness of an optional nsmap *)
Definition nsmap_truthy (m : option nsmap) : bool := dict_truthy m.

Definition nsmap_get (m : option nsmap) (k : string) : option string :=
  match m with None => None | Some d => dget k d end.

(** utils.py:42-65 [QName.from_alias] *)
Definition from_alias (tag : string) (ns : option string) (m : option nsmap) (is_attr : bool)
  : out qname :=
  if negb is_attr || (match ns with Some _ => true | None => false end) then
    match ns with
    | None => Ok (QName tag (if nsmap_truthy m then nsmap_get m "" else None))
    | Some a =>
        if nsmap_truthy m then
          match nsmap_get m a with
          | Some u => Ok (QName tag (Some u))
          | None => Raise XModelError
          end
        else Ok (QName tag None)
    end
  else Ok (QName tag ns).

(** utils.py:67-69 [QName.uri] *)
Definition uri (q : qname) : string :=
  match q_ns q with
  | Some ns => if String.eqb ns "" then q_tag q
               else ("{" ++ ns ++ "}" ++ q_tag q)%string
  | None => q_tag q
  end.

(** utils.py:75-83 [merge_nsmaps]: [ChainMap] of the non-empty maps.  The model is the plain
    dict with the same items in the same (ChainMap) iteration order: the maps are applied from
    the last to the first, so the first map has priority. *)
Definition merge_nsmaps (maps : list (option nsmap)) : nsmap :=
  fold_left (fun d m => match m with Some m' => dupdate d m' | None => d end) (rev maps) [].

(** utils.py:100-105 [select_ns] *)
Fixpoint select_ns (nss : list (option string)) : option string :=
  match nss with
  | [] => None
  | Some ns :: _ => Some ns
  | None :: rest => select_ns rest
  end.

Definition is_digit (c : ascii) : bool :=
  let n := N_of_ascii c in ((48 <=? n) && (n <=? 57))%N.

(** digits, then the end of the string or a final newline ("$") *)
Fixpoint digits_end (s : string) : bool :=
  match s with
  | EmptyString => true
  | String c s' =>
      if is_digit c then digits_end s'
      else Ascii.eqb c "010"%char && String.eqb s' ""
  end.

(** utils.py:92, re.match(r"ns\d+$", prefix); \d on code points 0..255 is 0-9 *)
Definition reserved_prefix (p : string) : bool :=
  match p with
  | String c1 (String c2 (String c3 rest)) =>
      Ascii.eqb c1 "n"%char && Ascii.eqb c2 "s"%char && is_digit c3 && digits_end rest
  | _ => false
  end.

(** utils.py:86-93 [register_nsmap]: the calls of etree.register_namespace, in order *)
Definition register_nsmap (m : nsmap) : list (string * string) :=
  filter (fun kv => negb (String.eqb (fst kv) "") && negb (reserved_prefix (fst kv))) m.

Definition str_in (s : string) (l : list string) : bool := existsb (String.eqb s) l.

(** config.py:4-15 [strtobool] *)
Definition strtobool (v : string) : out bool :=
  let v := py_lower v in
  if str_in v ["y"; "yes"; "t"; "true"; "on"; "1"] then Ok true
  else if str_in v ["n"; "no"; "f"; "false"; "off"; "0"] then Ok false
  else Raise XValueError.

(** model.py:154-159: the class attributes __xml_tag__ ... __xml_search_mode__ *)
Record cparams := CParams {
  c_tag : option string; c_ns : option string; c_nsmap : option nsmap;
  c_ns_attrs : bool; c_skip_empty : option bool; c_mode : smode
}.

(** the keyword arguments of one class statement *)
Record cdecl := CDecl {
  d_tag : option string; d_ns : option string; d_nsmap : option nsmap;
  d_ns_attrs : option bool; d_skip_empty : option bool; d_mode : option smode
}.

Definition or_else {A} (a b : option A) : option A :=
  match a with Some _ => a | None => b end.

Definition default {A} (d : A) (o : option A) : A := match o with Some x => x | None => d end.

(** model.py:165-201 [BaseXmlModel.__init_subclass__].  [base] is what [getattr] finds: the
    parameters of the first model class in the MRO ([None]: a direct subclass of BaseXmlModel). *)
Definition init_subclass (base : option cparams) (d : cdecl) : cparams :=
  {| c_tag := or_else (d_tag d) (match base with Some b => c_tag b | None => None end);
     c_ns := or_else (d_ns d) (match base with Some b => c_ns b | None => None end);
     c_ns_attrs := default (match base with Some b => c_ns_attrs b | None => false end) (d_ns_attrs d);
     c_skip_empty := or_else (d_skip_empty d) (match base with Some b => c_skip_empty b | None => None end);
     c_mode := default (match base with Some b => c_mode b | None => Strict end) (d_mode d);
     c_nsmap :=
       let parent := match base with Some b => c_nsmap b | None => None end in
       match parent with
       | Some pm => if nsmap_truthy parent
                    then Some (dupdate pm (match d_nsmap d with Some m => m | None => [] end))
                    else d_nsmap d
       | None => d_nsmap d
       end |}.

(** a chain of class statements, most basic class first *)
Definition class_chain (ds : list cdecl) : option cparams :=
  fold_left (fun base d => Some (init_subclass base d)) ds None.
