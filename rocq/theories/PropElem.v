(** PropElem.v -- C01-C04, C09, C11, C12: searching, consuming and the extra check. *)

From Verif Require Import Base Elem Native Errs Names Ser Read SpecElem SpecRead
  PfElem PfUnbound PfField PfExtra.

(** C01.  A field bound to the element [tag] in strict mode: the next unread child is taken if
    it is called [tag]; otherwise the field is absent and the element is untouched. *)
Theorem C01_strict_search : forall ev tag s n eas loc st0 r st1,
  bound_to ev tag Strict s -> read n ev s eas loc st0 = (r, st1) -> r <> Fuel ->
  let e := st_el st0 in let e' := st_el st1 in
  match unread e with
  | c :: rest =>
      (called tag c -> exists c', passed e' = passed e ++ [c'] /\ unread e' = rest /\
                                  same_shell e e' /\ value_of_child s eas c r c') /\
      (~ called tag c -> r = Ok VNone /\ e' = e)
  | [] => r = Ok VNone /\ e' = e
  end.
Proof. exact strict_field. Qed.

(** C02.  Ordered mode: the first child ahead called [tag] is taken, the ones before it are
    passed over; if there is none, the field is absent and the element is untouched. *)
Theorem C02_ordered_search : forall ev tag s n eas loc st0 r st1,
  bound_to ev tag Ordered s -> read n ev s eas loc st0 = (r, st1) -> r <> Fuel ->
  let e := st_el st0 in let e' := st_el st1 in
  (Forall (fun x => ~ called tag x) (unread e) /\ r = Ok VNone /\ e' = e) \/
  (exists skip c rest c', unread e = skip ++ c :: rest /\ called tag c /\
     Forall (fun x => ~ called tag x) skip /\
     passed e' = passed e ++ skip ++ [c'] /\ unread e' = rest /\ same_shell e e' /\
     value_of_child s eas c r c').
Proof. exact ordered_field. Qed.

(** C03.  Unordered mode: the first remaining child called [tag] is taken, wherever it is, and
    all other remaining children stay available. *)
Theorem C03_unordered_search : forall ev tag s n eas loc st0 r st1,
  bound_to ev tag Unordered s -> read n ev s eas loc st0 = (r, st1) -> r <> Fuel ->
  let e := st_el st0 in let e' := st_el st1 in
  (Forall (fun x => ~ called tag x) (unread e) /\ r = Ok VNone /\ e' = e) \/
  (exists skip c rest c', unread e = skip ++ c :: rest /\ called tag c /\
     Forall (fun x => ~ called tag x) skip /\
     passed e' = passed e ++ [c'] /\ Permutation (unread e') (skip ++ rest) /\ same_shell e e' /\
     value_of_child s eas c r c').
Proof. exact unordered_field. Qed.

(** C04.  Over any history of takes in any mix of modes, the children handed out are different
    members of the unread children of the original element. *)
Theorem C04_no_child_taken_twice : forall evs e hs e', history evs e = (hs, e') ->
  exists others, Permutation (hs ++ others) (unread e).
Proof. exact history_distinct. Qed.

(** C09.  Text, one attribute and all attributes are consumed by the first read, and nothing
    else changes. *)
Theorem C09_text_consumed_once : forall e,
  fst (pop_text e) = e_text e /\ fst (pop_text (snd (pop_text e))) = None /\
  e_tail (snd (pop_text e)) = e_tail e /\ e_attrib (snd (pop_text e)) = e_attrib e /\
  e_elems (snd (pop_text e)) = e_elems e /\ e_next (snd (pop_text e)) = e_next e /\
  e_tag (snd (pop_text e)) = e_tag e.
Proof. exact pop_text_once. Qed.

Theorem C09_attribute_consumed_once : forall e k, attrs_unique e ->
  let (v, e') := pop_attrib k e in
  v = attr_of e k /\ attr_of e' k = None /\ fst (pop_attrib k e') = None /\
  (forall k', k' <> k -> attr_of e' k' = attr_of e k') /\
  e_text e' = e_text e /\ e_tail e' = e_tail e /\ e_elems e' = e_elems e /\
  e_next e' = e_next e /\ e_tag e' = e_tag e /\ attrs_unique e'.
Proof. exact pop_attrib_once. Qed.

(** C11.  A document accepted by a model without extra='forbid' is accepted by the same model
    with extra='forbid' iff no text, tail or attribute was left over; otherwise there is
    exactly one error line per left-over datum. *)
Theorem C11_forbid_exact : forall r m eas loc s v s', md_forbid m = true ->
  read_model r (no_forbid m) eas loc s = (Ok v, s') ->
  exists ps, NoDup ps /\ (forall idxs p, In (idxs, p) ps <-> loose_in (st_el s') idxs p) /\
    (ps = [] -> read_model r m eas loc s = (Ok v, s')) /\
    (ps <> [] -> exists lines,
       read_model r m eas loc s = (Raise (XValidation (VErr (md_name m) lines (md_hide m))), s') /\
       Forall2 (extra_line (st_el s')) ps lines).
Proof. exact forbid_exact. Qed.

(** and it never accepts anything the unrestricted model rejects *)
Theorem C11_forbid_accepts_no_more : forall r m eas loc s v s',
  read_model r m eas loc s = (Ok v, s') -> read_model r (no_forbid m) eas loc s = (Ok v, s').
Proof. exact forbid_never_accepts_more. Qed.

(** C12.  A child without any left-over datum inside is invisible to the check. *)
Theorem C12_forbid_ignores_empty_unknown : forall e c l1 l2,
  (forall idxs path d p a v, reach c idxs path d -> ~ loose_at d p a v) ->
  get_unbound [] (set_elems (l1 ++ c :: l2) e) = get_unbound [] (set_elems (l1 ++ l2) e).
Proof. exact insert_silent_child. Qed.

(** ---- concrete instances ---- *)

Definition leaf (tag text : string) : elem := new_elem (TName tag) (Some text) None (Some []) [] None 1.
Definition doc3 : elem :=
  new_elem (TName "r") None None (Some [("k", "v")]) [leaf "a" "1"; leaf "b" "2"; leaf "a" "3"] None 1.
Definition noenv : env := Env Lxml (fun _ => None).

Example C01_instance :
  bound_to noenv "a" Strict (SElem "a" None Strict false false) /\
  fst (read 5 noenv (SElem "a" None Strict false false) false [] (St doc3 [])) = Ok (VStr "1") /\
  fst (read 5 noenv (SElem "b" None Strict false false) false [] (St doc3 [])) = Ok VNone.
Proof. split; [constructor|split; reflexivity]. Qed.

Example C02_instance :
  bound_to noenv "b" Ordered (SElem "b" None Ordered false false) /\
  (let (r, s) := read 5 noenv (SElem "b" None Ordered false false) false [] (St doc3 []) in
   r = Ok (VStr "2") /\ fst (read 5 noenv (SElem "a" None Ordered false false) false [] s) = Ok (VStr "3")).
Proof. split; [constructor|split; reflexivity]. Qed.

Example C03_instance :
  bound_to noenv "b" Unordered (SElem "b" None Unordered false false) /\
  (let (r, s) := read 5 noenv (SElem "b" None Unordered false false) false [] (St doc3 []) in
   r = Ok (VStr "2") /\ fst (read 5 noenv (SElem "a" None Unordered false false) false [] s) = Ok (VStr "1")).
Proof. split; [constructor|split; reflexivity]. Qed.

Example C04_instance :
  map e_text (fst (history [Take "b" Unordered; Change 0 doc3; Take "a" Ordered; Take "a" Strict] doc3))
  = [Some "2"; Some "1"; Some "3"].
Proof. reflexivity. Qed.

Example C09_instance : attrs_unique doc3 /\ fst (pop_attrib "k" doc3) = Some "v".
Proof. split; [repeat constructor; simpl; tauto|reflexivity]. Qed.

Definition one_field_model (forbid : bool) : mdef :=
  MDef "M" false "r" None [("a", SElem "a" None Strict false false)] [] [] false forbid None
       (fun _ => None) (fun _ => None) (fun _ => Valid (VInt 0)).

Example C11_instance :
  md_forbid (one_field_model true) = true /\
  fst (read_model (read 5 noenv) (no_forbid (one_field_model true)) false [] (St doc3 [])) = Ok (VInt 0) /\
  exists lines, fst (read_model (read 5 noenv) (one_field_model true) false [] (St doc3 [])) =
                Raise (XValidation (VErr "M" lines false)) /\
                map le_loc lines = [[LKey "@k"]; [LKey "b"]; [LKey "a"]].
Proof. split; [auto|split; [reflexivity|]]. eexists; split; reflexivity. Qed.

Example C12_instance :
  fst (read_model (read 5 noenv) (one_field_model true) false []
        (St (new_elem (TName "r") None None (Some []) [leaf "a" "1"; leaf "zz" " "] None 1) [])) = Ok (VInt 0).
Proof. reflexivity. Qed.

Print Assumptions C01_strict_search.
Print Assumptions C02_ordered_search.
Print Assumptions C03_unordered_search.
Print Assumptions C04_no_child_taken_twice.
Print Assumptions C09_text_consumed_once.
Print Assumptions C09_attribute_consumed_once.
Print Assumptions C11_forbid_exact.
Print Assumptions C11_forbid_accepts_no_more.
Print Assumptions C12_forbid_ignores_empty_unknown.
