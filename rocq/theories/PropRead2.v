(** PropRead2.v -- C28, C29, C30, C32, C34, C40, C41, C42: composite fields, error reports, error lines. *)

From Verif Require Import Base Elem Native Errs Names Ser Write Read Api SpecElem SpecRead SpecSim SpecRead2
  Samples PfElem PfField PfExtra PfSafe PfSim PfRead2 PfRead3 PfMap PfMore PropRead.

(** C28.  A wrapped field is read from the element its path leads to; a missing segment makes it
    absent. *)
Theorem C28_wrapped_reads_path : forall n ev path ns m s eas loc st0 r st1, path <> [] -> in_bounds (st_el st0) ->
  read (S n) ev (SWrap path ns m false s) eas loc st0 = (r, st1) ->
  through m (fun c r c' => exists sm sm', read n ev s eas loc (St c sm) = (r, St c' sm')) path (st_el st0) r (st_el st1).
Proof. intros. eapply wrap_reads_path; eauto. Qed.

(** <root><a><b>1</b></a><a><c>2</c></a></root>: the second field stays in the [a] the first one
    entered; a missing segment *)
Definition two_as : elem := from_native Lxml
  (el "root" [] "" [el "a" [] "" [el "b" [] "1" []]; el "a" [] "" [el "c" [] "2" []]]).
Example C28_ex :
  let leaf t := SElem t None Ordered false false in
  let rd path t st := read 3 (lib Lxml Ordered) (SWrap path None Ordered false (leaf t)) false [] st in
  fst (rd ["a"] "b" (St two_as [])) = Ok (VStr "1") /\
  fst (rd ["a"] "c" (snd (rd ["a"] "b" (St two_as [])))) = Ok VNone /\
  fst (rd ["a"; "x"] "b" (St two_as [])) = Ok VNone.
Proof. vm_compute. auto. Qed.

(** C29.  A collection of primitive elements yields the texts of its elements in document order
    (counting from the read position; only the adjacent ones in strict mode), up to the first one
    without text. *)
Theorem C29_list_of_texts : forall n ev title tag ns m hide eas loc st0 o st1,
  read n ev (SHomo title false (SElem tag ns m false false) hide) eas loc st0 = (o, st1) -> o <> Fuel ->
  exists ts, texts eas (items_ahead m tag (unread (st_el st0))) ts /\ o = Ok (list_value (map VStr ts)).
Proof. intros. eapply prim_list; eauto. Qed.

(** ... and whatever the items are, they are read one after the other until one is absent *)
Theorem C29_until_absent : forall n ev title s hide eas loc st0 o st1,
  read (S n) ev (SHomo title false s hide) eas loc st0 = (o, st1) -> orderly o ->
  exists os, item_outcomes (read n ev s) eas loc 0 st0 os st1 /\
    (forall v, o = Ok v -> v = list_value (values_of os)).
Proof.
  intros n ev title s hide eas loc st0 o st1 H Ho. destruct (@homo_report _ _ _ _ _ _ _ _ _ _ H Ho) as (os & A & B). exists os. split; auto.
  intros v ->. destruct B as [[_ E]|[_ E]]; congruence.
Qed.

(** the limits: an empty element cuts the list although further elements follow *)
Example C29_ex_cut :
  let doc := from_native Lxml (el "r" [] "" [el "a" [] "1" []; el "a" [] "" []; el "a" [] "3" []]) in
  fst (read 9 (lib Lxml Strict) (SHomo "R" false (SElem "a" None Strict false false) false) false [] (St doc [])) =
    Ok (VList [VStr "1"]).
Proof. reflexivity. Qed.

(** class Mixed(search_mode='unordered'): a: str = element(); b: List[str] = element() *)
Definition mixed : env := Env Lxml (fun c => if String.eqb c "Mixed" then Some (plain_model "Mixed" "mixed"
  [("a", SElem "a" None Unordered false false);
   ("b", SHomo "Mixed" false (SElem "b" None Unordered false false) false)] ["a"; "b"]) else None).

(** in unordered mode the items of a collection may come out in another order than in the document *)
Theorem C29_document_order_refuted : exists ev cls root n,
  (exists x y z, root = el "mixed" [] "" [el "b" [] x []; el "b" [] y []; el "a" [] z []] /\ x <> y) /\
  from_xml_tree n ev cls root false = Ok (VModel cls [("a", VStr "z"); ("b", VList [VStr "y"; VStr "x"])] ["a"; "b"]) /\
  root = el "mixed" [] "" [el "b" [] "x" []; el "b" [] "y" []; el "a" [] "z" []].
Proof.
  exists mixed, "Mixed", (el "mixed" [] "" [el "b" [] "x" []; el "b" [] "y" []; el "a" [] "z" []]), 9.
  split; [exists "x", "y", "z"; split; [reflexivity|discriminate]|]. split; vm_compute; reflexivity.
Qed.

(** C30.  All failing items are reported, each under its index, and nothing else: lists, tuples, and
    the fields of a model under their names. *)
Theorem C30_list_reports_all : forall n ev title s hide eas loc st0 o st1,
  read (S n) ev (SHomo title false s hide) eas loc st0 = (o, st1) -> orderly o ->
  exists os, item_outcomes (read n ev s) eas loc 0 st0 os st1 /\
    reports os (Ok (list_value (values_of os))) title hide o.
Proof. exact homo_report. Qed.

Theorem C30_tuple_reports_all : forall n ev title l hide eas loc st0 o st1,
  read (S n) ev (SHetero title false l hide) eas loc st0 = (o, st1) -> orderly o ->
  exists os, component_outcomes eas loc 0 (map (read n ev) l) st0 os st1 /\
    reports os (Ok (if forallb is_none (values_of os) then VNone else VList (values_of os))) title hide o.
Proof. exact hetero_report. Qed.

(** C31.  A tuple that was read has one item per component, each the one its component read in its
    position (None where it found nothing). *)
Theorem C31_read_tuples_fit : forall n ev title l hide eas loc st0 vs st1,
  read (S n) ev (SHetero title false l hide) eas loc st0 = (Ok (VList vs), st1) ->
  length vs = length l /\
  exists os, component_outcomes eas loc 0 (map (read n ev) l) st0 os st1 /\ map snd os = map Ok vs.
Proof.
  intros n ev title l hide eas loc st0 vs st1 H. destruct (@hetero_report _ _ _ _ _ _ _ _ _ _ H I) as (os & A & [[F E]|[_ E]]); [|discriminate].
  destruct (forallb is_none (values_of os)); [discriminate|]. injection E as ->.
  assert (M : map snd os = map Ok (values_of os)).
  { clear - A F. revert A F. generalize (map (read n ev) l). intros rs A. induction A as [|i r rs s o s1 os s' E Ho A IH]; intros F; simpl; auto.
    inversion F as [|? ? Fo F']; subst. simpl in Fo. destruct Ho as [[v ->]|Ho]; [|contradiction]. simpl. f_equal; auto. }
  split; eauto. rewrite <- (map_length (@Ok val)), <- M, map_length. clear - A.
  replace (length l) with (length (map (read n ev) l)) by apply map_length. induction A; simpl; auto.
Qed.

Example C31_ex_read : fst (read 9 (lib Lxml Strict) (SHetero "T" false [SElem "a" None Strict false false; SElem "b" None Strict false false; SElem "c" None Strict false false] false)
    false [] (St (from_native Lxml (el "r" [] "" [el "a" [] "1" []; el "c" [] "3" []])) [])) = Ok (VList [VStr "1"; VNone; VStr "3"]).
Proof. reflexivity. Qed.

Theorem C30_model_reports_all : forall n ev m eas loc s o s', md_root m = false -> NoDup (map fst (md_fields m)) ->
  read_model (read n ev) m eas loc s = (o, s') -> orderly o ->
  exists os, field_outcomes (read n ev) m eas (md_fields m) s os s' /\
    reports os (validate_result m (Some (VDict (dict_of (given m os)))) s') (md_name m) (md_hide m) o.
Proof. intros n ev. exact (@model_report (read n ev)). Qed.

(** ... in particular from_xml_tree *)
Theorem C30_from_xml_reports_all : forall n ev cls m root eas o, en_model ev cls = Some m -> md_root m = false ->
  NoDup (map fst (md_fields m)) -> native_tag root = TName (md_elem_name m) ->
  from_xml_tree n ev cls root eas = o -> orderly o ->
  exists os s', field_outcomes (read n ev) m eas (md_fields m) (St (from_native (en_backend ev) root) []) os s' /\
    reports os (validate_result m (Some (VDict (dict_of (given m os)))) s') (md_name m) (md_hide m) o.
Proof.
  intros n ev cls m root eas o Hm Hr Hn Ht H Ho. unfold from_xml_tree in H. rewrite Hm, Ht in H. simpl in H.
  rewrite String.eqb_refl in H.
  destruct (read_model (read n ev) m eas [] (St (from_native (en_backend ev) root) [])) as [o' s'] eqn:E.
  simpl in H; subst o'. destruct (@model_report (read n ev) m eas [] _ o s' Hr Hn E Ho) as (os & A & B). eauto.
Qed.

(** A root model passes on the error of its root field: every line unchanged (no location component is
    added), under the root model's own title. *)
Theorem C30_root_model_reports_all : forall n ev m name s fs eas loc st0 o st1,
  md_root m = true -> md_fields m = (name, s) :: fs -> read_model (read n ev) m eas loc st0 = (o, st1) ->
  exists inner, read n ev s eas loc st0 = (inner, st1) /\
    match inner with
    | Ok v => o = validate_result m (if is_none v then None else Some v) st1
    | Raise (XValidation err) => o = Raise (XValidation (VErr (md_name m) (ve_lines err) (md_hide m)))
    | Raise x => o = Raise x
    | Fuel => o = Fuel
    end.
Proof. intros n ev. exact (@root_report (read n ev)). Qed.

(** class Nodes(RootXmlModel[List[Node]], tag='nodes') *)
Definition nodes_env : env := Env Lxml (fun c =>
  if String.eqb c "Nodes" then Some (MDef "Nodes" true "nodes" None
    [("root", SHomo "Nodes" false (SProxy (sub "Node" "node" Strict)) false)] [] [] false false None
    (fun _ => None) (fun _ => None) (accepts "Nodes" []))
  else en_model (lib Lxml Strict) c).
Example C30_ex_root :
  match from_xml_tree 9 nodes_env "Nodes" (el "nodes" [] "" [el "node" [] "" []; el "node" [] "" [el "value" [] "1" []]; el "node" [] "" []]) false with
  | Raise (XValidation err) => ve_title err = "Nodes" /\
      map le_loc (ve_lines err) = [[LIdx 0; LKey "value"]; [LIdx 2; LKey "value"]]
  | _ => False
  end.
Proof. vm_compute. auto. Qed.

(** two of three child nodes lack their value *)
Definition two_bad_doc : native :=
  el "node" [] "" [el "value" [] "10" []; el "node" [] "" []; el "node" [] "" [el "value" [] "1" []]; el "node" [] "" []].
Example C30_ex : exists err, from_xml_tree 9 (lib Lxml Strict) "Node" two_bad_doc false = Raise (XValidation err) /\
  map le_loc (ve_lines err) = [[LKey "children"; LIdx 0; LKey "value"]; [LKey "children"; LIdx 2; LKey "value"]].
Proof. eexists. split; vm_compute; reflexivity. Qed.

(** C32.  A union of models: some first variants find nothing or fail, and then either the next one
    fits, with its value and exactly the element state it would have produced alone; or it raises
    something else; or all variants found nothing; or one ValidationError carries the errors of all
    the failing variants, each under its class name (titles assumed distinct), and the read position
    moves on by one. *)
Theorem C32_first_fitting_variant : forall n ev title vs hide eas loc st0 o st1,
  read (S n) ev (SUnionModel title false vs hide) eas loc st0 = (o, st1) -> o <> Fuel ->
  let alone p := variant_alone (S n) ev eas loc p (st_el st0) in
  let fails := failures (alone_all (S n) ev eas loc (st_el st0) vs) in
  exists tried rest, vs = tried ++ rest /\ Forall (unfit (S n) ev eas loc (st_el st0)) tried /\
  ((exists p rest' v, rest = p :: rest' /\ v <> VNone /\ o = Ok v /\ alone p = (Ok v, st_el st1)) \/
   (exists p rest' x, rest = p :: rest' /\ (forall e, x <> XValidation e) /\ o = Raise x /\
      fst (alone p) = Raise x /\ st_el st1 = st_el st0) \/
   (rest = [] /\ fails = [] /\ o = Ok VNone /\ st_el st1 = st_el st0) \/
   (rest = [] /\ fails <> [] /\ st_el st1 = step_forward (st_el st0) /\
      exists err, o = Raise (XValidation err) /\ ve_title err = title /\ ve_hide err = hide /\
        (NoDup (map ve_title fails) ->
         Forall2 same_lerr (ve_lines err) (flat_map (fun f => lines_under (LKey (ve_title f)) f) fails)))).
Proof.
  intros n ev title vs hide eas loc st0 o st1 H Ho. cbn [read read_step] in H. unfold read_union_model in H.
  destruct (@variants_report n ev title hide eas loc vs [] [] st0 o st1 H Ho (Forall2_nil _)) as (tried & rest & E & F & C).
  exists tried, rest. split; auto. split; auto. destruct C as [C|[C|[C|C]]]; auto.
  - right; right; left. tauto.
  - right; right; right. destruct C as (C1 & [C2|C2] & C3 & C4); [congruence|]. auto.
Qed.

(** the limit: two variants whose classes have the same name; the error of the first is lost *)
Definition twins : env := Env Lxml (fun c =>
  if String.eqb c "m1.Item" then Some (MDef "Item" false "item" None [("a", SAttr "a" false)] [] [] false false None
    (fun _ => None) (fun _ => None) (accepts "Item" ["a"]))
  else if String.eqb c "m2.Item" then Some (MDef "Item" false "item" None [("b", SAttr "b" false)] [] [] false false None
    (fun _ => None) (fun _ => None) (accepts "Item" ["b"]))
  else None).
Theorem C32_same_class_names_refuted : exists ev vs e err,
  fst (read 5 ev (SUnionModel "U" false vs false) false [] (St e [])) = Raise (XValidation err) /\
  length (failures (alone_all 5 ev false [] e vs)) = 2 /\
  Forall (fun f => length (ve_lines f) = 1) (failures (alone_all 5 ev false [] e vs)) /\
  length (ve_lines err) = 1.
Proof.
  exists twins, [sub "m1.Item" "item" Strict; sub "m2.Item" "item" Strict],
    (from_native Lxml (el "r" [] "" [el "item" [] "" []])).
  eexists. split; [vm_compute; reflexivity|]. split; [vm_compute; reflexivity|]. split; [|vm_compute; reflexivity].
  vm_compute. repeat constructor.
Qed.

Example C32_ex :
  let u := SUnionModel "U" false [sub "Circle" "shape" Strict; sub "Square" "shape" Strict] false in
  let doc cs := from_native Lxml (el "r" [] "" [el "shape" [] "" cs]) in
  fst (read 5 (lib Lxml Strict) u false [] (St (doc [el "a" [] "2" []]) [])) = Ok (VModel "Square" [("a", VStr "2")] ["a"]) /\
  exists err, fst (read 5 (lib Lxml Strict) u false [] (St (doc []) [])) = Raise (XValidation err) /\
    map le_loc (ve_lines err) = [[LKey "Circle"; LKey "r"]; [LKey "Square"; LKey "a"]].
Proof. split; [vm_compute; reflexivity|]. eexists. split; vm_compute; reflexivity. Qed.

(** C34.  A discriminated union looks, for each variant, at the next element of the variant's name;
    the first variant whose discriminator value that element carries is read, as if it were the type
    of the field.  If there is none the field is absent, *)
Theorem C34_dispatches_on_attribute : forall n ev disc attr vs m eas loc st0 o st1,
  read (S n) ev (STagged false disc attr vs m) eas loc st0 = (o, st1) ->
  exists r e1, dispatches attr m vs (st_el st0) r e1 /\
    match r with
    | None => o = Ok VNone /\ st_el st1 = e1
    | Some (p, _) => same_out o (fst (variant_alone (S n) ev eas loc p e1)) /\
                     (o <> Fuel -> st_el st1 = snd (variant_alone (S n) ev eas loc p e1))
    end.
Proof. exact tagged_reads. Qed.

(** ... looking consumes nothing (in unordered mode it may reorder the unread children), *)
Theorem C34_looking_consumes_nothing : forall attr m vs e r e1, dispatches attr m vs e r e1 ->
  same_shell e e1 /\ passed e1 = passed e /\ Permutation (unread e1) (unread e) /\ (m <> Unordered -> e1 = e).
Proof. exact dispatches_keeps. Qed.

(** ... the element looked at is the one the variant will take, *)
Theorem C34_variant_takes_the_element : forall attr m vs e p c e1, dispatches attr m vs e (Some (p, c)) e1 ->
  exists tag after, In (tag, p) vs /\ attr_of c attr = Some tag /\ takes (px_name p) m (passed e1, unread e1) (Some c) after.
Proof. exact dispatches_hit. Qed.

(** ... and if all variants share one element name, the attribute of the next such element decides *)
Theorem C34_shared_name : forall attr m t vs e r e1, dispatches attr m vs e r e1 ->
  Forall (fun kv => px_name (snd kv) = t) vs ->
  forall c after, takes t m (passed e, unread e) (Some c) after ->
  r = match attr_of c attr with
      | Some tag => match dget tag vs with Some p => Some (p, c) | None => None end
      | None => None
      end.
Proof. exact dispatches_shared. Qed.

(** on output the encoded discriminator selects the variant; an unknown one raises KeyError, a
    missing or empty one writes nothing.  Every other value, which no variant has as its tag, writes
    nothing if it is false, zero or empty and raises KeyError, or TypeError if it cannot be the key
    of a dict, if not. *)
Theorem C34_output_selected_by_discriminator : forall n ev c disc attr vs m fl e v d,
  write (S n) ev (STagged c disc attr vs m) fl e v (VDict d) =
  match dget disc d with
  | None | Some VNone => Ok e
  | Some (VStr "") => Ok e
  | Some (VStr t) =>
      match dget t vs with
      | Some p => write (S n) ev (SProxy p) fl e v (VDict d)
      | None => Raise XKeyError
      end
  | Some (VBool false) | Some (VInt 0) | Some (VOther _ (Some 0)) | Some (VList []) | Some (VDict []) => Ok e
  | Some (VRaw (NElem _ _ _ _ _ [] _)) | Some (VRaw (NComment _ _)) | Some (VRaw (NPI _ _ _ _)) => Ok e
  | Some (VList (_ :: _)) | Some (VDict (_ :: _)) => Raise XTypeError
  | Some _ => Raise XKeyError
  end.
Proof.
  intros n ev c disc attr vs m fl e v d. cbn [write write_step]. unfold write_tagged.
  destruct (dget disc d) as [tag|] eqn:E; [|reflexivity].
  destruct tag as [|b|z|s|r l|l|d'|cls fs st|nt]; try reflexivity.
  - destruct z; reflexivity.
  - destruct s; reflexivity.
  - destruct l as [[|k]|]; reflexivity.
  - destruct l; reflexivity.
  - destruct d'; reflexivity.
  - destruct nt as [? ? ? ? ? cs ?| |]; try reflexivity. destruct cs; reflexivity.
Qed.

(** class Dog(tag='pet'): kind: Literal['dog'] = attr(); ... *)
Definition pets (m : smode) : env := Env Lxml (fun c =>
  if String.eqb c "Dog" then Some (plain_model "Dog" "pet" [("kind", SAttr "kind" false); ("bark", SElem "bark" None m false false)] ["kind"])
  else if String.eqb c "Cat" then Some (plain_model "Cat" "pet" [("kind", SAttr "kind" false)] ["kind"])
  else None).
Definition pet (m : smode) : ser := STagged false "kind" "kind" [("dog", sub "Dog" "pet" m); ("cat", sub "Cat" "pet" m)] m.
Example C34_ex : forall m,
  let doc k := from_native Lxml (el "r" [] "" [el "pet" [("kind", k)] "" []]) in
  fst (read 5 (pets m) (pet m) false [] (St (doc "cat") [])) = Ok (VModel "Cat" [("kind", VStr "cat")] ["kind"]) /\
  fst (read 5 (pets m) (pet m) false [] (St (doc "cow") [])) = Ok VNone /\
  st_el (snd (read 5 (pets m) (pet m) false [] (St (doc "cow") []))) = doc "cow".
Proof. intros []; vm_compute; auto. Qed.

(** C40.  from_xml_tree raises ParsingError iff the root tag differs from the model's qualified tag,
    whatever the document contains and without reading it (any fuel will do). *)
Theorem C40_root_tag : forall U ev, wf_env any_tag U ev -> forall n cls m root eas, en_model ev cls = Some m ->
  (from_xml_tree n ev cls root eas = Raise XParsing <-> native_tag root <> TName (md_elem_name m)).
Proof.
  intros U ev Hev n cls m root eas Hm. split.
  - intros H. pose proof (@from_xml_outcome any_tag U ev Hev n cls root eas) as O.
    assert (K : en_model ev cls <> None) by congruence. specialize (O K (from_native_sound (en_backend ev) root)). rewrite H in O.
    destruct O as [(_ & m' & Hm' & T)|O].
    + congruence.
    + destruct O as [O|O]; simpl in O; try contradiction. destruct O; discriminate.
  - intros H. unfold from_xml_tree. rewrite Hm. unfold tag_is. destruct (native_tag root) as [t|]; auto.
    destruct (String.eqb t (md_elem_name m)) eqn:E; auto. apply String.eqb_eq in E. congruence.
Qed.

(** C41.  When pydantic rejects the data of a model, each error line is reported with the line of the
    longest prefix of its location for which a line is recorded, -1 if there is none; type, location
    and input are kept. *)
Theorem C41_error_lines : forall m input s err, md_validate m input = Invalid err ->
  (md_forbid m = true -> forall idxs p, ~ loose_in (st_el s) idxs p) ->
  exists err', validate_result m input s = Raise (XValidation err') /\ ve_title err' = ve_title err /\
    Forall2 (fun l l' => le_type l' = le_type l /\ le_loc l' = le_loc l /\ le_input l' = le_input l /\
               exists z, le_msg l' = MLine z (le_msg l) /\ reported (st_sm s) (le_loc l) z) (ve_lines err) (ve_lines err').
Proof.
  intros m input s err Hv Hx. pose proof (lines_reported err (st_sm s) (md_hide m)) as L. cbv zeta in L.
  destruct L as (L1 & L2 & L3).
  exists (set_validation_error_sourceline err (st_sm s) (md_hide m)). split; [|auto].
  assert (N : validate_result (no_forbid m) input s = Raise (XValidation (set_validation_error_sourceline err (st_sm s) (md_hide m)))).
  { unfold validate_result. simpl. rewrite Hv. reflexivity. }
  destruct (md_forbid m) eqn:Ef.
  - destruct (forbid_outcome m input s Ef) as (ps & _ & Hin & H0 & _). rewrite H0; auto.
    destruct ps as [|[idxs p] ps]; auto. exfalso. eapply (Hx eq_refl). apply Hin. left; reflexivity.
  - unfold validate_result in *. rewrite Ef. simpl in N. exact N.
Qed.

Theorem C41_line_is_unique : forall sm loc z1 z2, reported sm loc z1 -> reported sm loc z2 -> z1 = z2.
Proof. exact reported_unique. Qed.

(** C42.  The line recorded for a field of a model is a line of the element the model was read from:
    its own or that of one of its descendants. *)
Theorem C42_line_within_model : forall ev, keeps_lines ev -> forall n cls m eas s os s',
  en_model ev cls = Some m -> field_outcomes (read n ev) m eas (md_fields m) s os s' ->
  forall name, In name (map fst (md_fields m)) ->
  exists z, recorded (st_sm s') [LKey name] z /\ line_in (st_el s) z.
Proof.
  intros ev Hev n cls m eas s os s' Hm H name Hin.
  destruct (@field_lines ev Hev n cls m Hm eas _ s os s' H) as (_ & _ & F). destruct (F name Hin) as (z & Hz & Hl).
  exists z. split; auto. now apply sget_recorded.
Qed.

(** ... hence so is the line reported when pydantic rejects the field (if the parser knows the lines) *)
Theorem C42_reported_within_model : forall ev, keeps_lines ev -> forall n cls m eas s os s' name z,
  en_model ev cls = Some m -> field_outcomes (read n ev) m eas (md_fields m) s os s' ->
  In name (map fst (md_fields m)) -> (forall z', line_in (st_el s) z' -> z' <> (-1)%Z) ->
  reported (st_sm s') [LKey name] z -> line_in (st_el s) z.
Proof.
  intros ev Hev n cls m eas s os s' name z Hm H Hin Hk Hz.
  destruct (@C42_line_within_model ev Hev n cls m eas s os s' Hm H name Hin) as (z' & R & L).
  replace z with z'; auto. eapply reported_unique; eauto. left. exists [LKey name], [].
  split; [reflexivity|]. split; [discriminate|]. split; [split; auto|].
  intros more rest z2 E. destruct more; [congruence|discriminate].
Qed.

(** ... and it is the line of the very element the field was read from (or of the model's element if
    the field is absent), provided no model read by this field or a later one declares a field of the
    same name.  Fields bound to one element; lists, tuples and wrapped fields are in PropLines.v. *)
Theorem C42_own_line : forall ev n m eas pre name s post st0 os st1 tag md,
  field_outcomes (read n ev) m eas (pre ++ (name, s) :: post) st0 os st1 ->
  bound_to ev tag md s -> not_root ev s -> name_unused ev name s -> md_cval m name = None ->
  Forall (fun kf => fst kf <> name /\ name_unused ev name (snd kf)) post ->
  exists os1 mid h after, field_outcomes (read n ev) m eas pre st0 os1 mid /\
    takes tag md (passed (st_el mid), unread (st_el mid)) h after /\
    recorded (st_sm st1) [LKey name] (match h with Some c => e_line c | None => e_line (st_el mid) end).
Proof.
  intros ev n m eas pre name s post st0 os st1 tag md H B R U C F.
  destruct (@own_line ev name n m eas pre s post st0 os st1 tag md H B R U C F) as (os1 & mid & h & after & A1 & A2 & A3).
  exists os1, mid, h, after. split; auto. split; auto. now apply sget_recorded.
Qed.

Definition el_at (line : Z) (tag : string) (text : string) (cs : list native) : native :=
  NElem tag [] (Some text) None [] cs (Some line).

(** pydantic rejects the value "bad" of the fields [fs] with an error at [loc] *)
Definition rejects_bad (cls f : string) (loc : location) (i : option val) : verdict :=
  match i with
  | Some (VDict d) =>
      match dget f d with
      | Some (VStr "bad") => Invalid (VErr cls [LErr "int_parsing" (MText "bad") loc VNone] false)
      | _ => Valid (VModel cls d (dkeys d))
      end
  | _ => Valid VNone
  end.
Definition checked_model (cls tag : string) (fields : list (string * ser)) (f : string) (loc : location) : mdef :=
  MDef cls false tag None fields [] [] false false None (fun _ => None) (fun _ => None) (rejects_bad cls f loc).

(** class Inner: x: int = element();  class Outer: x: int = element(); inner: Inner *)
Definition nested : env := Env Lxml (fun c =>
  if String.eqb c "Outer" then Some (checked_model "Outer" "outer"
    [("x", SElem "x" None Strict false false); ("inner", SProxy (sub "Inner" "inner" Strict))] "x" [LKey "x"])
  else if String.eqb c "Inner" then Some (plain_model "Inner" "inner" [("x", SElem "x" None Strict false false)] [])
  else None).

(** the line reported for Outer.x (which stands on line 2) is that of Inner.x *)
Theorem C42_nested_model_refuted : exists err l,
  from_xml_tree 9 nested "Outer"
    (el_at 1 "outer" "" [el_at 2 "x" "bad" []; el_at 3 "inner" "" [el_at 4 "x" "1" []]]) false = Raise (XValidation err) /\
  ve_lines err = [l] /\ le_loc l = [LKey "x"] /\ exists msg, le_msg l = MLine 4 msg.
Proof. do 2 eexists. split; [vm_compute; reflexivity|]. split; [reflexivity|]. split; [reflexivity|eexists; reflexivity]. Qed.

(** class A: xs: List[int] = element('x');  class B: xs: Json[List[int]] = attr or text;  class Root: a: A; b: B.
    The line reported for B.xs[0] is not even inside B's element *)
Definition siblings : env := Env Lxml (fun c =>
  if String.eqb c "Root" then Some (plain_model "Root" "root" [("a", SProxy (sub "A" "a" Strict)); ("b", SProxy (sub "B" "b" Strict))] [])
  else if String.eqb c "A" then Some (plain_model "A" "a" [("xs", SHomo "A" false (SElem "x" None Strict false false) false)] [])
  else if String.eqb c "B" then Some (checked_model "B" "b" [("xs", SText false false)] "xs" [LKey "xs"; LIdx 0])
  else None).
Theorem C42_sibling_refuted : exists err l,
  from_xml_tree 9 siblings "Root"
    (el_at 1 "root" "" [el_at 2 "a" "" [el_at 3 "x" "1" []]; el_at 4 "b" "bad" []]) false = Raise (XValidation err) /\
  ve_lines err = [l] /\ le_loc l = [LKey "b"; LKey "xs"; LIdx 0] /\ exists msg, le_msg l = MLine 3 msg.
Proof. do 2 eexists. split; [vm_compute; reflexivity|]. split; [reflexivity|]. split; [reflexivity|eexists; reflexivity]. Qed.

(** non-vacuity: the library classes keep lines; a field whose name no other model uses *)
Lemma lib_keeps_lines : forall b m, keeps_lines (lib b m).
Proof.
  intros b m cls md name f. unfold lib; simpl.
  destruct (String.eqb cls "Node"); [intros E; injection E as <-; discriminate|].
  destruct (String.eqb cls "Circle"); [intros E; injection E as <-; discriminate|].
  destruct (String.eqb cls "Square"); [intros E; injection E as <-; discriminate|].
  destruct (String.eqb cls "Shapes"); [intros E; injection E as <-; discriminate|]. discriminate.
Qed.

Example C42_ex : exists err l, from_xml_tree 9
    (Env Lxml (fun c => if String.eqb c "Outer" then Some (checked_model "Outer" "outer"
       [("x", SElem "x" None Strict false false); ("y", SElem "y" None Strict false false)] "x" [LKey "x"]) else None)) "Outer"
    (el_at 1 "outer" "" [el_at 2 "x" "bad" []; el_at 3 "y" "" []]) false = Raise (XValidation err) /\
  ve_lines err = [l] /\ le_loc l = [LKey "x"] /\ exists msg, le_msg l = MLine 2 msg.
Proof. do 2 eexists. split; [vm_compute; reflexivity|]. split; [reflexivity|]. split; [reflexivity|eexists; reflexivity]. Qed.

Print Assumptions C28_wrapped_reads_path.
Print Assumptions C29_list_of_texts.
Print Assumptions C29_until_absent.
Print Assumptions C29_document_order_refuted.
Print Assumptions C30_list_reports_all.
Print Assumptions C30_tuple_reports_all.
Print Assumptions C30_model_reports_all.
Print Assumptions C30_from_xml_reports_all.
Print Assumptions C32_first_fitting_variant.
Print Assumptions C32_same_class_names_refuted.
Print Assumptions C34_dispatches_on_attribute.
Print Assumptions C34_looking_consumes_nothing.
Print Assumptions C34_variant_takes_the_element.
Print Assumptions C34_shared_name.
Print Assumptions C34_output_selected_by_discriminator.
Print Assumptions C40_root_tag.
Print Assumptions C41_error_lines.
Print Assumptions C41_line_is_unique.
Print Assumptions C42_line_within_model.
Print Assumptions C42_reported_within_model.
Print Assumptions C42_own_line.
Print Assumptions C42_nested_model_refuted.
Print Assumptions C42_sibling_refuted.
Print Assumptions C30_root_model_reports_all.

Print Assumptions C31_read_tuples_fit.
