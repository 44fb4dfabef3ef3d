(** PropOwn.v -- C04, C09, C22, C32, C35: more about single fields. *)

From Verif Require Import Base Elem Native Errs Names Ser Write Read Api SpecElem SpecRead SpecOwn Samples
  PfElem PfField PfWrite3 PfOwn.

(** C04.  Whatever a field is made of (unions, collections, wrappers, sub-models): the children its
    value stands for, one for each item, are taken from those nobody has read, and are not among
    those left to the fields read after it.  (The children not counted as [used] for the value are
    the ones ordered search steps over.)  If the field fails, no child comes back either. *)
Theorem C04_values_stand_for_own_children : forall n ev s eas loc st0 r st1,
  read n ev s eas loc st0 = (r, st1) ->
  exists used, Permutation (used ++ unread (st_el st1)) (unread (st_el st0)) /\
    match r with Ok v => children_of s v <= length used | _ => True end.
Proof.
  intros n ev s eas loc st0 r st1 H. destruct (read_pays n ev s eas loc st0) as (used & P & L). rewrite H in *.
  exists used. split; auto. destruct r; auto.
Qed.

Example C04_ex : exists l st1,
  let s := SHomo "Shapes" false (SUnionModel "Shapes" false [sub "Circle" "circle" Strict; sub "Square" "square" Strict] false) false in
  read 9 (lib Lxml Strict) s false [] (St (from_native Lxml shapes_doc) []) = (Ok (VList l), st1) /\
  children_of s (VList l) = 3 /\ length (unread (st_el st1)) = 2.
Proof. eexists _, _. split; [|split]; vm_compute; reflexivity. Qed.

(** C09.  A field that has read the text, an attribute or all attributes of an element leaves none
    of it to the fields after it. *)
Theorem C09_field_leaves_no_text : forall n ev eas loc st0 r st1,
  read (S n) ev (SText false false) eas loc st0 = (r, st1) ->
  e_text (st_el st1) = None /\
  forall n' eas' loc', fst (read (S n') ev (SText false false) eas' loc' st1) = Ok (if eas' then VStr "" else VNone).
Proof.
  intros n ev eas loc st0 r st1 H. cbn [read read_step] in *. unfold read_text in *. cbn [pop_text] in *.
  injection H as <- <-. simpl. split; auto.
Qed.

Theorem C09_field_leaves_no_attribute : forall n ev k eas loc st0 r st1, attrs_unique (st_el st0) ->
  read (S n) ev (SAttr k false) eas loc st0 = (r, st1) ->
  attr_of (st_el st1) k = None /\
  (forall k', k' <> k -> attr_of (st_el st1) k' = attr_of (st_el st0) k') /\
  forall n' eas' loc', fst (read (S n') ev (SAttr k false) eas' loc' st1) = Ok VNone.
Proof.
  intros n ev k eas loc st0 r st1 U H. cbn [read read_step] in *. unfold read_attr in *.
  pose proof (pop_attrib_once (st_el st0) k U) as P. destruct (pop_attrib k (st_el st0)) as [v e'].
  injection H as <- <-. simpl. destruct P as (_ & P1 & P2 & P3 & _). split; auto. split; auto.
  intros _ _ _. destruct (pop_attrib k e') as [w e2]; simpl in *; subst. reflexivity.
Qed.

Theorem C09_mapping_leaves_no_attributes : forall n ev a eas loc st0 r st1, as_computed a = false ->
  read (S n) ev (SAttrs a) eas loc st0 = (r, st1) ->
  e_attrib (st_el st1) = None /\
  forall n' k eas' loc', fst (read (S n') ev (SAttr k false) eas' loc' st1) = Ok VNone.
Proof.
  intros n ev a eas loc st0 r st1 C H. cbn [read read_step] in *. unfold read_attrs in H. rewrite C in H.
  unfold pop_attributes in H. destruct (e_attrib (st_el st0)); injection H as <- <-; simpl; split; auto.
Qed.

(** C22.  The skip_empty setting of a class decides for its instances, whatever was passed to
    to_xml. *)
Theorem C22_class_setting_decides : forall n ev encode cls attrs set m b fl, en_model ev cls = Some m ->
  md_skip_empty m = Some b ->
  to_xml_tree n ev encode (VModel cls attrs set) fl =
  to_xml_tree n ev encode (VModel cls attrs set) (Flags b (fl_exclude_none fl) (fl_exclude_unset fl)).
Proof.
  intros n ev encode cls attrs set m b fl Hm Hs. unfold to_xml_tree; simpl. rewrite Hm.
  unfold write_model, with_skip_empty. rewrite Hs. reflexivity.
Qed.

(** ... and a class without the setting leaves it to the caller *)
Definition without_setting (m : mdef) : mdef :=
  MDef (md_name m) (md_root m) (md_elem_name m) (md_nsmap m) (md_fields m) (md_valias m) (md_sexclude m)
       (md_hide m) (md_forbid m) None (md_cser m) (md_cval m) (md_validate m).
Theorem C22_class_setting_replaces_argument : forall n ev m b fl e v enc, md_skip_empty m = Some b ->
  write_model (write n ev) m fl e v enc =
  write_model (write n ev) (without_setting m) (Flags b (fl_exclude_none fl) (fl_exclude_unset fl)) e v enc.
Proof.
  intros n ev m b fl e v enc Hs. unfold write_model, with_skip_empty. rewrite Hs. cbn [without_setting md_skip_empty md_root md_fields fl_exclude_unset].
  destruct (is_none v); auto. destruct (md_root m); auto.
  assert (X : forall fs fl e, write_fields (write n ev) m fs fl e v enc = write_fields (write n ev) (without_setting m) fs fl e v enc).
  { clear. intros fs; induction fs as [|[name s] fs IH]; intros fl e; cbn [write_fields without_setting md_sexclude md_cser]; auto.
    destruct (str_in _ _); auto. destruct (if fl_exclude_unset fl then _ else _) as [[|]| |]; simpl; auto.
    destruct (py_getattr v name) as [x| |]; simpl; auto.
    destruct (match md_cser m name with Some custom => custom v e x | None => _ end); simpl; auto. }
  apply X.
Qed.

Definition keeps_empty : mdef :=
  MDef "K" false "k" None [("a", SElem "a" None Strict false false)] [] [] false false (Some false) (fun _ => None) (fun _ => None)
       (accepts "K" []).
Example C22_setting_ex :
  to_xml_tree 5 (Env Lxml (fun c => if String.eqb c "K" then Some keeps_empty else None)) (fun v => VDict [("a", VStr "")])
    (VModel "K" [("a", VStr "")] ["a"]) (Flags true false false)
  = Ok (NElem "k" [] None None [] [NElem "a" [] (Some "") None [] [] None] None).
Proof. reflexivity. Qed.

(** C32.  A value of a union of models is written like a field of its own class (the first variant
    with exactly that class) ... *)
Theorem C32_written_as_own_class : forall n ev title c hide vs1 p vs2 fl e attrs set enc,
  Forall (fun q => px_model q <> px_model p) vs1 ->
  write (S n) ev (SUnionModel title c (vs1 ++ p :: vs2) hide) fl e (VModel (px_model p) attrs set) enc =
  write (S n) ev (SProxy p) fl e (VModel (px_model p) attrs set) enc.
Proof.
  intros n ev title c hide vs1 p vs2 fl e attrs set enc H. cbn [write write_step].
  induction H as [|q vs1 Hq H IH]; cbn [app write_union model_type].
  - rewrite String.eqb_refl. reflexivity.
  - apply String.eqb_neq in Hq. rewrite Hq. exact IH.
Qed.

(** ... but an instance of a class that is not listed, such as a subclass of a variant, which
    pydantic accepts, is silently left out of the document. *)
Theorem C32_other_classes_dropped : forall n ev title c hide vs fl e cls attrs set enc,
  Forall (fun q => px_model q <> cls) vs ->
  write (S n) ev (SUnionModel title c vs hide) fl e (VModel cls attrs set) enc = Ok e.
Proof.
  intros n ev title c hide vs fl e cls attrs set enc H. cbn [write write_step].
  induction H as [|q vs Hq H IH]; cbn [write_union model_type]; auto.
  apply String.eqb_neq in Hq. rewrite Hq. exact IH.
Qed.

Example C32_write_ex : exists e',
  write 9 (lib Lxml Strict) (SUnionModel "S" false [sub "Circle" "circle" Strict; sub "Square" "square" Strict] false)
    (Flags false false false) (make_element Lxml "shapes" None) (VModel "Square" [("a", VInt 2)] ["a"]) (VDict [("a", VInt 2)]) = Ok e' /\
  map e_tag (e_elems e') = [TName "square"].
Proof. eexists; split; [vm_compute; reflexivity|vm_compute; reflexivity]. Qed.

(** C35.  xsi:nil counts only if it is "true": with any other value, or without it, the field reads
    the content as if the attribute were not there. *)
Theorem C35_not_nil_primitive_read : forall ev tag ns m n eas loc st0 c after,
  takes tag m (passed (st_el st0), unread (st_el st0)) (Some c) after -> attr_of c xsi_nil <> Some "true" ->
  exists v, fst (read (S n) ev (SElem tag ns m false true) eas loc st0) = Ok v /\ text_value eas c v.
Proof. exact not_nil_prim. Qed.

Theorem C35_not_nil_model_read : forall ev p md n eas loc st0 c after,
  en_model ev (px_model p) = Some md -> px_computed p = false ->
  takes (px_name p) (px_mode p) (passed (st_el st0), unread (st_el st0)) (Some c) after ->
  attr_of c xsi_nil <> Some "true" ->
  exists c', same_shell (set_attrib_o (e_attrib c') c) c' /\ e_elems c' = e_elems c /\ e_next c' = e_next c /\
    (forall k, k <> xsi_nil -> attr_of c' k = attr_of c k) /\
    fst (read (S n) ev (SProxy p) eas loc st0) =
    fst (read_model (read n ev) md eas loc (St c' (sset loc (e_line c) (st_sm st0)))).
Proof. exact not_nil_model. Qed.

Example C35_not_nil_ex :
  fst (read 5 (lib Lxml Strict) (SElem "a" None Strict false true) false []
         (St (from_native Lxml (el "r" [] "" [el "a" [(xsi_nil, "false")] "x" []])) [])) = Ok (VStr "x").
Proof. reflexivity. Qed.

Print Assumptions C04_values_stand_for_own_children.
Print Assumptions C09_field_leaves_no_text.
Print Assumptions C09_field_leaves_no_attribute.
Print Assumptions C09_mapping_leaves_no_attributes.
Print Assumptions C22_class_setting_decides.
Print Assumptions C22_class_setting_replaces_argument.
Print Assumptions C32_written_as_own_class.
Print Assumptions C32_other_classes_dropped.
Print Assumptions C35_not_nil_primitive_read.
Print Assumptions C35_not_nil_model_read.
