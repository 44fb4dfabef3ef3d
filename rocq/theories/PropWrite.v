(** PropWrite.v -- C08, C22-C24, C26, C27, C31, C35, C36, C43: what to_xml writes. *)

From Verif Require Import Base Elem Native Errs Names Ser Write Read Api SpecElem SpecRead SpecNames SpecWrite SpecScalar
  Samples PfScalar PfElem PfNames PfFuel PfWTerm PfWrite PfWrite2 PfWrite3 PfMore.

(** C08.  to_xml_tree terminates on every value of every model, self-referential ones included:
    with enough fuel the outcome is not [Fuel] and any further fuel gives the same outcome. *)
Theorem C08_to_xml_terminates : forall ev, customs_return ev -> forall encode v fl,
  exists n o, o <> Fuel /\ forall n', n <= n' -> to_xml_tree n' ev encode v fl = o.
Proof.
  intros ev Hc encode v fl. destruct (to_xml_halts Hc encode v fl) as [n N].
  exists n, (to_xml_tree n ev encode v fl). split; auto. intros n' Hn. apply to_xml_stable; auto.
Qed.

(** non-vacuity: a recursive value *)
Definition node_val (id v : string) (cs : list val) : val :=
  VModel "Node" [("id", VStr id); ("value", VStr v); ("children", VList cs)] ["id"; "value"; "children"].
Fixpoint enc_of (v : val) : val :=
  match v with
  | VModel _ a _ => VDict (map (fun kv : string * val => let (k, x) := kv in (k, enc_of x)) a)
  | VList l => VList (map enc_of l)
  | _ => v
  end.

Example C08_ex : customs_return (lib Lxml Strict) /\
  to_xml_tree 12 (lib Lxml Strict) enc_of (node_val "1" "10" [node_val "2" "20" []; node_val "3" "30" [node_val "4" "40" []]])
    (Flags false false false) =
  Ok (NElem "node" [] None None [("id", "1")]
       [NElem "value" [] (Some "10") None [] [] None;
        NElem "node" [] None None [("id", "2")] [NElem "value" [] (Some "20") None [] [] None] None;
        NElem "node" [] None None [("id", "3")]
          [NElem "value" [] (Some "30") None [] [] None;
           NElem "node" [] None None [("id", "4")] [NElem "value" [] (Some "40") None [] [] None] None] None] None).
Proof.
  split; [|vm_compute; reflexivity]. intros cls m name f. unfold lib; simpl.
  destruct (String.eqb cls "Node"); [intros E; injection E as <-; discriminate|].
  destruct (String.eqb cls "Circle"); [intros E; injection E as <-; discriminate|].
  destruct (String.eqb cls "Square"); [intros E; injection E as <-; discriminate|].
  destruct (String.eqb cls "Shapes"); [intros E; injection E as <-; discriminate|]. discriminate.
Qed.

Print Assumptions C08_to_xml_terminates.

(** sample models for this file *)
Definition note : mdef :=
  plain_model "Note" "note"
    [("id", SAttr "id" false); ("title", SWrap ["meta"; "head"] None Strict false (SElem "title" None Strict false true));
     ("author", SWrap ["meta"; "head"] None Strict false (SElem "author" None Strict false false));
     ("tags", SHomo "Note" false (SElem "tag" None Strict false false) false);
     ("sub", SProxy (sub "Note" "note" Strict))] ["id"].
Definition blank_m : mdef := plain_model "Blank" "blank" [] [].
Definition holder : mdef :=
  plain_model "Holder" "holder" [("b", SWrap ["w"] None Strict false (SProxy (sub "Blank" "blank" Strict)))] [].
Definition notes : env :=
  Env Lxml (fun c => if String.eqb c "Note" then Some note else if String.eqb c "Blank" then Some blank_m
                     else if String.eqb c "Holder" then Some holder else None).
Definition note_val (id title author : val) (tags : list val) (subv : val) (set : list string) : val :=
  VModel "Note" [("id", id); ("title", title); ("author", author); ("tags", VList tags); ("sub", subv)] set.
Definition plain_flags := Flags false false false.

(** C22.  With skip_empty=True no descendant of the output root is empty, except wrapper elements ([W]:
    the names used in wrapper paths). *)
Theorem C22_skip_empty : forall W ev, env_skips W ev -> forall n encode v fl t, fl_skip_empty fl = true ->
  to_xml_tree n ev encode v fl = Ok t ->
  forall d, below t d -> bare d ->
  exists tag ns text tail attrib cs line, d = NElem tag ns text tail attrib cs line /\ W tag.
Proof. exact skip_empty_tidy. Qed.

Lemma notes_skips : env_skips (fun w => w = "meta" \/ w = "head" \/ w = "w") notes.
Proof.
  intros cls m H; unfold notes in H; simpl in H.
  destruct (String.eqb cls "Note"); [|destruct (String.eqb cls "Blank"); [|destruct (String.eqb cls "Holder"); [|discriminate]]];
    injection H as <-; (split; [discriminate|split; [reflexivity|]]); repeat (first [solve [auto] | constructor]).
Qed.

(** and wrapper elements really can be left empty *)
Theorem C22_empty_wrapper_refuted : exists ev v fl t d,
  env_skips (fun w => w = "meta" \/ w = "head" \/ w = "w") ev /\ fl_skip_empty fl = true /\
  to_xml_tree 5 ev enc_of v fl = Ok t /\ below t d /\ bare d.
Proof.
  exists notes, (VModel "Holder" [("b", VModel "Blank" [] [])] ["b"]), (Flags true false false),
    (NElem "holder" [] None None [] [NElem "w" [] None None [] [] None] None), (NElem "w" [] None None [] [] None).
  split; [exact notes_skips|split; [reflexivity|split; [vm_compute; reflexivity|split; [constructor; simpl; auto|simpl; auto]]]].
Qed.

Example C22_ex : env_skips (fun w => w = "meta" \/ w = "head" \/ w = "w") notes /\
  to_xml_tree 9 notes enc_of (note_val (VStr "1") VNone (VStr "me") [VStr ""; VStr "x"] (note_val VNone VNone VNone [] VNone []) [])
    (Flags true false false) =
  Ok (NElem "note" [] None None [("id", "1")]
       [NElem "meta" [] None None [] [NElem "head" [] None None [] [NElem "author" [] (Some "me") None [] [] None] None] None;
        NElem "tag" [] (Some "x") None [] [] None] None).
Proof. split; [exact notes_skips|vm_compute; reflexivity]. Qed.

(** C23.  With exclude_none=True a field whose value is None leaves the element as it was. *)
Theorem C23_none_writes_nothing : forall ev s, wf_ser ev s -> drops_none s ->
  forall n fl e enc, fl_exclude_none fl = true ->
  write n ev s fl e VNone enc <> Fuel -> write n ev s fl e VNone enc = Ok e.
Proof. exact write_none. Qed.

(** A whole model: its fields with value None might as well not exist. *)
Theorem C23_none_fields_are_not_written : forall n ev m fl e cls attrs set d,
  fl_exclude_none fl = true -> md_root m = false ->
  (forall name s, In (name, s) (md_fields m) -> dget name attrs = Some VNone ->
     wf_ser ev s /\ drops_none s /\ md_cser m name = None /\ dget name d <> None) ->
  write_model (write n ev) m fl e (VModel cls attrs set) (VDict d) <> Fuel ->
  write_model (write n ev) m fl e (VModel cls attrs set) (VDict d) =
  write_model (write n ev) (without_none attrs m) fl e (VModel cls attrs set) (VDict d).
Proof. exact model_without_none. Qed.

(** the two exceptions: a mapping bound to its own element leaves an empty element, a discriminated
    union raises AttributeError *)
Theorem C23_mapping_element_refuted : exists ev s n fl e e', wf_ser ev s /\ fl_exclude_none fl = true /\
  write n ev s fl e VNone VNone = Ok e' /\ length (e_elems e') = S (length (e_elems e)).
Proof.
  exists notes, (SMapElem "m" Strict (AttrsSer None None false false)), 2, (Flags false true false),
    (make_element Lxml "root" None). eexists. split; [constructor|]. split; [reflexivity|]. split; reflexivity.
Qed.

Theorem C23_tagged_union_refuted : exists ev s n fl e, wf_ser ev s /\ fl_exclude_none fl = true /\
  write n ev s fl e VNone VNone = Raise XAttributeError.
Proof.
  exists notes, (STagged false "kind" "kind" [("note", sub "Note" "note" Strict)] Strict), 3, (Flags false true false),
    (make_element Lxml "root" None). split; [|split; reflexivity]. constructor. constructor; auto. discriminate.
Qed.

Example C23_ex : wf_ser notes (SProxy (sub "Note" "note" Strict)) /\ drops_none (SProxy (sub "Note" "note" Strict)) /\
  write 3 notes (SProxy (sub "Note" "note" Strict)) (Flags false true false) (make_element Lxml "root" None) VNone VNone <> Fuel.
Proof. split; [constructor; discriminate|]. split; [constructor|discriminate]. Qed.

Definition half_empty : list (string * val) :=
  [("id", VNone); ("title", VNone); ("author", VStr "me"); ("tags", VList [VStr "x"]); ("sub", VNone)].
Example C23_ex_model :
  (forall name s, In (name, s) (md_fields note) -> dget name half_empty = Some VNone ->
     wf_ser notes s /\ drops_none s /\ md_cser note name = None /\ dget name half_empty <> None) /\
  map fst (md_fields (without_none half_empty note)) = ["author"; "tags"] /\
  match write_model (write 9 notes) note (Flags false true false) (make_element Lxml "note" None)
          (VModel "Note" half_empty ["author"]) (VDict half_empty) with
  | Ok e => map e_tag (e_elems e) = [TName "meta"; TName "tag"] /\ e_attrib e = None
  | _ => False
  end.
Proof.
  split; [|vm_compute; auto]. intros name s I. simpl in I.
  repeat (destruct I as [E|I]; [injection E as <- <-; simpl; try discriminate; intros _;
    repeat split; try discriminate; repeat constructor; try discriminate|]); contradiction.
Qed.

(** C24.  exclude_unset=True: the fields not set might as well not exist ... *)
Theorem C24_unset_fields_are_not_written : forall n ev m fl e cls attrs set enc,
  fl_exclude_unset fl = true -> md_root m = false ->
  write_model (write n ev) m fl e (VModel cls attrs set) enc =
  write_model (write n ev) (only_fields set m) fl e (VModel cls attrs set) enc.
Proof. intros n ev; apply exclude_unset_restricts. Qed.

(** ... and their values do not matter, in the model written and in all models inside it. *)
Theorem C24_unset_values_do_not_matter : forall ev, no_customs ev -> forall n encode cls attrs attrs' set fl,
  fl_exclude_unset fl = true ->
  alike_inst ev cls (VModel cls attrs set) (encode (VModel cls attrs set))
                    (VModel cls attrs' set) (encode (VModel cls attrs' set)) ->
  to_xml_tree n ev encode (VModel cls attrs set) fl = to_xml_tree n ev encode (VModel cls attrs' set) fl.
Proof. exact to_xml_blind. Qed.

Example C24_ex : no_customs notes /\
  (let inner t := note_val (VStr "2") (VStr t) VNone [] VNone ["id"] in
   alike_inst notes "Note"
     (note_val (VStr "1") (VStr "a") VNone [] (inner "x") ["id"; "sub"]) (enc_of (note_val (VStr "1") (VStr "a") VNone [] (inner "x") ["id"; "sub"]))
     (note_val (VStr "1") (VStr "b") VNone [] (inner "y") ["id"; "sub"]) (enc_of (note_val (VStr "1") (VStr "b") VNone [] (inner "y") ["id"; "sub"]))) /\
  to_xml_tree 9 notes enc_of (note_val (VStr "1") (VStr "b") VNone [] (note_val (VStr "2") (VStr "y") VNone [] VNone ["id"]) ["id"; "sub"])
    (Flags false false true) =
  Ok (NElem "note" [] None None [("id", "1")] [NElem "note" [] None None [("id", "2")] [] None] None).
Proof.
  split; [|split; [|vm_compute; reflexivity]].
  - intros cls m name; unfold notes; simpl.
    destruct (String.eqb cls "Note"); [|destruct (String.eqb cls "Blank"); [|destruct (String.eqb cls "Holder"); [|discriminate]]];
      intros H; injection H as <-; reflexivity.
  - simpl. eapply alike_model with (m := note); [reflexivity|reflexivity|].
    intros name s I S. simpl in I. destruct S as [<-|[<-|[]]]; simpl.
    + apply alike_present. apply alike_same.
    + apply alike_present. destruct I as [E|[E|[E|[E|[E|[]]]]]]; try discriminate E. injection E as <-.
      apply alike_sub. eapply alike_model with (m := note); [reflexivity|reflexivity|].
      intros name s I S. destruct S as [<-|[]]. simpl. apply alike_present. apply alike_same.
Qed.

(** C26.  Writing a field changes the children of the element only by appending and, for a wrapped field,
    by extending the last child in the same way. *)
Theorem C26_writing_only_appends : forall ev, env_extends ev -> forall n s, no_raw s ->
  forall fl e v enc e', written e -> write n ev s fl e v enc = Ok e' -> extends e e'.
Proof. intros ev H n s Hs fl e v enc e' We Hw. eapply (write_extends H n Hs); eauto. Qed.

(** the children of a model (without wrapped fields and user serializers) are those of its fields, field after field *)
Theorem C26_children_in_field_order : forall n ev m fl v enc e e',
  (forall name, md_cser m name = None) -> md_root m = false -> v <> VNone ->
  Forall (fun nf => no_wrap (snd nf)) (md_fields m) ->
  write_model (write n ev) m fl e v enc = Ok e' ->
  exists blocks, Forall2 (field_adds n ev m (with_skip_empty m fl) v enc) (md_fields m) blocks /\
    e_elems e' = e_elems e ++ concat blocks.
Proof.
  intros n ev m fl v enc e e' Hc R V F H. unfold write_model in H. rewrite R in H.
  destruct (is_none v) eqn:N; [destruct v; try discriminate; congruence|]. eapply fields_blocks; eauto.
Qed.

(** and those of a collection are those of its items, item after item *)
Theorem C26_children_in_item_order : forall n ev t c s h fl vs encs e e', no_wrap s ->
  write (S n) ev (SHomo t c s h) fl e (VList vs) (VList encs) = Ok e' ->
  exists blocks, Forall2 (item_adds (write n ev s) fl) (combine vs encs) blocks /\
    e_elems e' = e_elems e ++ concat blocks.
Proof.
  intros n ev t c s h fl vs encs e e' Hs H. cbn [write write_step] in H. unfold write_homo in H. simpl in H.
  destruct (fl_skip_empty fl && Nat.eqb (length vs) 0) eqn:X.
  - injection H as <-. apply andb_true_iff in X. destruct X as [_ X]. apply Nat.eqb_eq in X. destruct vs; [|discriminate].
    exists []. simpl. rewrite app_nil_r. split; auto.
  - eapply items_blocks; eauto. apply write_direct; auto.
Qed.

Example C26_ex : env_extends notes /\
  Forall (fun nf => no_wrap (snd nf)) (md_fields (node Strict)) /\
  to_xml_tree 9 notes enc_of (note_val (VStr "1") (VStr "t") (VStr "a") [VStr "x"; VStr "y"] (note_val (VStr "2") VNone VNone [] VNone []) [])
    plain_flags =
  Ok (NElem "note" [] None None [("id", "1")]
       [NElem "meta" [] None None [] [NElem "head" [] None None []
           [NElem "title" [] (Some "t") None [] [] None; NElem "author" [] (Some "a") None [] [] None] None] None;
        NElem "tag" [] (Some "x") None [] [] None; NElem "tag" [] (Some "y") None [] [] None;
        NElem "note" [] None None [("id", "2")] [] None] None).
Proof.
  split; [|split; [repeat constructor|vm_compute; reflexivity]].
  intros cls m H; unfold notes in H; simpl in H.
  destruct (String.eqb cls "Note"); [|destruct (String.eqb cls "Blank"); [|destruct (String.eqb cls "Holder"); [|discriminate]]];
    injection H as <-; (split; [repeat constructor|discriminate]).
Qed.

(** C27.  A wrapped field with a value is written where its path leads: at each step into the last child if it
    has the right name, else into a new last child ... *)
Theorem C27_wrapped_path : forall n ev path ns mode c s fl e v enc e', written e -> v <> VNone ->
  ~ (fl_skip_empty fl = true /\ empty_value v) ->
  (write (S n) ev (SWrap path ns mode c s) fl e v enc = Ok e' <->
   wraps (en_backend ev) ns (fun d d' => write n ev s fl d v enc = Ok d') path e e').
Proof.
  intros n ev path ns mode c s fl e v enc e' We V Z. cbn [write write_step]. unfold write_wrap.
  destruct (is_none v) eqn:N; [destruct v; try discriminate; congruence|].
  assert (X : fl_skip_empty fl && len_is_zero v = false).
  { destruct (fl_skip_empty fl) eqn:F; auto. unfold len_is_zero. simpl. destruct (py_len v) as [[|k]|] eqn:L; auto. exfalso; apply Z; split; auto. now apply empty_iff. }
  rewrite X. apply write_path_wraps; auto.
Qed.

(** ... and without one nothing is written. *)
Theorem C27_no_value_no_wrapper : forall n ev path ns mode c s fl e v enc,
  v = VNone \/ (fl_skip_empty fl = true /\ empty_value v) ->
  write (S n) ev (SWrap path ns mode c s) fl e v enc = Ok e.
Proof.
  intros n ev path ns mode c s fl e v enc [->|[F L]]; [reflexivity|]. apply empty_iff in L. cbn [write write_step]. unfold write_wrap, len_is_zero.
  destruct (is_none v); auto. rewrite F, L. reflexivity.
Qed.

(** So a field with the same path as the one before goes inside the wrapper created for it. *)
Theorem C27_adjacent_fields_share : forall n ev path ns1 mode1 c1 s1 ns2 mode2 c2 s2 fl v1 enc1 v2 enc2 e e1 e2,
  env_extends ev -> no_raw s1 -> written e ->
  v1 <> VNone -> ~ (fl_skip_empty fl = true /\ empty_value v1) ->
  v2 <> VNone -> ~ (fl_skip_empty fl = true /\ empty_value v2) ->
  write (S n) ev (SWrap path ns1 mode1 c1 s1) fl e v1 enc1 = Ok e1 ->
  write (S n) ev (SWrap path ns2 mode2 c2 s2) fl e1 v2 enc2 = Ok e2 ->
  inside (fun d d' => write n ev s2 fl d v2 enc2 = Ok d') path e1 e2.
Proof.
  intros n ev path ns1 mode1 c1 s1 ns2 mode2 c2 s2 fl v1 enc1 v2 enc2 e e1 e2 Hev R1 We V1 Z1 V2 Z2 H1 H2.
  assert (W1 : written e1).
  { apply (@write_extends ev Hev (S n) (SWrap path ns1 mode1 c1 s1)) in H1; auto; [apply H1|constructor; auto]. }
  apply C27_wrapped_path in H1; auto. apply C27_wrapped_path in H2; auto.
  eapply wraps_twice; [|exact H1|exact H2]. cbv beta. intros d d' Hd. eapply write_keeps_tag; eauto.
Qed.

Example C27_ex :
  let e := append_element (make_element Lxml "head" None) (make_element Lxml "root" None) in
  written e /\ exists e1 e2,
  write 4 notes (SWrap ["meta"; "head"] None Strict false (SElem "title" None Strict false true)) plain_flags e (VStr "t") (VStr "t") = Ok e1 /\
  write 4 notes (SWrap ["meta"; "head"] None Strict false (SElem "author" None Strict false true)) plain_flags e1 (VStr "a") (VStr "a") = Ok e2 /\
  map e_tag (e_elems e2) = [TName "head"; TName "meta"].
Proof.
  simpl. split; [constructor; [reflexivity|]; constructor; [constructor; [reflexivity|constructor]|constructor]|].
  do 2 eexists. split; [reflexivity|]. split; reflexivity.
Qed.

(** C31.  Writing a tuple raises SerializationError iff its length is not the declared one (the empty tuple
    under skip_empty, and errors of the items themselves, aside). *)
Theorem C31_tuple_length : forall n ev t c l h fl e vs encs,
  (forall s, In s l -> forall e x xe, write n ev s fl e x xe <> Raise XSerialization) ->
  (write (S n) ev (SHetero t c l h) fl e (VList vs) (VList encs) = Raise XSerialization <->
   length vs <> length l /\ ~ (fl_skip_empty fl = true /\ vs = [])).
Proof. exact tuple_length_iff. Qed.

(** whatever the items do *)
Theorem C31_wrong_length_raises : forall n ev t c l h fl e vs enc,
  length vs <> length l -> ~ (fl_skip_empty fl = true /\ vs = []) ->
  write (S n) ev (SHetero t c l h) fl e (VList vs) enc = Raise XSerialization.
Proof. exact tuple_wrong_length. Qed.

(** a model that was serialized has tuples of the declared lengths in all its fields that are written
    (empty ones, if the model skips empty elements) *)
Theorem C31_written_tuples_fit : forall n ev encode cls attrs set fl t m name title c l h vs,
  en_model ev cls = Some m -> md_root m = false -> In (name, SHetero title c l h) (md_fields m) ->
  ~ In name (md_sexclude m) -> (fl_exclude_unset fl = true -> In name set) -> md_cser m name = None ->
  dget name attrs = Some (VList vs) ->
  to_xml_tree n ev encode (VModel cls attrs set) fl = Ok t ->
  length vs = length l \/ (fl_skip_empty (with_skip_empty m fl) = true /\ vs = []).
Proof. exact tuple_field_length. Qed.

Theorem C31_none_tuple : forall n ev t c l h fl e enc, write (S n) ev (SHetero t c l h) fl e VNone enc = Ok e.
Proof. reflexivity. Qed.

Example C31_ex :
  (forall s, In s [SElem "a" None Strict false false; SAttr "b" false] ->
     forall e x xe, write 3 notes s plain_flags e x xe <> Raise XSerialization) /\
  write 4 notes (SHetero "T" false [SElem "a" None Strict false false; SAttr "b" false] false) plain_flags
    (make_element Lxml "root" None) (VList [VStr "1"]) (VList [VStr "1"]) = Raise XSerialization.
Proof.
  split; [|reflexivity]. intros s [<-|[<-|[]]] e x xe; cbn [write write_step].
  - unfold write_elem. destruct (_ && (_ || _)); [discriminate|]. unfold write_text. destruct (_ && (_ || _)); [discriminate|].
    destruct xe; simpl; try discriminate. destruct b; discriminate.
  - unfold write_attr. destruct (_ && (_ || _)); [discriminate|]. destruct xe; simpl; try discriminate. destruct b; discriminate.
Qed.

(** class Pos(tag='pos'): xy: Tuple[int, int] = element('c') *)
Definition pos_env : env := Env Lxml (fun c => if String.eqb c "Pos" then Some (plain_model "Pos" "pos"
  [("xy", SHetero "Pos" false [SElem "c" None Strict false false; SElem "c" None Strict false false] false)] ["xy"]) else None).
Example C31_ex_model :
  to_xml_tree 5 pos_env enc_of (VModel "Pos" [("xy", VList [VInt 1; VInt 2])] ["xy"]) plain_flags =
    Ok (NElem "pos" [] None None [] [NElem "c" [] (Some "1") None [] [] None; NElem "c" [] (Some "2") None [] [] None] None) /\
  to_xml_tree 5 pos_env enc_of (VModel "Pos" [("xy", VList [VInt 1; VInt 2; VInt 3])] ["xy"]) plain_flags = Raise XSerialization.
Proof. split; vm_compute; reflexivity. Qed.

(** C35.  A nillable field with value None is written as an element with xsi:nil="true" ... *)
Theorem C35_nil_primitive_written : forall n ev tag ns m c fl e, fl_skip_empty fl = false -> fl_exclude_none fl = false ->
  exists d, write (S n) ev (SElem tag ns m c true) fl e VNone VNone = Ok (append_element d e) /\
    called tag d /\ e_attrib d = Some [(xsi_nil, "true")] /\ e_text d = Some "" /\ e_elems d = [].
Proof.
  intros n ev tag ns m c fl e F1 F2. cbn [write write_step]. unfold write_elem, write_text, append_unless_empty. rewrite F1, F2. simpl.
  eexists; split; [reflexivity|]. repeat split; reflexivity.
Qed.

Theorem C35_nil_model_written : forall n ev p md fl e, en_model ev (px_model p) = Some md -> px_nillable p = true ->
  fl_exclude_none fl = false ->
  exists d, write (S n) ev (SProxy p) fl e VNone VNone = Ok (append_element d e) /\
    called (px_name p) d /\ e_attrib d = Some [(xsi_nil, "true")] /\ e_elems d = [].
Proof.
  intros n ev p md fl e Hm N F. cbn [write write_step]. unfold write_proxy. rewrite Hm, F, N. simpl.
  eexists; split; [reflexivity|]. repeat split; reflexivity.
Qed.

(** ... and a field that takes a child with xsi:nil="true" reads as None: nillable primitives and all sub-models. *)
Theorem C35_nil_primitive_read : forall ev tag ns m n eas loc st0 c after,
  takes tag m (passed (st_el st0), unread (st_el st0)) (Some c) after ->
  attr_of c xsi_nil = Some "true" -> fst (read (S n) ev (SElem tag ns m false true) eas loc st0) = Ok VNone.
Proof. exact nil_read_prim. Qed.

Theorem C35_nil_model_read : forall ev p md n eas loc st0 c after,
  en_model ev (px_model p) = Some md -> px_computed p = false ->
  takes (px_name p) (px_mode p) (passed (st_el st0), unread (st_el st0)) (Some c) after ->
  attr_of c xsi_nil = Some "true" -> fst (read (S n) ev (SProxy p) eas loc st0) = Ok VNone.
Proof. exact nil_read_model. Qed.

(** the other lexical form of true, xsi:nil="1", is not recognised *)
Theorem C35_nil_1_refuted : exists ev tag ns m n st0 c after,
  takes tag m (passed (st_el st0), unread (st_el st0)) (Some c) after /\ attr_of c xsi_nil = Some "1" /\
  fst (read (S n) ev (SElem tag ns m false true) true [] st0) <> Ok VNone.
Proof.
  set (c := from_native Lxml (el "a" [(xsi_nil, "1")] "" [])).
  exists notes, "a", None, Strict, 2, (St (Elem (TName "r") None None None None [c] 0 (-1)) []), c.
  eexists. split; [simpl; constructor; reflexivity|]. split; [reflexivity|discriminate].
Qed.

Example C35_ex : exists st0 c after,
  takes "note" Strict (passed (st_el st0), unread (st_el st0)) (Some c) after /\ attr_of c xsi_nil = Some "true" /\
  fst (read 3 notes (SProxy (sub "Note" "note" Strict)) false [] st0) = Ok VNone.
Proof.
  set (c := from_native Lxml (el "note" [("id", "1"); (xsi_nil, "true")] "" [])).
  exists (St (Elem (TName "r") None None None None [c] 0 (-1)) []), c. eexists. split; [simpl; constructor; reflexivity|].
  split; [reflexivity|]. eapply C35_nil_model_read; [reflexivity|reflexivity|simpl; constructor; reflexivity|reflexivity].
Qed.

(** C36.  A mapping of local attributes decides all attributes of the element: what was there does not matter ... *)
Theorem C36_mapping_replaces_attributes : forall ev a n fl e v enc e',
  write (S n) ev (SAttrs a) fl e v enc = Ok e' -> is_none v = false ->
  forall e2, exists e2', write (S n) ev (SAttrs a) fl e2 v enc = Ok e2' /\ e_attrib e2' = e_attrib e'.
Proof. exact mapping_replaces. Qed.

(** ... and string mappings are read back as they were written. *)
Theorem C36_mapping_round_trip : forall ev a d n k fl e v eas loc sm,
  as_computed a = false -> NoDup (dkeys d) -> is_none v = false ->
  (as_namespaced a = true ->
     Forall plain_tag (dkeys d) /\ (forall u, attrs_uri a = Some u -> u = "" \/ plain_ns u)) ->
  exists e', write (S n) ev (SAttrs a) fl e v (VDict (map (fun kv => (fst kv, VStr (snd kv))) d)) = Ok e' /\
    e_attrib e' = Some (map (fun kv => (uri (QName (fst kv) (attrs_uri a)), snd kv)) d) /\
    fst (read (S k) ev (SAttrs a) eas loc (St e' sm)) = Ok (VDict (map (fun kv => (fst kv, VStr (snd kv))) d)).
Proof. exact mapping_round_trip. Qed.

(** so an attribute field declared before a mapping is lost *)
Theorem C36_attribute_before_mapping_refuted : exists ev v t,
  to_xml_tree 4 ev enc_of v plain_flags = Ok t /\
  py_getattr v "id" = Ok (VStr "1") /\
  match t with NElem _ _ _ _ attrib _ _ => dget "id" attrib = None | _ => False end.
Proof.
  exists (Env Lxml (fun c => if String.eqb c "M" then Some (plain_model "M" "m"
            [("id", SAttr "id" false); ("rest", SAttrs (AttrsSer None None false false))] []) else None)),
    (VModel "M" [("id", VStr "1"); ("rest", VDict [("k", VStr "v")])] []).
  eexists. split; [vm_compute; reflexivity|]. split; reflexivity.
Qed.

Example C36_ex : NoDup (dkeys [("a", "1"); ("b", "")]) /\
  exists e', write 1 notes (SAttrs (AttrsSer (Some "p") (Some [("p", "http://x")]) true false)) plain_flags (make_element Lxml "r" None)
    (VDict []) (VDict [("a", VStr "1"); ("b", VStr "")]) = Ok e' /\
  e_attrib e' = Some [("{http://x}a", "1"); ("{http://x}b", "")] /\
  fst (read 1 notes (SAttrs (AttrsSer (Some "p") (Some [("p", "http://x")]) true false)) false [] (St e' [])) =
    Ok (VDict [("a", VStr "1"); ("b", VStr "")]).
Proof.
  split; [repeat constructor; simpl; intuition discriminate|]. eexists. split; [vm_compute; reflexivity|]. split; vm_compute; reflexivity.
Qed.

(** C43.  A field with a user serializer is written by it: the field's own serializer plays no part, the user
    serializer gets the instance, the element with what the fields before have written, and the value; user
    serializers for names that are no fields play no part either. *)
Theorem C43_serializer_replaces_default : forall n ev m name f, md_cser m name = Some f -> md_root m = false ->
  forall s fl e v enc, write_model (write n ev) (with_field name s m) fl e v enc = write_model (write n ev) m fl e v enc.
Proof. intros n ev; apply custom_replaces. Qed.

Theorem C43_serializer_called : forall n ev m name f s fs1 fs2 fl e v enc x,
  md_cser m name = Some f -> ~ In name (md_sexclude m) -> fl_exclude_unset fl = false -> py_getattr v name = Ok x ->
  write_fields (write n ev) m (fs1 ++ (name, s) :: fs2) fl e v enc =
  obind (write_fields (write n ev) m fs1 fl e v enc) (fun e1 =>
  obind (f v e1 x) (fun e2 => write_fields (write n ev) m fs2 fl e2 v enc)).
Proof. intros n ev; apply custom_called. Qed.

Theorem C43_only_for_its_field : forall n ev m cs cv,
  (forall name s, In (name, s) (md_fields m) -> cs name = md_cser m name) ->
  forall fl e v enc, write_model (write n ev) (with_customs cs cv m) fl e v enc = write_model (write n ev) m fl e v enc.
Proof. intros n ev; apply other_customs. Qed.

(** the same for validators and reading *)
Theorem C43_validator_replaces_default : forall n ev m name f, md_cval m name = Some f -> md_root m = false ->
  forall s eas loc st, read_model (read n ev) (with_field name s m) eas loc st = read_model (read n ev) m eas loc st.
Proof. intros n ev; apply validator_replaces. Qed.

Theorem C43_validator_only_for_its_field : forall n ev m cs cv,
  (forall name s, In (name, s) (md_fields m) -> cv name = md_cval m name) ->
  forall eas loc st, read_model (read n ev) (with_customs cs cv m) eas loc st = read_model (read n ev) m eas loc st.
Proof. intros n ev; apply other_validators. Qed.

(** in a root model, however, user serializers and validators of the root field are never called *)
Theorem C43_root_model_refuted : exists m f g, md_root m = true /\ In "root" (map fst (md_fields m)) /\
  md_cser m "root" = Some f /\ md_cval m "root" = Some g /\
  forall n ev, (forall fl e v enc, write_model (write n ev) (with_customs (fun _ => None) (fun _ => None) m) fl e v enc
                                   = write_model (write n ev) m fl e v enc) /\
  (forall eas loc st, read_model (read n ev) (with_customs (fun _ => None) (fun _ => None) m) eas loc st
                      = read_model (read n ev) m eas loc st).
Proof.
  exists (MDef "R" true "r" None [("root", SText false false)] [] [] false false None
            (fun _ => Some (fun _ e _ => Ok (set_text "custom" e))) (fun _ => Some (fun e => (Ok (VStr "custom"), e))) (accepts "R" [])).
  do 2 eexists. split; [reflexivity|]. split; [left; reflexivity|]. split; [reflexivity|]. split; [reflexivity|].
  intros n ev; split; reflexivity.
Qed.

Example C43_ex : let m := MDef "M" false "m" None [("a", SAttr "a" false); ("b", SElem "b" None Strict false false)] [] [] false false None
            (fun k => if String.eqb k "b" then Some (fun _ e _ => Ok (set_text "custom" e)) else None)
            (fun k => if String.eqb k "b" then Some (fun e => (Ok (VStr "custom"), e)) else None) (accepts "M" []) in
  let ev := Env Lxml (fun c => if String.eqb c "M" then Some m else None) in
  (exists f, md_cser m "b" = Some f) /\ (exists g, md_cval m "b" = Some g) /\
  to_xml_tree 3 ev enc_of (VModel "M" [("a", VStr "1"); ("b", VStr "2")] []) plain_flags =
    Ok (NElem "m" [] (Some "custom") None [("a", "1")] [] None) /\
  from_xml_tree 3 ev "M" (el "m" [("a", "1")] "" [el "b" [] "2" []]) false =
    Ok (VModel "M" [("a", VStr "1"); ("b", VStr "custom")] ["a"; "b"]).
Proof. simpl. split; [eauto|]. split; [eauto|]. split; vm_compute; reflexivity. Qed.

Print Assumptions C22_skip_empty.
Print Assumptions C22_empty_wrapper_refuted.
Print Assumptions C23_none_writes_nothing.
Print Assumptions C24_unset_fields_are_not_written.
Print Assumptions C24_unset_values_do_not_matter.
Print Assumptions C26_writing_only_appends.
Print Assumptions C26_children_in_field_order.
Print Assumptions C26_children_in_item_order.
Print Assumptions C27_wrapped_path.
Print Assumptions C27_adjacent_fields_share.
Print Assumptions C31_tuple_length.
Print Assumptions C35_nil_primitive_written.
Print Assumptions C35_nil_model_written.
Print Assumptions C35_nil_primitive_read.
Print Assumptions C35_nil_model_read.
Print Assumptions C36_mapping_replaces_attributes.
Print Assumptions C36_mapping_round_trip.
Print Assumptions C43_serializer_replaces_default.
Print Assumptions C43_serializer_called.
Print Assumptions C43_only_for_its_field.
Print Assumptions C43_validator_replaces_default.
Print Assumptions C43_validator_only_for_its_field.
Print Assumptions C23_none_fields_are_not_written.
Print Assumptions C23_mapping_element_refuted.
Print Assumptions C23_tagged_union_refuted.
Print Assumptions C27_no_value_no_wrapper.
Print Assumptions C31_wrong_length_raises.
Print Assumptions C31_written_tuples_fit.
Print Assumptions C31_none_tuple.
Print Assumptions C35_nil_1_refuted.
Print Assumptions C36_attribute_before_mapping_refuted.
Print Assumptions C43_root_model_refuted.
