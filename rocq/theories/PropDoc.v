(** PropDoc.v -- C25, C37, C38, C44, C45, C49: computed fields, comments, attribute order, and the two
    XML back ends. *)

From Verif Require Import Base Elem Native Errs Names Ser Write Read Api SpecElem SpecRead SpecWrite SpecSim
  Samples PfElem PfNames PfSim PfSim2 PfSim3 PfWSim PropRead PropWrite.

(** C25.  A computed field reads nothing: no value, and the element is left exactly as it was. *)
Theorem C25_computed_reads_nothing : forall ev s, computed ev s -> forall n eas loc st0,
  read (S n) ev s eas loc st0 = (Ok VNone, st0).
Proof. intros ev s H n eas loc st0. exact (computed_reads_nothing H n eas loc st0). Qed.

(** ... and removing computed fields from any models changes no result of from_xml_tree (line numbers in
    error messages aside).  Root models keep their root field. *)
Theorem C25_computed_fields_irrelevant : forall ev ev', without_computed ev ev' ->
  forall n cls root eas, from_xml_tree n ev cls root eas <> Fuel ->
  same_out (from_xml_tree n ev cls root eas) (from_xml_tree n ev' cls root eas).
Proof. intros. now apply computed_removed. Qed.

(** a rectangle with a computed area, written as an element *)
Definition rect_fields (withc : bool) : list (string * ser) :=
  [("w", SAttr "w" false); ("h", SElem "h" None Strict false false)] ++
  (if withc then [("area", SElem "area" None Strict true false)] else []) ++
  [("label", SElem "label" None Strict false false)].
Definition rect (withc : bool) : mdef := plain_model "Rect" "rect" (rect_fields withc) ["w"; "h"].
Definition rects (withc : bool) : env := Env Lxml (fun c => if String.eqb c "Rect" then Some (rect withc) else None).
Definition rect_doc : native :=
  el "rect" [("w", "2")] "" [el "h" [] "3" []; el "label" [] "x" []].

Example C25_ex : without_computed (rects true) (rects false) /\
  from_xml_tree 5 (rects true) "Rect" rect_doc false =
    Ok (VModel "Rect" [("w", VStr "2"); ("h", VStr "3"); ("label", VStr "x")] ["w"; "h"; "label"]).
Proof.
  split; [|vm_compute; reflexivity]. split; [reflexivity|]. intros cls. unfold rects; simpl.
  destruct (String.eqb cls "Rect"); [|exact I].
  exists (rect_fields false). split; [reflexivity|]. split; [|discriminate].
  repeat (first [apply dc_nil | apply dc_drop; [solve [constructor]|reflexivity|] | apply dc_keep]).
Qed.

(** C37.  Two documents that differ only in their comments (and line numbers) give the same result. *)
Theorem C37_comments_ignored : forall ev, lines_unseen ev ->
  forall n cls root1 root2 eas, same_but_comments root1 root2 ->
  same_out (from_xml_tree n ev cls root1 eas) (from_xml_tree n ev cls root2 eas).
Proof. exact comments_ignored. Qed.

Lemma lib_lines_unseen : forall b m, lines_unseen (lib b m).
Proof.
  intros b m cls md name f. unfold lib; simpl.
  destruct (String.eqb cls "Node"); [intros E; injection E as <-; discriminate|].
  destruct (String.eqb cls "Circle"); [intros E; injection E as <-; discriminate|].
  destruct (String.eqb cls "Square"); [intros E; injection E as <-; discriminate|].
  destruct (String.eqb cls "Shapes"); [intros E; injection E as <-; discriminate|]. discriminate.
Qed.

Ltac nopi := repeat match goal with
  | |- _ \/ _ => first [left; reflexivity | right]
  | |- _ => constructor
  end.

Definition comment := NComment (Some "c") (Some "tail").
(** node_doc with comments before, between and after the children *)
Definition commented_doc : native :=
  NElem "node" [] (Some "") None [("id", "1")]
    [comment; el "value" [] "10" [comment]; comment; comment; el "node" [] "" [comment; el "value" [] "20" []];
     el "node" [("id", "3")] "" [el "value" [] "30" []]; comment] (Some 99%Z).

Example C37_ex : lines_unseen (lib Lxml Strict) /\ same_but_comments node_doc commented_doc /\
  exists v, from_xml_tree 9 (lib Lxml Strict) "Node" commented_doc false = Ok v /\
            from_xml_tree 9 (lib Lxml Strict) "Node" node_doc false = Ok v.
Proof.
  split; [apply lib_lines_unseen|]. split.
  - unfold node_doc, commented_doc, el, comment. repeat constructor.
  - eexists; split; [vm_compute; reflexivity|vm_compute; reflexivity].
Qed.

(** the limit: text after a comment is the comment's tail and is lost with it.  <value>1<!--c-->0</value>
    does not give what <value>10</value> gives *)
Theorem C37_text_after_comment_lost_refuted : exists ev cls root1 root2,
  lines_unseen ev /\ no_pi root1 /\ no_pi root2 /\
  root1 = el "node" [] "" [NElem "value" [] (Some "1") None [] [NComment (Some "c") (Some "0")] None] /\
  root2 = el "node" [] "" [NElem "value" [] (Some "10") None [] [] None] /\
  ~ same_out (from_xml_tree 9 ev cls root1 false) (from_xml_tree 9 ev cls root2 false).
Proof.
  exists (lib Lxml Strict), "Node". eexists; eexists. split; [apply lib_lines_unseen|].
  split; [|split; [|split; [reflexivity|split; [reflexivity|vm_compute; discriminate]]]];
    repeat constructor; right; repeat constructor.
Qed.

(** C38.  Two documents that differ only in the order of attributes give the same result (up to the key
    order of dicts read from them), provided user code does not look at the order. *)
Theorem C38_attribute_order_ignored : forall ev, order_unseen ev ->
  forall n cls root1 root2 eas, reordered root1 root2 ->
  same_outcome (from_xml_tree n ev cls root1 eas) (from_xml_tree n ev cls root2 eas).
Proof. exact attribute_order_ignored. Qed.

Lemma keys_perm : forall d d1 d' : list (string * val), Permutation d d1 ->
  Forall2 (fun a b : string * val => fst a = fst b /\ same_val (snd a) (snd b)) d1 d' -> Permutation (dkeys d) (dkeys d').
Proof.
  intros d d1 d' P F. apply perm_trans with (dkeys d1). { now apply Permutation_map. }
  clear P d. induction F as [|x y l l' [E _] F IH]; simpl; auto. rewrite E. now constructor.
Qed.

Lemma dmem_in : forall A k (d : dict A), dmem k d = true <-> In k (dkeys d).
Proof.
  intros A k d. unfold dmem. induction d as [|[k' v] d IH]; simpl; [split; [discriminate|tauto]|].
  destruct (String.eqb_spec k k') as [->|N]; [split; auto|]. rewrite IH. split; [auto|intros [H|H]; auto; congruence].
Qed.

Lemma accepts_order : forall cls req v v', same_val v v' ->
  match accepts cls req (Some v), accepts cls req (Some v') with
  | Valid w, Valid w' => same_val w w'
  | Invalid x, Invalid x' => same_error x x'
  | Crashed a, Crashed a' => a = a'
  | _, _ => False
  end.
Proof.
  intros cls req v v' H. destruct H as [v|l l' F|d d1 d' P F|c d d1 d' s s' P F Ps|n n' R].
  - destruct (accepts cls req (Some v)); [apply sv_refl|apply same_error_refl|reflexivity].
  - simpl. eapply sv_model; [apply Permutation_refl| |apply Permutation_refl].
    constructor; [split; [reflexivity|now constructor]|constructor].
  - assert (D : forall k, dmem k d = dmem k d').
    { intros k. apply eq_true_iff_eq. rewrite !dmem_in. pose proof (keys_perm P F) as K.
      split; apply Permutation_in; auto. now apply Permutation_sym. }
    simpl. rewrite (filter_ext _ (fun k => negb (dmem k d'))) by (intros k; now rewrite D).
    destruct (filter _ req) as [|m ms].
    + eapply sv_model; eauto. now apply keys_perm with d1.
    + split; [reflexivity|]. split; [reflexivity|]. eexists. split; [apply Permutation_refl|]. unfold ve_lines.
      assert (L : forall k, same_line (LErr "missing" (MText "Field required") [LKey k] (VDict d))
                    (LErr "missing" (MText "Field required") [LKey k] (VDict d'))).
      { intros k. repeat split. simpl. eapply sv_dict; eauto. }
      constructor; [apply L|]. clear - L. induction ms; simpl; constructor; auto.
  - simpl. eapply sv_model; [apply Permutation_refl| |apply Permutation_refl].
    constructor; [split; [reflexivity|eapply sv_model; eauto]|constructor].
  - simpl. eapply sv_model; [apply Permutation_refl| |apply Permutation_refl].
    constructor; [split; [reflexivity|now constructor]|constructor].
Qed.

(** a model with a free mapping of attributes *)
Definition tagsm (namespaced : bool) : mdef :=
  plain_model "Tags" "tags" [("name", SAttr "name" false); ("rest", SAttrs (AttrsSer None None namespaced false))] ["name"].
Definition tags (namespaced : bool) : env :=
  Env Lxml (fun c => if String.eqb c "Tags" then Some (tagsm namespaced) else None).

Lemma tags_order_unseen : forall b, order_unseen (tags b).
Proof.
  intros b cls m. unfold tags; simpl. destruct (String.eqb cls "Tags"); [|discriminate].
  intros H; injection H as <-. split; [discriminate|]. intros v v' S. exact (accepts_order _ _ S).
Qed.

Example C38_ex : order_unseen (tags false) /\
  reordered (el "tags" [("name", "n"); ("a", "1"); ("b", "2")] "" []) (el "tags" [("b", "2"); ("name", "n"); ("a", "1")] "" []) /\
  from_xml_tree 5 (tags false) "Tags" (el "tags" [("b", "2"); ("name", "n"); ("a", "1")] "" []) false =
    Ok (VModel "Tags" [("name", VStr "n"); ("rest", VDict [("b", VStr "2"); ("a", VStr "1")])] ["name"; "rest"]).
Proof.
  split; [apply tags_order_unseen|]. split; [|vm_compute; reflexivity].
  unfold el. constructor; [|constructor]. split; [|split].
  - apply perm_trans with [("name", "n"); ("b", "2"); ("a", "1")]; [apply perm_skip, perm_swap|apply perm_swap].
  - repeat constructor; simpl; intuition discriminate.
  - intros k. unfold locals. cbn [filter fst].
    change (q_tag (from_uri "name")) with "name". change (q_tag (from_uri "a")) with "a". change (q_tag (from_uri "b")) with "b".
    destruct (String.eqb_spec "name" k); destruct (String.eqb_spec "a" k); destruct (String.eqb_spec "b" k); congruence.
Qed.

(** the limit: a mapping bound to namespaced attributes keeps local names only, so of two attributes with
    the same local name the last one in document order wins *)
Theorem C38_local_name_clash_refuted : exists ev cls a a', order_unseen ev /\ Permutation a a' /\ NoDup (dkeys a) /\
  ~ same_outcome (from_xml_tree 5 ev cls (el "tags" a "" []) false) (from_xml_tree 5 ev cls (el "tags" a' "" []) false).
Proof.
  exists (tags true), "Tags", [("name", "n"); ("{u}x", "1"); ("{v}x", "2")], [("name", "n"); ("{v}x", "2"); ("{u}x", "1")].
  split; [apply tags_order_unseen|]. split; [apply perm_skip, perm_swap|].
  split; [repeat constructor; simpl; intuition discriminate|].
  set (r1 := from_xml_tree _ _ _ (el "tags" [("name", "n"); ("{u}x", "1"); ("{v}x", "2")] "" []) _).
  set (r2 := from_xml_tree _ _ _ _ _).
  assert (E1 : r1 = Ok (VModel "Tags" [("name", VStr "n"); ("rest", VDict [("x", VStr "2")])] ["name"; "rest"])) by (vm_compute; reflexivity).
  assert (E2 : r2 = Ok (VModel "Tags" [("name", VStr "n"); ("rest", VDict [("x", VStr "1")])] ["name"; "rest"])) by (vm_compute; reflexivity).
  rewrite E1, E2. simpl. intros H. inversion H; subst.
  match goal with P : Permutation _ ?d, F : Forall2 _ ?d _ |- _ =>
    inversion F as [|x1 y1 t1 u1 [K1 _] F1]; subst; inversion F1 as [|x2 y2 t2 u2 [K2 V2] F2]; subst;
    inversion F2; subst; simpl in K1, K2, V2;
    assert (I2 : In x2 [x1; x2]) by (simpl; auto); apply (Permutation_in _ (Permutation_sym P)) in I2 end.
  simpl in I2. destruct I2 as [<-|[<-|[]]]; simpl in K2; [discriminate|]. simpl in V2.
  inversion V2 as [| |d3 d4 d5 P4 F4| |]; subst.
  inversion F4 as [|a4 b4 t4 u4 [K4 V4] F5]; subst. inversion F5; subst.
  apply Permutation_length_1_inv in P4. subst; injection P4 as ->; simpl in V4; inversion V4.
Qed.

(** C44.  Importing a parsed tree and exporting it gives the same tree without comments, prefix declarations
    and line numbers; exporting an element and importing it gives the same content. *)
Theorem C44_import_export : forall b n, no_pi n ->
  exists n', to_native b (from_native b n) = Some n' /\ bare_copy n n'.
Proof. exact convert_back. Qed.

Theorem C44_export_import : forall b e, named e ->
  exists n, to_native b e = Some n /\ same_content e (from_native b n).
Proof. exact convert_forth. Qed.

Example C44_ex : no_pi commented_doc /\ named (from_native Std node_doc) /\
  exists n', to_native Lxml (from_native Lxml commented_doc) = Some n' /\ bare_copy commented_doc n' /\
             count_native "20" n' = 1.
Proof.
  split; [|split].
  - unfold commented_doc, el, comment. nopi.
  - unfold node_doc, el; simpl. repeat (first [discriminate | constructor]).
  - eexists. split; [vm_compute; reflexivity|]. split; [|vm_compute; reflexivity].
    unfold commented_doc, el, comment. repeat constructor.
Qed.

(** C45.  The lxml and the standard library back end write the same tree, except for prefix declarations
    (which the latter chooses when printing). *)
Theorem C45_backends_write_alike : forall ev b, prefixes_unseen ev ->
  forall n encode v fl, raws_ok v ->
  same_tree (to_xml_tree n ev encode v fl) (to_xml_tree n (on_backend b ev) encode v fl).
Proof. exact backends_write_alike. Qed.

(** C49.  The two back ends read a document without processing instructions alike. *)
Theorem C49_backends_read_alike : forall ev b, lines_unseen ev -> keeps_clean ev ->
  forall n cls root eas, no_pi root ->
  same_out (from_xml_tree n ev cls root eas) (from_xml_tree n (on_backend b ev) cls root eas).
Proof. exact backends_read_alike. Qed.

(** with a processing instruction inside a raw element they do not: lxml fails, ElementTree does not *)
Theorem C49_pi_in_raw_refuted : exists ev cls root, lines_unseen ev /\ keeps_clean ev /\
  ~ same_out (from_xml_tree 9 ev cls root false) (from_xml_tree 9 (on_backend Std ev) cls root false).
Proof.
  exists (lib Lxml Strict), "Shapes", pi_in_raw_doc. split; [apply lib_lines_unseen|]. split; [|vm_compute; auto].
  intros cls m name f. unfold lib; simpl.
  destruct (String.eqb cls "Node"); [intros E; injection E as <-; discriminate|].
  destruct (String.eqb cls "Circle"); [intros E; injection E as <-; discriminate|].
  destruct (String.eqb cls "Square"); [intros E; injection E as <-; discriminate|].
  destruct (String.eqb cls "Shapes"); [intros E; injection E as <-; discriminate|]. discriminate.
Qed.

Lemma lib_unseen : forall b m, prefixes_unseen (lib b m) /\ keeps_clean (lib b m).
Proof.
  intros b m; split; intros cls md name f; unfold lib; simpl;
  (destruct (String.eqb cls "Node"); [intros E; injection E as <-; discriminate|]);
  (destruct (String.eqb cls "Circle"); [intros E; injection E as <-; discriminate|]);
  (destruct (String.eqb cls "Square"); [intros E; injection E as <-; discriminate|]);
  (destruct (String.eqb cls "Shapes"); [intros E; injection E as <-; discriminate|]); discriminate.
Qed.

Definition shapes_val : val :=
  VModel "Shapes" [("shapes", VList [VModel "Circle" [("r", VStr "1")] ["r"]; VModel "Square" [("a", VStr "2")] ["a"]]);
                   ("note", VStr "hello"); ("author", VNone); ("extra", VRaw (el "extra" [] "raw" [el "x" [] "" []]))]
    ["shapes"; "note"; "author"; "extra"].

Example C45_ex : prefixes_unseen (lib Lxml Strict) /\ lines_unseen (lib Lxml Strict) /\ keeps_clean (lib Lxml Strict) /\
  raws_ok shapes_val /\ no_pi shapes_doc /\
  to_xml_tree 9 (lib Lxml Strict) enc_of shapes_val plain_flags = to_xml_tree 9 (lib Std Strict) enc_of shapes_val plain_flags /\
  exists t, to_xml_tree 9 (lib Std Strict) enc_of shapes_val plain_flags = Ok t /\ count_native "2" t = 1 /\
  from_xml_tree 9 (lib Std Strict) "Shapes" shapes_doc false = from_xml_tree 9 (lib Lxml Strict) "Shapes" shapes_doc false.
Proof.
  split; [apply lib_unseen|]. split; [apply lib_lines_unseen|]. split; [apply lib_unseen|].
  split; [unfold shapes_val, el; nopi|].
  split; [unfold shapes_doc, el; nopi|].
  split; [vm_compute; reflexivity|]. eexists. split; [vm_compute; reflexivity|]. split; vm_compute; reflexivity.
Qed.

Print Assumptions C25_computed_reads_nothing.
Print Assumptions C25_computed_fields_irrelevant.
Print Assumptions C37_comments_ignored.
Print Assumptions C37_text_after_comment_lost_refuted.
Print Assumptions C38_attribute_order_ignored.
Print Assumptions C38_local_name_clash_refuted.
Print Assumptions C44_import_export.
Print Assumptions C44_export_import.
Print Assumptions C45_backends_write_alike.
Print Assumptions C49_backends_read_alike.
Print Assumptions C49_pi_in_raw_refuted.
