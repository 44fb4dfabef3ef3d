(** PropLayout.v -- C73: text that no field is bound to, such as indentation, does not matter. *)

From Verif Require Import Base Elem Native Errs Names Ser Write Read Api Text SpecElem SpecRead SpecSim SpecRound SpecText SpecStray
  SpecLayout PfFuel PfText PfLayout Samples PropRound PropText.

(** C73.  Let [T] hold the names of all elements whose text some field reads, and [W] the names of raw
    elements.  Two documents that differ only in the text of other elements and in text behind elements
    (outside raw elements), and in comments, prefixes and line numbers, are read alike: the same value, or the
    same error except for line numbers.  If a model forbids extra content, the texts must be the same once
    stripped. *)
Theorem C73_unread_text_ignored : forall T W quiet ev, env_texts T W ev -> texts_unseen T W quiet ev ->
  quiet = true \/ forbids_nothing ev ->
  forall n cls m root root' eas, en_model ev cls = Some m -> (takes_text m -> T (md_elem_name m) = true) ->
  same_but_texts T W quiet false root root' ->
  alike_out (from_xml_tree n ev cls root eas) (from_xml_tree n ev cls root' eas) /\
  forall v, from_xml_tree n ev cls root eas = Ok v -> no_raws v -> from_xml_tree n ev cls root' eas = Ok v.
Proof.
  intros T W quiet ev HT HS HF n cls m root root' eas Em Hm H.
  pose proof (@texts_read T W quiet ev HT HS HF n cls m root root' eas Em Hm H) as A. split; auto.
  intros v E N. rewrite E in A. destruct (from_xml_tree n ev cls root' eas) as [w|x|]; simpl in A; try contradiction.
  f_equal. symmetry. apply alike_no_raws; auto.
Qed.

(** C73.  In particular indentation does not matter, with extra='forbid' or without, if no element that has
    children is read for its text and there are no raw elements. *)
Theorem C73_indentation_ignored : forall T W ev, env_texts T W ev -> texts_unseen T W true ev ->
  forall pad, (forall d, blank (pad d)) ->
  forall n cls m root eas, en_model ev cls = Some m -> (takes_text m -> T (md_elem_name m) = true) ->
  indentable T W root -> is_xml_comment root = false ->
  alike_out (from_xml_tree n ev cls root eas) (from_xml_tree n ev cls (indent pad 0 root) eas).
Proof.
  intros T W ev HT HS pad Hp n cls m root eas Em Hm Hi Hc.
  apply (@texts_read T W true ev HT HS (or_introl eq_refl) n cls m); auto. apply indent_same; auto.
Qed.

(** C73.  A value that survives writing and reading (C20) survives an indenting printer (pretty_print=True)
    as well, if the written document is as above. *)
Theorem C73_pretty_round_trip : forall T W pad, (forall d, blank (pad d)) ->
  forall D (print : native -> out D) parse, indents pad print parse ->
  forall ev eas encode cls m v fl rs w, env_texts T W ev -> texts_unseen T W true ev ->
  keeps_apart ev eas -> forbids_nothing ev \/ computes_nothing ev ->
  model_type v = Some cls -> en_model ev cls = Some m -> (takes_text m -> T (md_elem_name m) = true) ->
  kept_model ev eas fl m v (encode v) rs w ->
  exists n0, forall n, n0 <= n -> exists doc, to_xml_tree n ev encode v fl = Ok doc /\
    (indentable T W doc -> forall s, to_xml print n ev encode v fl = Ok s ->
       exists w', from_xml parse n ev cls s eas = Ok w' /\ alike w w').
Proof.
  intros T W pad Hp D print parse Hi ev eas encode cls m v fl rs w HT HS Ka Fc Hv Em Hm K.
  destruct (round_trip_doc encode Ka Fc Hv Em K) as (n0 & X). exists n0. intros n Hn.
  destruct (X n Hn) as (doc & Dc & Wr & Rd). exists doc. split; auto. intros In s Ps.
  unfold to_xml, from_xml in *. rewrite Wr in Ps. simpl in Ps. destruct (Hi doc s Dc Ps) as (doc' & -> & Rp). simpl.
  assert (Q : same_but_texts T W true false doc doc').
  { eapply texts_reparsed; [|exact Rp]. apply indent_same; auto. destruct Dc as [O _]. inversion O; auto. }
  pose proof (@texts_read T W true ev HT HS (or_introl eq_refl) n cls m _ _ eas Em Hm Q) as A. rewrite Rd in A.
  destruct (from_xml_tree n ev cls doc' eas) as [w'|x|]; simpl in A; try contradiction; eauto.
Qed.

(** ---- non-vacuity ---- *)

Definition shop_texts (t : string) : bool := existsb (String.eqb t) ["note"; "author"; "dim"; "line"; "a"].
Definition shop_raws (t : string) : bool := String.eqb t "attached".

Ltac no_own := intros X; unfold takes_text in X; simpl in X; repeat match goal with X : Exists _ _ |- _ => inversion X; clear X; subst end;
  simpl in *; match goal with X : own_text _ |- _ => inversion X; clear X; subst end.
Ltac no_own_list := repeat match goal with X : Exists own_text _ |- _ => inversion X; clear X; subst | X : own_text _ |- _ => inversion X; clear X; subst end.

Lemma shop_texts_in : forall b m, env_texts shop_texts shop_raws (shop b m).
Proof.
  intros b m cls md; simpl.
  assert (P : forall c t, t = "line" \/ c <> "Line" -> proxy_texts shop_texts (shop b m) (sub c t m)).
  { intros c t H md' E X. destruct H as [->|H]; [reflexivity|]. exfalso. revert E. simpl.
    destruct (String.eqb c "Order"); [intros E; injection E as <-; revert X; no_own; no_own_list|].
    destruct (String.eqb_spec c "Line"); [contradiction|].
    destruct (String.eqb c "Circle"); [intros E; injection E as <-; revert X; no_own; no_own_list|].
    destruct (String.eqb c "Square"); [intros E; injection E as <-; revert X; no_own; no_own_list|discriminate]. }
  repeat (destruct (String.eqb _ _)); intros E; try discriminate; injection E as <-;
    repeat constructor; simpl; auto; try discriminate; try (intros X; inversion X); try (apply P; auto; right; discriminate).
Qed.

Lemma shop_texts_unseen : forall b m q, texts_unseen shop_texts shop_raws q (shop b m).
Proof.
  intros b m q cls md; simpl. repeat (destruct (String.eqb _ _)); intros E; try discriminate; injection E as <-; (split; [discriminate|apply fills_alike]).
Qed.

(** an order with remarks of all sorts between its elements, and one on a single line *)
Definition order_tree (remark : option string) : native :=
  NElem "order" [] remark remark [("id", "7")]
    [NComment (Some "c") None;
     NElem "meta" [] remark remark [] [NElem "note" [] (Some "fragile") remark [] [] None] None;
     NElem "dim" [] (Some "3") remark [] [] None; NElem "dim" [] (Some "4") remark [] [] None;
     NElem "props" [] remark remark [("colour", "red")] [NPI remark remark [] None] None;
     NElem "line" [] (Some "apples") remark [("sku", "a")] [] None;
     NElem "attached" [] (Some "x") None [("k", "v")] [] None] None.

Example C73_ex : forall b m n eas remark, alike_out (from_xml_tree n (shop b m) "Order" (order_tree None) eas)
                                              (from_xml_tree n (shop b m) "Order" (order_tree remark) eas).
Proof.
  intros b m n eas remark.
  refine (proj1 (@C73_unread_text_ignored shop_texts shop_raws false (shop b m) (@shop_texts_in b m) (@shop_texts_unseen b m false)
    (or_intror (proj2 (shop_ok b m eas))) n "Order" (order_m m) (order_tree None) (order_tree remark) eas eq_refl _ _)).
  - no_own; no_own_list.
  - repeat constructor; simpl; intros; try discriminate; try reflexivity.
Qed.

Example C73_ex_read : exists v, from_xml_tree 9 (shop Lxml Ordered) "Order" (order_tree (Some " see below ")) false = Ok v /\
  from_xml_tree 9 (shop Lxml Ordered) "Order" (order_tree None) false = Ok v.
Proof. eexists. split; [vm_compute; reflexivity|vm_compute; reflexivity]. Qed.

(** the indenting printer of PropText's event streams; every level is two blanks *)
Fixpoint spaces (d : nat) : string := match d with O => "" | S d' => String " " (String " " (spaces d')) end.
Definition lf : Ascii.ascii := Ascii.ascii_of_nat 10.
Definition pads (d : nat) : string := String lf (spaces d).

Lemma pads_blank : forall d, blank (pads d).
Proof. intros d; unfold pads. constructor; [reflexivity|]. induction d; simpl; repeat constructor; auto. Qed.

Definition pretty_print (n : native) : out (list event) := sax_print (indent pads 0 n).

Lemma indent_only : forall pad n, only_elements n -> forall d, only_elements (indent pad d n).
Proof.
  intros pad n; induction n as [tag ns text tail a cs line IH| |] using native_ind'; intros H d; inversion H as [? ? ? ? ? ? ? F]; subst.
  rewrite indent_elem. constructor. clear H. induction cs as [|c cs IHc]; [constructor|].
  inversion IH as [|? ? I1 I2]; inversion F as [|? ? F1 F2]; subst.
  assert (X : forall f, only_elements (set_native_tail f (indent pad (S d) c))).
  { intros f. specialize (I1 F1 (S d)). inversion I1; subst. simpl. constructor; auto. }
  destruct cs as [|c' cs']; simpl; constructor; auto.
Qed.

Lemma pretty_indents : indents pads pretty_print sax_parse.
Proof.
  intros t s [O T] P. apply sax_faithful; auto. split; [apply indent_only; auto|]. destruct t; auto.
Qed.

Definition forest_text (t : string) : bool := String.eqb t "label".
Definition no_tags (t : string) : bool := false.

Lemma forest_texts : forall b m, env_texts forest_text no_tags (forest b m).
Proof.
  intros b m cls md; simpl. destruct (String.eqb cls "Tree"); intros E; [injection E as <-|discriminate].
  repeat constructor; simpl; auto. intros md; simpl. intros E; injection E as <-. no_own; no_own_list.
Qed.

Lemma forest_texts_unseen : forall b m q, texts_unseen forest_text no_tags q (forest b m).
Proof.
  intros b m q cls md; simpl; destruct (String.eqb cls "Tree"); intros E; [injection E as <-|discriminate]. split; [discriminate|].
  apply fills_alike.
Qed.

Definition a_tree : val := tree "1" "top" [tree "2" "left" [tree "4" "leaf" []]; tree "3" "right" []].

(** a class with extra='forbid': the indented document is read back *)
Example C73_ex_pretty : forall b m eas, exists n0, forall n, n0 <= n -> exists s,
  to_xml pretty_print n (forest b m) jsonable a_tree (Flags false false false) = Ok s /\
  from_xml sax_parse n (forest b m) "Tree" s eas = Ok a_tree.
Proof.
  intros b m eas. assert (Tr : is_tree eas a_tree) by (repeat first [apply Forall_nil | apply Forall_cons | apply is_tree_intro | left; discriminate]).
  destruct (tree_kept b m Tr) as (rs & K). destruct (forest_ok b m eas) as [Ka Cn].
  destruct (@C73_pretty_round_trip forest_text no_tags pads pads_blank _ pretty_print sax_parse pretty_indents (forest b m) eas jsonable
    "Tree" (tree_m m) a_tree (Flags false false false) rs a_tree (@forest_texts b m) (@forest_texts_unseen b m true) Ka (or_intror Cn)
    eq_refl eq_refl ltac:(no_own; no_own_list) K) as (n0 & X).
  exists (n0 + 12). intros n Hn. destruct (X n ltac:(lia)) as (doc & Wr & Y).
  assert (S : to_xml pretty_print n (forest b m) jsonable a_tree (Flags false false false) = Ok (emit (indent pads 0 doc)))
    by (unfold to_xml; rewrite Wr; reflexivity).
  exists (emit (indent pads 0 doc)). split; auto.
  assert (I : indentable forest_text no_tags doc).
  { assert (Z : exists d, to_xml_tree 12 (forest b m) jsonable a_tree (Flags false false false) = Ok d /\ indentable forest_text no_tags d).
    { destruct b, m; (eexists; split; [vm_compute; reflexivity|]); repeat constructor; intros Q; congruence. }
    destruct Z as (d & Zd & Zi). rewrite (@to_xml_stable (forest b m) jsonable 12 n) in Wr by (first [lia|congruence]). congruence. }
  destruct (Y I _ S) as (w & R & A). rewrite R. f_equal. symmetry. apply alike_no_raws; auto. eapply tree_no_raws; eauto.
Qed.

(** ---- limits ---- *)

(** with extra='forbid' a text between elements is reported *)
Theorem C73_forbidden_text_refuted : exists T W ev cls m root root', env_texts T W ev /\ texts_unseen T W false ev /\
  en_model ev cls = Some m /\ (takes_text m -> T (md_elem_name m) = true) /\ same_but_texts T W false false root root' /\
  ~ alike_out (from_xml_tree 9 ev cls root false) (from_xml_tree 9 ev cls root' false).
Proof.
  exists forest_text, no_tags, (forest Lxml Strict), "Tree", (tree_m Strict),
    (NElem "tree" [] None None [("id", "1")] [NElem "label" [] (Some "x") None [] [] None] None),
    (NElem "tree" [] None None [("id", "1")] [NElem "label" [] (Some "x") (Some "?") [] [] None] None).
  split; [apply forest_texts|]. split; [apply forest_texts_unseen|]. split; [reflexivity|].
  split; [no_own; no_own_list|]. split; [repeat constructor; simpl; intros; discriminate|]. vm_compute. auto.
Qed.

(** and so is whitespace that ends up in a raw element: the element's tail is part of the value *)
Theorem C73_raw_tail_refuted : exists T W ev cls m root, env_texts T W ev /\ texts_unseen T W true ev /\
  en_model ev cls = Some m /\ (takes_text m -> T (md_elem_name m) = true) /\
  (forall pad : nat -> string, (forall d, blank (pad d)) -> pad 0 <> "" ->
    ~ alike_out (from_xml_tree 9 ev cls root false) (from_xml_tree 9 ev cls (indent pad 0 root) false)).
Proof.
  exists shop_texts, shop_raws, (shop Lxml Ordered), "Order", (order_m Ordered),
    (NElem "order" [] None None [("id", "7")] [NElem "attached" [] (Some "x") None [("k", "v")] [] None] None).
  split; [apply shop_texts_in|]. split; [apply shop_texts_unseen|]. split; [reflexivity|]. split; [no_own; no_own_list|].
  intros pad Hp Hne A. rewrite indent_elem in A. vm_compute in A.
  inversion A as [| | |? ? ? ? F|]; subst.
  do 7 (match goal with F : Forall2 _ _ _ |- _ => inversion F; clear F; subst end).
  match goal with F : Forall2 _ (_ :: _) _ |- _ => inversion F as [|? ? ? ? [_ X] _]; subst end. simpl in X.
  inversion X as [| | | |? ? R]; subst. inversion R; subst. unfold same_text in *; simpl in *. congruence.
Qed.

Print Assumptions C73_unread_text_ignored.
Print Assumptions C73_indentation_ignored.
Print Assumptions C73_pretty_round_trip.
Print Assumptions C73_forbidden_text_refuted.
Print Assumptions C73_raw_tail_refuted.
