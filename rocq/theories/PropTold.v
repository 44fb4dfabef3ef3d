(** PropTold.v -- C90: values that survive a round trip can be told apart by their documents. *)

From Verif Require Import Base Elem Native Errs Names Ser Write Read Api Text SpecElem SpecRead SpecSim SpecRound SpecText SpecStray
  PfFuel PfText Samples PropRound PropText.

(** C90.  Let two instances of a class be such that C20 applies, with whatever switches, encoders and limits they are
    written.  If they are written as the same document, then pydantic makes the same value of their data; *)
Theorem C90_same_document_same_data : forall ev eas cls m encode encode' fl fl' v v' rs rs' w w' n n' doc,
  keeps_apart ev eas -> forbids_nothing ev \/ computes_nothing ev -> en_model ev cls = Some m ->
  model_type v = Some cls -> kept_model ev eas fl m v (encode v) rs w ->
  model_type v' = Some cls -> kept_model ev eas fl' m v' (encode' v') rs' w' ->
  to_xml_tree n ev encode v fl = Ok doc -> to_xml_tree n' ev encode' v' fl' = Ok doc -> w = w'.
Proof.
  intros ev eas cls m encode encode' fl fl' v v' rs rs' w w' n n' doc Ka Fc Em Tv K Tv' K' W W'.
  destruct (@C20_round_trip ev eas encode cls m v fl rs w Ka Fc Tv Em K) as (n1 & X1).
  destruct (@C20_round_trip ev eas encode' cls m v' fl' rs' w' Ka Fc Tv' Em K') as (n2 & X2).
  set (N := n + n' + n1 + n2).
  destruct (X1 N ltac:(unfold N; lia)) as (d1 & E1 & R1). destruct (X2 N ltac:(unfold N; lia)) as (d2 & E2 & R2).
  rewrite (@to_xml_stable ev encode n N) in E1 by (first [unfold N; lia|congruence]).
  rewrite (@to_xml_stable ev encode' n' N) in E2 by (first [unfold N; lia|congruence]). congruence.
Qed.
Print Assumptions C90_same_document_same_data.

(** ... so instances that are recovered are written as different documents if they are different. *)
Theorem C90_different_documents : forall ev eas cls m encode fl v v' rs rs' n n' doc doc',
  keeps_apart ev eas -> forbids_nothing ev \/ computes_nothing ev -> en_model ev cls = Some m ->
  model_type v = Some cls -> kept_model ev eas fl m v (encode v) rs v ->
  model_type v' = Some cls -> kept_model ev eas fl m v' (encode v') rs' v' ->
  to_xml_tree n ev encode v fl = Ok doc -> to_xml_tree n' ev encode v' fl = Ok doc' -> v <> v' -> doc <> doc'.
Proof. intros. intros ->. apply H8. eapply C90_same_document_same_data; [exact H|exact H0|exact H1|exact H2|exact H3|exact H4|exact H5|eassumption|eassumption]. Qed.
Print Assumptions C90_different_documents.

(** C90, for the text that to_xml returns, given a printer and a parser that are faithful to each other *)
Theorem C90_different_texts : forall D (print : native -> out D) parse, faithful print parse ->
  forall ev eas cls m encode fl v v' rs rs', keeps_apart ev eas -> forbids_nothing ev \/ computes_nothing ev -> empties_unseen ev ->
  en_model ev cls = Some m -> model_type v = Some cls -> kept_model ev eas fl m v (encode v) rs v -> no_raws v ->
  model_type v' = Some cls -> kept_model ev eas fl m v' (encode v') rs' v' -> no_raws v' ->
  exists n0, forall n, n0 <= n -> forall s s', to_xml print n ev encode v fl = Ok s -> to_xml print n ev encode v' fl = Ok s' -> v <> v' -> s <> s'.
Proof.
  intros D print parse Fa ev eas cls m encode fl v v' rs rs' Ka Fc Eu Em Tv K Nr Tv' K' Nr'.
  destruct (@C58_text_identity D print parse Fa ev eas encode cls m v fl rs Ka Fc Eu Tv Em K Nr) as (n1 & X1).
  destruct (@C58_text_identity D print parse Fa ev eas encode cls m v' fl rs' Ka Fc Eu Tv' Em K' Nr') as (n2 & X2).
  exists (n1 + n2). intros n L s s' W W' Ne ->. apply Ne.
  pose proof (X1 n ltac:(lia) _ W) as R. pose proof (X2 n ltac:(lia) _ W') as R'. congruence.
Qed.
Print Assumptions C90_different_texts.

(** ---- trees of any size with non-empty labels ---- *)
Example C90_ex_trees : forall b m v v' n n' doc, is_tree false v -> is_tree false v' ->
  to_xml_tree n (forest b m) jsonable v (Flags false false false) = Ok doc ->
  to_xml_tree n' (forest b m) jsonable v' (Flags false false false) = Ok doc -> v = v'.
Proof.
  intros b m v v' n n' doc T T' W W'. destruct (tree_kept b m T) as (rs & K). destruct (tree_kept b m T') as (rs' & K').
  destruct (forest_ok b m false) as [Ka Cn].
  eapply (@C90_same_document_same_data (forest b m) false "Tree" (tree_m m) jsonable jsonable); eauto.
  - destruct T; reflexivity.
  - destruct T'; reflexivity.
Qed.

Example C90_ex : exists doc doc',
  to_xml_tree 9 (forest Std Strict) jsonable (tree "1" "top" [tree "2" "left" []; tree "3" "right" []]) (Flags false false false) = Ok doc /\
  to_xml_tree 9 (forest Std Strict) jsonable (tree "1" "top" [tree "2" "left" [tree "3" "right" []]]) (Flags false false false) = Ok doc' /\ doc <> doc'.
Proof. eexists _, _. split; [vm_compute; reflexivity|]. split; [vm_compute; reflexivity|discriminate]. Qed.

(** C90, what is not recovered cannot be told apart: None and the empty text are written alike. *)
Theorem C90_none_and_empty_refuted : forall b, exists ev encode cls v v' doc, en_backend ev = b /\
  model_type v = Some cls /\ model_type v' = Some cls /\ v <> v' /\
  to_xml_tree 9 ev encode v (Flags false false false) = Ok doc /\ to_xml_tree 9 ev encode v' (Flags false false false) = Ok doc.
Proof.
  intros b. set (c := plain_model "Note" "note" [("a", SElem "a" None Strict false false)] []).
  exists (Env b (fun _ => Some c)), jsonable, "Note", (VModel "Note" [("a", VNone)] ["a"]), (VModel "Note" [("a", VStr "")] ["a"]).
  eexists. do 3 (split; [reflexivity|]). split; [discriminate|]. split; vm_compute; reflexivity.
Qed.
Print Assumptions C90_none_and_empty_refuted.
