(** PropDecl.v -- C17, C27, C42: what the declaration functions say, the parts of a path, the lines
    of a document. *)

From Verif Require Import Base Elem Native Errs Names Fields Ser Write Read Api SpecNames SpecElem SpecRead SpecRead2 SpecDecl
  Samples PfDecl.

(** C17.  attr(), element() and wrapped(), among any other metadata, say where the value goes, under
    which name and namespace, and nothing else ... *)
Theorem C17_attr_declares : forall name ns before after, no_xml_info before -> no_xml_info after ->
  exists i, extract_info (before ++ attr name ns ++ after) = Some i /\
    same_info i (EInfo (Some LocAttribute) name ns None None None).
Proof. intros name ns before after B A. apply one_info; simpl; auto. exact I. Qed.

Theorem C17_element_declares : forall tag ns m nillable before after, no_xml_info before -> no_xml_info after ->
  (forall d, m = Some d -> NoDup (dkeys d)) ->
  exists i, extract_info (before ++ element tag ns m nillable ++ after) = Some i /\
    same_info i (EInfo (Some LocElement) tag ns m nillable None).
Proof. intros tag ns m nillable before after B A G. apply one_info; simpl; auto. unfold good_map; simpl. destruct m; auto. Qed.

Theorem C17_wrapped_declares : forall path ns m before after, no_xml_info before -> no_xml_info after ->
  (forall d, m = Some d -> NoDup (dkeys d)) ->
  exists i, extract_info (before ++ wrapped path None ns m ++ after) = Some i /\
    same_info i (EInfo (Some LocWrapped) (Some path) ns m None None).
Proof. intros path ns m before after B A G. apply one_info; simpl; auto. unfold good_map; simpl. destruct m; auto. Qed.

(** ... wrapped() around another declaration adds what that one says, and keeps its other metadata ... *)
Theorem C17_wrapped_around : forall path inner ns m, (forall d, m = Some d -> NoDup (dkeys d)) ->
  (exists i, extract_info (wrapped path (Some inner) ns m) = Some i /\
     same_info i (EInfo (Some LocWrapped) (Some path) ns m None (extract_info inner))) /\
  (forall x, (forall i, x <> MetaInfo i) -> (In x (wrapped path (Some inner) ns m) <-> In x inner)).
Proof.
  intros path inner ns m G. split; [apply wrapped_says; unfold good_map; simpl; destruct m; auto|].
  intros x N. unfold wrapped. rewrite in_app_iff, filter_In. split.
  - intros [(H & _)|[H|[]]]; auto. exfalso; eapply N; eauto.
  - intros H. left. split; auto. destruct x; auto. exfalso; eapply N; eauto.
Qed.

(** ... and without any of them there is no XML annotation *)
Theorem C17_nothing_declared : forall l, extract_info l = None <-> no_xml_info l.
Proof. exact extract_none. Qed.

Example C17_declares_ex : no_xml_info [MetaOther "Gt(0)"; MetaNoXml] /\
  extract_info (MetaOther "Gt(0)" :: attr (Some "n") (Some "p")) = Some (EInfo (Some LocAttribute) (Some "n") (Some "p") None None None).
Proof. split; [intros i [H|[H|[]]]; discriminate|reflexivity]. Qed.

(** C27, C28.  The path of a wrapped field is split at the slashes: its parts contain none and give the
    path when joined. *)
Theorem C27_path_parts : forall path parts, py_split "/"%char path = parts <-> parts_of "/"%char path parts.
Proof. exact (split_iff "/"%char). Qed.

Example C27_path_parts_ex : parts_of "/"%char "a/b//c" ["a"; "b"; ""; "c"].
Proof. repeat split; try discriminate. repeat constructor; discriminate. Qed.

(** C42.  The lines of the tree that is read are those the parser of lxml gives the elements of the
    document (-1 if it gives none, and for processing instructions) ... *)
Theorem C42_lines_of_document : forall d z, is_xml_comment d = false ->
  (line_in (from_native Lxml d) z <->
   (exists l, line_known d (Some l) /\ z = l) \/ (line_known d None /\ z = (-1)%Z)).
Proof.
  intros d z N. rewrite lines_from by auto. split.
  - intros ([l|] & K & ->); simpl; [left; exists l; auto|right; auto].
  - intros [(l & K & ->)|(K & ->)]; [exists (Some l)|exists None]; auto.
Qed.

(** ... and the standard library's parser knows no lines *)
Theorem C42_std_no_lines : forall d z, is_xml_comment d = false -> line_in (from_native Std d) z -> z = (-1)%Z.
Proof. intros d z N H. apply lines_from in H as (l & _ & ->); auto. Qed.

(** the line of the element itself *)
Theorem C42_line_of_element : forall tag m text tail attrib children l,
  e_line (from_native Lxml (NElem tag m text tail attrib children (Some l))) = l.
Proof. reflexivity. Qed.

Example C42_lines_ex : line_in (from_native Lxml (NElem "a" [] None None [] [NComment None None; NElem "b" [] None None [] [] (Some 7%Z)] (Some 3%Z))) 7%Z.
Proof. apply C42_lines_of_document; auto. left. exists 7%Z. split; auto. eapply lk_below; [right; left; reflexivity|constructor]. Qed.

Print Assumptions C17_attr_declares.
Print Assumptions C17_element_declares.
Print Assumptions C17_wrapped_declares.
Print Assumptions C17_wrapped_around.
Print Assumptions C17_nothing_declared.
Print Assumptions C27_path_parts.
Print Assumptions C42_lines_of_document.
Print Assumptions C42_std_no_lines.
Print Assumptions C42_line_of_element.
