(** PropOut.v -- C70: the document is put together from the values, piece by piece. *)

From Verif Require Import Base Elem Native Errs Names Ser Write Read Api SpecElem SpecRead SpecWrite SpecScalar SpecSim SpecOut
  Samples PfFuel PfWTerm PfOut PfOut2 PfOut3 PfOut4 PfOut5 PropWrite.

Local Ltac inv H := inversion H; subst; clear H.

(** C70.  to_xml_tree returns the document [t] exactly when [t] is the root element with the pieces of the
    fields put into it in order of declaration. *)
Theorem C70_document : forall ev, no_customs ev -> forall encode fl v, raws_apart ev v ->
  forall t, (exists n, to_xml_tree n ev encode v fl = Ok t) <-> document ev fl v (encode v) t.
Proof.
  intros ev NC encode fl v A t; split; intros H.
  - destruct H as [n H]. eapply written_document; eauto.
  - destruct (document_written encode NC H) as [N K]. exists N. auto.
Qed.

(** whatever raw elements there are, what the pieces make is what is returned *)
Theorem C70_pieces_written : forall ev, no_customs ev -> forall encode fl v t, document ev fl v (encode v) t ->
  exists N, forall n, N <= n -> to_xml_tree n ev encode v fl = Ok t.
Proof. intros ev NC encode fl v t H. eapply document_written; eauto. Qed.

(** there is one document at most *)
Theorem C70_one_document : forall ev, no_customs ev -> forall fl v enc t t', document ev fl v enc t -> document ev fl v enc t' -> t = t'.
Proof.
  intros ev NC fl v enc t t' H H'. destruct (document_written (fun _ => enc) NC H) as [N K]. destruct (document_written (fun _ => enc) NC H') as [N' K'].
  specialize (K (Nat.max N N') ltac:(lia)). specialize (K' (Nat.max N N') ltac:(lia)). congruence.
Qed.

(** the element of a sub-model within the document is the document of the sub-model on its own, under the
    element name and the prefixes of the field *)
Theorem C70_submodel_alone : forall ev, no_customs ev -> forall encode fl p attrs set d t,
  writes_sub ev fl p (VModel (px_model p) attrs set) (encode (VModel (px_model p) attrs set)) [PChild d] ->
  shown (en_backend ev) d t ->
  exists N, forall n, N <= n ->
    to_xml_tree n (with_class_named (px_model p) (px_name p) (px_nsmap p) ev) encode (VModel (px_model p) attrs set) fl = Ok t.
Proof.
  intros ev NC encode fl p attrs set d t H Sh. apply document_written.
  - intros c m name E. simpl in E. destruct (en_model ev c) as [m0|] eqn:E0; [|discriminate]. injection E as <-.
    destruct (String.eqb c (px_model p)); apply (@NC _ _ name E0).
  - eapply sub_document; eauto.
Qed.

Lemma lib_no_customs : forall b m, no_customs (lib b m).
Proof.
  intros b m c md name E. unfold lib in E; simpl in E.
  repeat match type of E with context [if ?x then _ else _] => destruct x end; try discriminate; injection E as <-; reflexivity.
Qed.

Definition circle_val (r : string) : val := VModel "Circle" [("r", VStr r)] ["r"].
Definition square_val (a : string) : val := VModel "Square" [("a", VStr a)] ["a"].
Definition shapes_val : val :=
  VModel "Shapes" [("shapes", VList [circle_val "1"; square_val "2"]); ("note", VStr "n"); ("author", VNone);
                   ("extra", VRaw (el "extra" [] "raw" [NComment (Some "c") None; el "x" [] "" []]))]
         ["shapes"; "note"; "author"; "extra"].

Lemma lib_steps : forall b mo cls m name s tag, en_model (lib b mo) cls = Some m -> In (name, s) (md_fields m) -> step_of tag s -> tag = "meta".
Proof.
  intros b mo cls m name s tag E I St. unfold lib in E; simpl in E.
  repeat match type of E with context [if ?x then _ else _] => destruct x end; try discriminate; injection E as <-; simpl in I;
    repeat match type of I with _ \/ _ => destruct I as [I|I] | False => contradiction end; injection I as <- <-;
    repeat match goal with H : step_of _ _ |- _ => inv H | H : In _ _ |- _ => simpl in H; destruct H as [H|H]; try contradiction end; auto.
Qed.

(** non-vacuity: a list of a union of models, two fields under one wrapper, a nil, and a raw element *)
Example C70_ex : no_customs (lib Lxml Strict) /\ raws_apart (lib Lxml Strict) shapes_val /\
  exists t, to_xml_tree 12 (lib Lxml Strict) enc_of shapes_val (Flags false false false) = Ok t /\
    t = NElem "shapes" [] None None []
         [NElem "circle" [] None None [("r", "1")] [] None;
          NElem "square" [] None None [] [NElem "a" [] (Some "2") None [] [] None] None;
          NElem "meta" [] None None [] [NElem "note" [] (Some "n") None [] [] None] None;
          NElem "extra" [] (Some "raw") None [] [NElem "x" [] (Some "") None [] [] None] None] None /\
    document (lib Lxml Strict) (Flags false false false) shapes_val (enc_of shapes_val) t.
Proof.
  assert (A : raws_apart (lib Lxml Strict) shapes_val).
  { intros n R. assert (n = el "extra" [] "raw" [NComment (Some "c") None; el "x" [] "" []]) as ->.
    { unfold shapes_val, circle_val, square_val in R. inversion R as [| |? ? ? name v Iv Rv]; subst.
      destruct Iv as [E|[E|[E|[E|[]]]]]; injection E as <- <-; inversion Rv as [|l w Iw Rw|]; subst; auto.
      destruct Iw as [<-|[<-|[]]]; inversion Rw as [| |? ? ? name v Iv Rv']; subst; destruct Iv as [E|[]]; injection E as <- <-; inversion Rv'. }
    split; [exact I|]. intros cls m name s tag E If St. rewrite (@lib_steps _ _ _ _ _ _ _ E If St). discriminate. }
  split; [apply lib_no_customs|]. split; [exact A|]. eexists. split; [vm_compute; reflexivity|]. split; [reflexivity|].
  apply (C70_document (@lib_no_customs _ _) enc_of _ A). exists 12. vm_compute. reflexivity.
Qed.
Example C70_ex_submodel : exists d t,
  writes_sub (lib Lxml Strict) (Flags false false false) (sub "Circle" "circle" Strict) (circle_val "1") (enc_of (circle_val "1")) [PChild d] /\
  shown Lxml d t /\ t = NElem "circle" [] None None [("r", "1")] [] None.
Proof.
  eexists. eexists. split; [|split; [|reflexivity]].
  - eapply ws_value with (ps0 := [PAttr "r" "1"] ++ []); [reflexivity|discriminate| |reflexivity|apply ac_kept; intros [X _]; discriminate].
    apply wm_fields; [reflexivity|discriminate|]. cbn [lib sub px_model circle plain_model md_fields].
    eapply wf_field; [intros []|intros [X _]; discriminate|reflexivity|reflexivity| |apply wf_end].
    apply w_attr; [intros [X _]; discriminate|constructor].
  - change (NElem "circle" [] None None [("r", "1")] [] None) with (NElem "circle" (declarations Lxml None) None None [("r", "1")] [] None).
    apply sh_draft. constructor.
Qed.

(** a raw element is not kept when a wrapper of the same name follows: the wrapped value is put into it *)
Definition mixed : mdef :=
  plain_model "Mixed" "mixed" [("x", SRaw "meta" Strict false);
                               ("note", SWrap ["meta"] None Strict false (SElem "note" None Strict false false))] [].
Definition mixed_env : env := Env Lxml (fun c => if String.eqb c "Mixed" then Some mixed else None).
Definition mixed_raw : native := NElem "meta" [] (Some "raw") None [] [] None.
Theorem C70_raw_kept_refuted : exists ev v x t, no_customs ev /\ v = VModel "Mixed" [("x", VRaw x); ("note", VStr "n")] ["x"; "note"] /\
  to_xml_tree 9 ev enc_of v (Flags false false false) = Ok t /\ (exists c, copied (en_backend ev) x c) /\
  forall c, below t c -> ~ copied (en_backend ev) x c.
Proof.
  exists mixed_env, (VModel "Mixed" [("x", VRaw mixed_raw); ("note", VStr "n")] ["x"; "note"]), mixed_raw. eexists.
  split; [|split; [reflexivity|split; [vm_compute; reflexivity|split]]].
  - intros c m name E. simpl in E. destruct (String.eqb c "Mixed"); [|discriminate]. injection E as <-. reflexivity.
  - eexists. apply cp_elem. constructor.
  - intros c B C. inv C. simpl in *. match goal with H : Forall2 _ _ _ |- _ => inv H end.
    repeat match goal with H : False |- _ => destruct H | H : In _ _ |- _ => simpl in H
           | H : _ \/ _ |- _ => destruct H as [H|H]; try discriminate H; try subst | B : below _ _ |- _ => inv B end.
Qed.
Print Assumptions C70_document.
Print Assumptions C70_pieces_written.
Print Assumptions C70_one_document.
Print Assumptions C70_submodel_alone.
Print Assumptions C70_raw_kept_refuted.
