(** PropGrow.v -- C67: adding fields to classes. *)

From Verif Require Import Base Elem Native Errs Names Ser Read Api SpecElem SpecRead SpecGrow Samples.
From Verif Require Import PfGrow PropStray.

(** C67.  Classes may get new fields: a document in which the names of the new fields do not occur gives
    the same value as before, up to the new fields, or fails as before, in every search mode and at
    every depth. *)
Theorem C67_new_fields_unseen : forall U A new ev ev', grown U A new ev ev' ->
  forall n n' cls root eas, without_new U A root ->
  from_xml_tree n ev cls root eas <> Fuel -> from_xml_tree n' ev' cls root eas <> Fuel ->
  same_outcome new (from_xml_tree n ev cls root eas) (from_xml_tree n' ev' cls root eas).
Proof. exact grow. Qed.

(** pydantic fills in defaults for missing keys *)
Definition accepts_more (cls : string) (required : list string) (defaults : list (string * val)) (i : option val) : verdict :=
  match accepts cls required i with
  | Valid (VModel c d set) => Valid (VModel c (d ++ filter (fun kv => negb (dmem (fst kv) d)) defaults) set)
  | r => r
  end.

(** class Node (Samples) with color: Optional[str] = attr(); tags: List[str] = element('tag', default=[]);
    note: Optional[str] = wrapped('meta/note', default=None) *)
Definition node_fields (m : smode) : list (string * ser) :=
  [("color", SAttr "color" false); ("id", SAttr "id" false);
   ("tags", SHomo "Node" false (SElem "tag" None m false false) false);
   ("value", SElem "value" None m false false);
   ("note", SWrap ["meta"] None m false (SElem "note" None m false false));
   ("children", SHomo "Node" false (SProxy (sub "Node" "node" m)) false)].
Definition more_node (m : smode) : mdef :=
  MDef "Node" false "node" None (node_fields m) [] [] false false None (fun _ => None) (fun _ => None)
    (accepts_more "Node" ["value"] [("color", VNone); ("tags", VList []); ("note", VNone)]).

Definition nodes (m : smode) : env := Env Lxml (fun c => if String.eqb c "Node" then Some (node m) else None).
Definition more_nodes (m : smode) : env := Env Lxml (fun c => if String.eqb c "Node" then Some (more_node m) else None).

Definition new_elements (t : string) : bool := str_in t ["tag"; "meta"].
Definition new_attributes (t : string) : bool := String.eqb t "color".
Definition new_of (cls f : string) : bool := String.eqb cls "Node" && str_in f ["color"; "tags"; "note"].

Definition two_nodes : native :=
  el "node" [("id", "1")] "" [el "value" [] "5" []; NComment (Some "c") None; el "node" [("id", "2")] "" [el "value" [] "6" []]].

Lemma same_keys : forall d d', Forall2 (fun a b : string * val => fst a = fst b /\ same_but_new new_of (snd a) (snd b)) d d' ->
  dkeys d = dkeys d' /\ forall k, dmem k d = dmem k d'.
Proof.
  intros d d' F; induction F as [|[a x] [b y] d d' (E & _) F (IH1 & IH2)]; [split; auto|]. simpl in E; subst b.
  split; [unfold dkeys in *; simpl; congruence|]. intros k. specialize (IH2 k). unfold dmem in *; simpl. destruct (String.eqb k a); auto.
Qed.

Lemma node_grown : forall m, grown new_elements new_attributes new_of (nodes m) (more_nodes m).
Proof.
  intros m; split; [reflexivity|]. intros cls; simpl. destruct (String.eqb cls "Node") eqn:E; auto.
  assert (N : forall f, new_of cls f = str_in f ["color"; "tags"; "note"]) by (intros; unfold new_of; rewrite E; auto).
  constructor; try reflexivity; try discriminate.
  - simpl. unfold node_fields.
    apply mf_new; [rewrite N; reflexivity|constructor; reflexivity|].
    apply mf_old; [rewrite N; reflexivity|].
    apply mf_new; [rewrite N; reflexivity|constructor; constructor; reflexivity|].
    apply mf_old; [rewrite N; reflexivity|].
    apply mf_new; [rewrite N; reflexivity|constructor; reflexivity|].
    apply mf_old; [rewrite N; reflexivity|]. apply mf_nil.
  - intros f. simpl. destruct (new_of cls f); auto.
  - intros i i' R Ai. destruct (Ai eq_refl) as (d & -> & Fd). destruct i' as [v'|]; [|contradiction]. simpl in R.
    assert (D : exists d', v' = VDict d' /\ Forall2 (fun a b : string * val => fst a = fst b /\ same_but_new new_of (snd a) (snd b)) d d').
    { inversion R; subst; eauto. exists d; split; auto. clear. induction d; constructor; auto. split; auto. constructor. }
    destruct D as (d' & -> & F). clear R. destruct (same_keys F) as [K M].
    change (md_validate (node m) (Some (VDict d))) with (accepts "Node" ["value"] (Some (VDict d))).
    change (md_validate (more_node m) (Some (VDict d'))) with (accepts_more "Node" ["value"] [("color", VNone); ("tags", VList []); ("note", VNone)] (Some (VDict d'))).
    unfold accepts_more, accepts. cbn [filter]. rewrite (M "value"). destruct (dmem "value" d'); simpl negb; cbn iota; auto.
    rewrite K. constructor. rewrite filter_app.
    match goal with |- Forall2 _ _ (_ ++ ?X) => assert (X = []) as -> end.
    { cbn [filter fst]. destruct (dmem "color" d'), (dmem "tags" d'), (dmem "note" d'); reflexivity. }
    rewrite app_nil_r.
    assert (Q : filter (fun kv : string * val => negb (new_of "Node" (fst kv))) d' = d'); [|rewrite Q; auto].
    clear -F Fd. induction F as [|[a x] [b y] d d' (E & _) F IH]; auto. inversion Fd as [|? ? (f & I & Ef) Fd']; subst. simpl in E, Ef; subst.
    cbn [filter fst]. rewrite (IH Fd'). simpl in I. destruct I as [<-|[<-|[<-|[]]]]; reflexivity.
Qed.

Example C67_ex : forall m, grown new_elements new_attributes new_of (nodes m) (more_nodes m) /\
  without_new new_elements new_attributes two_nodes /\
  exists v w, from_xml_tree 9 (nodes m) "Node" two_nodes false = Ok v /\ from_xml_tree 9 (more_nodes m) "Node" two_nodes false = Ok w /\
    w <> v /\ same_but_new new_of v w.
Proof.
  intros m. split; [apply node_grown|].
  assert (W : without_new new_elements new_attributes two_nodes).
  { unfold two_nodes, el. constructor; [repeat constructor| |].
    - intros c [<-|[<-|[<-|[]]]] Hc t; simpl; intros E; try discriminate; injection E as <-; reflexivity.
    - intros c [<-|[<-|[<-|[]]]] Hc; try discriminate; (constructor; [repeat constructor| |]).
      + intros c [].
      + intros c [].
      + intros c [<-|[]] _ t E; injection E as <-; reflexivity.
      + intros c [<-|[]] _. constructor; [constructor|intros c []|intros c []]. }
  split; [exact W|].
  assert (Q : exists v w, from_xml_tree 9 (nodes m) "Node" two_nodes false = Ok v /\ from_xml_tree 9 (more_nodes m) "Node" two_nodes false = Ok w /\ w <> v).
  { destruct m; eexists _, _; (split; [vm_compute; reflexivity|split; [vm_compute; reflexivity|discriminate]]). }
  destruct Q as (v & w & Ev & Ew & D). exists v, w. split; auto. split; auto. split; auto.
  pose proof (@C67_new_fields_unseen _ _ _ _ _ (node_grown m) 9 9 "Node" two_nodes false W) as H. rewrite Ev, Ew in H. apply H; discriminate.
Qed.

(** class M: a: str = element() becomes class M: x: Optional[str] = wrapped('a/x'); a: str = element().
    No element is called x, but the search for the new field passes the element a, and the old field
    misses it. *)
Theorem C67_shared_path_refuted : forall m, exists f f' root,
  f = [("a", SElem "a" None m false false)] /\
  f' = [("x", SWrap ["a"] None m false (SElem "x" None m false false)); ("a", SElem "a" None m false false)] /\
  root = el "m" [] "" [el "a" [] "1" []] /\
  (forall i, md_validate (plain_model "M" "m" f []) i = md_validate (plain_model "M" "m" f' []) i) /\
  from_xml_tree 9 (Env Lxml (fun c => if String.eqb c "M" then Some (plain_model "M" "m" f []) else None)) "M" root false = Ok (VModel "M" [("a", VStr "1")] ["a"]) /\
  from_xml_tree 9 (Env Lxml (fun c => if String.eqb c "M" then Some (plain_model "M" "m" f' []) else None)) "M" root false = Ok (VModel "M" [] []).
Proof. intros m. do 3 eexists. repeat (split; [reflexivity|]). destruct m; split; vm_compute; reflexivity. Qed.

Print Assumptions C67_new_fields_unseen.
Print Assumptions C67_shared_path_refuted.
