(** PropSwitch.v -- C79: the switches of to_xml only leave things out. *)

From Verif Require Import Base Elem Native Errs Names Ser Write Read Api SpecElem SpecRead SpecWrite SpecRound SpecSwitch Samples
  PfWrite PfSwitch PfSwitch2 PropWrite PropFind PropRound.

Local Ltac inv H := inversion H; subst; clear H.

Lemma switches_tree : forall M ev, neat_classes M ev -> forall n encode v fl fl' t, more_switches fl fl' ->
  to_xml_tree n ev encode v fl = Ok t ->
  (exists t', to_xml_tree n ev encode v fl' = Ok t' /\ left_out t' t) \/ (to_xml_tree n ev encode v fl' = Raise XTypeError /\ M).
Proof.
  intros M ev Ne n encode v fl fl' t Mo H. unfold to_xml_tree in *. destruct (model_type v) as [cls|]; [|discriminate].
  destruct (en_model ev cls) as [m|] eqn:Em; [|discriminate]. ok H. destruct (to_native (en_backend ev) a) as [t0|] eqn:Tn; [|discriminate]. injection H as <-.
  assert (G : good M (write_model (write n ev) m fl' (new_elem (TName (md_elem_name m)) None None None [] (md_nsmap m) (-1)) v (encode v)) a).
  { eapply model_mono; eauto using write_sound, write_mono. repeat split. }
  destruct G as [(r' & -> & P)|[-> Hm]]; cbn [obind]; auto. left.
  destruct (pr_native P _ Tn) as (t' & -> & L). eauto.
Qed.

(** C79.  For classes whose fields do not overwrite each other, the output of to_xml with more
    switches is the output with fewer of them with some texts, attributes and elements left out.  Nothing
    is added, renamed, moved or changed.  The only failure the switches can add is the TypeError for a
    mapping bound to an element of its own (a field that is None, with skip_empty). *)
Theorem C79_switches_only_leave_out : forall ev, neat_classes True ev -> forall n encode v fl fl' t, more_switches fl fl' ->
  to_xml_tree n ev encode v fl = Ok t ->
  (exists t', to_xml_tree n ev encode v fl' = Ok t' /\ left_out t' t) \/ to_xml_tree n ev encode v fl' = Raise XTypeError.
Proof. intros ev Ne n encode v fl fl' t Mo H. destruct (switches_tree Ne n encode v Mo H) as [X|[X _]]; auto. Qed.

(** ... and without such mappings they add none: what can be written without a switch can be written
    with it *)
Theorem C79_switches_never_fail : forall ev, neat_classes False ev -> forall n encode v fl fl' t, more_switches fl fl' ->
  to_xml_tree n ev encode v fl = Ok t ->
  exists t', to_xml_tree n ev encode v fl' = Ok t' /\ left_out t' t.
Proof. intros ev Ne n encode v fl fl' t Mo H. destruct (switches_tree Ne n encode v Mo H) as [X|[_ []]]; auto. Qed.

(** ---- the limits ---- *)

(** class Item(tag='item'): id: str = attr(); more: Dict[str, str] = {} (attributes).  The mapping, written last,
    takes the place of all the attributes; left out by exclude_unset it lets them through.  So a switch can make
    an attribute appear. *)
Definition item_env : env := one_class "Item" (plain_model "Item" "item" [("id", SAttr "id" false); ("more", SAttrs no_attrs)] ["id"]).

Theorem C79_mapping_overwrites_refuted : forall id, exists t t',
  to_xml_tree 9 item_env enc_of (VModel "Item" [("id", VStr id); ("more", VDict [])] ["id"]) no_flags = Ok t /\
  to_xml_tree 9 item_env enc_of (VModel "Item" [("id", VStr id); ("more", VDict [])] ["id"]) (Flags false false true) = Ok t' /\
  attribute t' "id" = Some id /\ attribute t "id" = None /\ ~ left_out t' t.
Proof.
  intros id. exists (NElem "item" [] None None [] [] None), (NElem "item" [] None None [("id", id)] [] None).
  split; [reflexivity|]. split; [reflexivity|]. split; [reflexivity|]. split; [reflexivity|]. intros L. inv L. repeat match goal with H : some_of (_ :: _) [] |- _ => inversion H end.
Qed.

(** class Pair(tag='pair'): a: str = wrapped('box', element()); mid: Optional[str] = element();
    b: str = wrapped('box', element()).  Without [mid] between them the two boxes become one. *)
Definition pair_env : env := one_class "Pair" (plain_model "Pair" "pair"
  [("a", SWrap ["box"] None Strict false (SElem "a" None Strict false false)); ("mid", SElem "mid" None Strict false false);
   ("b", SWrap ["box"] None Strict false (SElem "b" None Strict false false))] ["a"; "b"]).

Theorem C79_wrappers_merge_refuted : exists v t t',
  to_xml_tree 9 pair_env enc_of v no_flags = Ok t /\
  to_xml_tree 9 pair_env enc_of v (Flags false true false) = Ok t' /\ ~ left_out t' t.
Proof.
  exists (VModel "Pair" [("a", VStr "1"); ("mid", VNone); ("b", VStr "2")] ["a"; "b"]).
  exists (NElem "pair" [] None None []
     [NElem "box" [] None None [] [NElem "a" [] (Some "1") None [] [] None] None; NElem "mid" [] (Some "") None [] [] None;
      NElem "box" [] None None [] [NElem "b" [] (Some "2") None [] [] None] None] None).
  exists (NElem "pair" [] None None []
     [NElem "box" [] None None [] [NElem "a" [] (Some "1") None [] [] None; NElem "b" [] (Some "2") None [] [] None] None] None).
  split; [reflexivity|]. split; [reflexivity|]. intros L.
  repeat match goal with
         | H : left_out (NElem _ _ _ _ _ _ _) _ |- _ => inv H
         | H : all_left_out (_ :: _) _ |- _ => inv H
         | H : all_left_out (_ :: _) [] |- _ => inv H
         | H : left_out (NElem "a" _ _ _ _ _ _) (NElem "b" _ _ _ _ _ _) |- _ => inv H
         end.
Qed.

(** class Sheet(tag='sheet'): marks: Optional[Dict[str, str]] = element().  What can be written without
    a switch cannot be written with skip_empty. *)
Definition sheet_env : env := one_class "Sheet" (plain_model "Sheet" "sheet" [("marks", SMapElem "marks" Strict no_attrs)] []).

Theorem C79_none_mapping_refuted : forall set, exists t,
  to_xml_tree 9 sheet_env enc_of (VModel "Sheet" [("marks", VNone)] set) no_flags = Ok t /\
  to_xml_tree 9 sheet_env enc_of (VModel "Sheet" [("marks", VNone)] set) (Flags true false false) = Raise XTypeError.
Proof. intros set. exists (NElem "sheet" [] None None [] [NElem "marks" [] None None [] [] None] None). split; reflexivity. Qed.

(** ---- classes that meet the conditions ---- *)

Local Ltac neat_field :=
  apply neat_direct;
  [ first [apply uw_text|apply uw_attr|apply uw_attrs|apply uw_children; repeat constructor]
  | | simpl; intros p H; repeat match goal with X : _ \/ _ |- _ => destruct X as [<-|X] end; try contradiction; simpl; intuition discriminate
  | first [reflexivity|discriminate] | simpl; intros p H; repeat match goal with X : _ \/ _ |- _ => destruct X as [<-|X] end; try contradiction; simpl; intuition discriminate
  | first [discriminate|repeat constructor] | first [discriminate|repeat constructor] | first [repeat constructor|simpl; congruence] ].

Lemma lib_neat : forall b m, neat_classes False (lib b m).
Proof.
  intros b m cls md; simpl. repeat (destruct (String.eqb _ _)); intros E; try discriminate; injection E as <-; (split; [|reflexivity]); simpl.
  - do 3 neat_field. apply neat_nil.
  - neat_field. apply neat_nil.
  - neat_field. apply neat_nil.
  - neat_field.
    apply (@neat_wrapped False "meta" (Wrapped [] None m false (SElem "note" None m false false))
               [Wrapped [] None m false (SElem "author" None m false true)] [SRaw "extra" m false]).
    + simpl. do 2 neat_field. apply neat_nil.
    + neat_field. apply neat_nil.
    + simpl; tauto.
Qed.

Lemma shop_neat : forall b m, neat_classes True (shop b m).
Proof.
  intros b m cls md; simpl. repeat (destruct (String.eqb _ _)); intros E; try discriminate; injection E as <-; (split; [|reflexivity]); simpl.
  - neat_field.
    apply (@neat_wrapped True "meta" (Wrapped [] None m false (SElem "note" None m false false))
             [Wrapped ["who"] None m false (SElem "author" None m false true)]).
    + simpl. neat_field. apply (@neat_wrapped True "who" (Wrapped [] None m false (SElem "author" None m false true)) [] []); simpl; auto.
      * neat_field. apply neat_nil.
      * apply neat_nil.
    + do 6 neat_field. apply neat_nil.
    + simpl; tauto.
  - do 2 neat_field. apply neat_nil.
  - neat_field. apply neat_nil.
  - neat_field. apply neat_nil.
Qed.

(** an order of which little is known: <order id="7"><meta><note>fragile</note></meta>...</order> *)
Definition bare_order (text : val) : val :=
  VModel "Order"
    [("id", VStr "7"); ("note", VStr "fragile"); ("author", VNone); ("dims", VNone); ("props", VDict []); ("shape", VNone);
     ("lines", VList [VModel "Line" [("sku", VStr "a"); ("text", text)] ["sku"]]); ("attached", VNone); ("total", VStr "30")]
    ["id"; "note"; "author"; "lines"].

Example C79_ex : forall b m, exists t t',
  to_xml_tree 9 (shop b m) jsonable (bare_order VNone) no_flags = Ok t /\
  to_xml_tree 9 (shop b m) jsonable (bare_order VNone) (Flags true true true) = Ok t' /\ left_out t' t /\ t <> t'.
Proof.
  intros b m.
  assert (R : exists t t', to_xml_tree 9 (shop b m) jsonable (bare_order VNone) no_flags = Ok t /\
    to_xml_tree 9 (shop b m) jsonable (bare_order VNone) (Flags true true true) = Ok t' /\ t <> t').
  { destruct b, m;
      (exists (NElem "order" [] None None [("id", "7")]
         [NElem "meta" [] None None [] [NElem "note" [] (Some "fragile") None [] [] None] None;
          NElem "props" [] None None [] [] None; NElem "line" [] (Some "") None [("sku", "a")] [] None;
          NElem "total" [] (Some "30") None [] [] None] None);
       exists (NElem "order" [] None None [("id", "7")]
         [NElem "meta" [] None None [] [NElem "note" [] (Some "fragile") None [] [] None] None;
          NElem "line" [] None None [("sku", "a")] [] None] None);
       split; [vm_compute; reflexivity|split; [vm_compute; reflexivity|discriminate]]). }
  destruct R as (t & t' & A & B & D). exists t, t'. repeat split; auto.
  destruct (C79_switches_only_leave_out (shop_neat b m) 9 jsonable (bare_order VNone) (fl := no_flags) (fl' := Flags true true true)
    ltac:(unfold more_switches; simpl; auto) A) as [(t2 & E & L)|E]; [|congruence].
  assert (t2 = t') by congruence. subst; auto.
Qed.

Print Assumptions C79_switches_only_leave_out.
Print Assumptions C79_switches_never_fail.
Print Assumptions C79_mapping_overwrites_refuted.
Print Assumptions C79_wrappers_merge_refuted.
Print Assumptions C79_none_mapping_refuted.
