(** PfLoop.v -- the collection that never ends: items read from the element's own text under
    empty_as_string. *)

From Verif Require Import Base Elem Native Errs Names Ser Read Api SpecElem SpecRead PfTerm.

(** class Numbers(BaseXmlModel, tag='numbers'): items: List[Union[int, str]] *)
Definition text_list_model : mdef :=
  MDef "Numbers" false "numbers" None
    [("items", SHomo "Numbers" false (SUnionPrim false (SText false false)) false)]
    [] [] false false None (fun _ => None) (fun _ => None) (fun _ => Valid VNone).

Definition text_list_env : env := Env Std (fun _ => Some text_list_model).

Lemma text_items_loop : forall k n title hide loc idx result errors s0,
  fst (read_items k (read n text_list_env (SUnionPrim false (SText false false))) title hide true loc idx result errors s0) = Fuel.
Proof.
  intros k; induction k as [|k IH]; intros n title hide loc idx result errors s0; [reflexivity|].
  cbn [read_items]. destruct n as [|[|n]]; try reflexivity.
  cbn [read read_step read_union_prim]. unfold read_union_prim, read_text; simpl.
  unfold text_or_default. destruct (e_text (st_el s0)) as [t|]; simpl.
  - destruct (negb (String.eqb t "")); simpl; apply (IH (S (S n))).
  - apply (IH (S (S n))).
Qed.

Lemma text_list_never_ends : forall n root, native_tag root = TName "numbers" ->
  from_xml_tree n text_list_env "Numbers" root true = Fuel.
Proof.
  intros n root Hr; unfold from_xml_tree. cbn [en_model text_list_env]. rewrite Hr. cbn -[read from_native].
  unfold read_plain_model. cbn -[read from_native]. destruct n as [|n]; [reflexivity|].
  cbn [read read_step]. unfold read_homo.
  pose proof (text_items_loop n n "Numbers" false [LKey "items"] 0 [] []
    (note_line [LKey "items"] {| st_el := from_native Std root; st_sm := [] |})) as H.
  unfold note_line in *; simpl st_el in *; simpl st_sm in *.
  destruct (read_items _ _ _ _ _ _ _ _ _ _) as [o s']; simpl in H; subst o. reflexivity.
Qed.
