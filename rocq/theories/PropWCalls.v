(** PropWCalls.v -- which field serializers writing an instance runs (C80). *)

From Verif Require Import Base Elem Native Errs Names Ser Write Api WCalls SpecCrash SpecWCalls PfWrite PfWCalls PfWCalls2 Samples PropWrite.

(** C80.  [wcalls] lists the calls of field serializers made by to_xml_tree: no other call has any influence. *)
Theorem C80_only_recorded_calls : forall ev ev' n encode v fl, same_writers ev ev' ->
  (forall c, In c (wcalls n ev encode v fl) -> yields_alike ev ev' c) ->
  to_xml_tree n ev' encode v fl = to_xml_tree n ev encode v fl.
Proof.
  intros ev ev' n encode v fl HE H.
  destruct (@to_xml_tied ev ev' HE (yields_alike ev ev') (fun _ => False) XAssertion ltac:(auto) ltac:(intros ? []) n encode v fl) as [[E _]|[X _]]; auto.
  - apply Forall_forall. intros c Hc; auto.
  - apply Exists_exists in X as (? & _ & []).
Qed.

(** ... and each of these calls is made: if the calls picked by [q] raise an exception, then writing raises
    it if one of the recorded calls is picked, and is not affected otherwise *)
Theorem C80_recorded_calls_are_made : forall ev ev' x (q : wcall -> bool), same_writers ev ev' ->
  (forall c, q c = false -> yields_alike ev ev' c) ->
  (forall c, q c = true -> forall o, yields ev' c o -> o = Raise x) ->
  forall n encode v fl,
  to_xml_tree n ev' encode v fl =
  if existsb q (wcalls n ev encode v fl) then Raise x else to_xml_tree n ev encode v fl.
Proof.
  intros ev ev' x q HE Ho Hb n encode v fl.
  destruct (@to_xml_tied ev ev' HE (fun c => q c = false) (fun c => q c = true) x Ho Hb n encode v fl) as [[E O]|[X E]].
  - apply Forall_forall. intros c _. destruct (q c); auto.
  - rewrite E. replace (existsb q (wcalls n ev encode v fl)) with false; auto. symmetry.
    induction O as [|c l Hc _ IH]; simpl; auto. rewrite Hc; auto.
  - rewrite E. replace (existsb q (wcalls n ev encode v fl)) with true; auto. symmetry.
    apply existsb_exists. apply Exists_exists in X as (c & Hc & Q); eauto.
Qed.

(** every call gets the instance that stands at its place in the value and the value of the field it is for *)
Theorem C80_called_properly : forall ev, distinct_fields ev -> forall n encode v fl c,
  In c (wcalls n ev encode v fl) -> called_properly ev fl v c.
Proof.
  intros ev Dis n encode v fl c I. destruct (@wcalls_well ev Dis n encode v fl) as [F _].
  rewrite Forall_forall in F. destruct (F c I) as (rest & E & A & B & M). simpl in E. subst rest. split; [|split]; auto.
Qed.

(** no field of no instance is written twice *)
Theorem C80_at_most_once : forall ev, distinct_fields ev -> forall n encode v fl,
  NoDup (map (fun c => (wc_place c, wc_field c)) (wcalls n ev encode v fl)).
Proof. intros ev Dis n encode v fl. apply (@wcalls_well ev Dis n encode v fl). Qed.

(** so the number of calls is linear in the number of instances *)
Theorem C80_number : forall ev k, distinct_fields ev -> serializers_upto k ev -> forall n encode v fl,
  length (wcalls n ev encode v fl) <= k * instances v.
Proof. intros; apply wcalls_few; auto. Qed.

Definition is_root_call (c : wcall) : bool := match wc_place c with [] => true | _ => false end.

(** when the instance has been written, the serializers of its fields have been called in the order of declaration:
    all of those that are to be called and no others *)
Theorem C80_each_field : forall ev, distinct_fields ev -> forall n encode v fl t cls m,
  model_type v = Some cls -> en_model ev cls = Some m -> md_root m = false ->
  to_xml_tree n ev encode v fl = Ok t ->
  map wc_field (filter is_root_call (wcalls n ev encode v fl)) =
  filter (runs_serializer m fl v) (map fst (md_fields m)).
Proof.
  intros ev Dis n encode v fl t cls m Mt Em Hr H. unfold to_xml_tree in H. unfold wcalls. rewrite Mt, Em in *.
  ok H. unfold write_model in E. unfold wt_model. rewrite Hr in *.
  destruct (is_none v) eqn:Nn; [destruct v; discriminate|].
  assert (Z : forall l, filter is_root_call l = filter (here []) l).
  { intros l. apply filter_ext. intros c. unfold is_root_call, here. destruct (wc_place c); auto. }
  rewrite Z. erewrite fields_here; [|exact (fun s => @trace_well ev Dis n s)|exact E].
  clear. induction (md_fields m) as [|[name s] fs IH]; simpl; auto. rewrite runs_skip. destruct (runs_serializer m fl v name); simpl; congruence.
Qed.

(** ---- a case ---- *)

(** a serializer that puts the value into the attribute [key] *)
Definition put (key : string) : val -> elem -> val -> out elem := fun _ e x =>
  match x with VStr t => Ok (set_attribute key t e) | _ => Raise XTypeError end.
Definition serializers (ks : list string) (name : string) : option (val -> elem -> val -> out elem) :=
  if str_in name ks then Some (put (name ++ "-x")) else None.

(** class Item(BaseXmlModel, tag='item'):
        code: str = attr(), with a serializer of its own; price: str = element()
    class Order(BaseXmlModel, tag='order'):
        id: str = attr() and user: str = attr(), with serializers of their own; items: List[Item];
        hint: str = attr(exclude=True), with a serializer of its own; first: Optional[Item] *)
Definition item : mdef :=
  with_code (plain_model "Item" "item" [("code", SAttr "code" false); ("price", SElem "price" None Strict false false)] ["code"])
    (serializers ["code"]) (fun _ => None) (accepts "Item" ["code"]).
Definition order : mdef :=
  MDef "Order" false "order" None
    [("id", SAttr "id" false); ("items", SHomo "Order" false (SProxy (sub "Item" "item" Strict)) false); ("user", SAttr "user" false);
     ("hint", SAttr "hint" false); ("first", SProxy (sub "Item" "first" Strict))]
    [] ["hint"] false false None (serializers ["id"; "user"; "hint"]) (fun _ => None) (accepts "Order" ["id"]).
Definition orders : env :=
  Env Lxml (fun c => if String.eqb c "Item" then Some item else if String.eqb c "Order" then Some order else None).

Definition an_item (code : string) : val := VModel "Item" [("code", VStr code); ("price", VStr "9")] ["code"; "price"].
Definition an_order : val :=
  VModel "Order" [("id", VStr "7"); ("items", VList [an_item "a"; an_item "b"]); ("user", VStr "me"); ("hint", VStr "h"); ("first", an_item "a")]
    ["id"; "items"; "first"].

Lemma orders_distinct : distinct_fields orders /\ serializers_upto 3 orders.
Proof.
  split; intros cls m H; unfold orders in H; simpl in H;
    (destruct (String.eqb cls "Item"); [|destruct (String.eqb cls "Order"); [|discriminate]]); injection H as <-; simpl; try lia;
    repeat constructor; simpl; intuition discriminate.
Qed.

(** the two equal items in the list and in the field are different instances, each written once; with exclude_unset
    the serializer of the user, which has not been set, is not called *)
Example C80_ex : distinct_fields orders /\ serializers_upto 3 orders /\ instances an_order = 4 /\
  map (fun c => (wc_place c, wc_field c, wc_value c)) (wcalls 6 orders enc_of an_order (Flags false false false)) =
    [([], "id", VStr "7"); ([LKey "items"; LIdx 0], "code", VStr "a"); ([LKey "items"; LIdx 1], "code", VStr "b");
     ([], "user", VStr "me"); ([LKey "first"], "code", VStr "a")] /\
  map (fun c => (wc_place c, wc_field c)) (wcalls 6 orders enc_of an_order (Flags false false true)) =
    [([], "id"); ([LKey "items"; LIdx 0], "code"); ([LKey "items"; LIdx 1], "code"); ([LKey "first"], "code")] /\
  to_xml_tree 6 orders enc_of an_order (Flags false false false) =
    Ok (NElem "order" [] None None [("id-x", "7"); ("user-x", "me")]
         [NElem "item" [] None None [("code-x", "a")] [NElem "price" [] (Some "9") None [] [] None] None;
          NElem "item" [] None None [("code-x", "b")] [NElem "price" [] (Some "9") None [] [] None] None;
          NElem "first" [] None None [("code-x", "a")] [NElem "price" [] (Some "9") None [] [] None] None] None).
Proof. split; [apply orders_distinct|split; [apply orders_distinct|vm_compute; auto]]. Qed.

(** the same classes with an [Item.code] serializer that raises for the code "b" *)
Definition is_bad (x : val) : bool := match x with VStr t => String.eqb t "b" | _ => false end.
Definition touchy : mdef :=
  with_code item (fun name => if String.eqb name "code" then
      Some (fun v e x => if is_bad x then Raise (XUser "bad code") else put "code-x" v e x) else None)
    (md_cval item) (md_validate item).
Definition touchy_orders : env :=
  Env Lxml (fun c => if String.eqb c "Item" then Some touchy else if String.eqb c "Order" then Some order else None).
Definition is_b (c : wcall) : bool := String.eqb (wc_class c) "Item" && String.eqb (wc_field c) "code" && is_bad (wc_value c).

(** the hypotheses of C80_recorded_calls_are_made are met by a program that differs on some of the calls *)
Example C80_ex_made : same_writers orders touchy_orders /\
  (forall c, is_b c = false -> yields_alike orders touchy_orders c) /\
  (forall c, is_b c = true -> forall o, yields touchy_orders c o -> o = Raise (XUser "bad code")) /\
  to_xml_tree 6 touchy_orders enc_of an_order (Flags false false false) = Raise (XUser "bad code") /\
  to_xml_tree 6 touchy_orders enc_of (an_item "a") (Flags false false false) = to_xml_tree 6 orders enc_of (an_item "a") (Flags false false false).
Proof.
  split; [|split; [|split; [|split; vm_compute; reflexivity]]].
  - split; [reflexivity|]. intros cls. unfold orders, touchy_orders; cbn [en_model].
    destruct (String.eqb cls "Item"); [|destruct (String.eqb cls "Order"); simpl; auto].
    + split; [reflexivity|]. intros name. cbn [touchy item with_code md_cser]. unfold serializers, str_in. simpl.
      destruct (String.eqb name "code"); simpl; auto.
    + split; [reflexivity|]. intros name. cbn [order md_cser]. unfold serializers. destruct (str_in name _); simpl; auto.
  - intros [pl cls f i e x] Q. unfold is_b in Q. cbn [wc_class wc_field wc_value] in Q.
    unfold yields_alike, yields; cbn [wc_class wc_field wc_value wc_instance wc_element]. unfold orders, touchy_orders; cbn [en_model].
    destruct (String.eqb cls "Item") eqn:E; [|tauto]. apply String.eqb_eq in E; subst cls. cbn [andb String.eqb] in Q.
    change (String.eqb "Item" "Item") with true in Q. cbn [andb] in Q.
    intros o; split; intros (m & f0 & Em & Ef & ->); injection Em as <-.
    + destruct (String.eqb f "code") eqn:Ec; [|unfold item, with_code, serializers, str_in in Ef; simpl in Ef; rewrite Ec in Ef; discriminate].
      apply String.eqb_eq in Ec; subst f. injection Ef as <-. exists touchy, (fun v e x => if is_bad x then Raise (XUser "bad code") else put "code-x" v e x).
      repeat split. cbn [andb] in Q. rewrite Q. reflexivity.
    + destruct (String.eqb f "code") eqn:Ec; [|unfold touchy, with_code in Ef; simpl in Ef; rewrite Ec in Ef; discriminate].
      apply String.eqb_eq in Ec; subst f. injection Ef as <-. exists item, (put "code-x"). repeat split. cbn [andb] in Q. rewrite Q. reflexivity.
  - intros [pl cls f i e x] Q o. unfold is_b in Q. cbn [wc_class wc_field wc_value] in Q. apply andb_prop in Q as [Q Qx]. apply andb_prop in Q as [Qc Qf].
    apply String.eqb_eq in Qc, Qf. subst. intros (m & f0 & Em & Ef & ->). injection Em as <-. injection Ef as <-.
    cbn [wc_value wc_instance wc_element]. rewrite Qx. reflexivity.
Qed.

(** ---- what does not hold ---- *)

(** class Name(RootXmlModel[str], tag='name') with a serializer for the field root: it is never called *)
Definition name_model : mdef :=
  MDef "Name" true "name" None [("root", SText false false)] [] [] false false None (serializers ["root"]) (fun _ => None) (accepts "Name" []).
Definition names_env : env := Env Lxml (fun c => if String.eqb c "Name" then Some name_model else None).

Theorem C80_root_serializer_ignored_refuted : exists ev cls m (encode : val -> val) v t,
  en_model ev cls = Some m /\ model_type v = Some cls /\ distinct_fields ev /\
  runs_serializer m (Flags false false false) v "root" = true /\
  to_xml_tree 3 ev encode v (Flags false false false) = Ok t /\
  wcalls 3 ev encode v (Flags false false false) = [].
Proof.
  exists names_env, "Name", name_model, (fun v => match v with VModel _ [(_, x)] _ => x | _ => v end), (VModel "Name" [("root", VStr "x")] ["root"]), (NElem "name" [] (Some "x") None [] [] None).
  split; [reflexivity|]. split; [reflexivity|]. split; [|vm_compute; auto].
  intros cls m H. unfold names_env in H; simpl in H. destruct (String.eqb cls "Name"); [|discriminate]. injection H as <-. repeat constructor; simpl; tauto.
Qed.

Print Assumptions C80_only_recorded_calls.
Print Assumptions C80_recorded_calls_are_made.
Print Assumptions C80_called_properly.
Print Assumptions C80_at_most_once.
Print Assumptions C80_number.
Print Assumptions C80_each_field.
Print Assumptions C80_root_serializer_ignored_refuted.
