(** PropLines.v -- C42: the lines of list items and of wrapped fields *)

From Verif Require Import Base Elem Native Errs Names Ser Read Api SpecElem SpecRead SpecSim SpecRead2 SpecLines
  PfElem PfField PfTerm PfRead2 PfRead3 PfMap PfSafe PfLines PropRead2.

(** C42.  A list of elements: the line recorded for the i-th item is that of the i-th element of the list in
    the document, for every item that was read or failed; the line of the field itself is that of the element the
    model is read from.  (As in C42_own_line: no model read by this field or a later one declares a field of
    the same name.) *)
Theorem C42_item_lines : forall ev n m eas pre name title s h post st0 os st1 tag md,
  field_outcomes (read n ev) m eas (pre ++ (name, SHomo title false s h) :: post) st0 os st1 ->
  bound_to ev tag md s -> not_root ev s -> name_unused ev name s -> md_cval m name = None ->
  Forall (fun kf => fst kf <> name /\ name_unused ev name (snd kf)) post ->
  exists os1 mid k items mid', field_outcomes (read n ev) m eas pre st0 os1 mid /\
    item_outcomes (read k ev s) eas [LKey name] 0 (note_line [LKey name] mid) items mid' /\
    recorded (st_sm st1) [LKey name] (e_line (st_el mid)) /\
    forall i, i < length items -> exists c, nth_error (items_ahead md tag (unread (st_el mid))) i = Some c /\
      recorded (st_sm st1) [LKey name; LIdx i] (e_line c).
Proof.
  intros ev n m eas pre name title s h post st0 os st1 tag md H B R U C F.
  destruct (@field_at _ _ _ _ _ _ _ _ _ _ _ H C F) as (os1 & mid & o & s1 & H1 & Hr & Ho & K).
  destruct n as [|n]; [cbn in Hr; injection Hr as <- <-; contradiction|].
  destruct (@homo_report _ _ _ _ _ _ _ _ _ _ Hr Ho) as (items & I & _).
  exists os1, mid, n, items, s1. split; auto. split; auto. split.
  - apply sget_recorded. rewrite K. rewrite (@items_keep ev name n s eas [LKey name] U _ _ _ _ I []).
    + apply noted_at.
    + intros k _ r [= E].
  - intros i L. destruct (@item_lines ev name n s eas [] tag md B R U _ _ _ _ I i L) as (c & N & G).
    exists c. split; auto. apply sget_recorded. rewrite K. exact G.
Qed.

(** A wrapped field bound to one element: its line is that of the element, or if it is missing that of the last
    element of the path, or if the path is missing that of the model's element. *)
Theorem C42_wrapped_line : forall U ev, wf_env any_tag U ev ->
  forall n cls m eas pre name path ns pm s post st0 os st1 tag md,
  en_model ev cls = Some m -> md_fields m = pre ++ (name, SWrap path ns pm false s) :: post -> path <> [] ->
  in_bounds (st_el st0) ->
  field_outcomes (read n ev) m eas (md_fields m) st0 os st1 ->
  bound_to ev tag md s -> not_root ev s -> name_unused ev name s -> md_cval m name = None ->
  Forall (fun kf => fst kf <> name /\ name_unused ev name (snd kf)) post ->
  exists os1 mid d, field_outcomes (read n ev) m eas pre st0 os1 mid /\ leads pm path (st_el mid) d /\
    recorded (st_sm st1) [LKey name] (match d with Some e => line_or md tag e | None => e_line (st_el mid) end).
Proof.
  intros U ev W n cls m eas pre name path ns pm s post st0 os st1 tag md E M P Hb H B R Un C F.
  rewrite M in H. destruct (@field_at _ _ _ _ _ _ _ _ _ _ _ H C F) as (os1 & mid & o & s1 & H1 & Hr & Ho & K).
  destruct n as [|n]; [cbn in Hr; injection Hr as <- <-; contradiction|].
  destruct (W _ _ E) as (W1 & _ & W3 & _). rewrite M in W1. apply Forall_app in W1 as [W1 _].
  pose proof (@fields_bounds U ev (S n) m eas W3 W _ _ _ _ H1 W1 Hb) as Bm.
  apply wrap_leads in Hr; auto. cbn [note_line st_el st_sm] in Hr.
  destruct Hr as [(L & -> & Es)|(d & st2 & L & Er & Es)].
  - exists os1, mid, None. split; auto. split; auto. apply sget_recorded. rewrite K, Es. apply noted_at.
  - exists os1, mid, (Some d). split; auto. split; auto. apply sget_recorded. rewrite K, <- Es. unfold line_or.
    pose proof (@bound_at ev name [] tag md s B R Un n eas _ _ _ Er) as X. cbn [note_line st_el] in X.
    destruct (items_ahead md tag (unread d)) as [|c cs].
    + destruct X as [_ ->]; [destruct o; simpl in Ho; try congruence; contradiction|]. exact (noted_at name [] _).
    + apply X. destruct o; simpl in Ho; try congruence; contradiction.
Qed.

(** A wrapped list: the same for its items, inside the element the path leads to. *)
Theorem C42_wrapped_item_lines : forall U ev, wf_env any_tag U ev ->
  forall n cls m eas pre name path ns pm title s h post st0 os st1 tag md,
  en_model ev cls = Some m -> md_fields m = pre ++ (name, SWrap path ns pm false (SHomo title false s h)) :: post -> path <> [] ->
  in_bounds (st_el st0) ->
  field_outcomes (read n ev) m eas (md_fields m) st0 os st1 ->
  bound_to ev tag md s -> not_root ev s -> name_unused ev name s -> md_cval m name = None ->
  Forall (fun kf => fst kf <> name /\ name_unused ev name (snd kf)) post ->
  exists os1 mid d, field_outcomes (read n ev) m eas pre st0 os1 mid /\ leads pm path (st_el mid) d /\
    match d with
    | None => recorded (st_sm st1) [LKey name] (e_line (st_el mid))
    | Some e => recorded (st_sm st1) [LKey name] (e_line e) /\
        exists k sm items mid', item_outcomes (read k ev s) eas [LKey name] 0 (St e sm) items mid' /\
          forall i, i < length items -> exists c, nth_error (items_ahead md tag (unread e)) i = Some c /\
            recorded (st_sm st1) [LKey name; LIdx i] (e_line c)
    end.
Proof.
  intros U ev W n cls m eas pre name path ns pm title s h post st0 os st1 tag md E M P Hb H B R Un C F.
  rewrite M in H. destruct (@field_at _ _ _ _ _ _ _ _ _ _ _ H C F) as (os1 & mid & o & s1 & H1 & Hr & Ho & K).
  destruct n as [|n]; [cbn in Hr; injection Hr as <- <-; contradiction|].
  destruct (W _ _ E) as (W1 & _ & W3 & _). rewrite M in W1. apply Forall_app in W1 as [W1 _].
  pose proof (@fields_bounds U ev (S n) m eas W3 W _ _ _ _ H1 W1 Hb) as Bm.
  apply wrap_leads in Hr; auto. cbn [note_line st_el st_sm] in Hr.
  destruct Hr as [(L & -> & Es)|(d & st2 & L & Er & Es)].
  - exists os1, mid, None. split; auto. split; auto. apply sget_recorded. rewrite K, Es. apply noted_at.
  - exists os1, mid, (Some d). split; auto. split; auto.
    destruct n as [|n]; [cbn in Er; injection Er as <- <-; contradiction|].
    destruct (@homo_report _ _ _ _ _ _ _ _ _ _ Er Ho) as (items & I & _). split.
    + apply sget_recorded. rewrite K, <- Es. rewrite (@items_keep ev name n s eas [LKey name] Un _ _ _ _ I []).
      * exact (noted_at name [] _).
      * intros k _ r [= X].
    + do 4 eexists. split; [exact I|]. intros i Li.
      destruct (@item_lines ev name n s eas [] tag md B R Un _ _ _ _ I i Li) as (c & N & G).
      exists c. split; auto. apply sget_recorded. rewrite K, <- Es. exact G.
Qed.

(** A tuple: the line recorded for the i-th component is that of the element it was read from. *)
Theorem C42_component_lines : forall ev n m eas pre name title l1 s l2 h post st0 os st1 tag md,
  field_outcomes (read n ev) m eas (pre ++ (name, SHetero title false (l1 ++ s :: l2) h) :: post) st0 os st1 ->
  bound_to ev tag md s -> not_root ev s -> Forall (name_unused ev name) (s :: l2) -> md_cval m name = None ->
  Forall (fun kf => fst kf <> name /\ name_unused ev name (snd kf)) post ->
  exists os1 mid k outs mid1, field_outcomes (read n ev) m eas pre st0 os1 mid /\
    component_outcomes eas [LKey name] 0 (map (read k ev) l1) (note_line [LKey name] mid) outs mid1 /\
    forall c cs, items_ahead md tag (unread (st_el mid1)) = c :: cs ->
      recorded (st_sm st1) [LKey name; LIdx (length l1)] (e_line c).
Proof.
  intros ev n m eas pre name title l1 s l2 h post st0 os st1 tag md H B R U C F.
  destruct (@field_at _ _ _ _ _ _ _ _ _ _ _ H C F) as (os1 & mid & o & s1 & H1 & Hr & Ho & K).
  destruct n as [|n]; [cbn in Hr; injection Hr as <- <-; contradiction|].
  destruct (@hetero_report _ _ _ _ _ _ _ _ _ _ Hr Ho) as (outs & I & _). rewrite map_app in I.
  apply components_app in I as (outs1 & mid1 & outs2 & -> & I1 & I2). rewrite map_length in I2. simpl in I2.
  exists os1, mid, n, outs1, mid1. split; auto. split; auto. intros c cs N.
  inversion U as [|? ? U1 U2]; subst.
  inversion I2 as [|? ? ? ? o2 s2 os' ? Hr2 Ho2 I3]; subst.
  pose proof (@bound_at ev name [LIdx (length l1)] tag md s B R U1 n eas _ _ _ Hr2) as X. rewrite N in X.
  apply sget_recorded. rewrite K.
  rewrite (@components_keep ev name n eas [LKey name] l2 U2 _ _ _ _ I3 [LIdx (length l1)]).
  - apply X. destruct Ho2 as [[v ->]|[e ->]]; discriminate.
  - intros j Lj r E. simpl in E. injection E as E. lia.
Qed.

(** A field without an element of its own (attributes, text): the line is that of the element its model is read
    from. *)
Theorem C42_attribute_line : forall ev n m eas pre name s post st0 os st1,
  field_outcomes (read n ev) m eas (pre ++ (name, s) :: post) st0 os st1 ->
  (exists a c, s = SAttr a c) \/ (exists c ni, s = SText c ni) \/ (exists a, s = SAttrs a) -> md_cval m name = None ->
  Forall (fun kf => fst kf <> name /\ name_unused ev name (snd kf)) post ->
  exists os1 mid, field_outcomes (read n ev) m eas pre st0 os1 mid /\
    recorded (st_sm st1) [LKey name] (e_line (st_el mid)).
Proof.
  intros ev n m eas pre name s post st0 os st1 H S0 C F.
  destruct (@field_at _ _ _ _ _ _ _ _ _ _ _ H C F) as (os1 & mid & o & s1 & H1 & Hr & Ho & K).
  destruct n as [|n]; [cbn in Hr; injection Hr as <- <-; contradiction|].
  exists os1, mid. split; auto. apply sget_recorded. rewrite K, <- (noted_at name [] mid). f_equal.
  destruct S0 as [(a & c & ->)|[(c & ni & ->)|(a & ->)]]; cbn [read read_step] in Hr.
  - unfold read_attr in Hr. destruct c; [now injection Hr as <- <-|].
    destruct (pop_attrib _ _); now injection Hr as <- <-.
  - unfold read_text in Hr. destruct c; [now injection Hr as <- <-|]. destruct ni.
    + destruct (is_element_nill _) as [b e1]. destruct b; now injection Hr as <- <-.
    + now injection Hr as <- <-.
  - unfold read_attrs in Hr. destruct (as_computed a); [now injection Hr as <- <-|].
    destruct (pop_attributes _) as [[d|] e]; now injection Hr as <- <-.
Qed.

(** class Order: id: str = attr(); items: List[Item] = wrapped('list', element('item')).  pydantic rejects the second
    item: the error has its line *)
Definition order_env : env := Env Lxml (fun c =>
  if String.eqb c "Order" then
    Some (MDef "Order" false "order" None
      [("id", SAttr "id" false);
       ("items", SWrap ["list"] None Strict false (SHomo "Order" false (SElem "item" None Strict false false) false))]
      [] [] false false None (fun _ => None) (fun _ => None)
      (fun _ => Invalid (VErr "Order" [LErr "int_parsing" (MText "bad") [LKey "items"; LIdx 1] VNone; LErr "value_error" (MText "bad") [LKey "id"] VNone] false)))
  else None).
Definition order_doc : native :=
  NElem "order" [] None None [("id", "7")]
    [NElem "list" [] None None [] [NElem "item" [] (Some "1") None [] [] (Some 3%Z); NElem "item" [] (Some "x") None [] [] (Some 4%Z)] (Some 2%Z)] (Some 1%Z).
Example C42_ex_items :
  (exists err, from_xml_tree 9 order_env "Order" order_doc false = Raise (XValidation err) /\
     map (fun l => (le_loc l, le_msg l)) (ve_lines err) =
       [([LKey "items"; LIdx 1], MLine 4 (MText "bad")); ([LKey "id"], MLine 1 (MText "bad"))]) /\
  wf_env any_tag (fun _ => False) order_env /\
  (exists os st1, forall m, en_model order_env "Order" = Some m ->
     field_outcomes (read 9 order_env) m false (md_fields m) (St (from_native Lxml order_doc) []) os st1) /\
  bound_to order_env "item" Strict (SElem "item" None Strict false false) /\
  name_unused order_env "items" (SElem "item" None Strict false false).
Proof.
  split; [eexists; split; [vm_compute; reflexivity|vm_compute; reflexivity]|]. split; [|split; [|split]].
  - intros cls m E. unfold order_env in E; cbn [en_model] in E. destruct (String.eqb cls "Order"); [|discriminate].
    injection E as <-. split; [repeat constructor|]. split; [discriminate|]. split; [intros name f; discriminate|intros input what; discriminate].
  - do 2 eexists. intros m E. vm_compute in E. injection E as <-. cbn [md_fields].
    eapply fo_next; [cbn [md_cval]; vm_compute; reflexivity|left; eexists; reflexivity|].
    eapply fo_next; [cbn [md_cval]; vm_compute; reflexivity|left; eexists; reflexivity|]. constructor.
  - constructor.
  - intros cls m H. inversion H.
Qed.

Print Assumptions C42_item_lines.
Print Assumptions C42_wrapped_line.
Print Assumptions C42_wrapped_item_lines.
Print Assumptions C42_component_lines.
Print Assumptions C42_attribute_line.
