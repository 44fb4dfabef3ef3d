(** PfHeap8.v -- reading over the heap agrees with reading on trees: the serializers. *)

From Verif Require Import Base Elem Native Errs Names Ser Read Api Heap SpecHeap HeapRead HeapRead2 SpecHeap2.
From Verif Require Import PfElem PfHeap PfHeap2 PfHeap3 PfHeap4 PfHeap5 PfHeap6 PfHeap7.

Lemma agrees_if : forall A (b : bool) (m m' : ref -> hm A) f f',
  agrees m f -> agrees m' f' -> agrees (fun a => if b then m a else m' a) (fun s => if b then f s else f' s).
Proof. intros A [] m m' f f' H H'; assumption. Qed.

Lemma read_text_as : forall computed nillable, reads_as (h_read_text computed nillable) (read_text computed nillable).
Proof.
  intros computed nillable. apply reads_as_agrees. intros eas loc. unfold h_read_text, read_text.
  apply agrees_if; [apply agrees_ret|].
  assert (H : agrees (fun a => if nillable then lift (h_is_element_nill a) else mret false)
                     (if nillable then flift is_element_nill else fun s => (Ok false, s))).
  { destruct nillable; [apply agrees_lift; apply is_element_nill_impl|apply agrees_ret]. }
  eapply agrees_ext.
  - apply agrees_bind with (1 := H) (k := fun (nil : bool) a => if nil then mret VNone
        else t <~ lift (h_pop_text a) ;; mret (text_or_default eas t))
      (g := fun nil s => if nil : bool then (Ok VNone, s)
        else fbind (flift pop_text) (fun t s => (Ok (text_or_default eas t), s)) s).
    intros nil. apply agrees_if; [apply agrees_ret|].
    apply agrees_bind; [apply agrees_lift; apply pop_text_impl|]. intros t. apply agrees_ret.
  - reflexivity.
  - intros [e sm]. cbn [st_el st_sm]. unfold fbind, flift. destruct nillable; cbn [st_el st_sm set_el fst snd].
    + destruct (is_element_nill e) as [[] e1]; reflexivity.
    + reflexivity.
Qed.

Lemma read_attr_as : forall name computed, reads_as (h_read_attr name computed) (read_attr name computed).
Proof.
  intros name computed. apply reads_as_agrees. intros eas loc. unfold h_read_attr, read_attr.
  apply agrees_if; [apply agrees_ret|].
  eapply agrees_ext.
  - apply agrees_bind with (k := fun v _ => mret (str_or_none v)) (g := fun v s => (Ok (str_or_none v), s));
      [apply agrees_lift; apply pop_attrib_impl|]. intros v. apply agrees_ret.
  - reflexivity.
  - intros [e sm]. unfold fbind, flift. cbn [st_el st_sm set_el]. destruct (pop_attrib name e); reflexivity.
Qed.

(** note the line of the element, then read it *)
Lemma agrees_noted : forall A loc (m : ref -> hm A) f, agrees m f ->
  agrees (fun a => _ <~ h_note_line loc a ;; m a) (fun s => f (note_line loc s)).
Proof.
  intros A loc m f H. eapply agrees_ext.
  - apply agrees_bind with (k := fun _ : unit => m) (g := fun _ : unit => f); [apply agrees_note|]. intros _. exact H.
  - reflexivity.
  - reflexivity.
Qed.

Lemma read_elem_as : forall name mode computed nillable,
  reads_as (h_read_elem name mode computed nillable) (read_elem name mode computed nillable).
Proof.
  intros name mode computed nillable. apply reads_as_agrees. intros eas loc. unfold h_read_elem, read_elem.
  apply agrees_if; [apply agrees_ret|].
  apply agrees_found with (search_h := fun a => h_pop_element a name mode false)
    (search_f := fun e => pop_element e name mode)
    (m := fun c' => _ <~ h_note_line loc c' ;; h_read_text computed nillable eas loc c'); [apply pop_element_search|].
  apply agrees_noted. apply agrees_reads. apply read_text_as.
Qed.

Lemma read_attrs_as : forall a, reads_as (h_read_attrs a) (read_attrs a).
Proof.
  intros ats. apply reads_as_agrees. intros eas loc. unfold h_read_attrs, read_attrs.
  apply agrees_if; [apply agrees_ret|].
  eapply agrees_ext.
  - apply agrees_bind with
      (m := fun self => lift (r <- h_pop_attributes self ;; load_odict r)) (f := flift pop_attributes)
      (k := fun d _ => match d with
             | None => mret VNone
             | Some d' => mret (VDict (dict_of (map (fun kv => (attrs_key ats (fst kv), VStr (snd kv))) d')))
             end)
      (g := fun d s => (Ok match d with
             | None => VNone
             | Some d' => VDict (dict_of (map (fun kv => (attrs_key ats (fst kv), VStr (snd kv))) d'))
             end, s)).
    + apply agrees_lift. intros h a e F N T.
      destruct (pop_attributes_ok T) as [r [h' [F' [E [D [T' [C [IF [L _]]]]]]]]].
      exists h', F', N. split; [|split; [exact T'|split; [exact C|]]].
      * unfold bind. rewrite E. destruct r as [r|]; simpl in *.
        -- destruct (e_attrib e) as [d|]; [|contradiction]. unfold load_dict, bind, load. rewrite D. reflexivity.
        -- destruct (e_attrib e) as [d|]; [contradiction|]. reflexivity.
      * split; apply from_or_new_incl; auto with datatypes.
    + intros [d|]; apply agrees_ret.
  - reflexivity.
  - intros [e sm]. unfold fbind, flift. cbn [st_el st_sm set_el]. destruct (pop_attributes e) as [[d|] e']; reflexivity.
Qed.

Lemma read_map_elem_as : forall name mode a, reads_as (h_read_map_elem name mode a) (read_map_elem name mode a).
Proof.
  intros name mode ats. apply reads_as_agrees. intros eas loc. unfold h_read_map_elem, read_map_elem.
  apply agrees_if; [apply agrees_ret|].
  apply agrees_found with (search_h := fun a => h_pop_element a name mode false)
    (search_f := fun e => pop_element e name mode)
    (m := fun c' => _ <~ h_note_line loc c' ;; h_read_attrs ats eas loc c'); [apply pop_element_search|].
  apply agrees_noted. apply agrees_reads. apply read_attrs_as.
Qed.

Lemma read_items_as : forall hr r title hide eas loc, reads_as hr r -> forall k idx result errors,
  agrees (h_read_items k hr title hide eas loc idx result errors) (read_items k r title hide eas loc idx result errors).
Proof.
  intros hr r title hide eas loc H k; induction k as [|k IH]; intros idx result errors.
  - exact (@agrees_fuel val).
  - eapply agrees_ext.
    + apply agrees_bind with
        (m := fun self => mtry (hr eas (loc ++ [LIdx idx]) self))
        (f := ftry (r eas (loc ++ [LIdx idx])))
        (k := fun x self => match x with
           | inl VNone =>
               match errors with
               | _ :: _ => mraise (XValidation (into_validation_error title errors hide))
               | [] => mret (match result with [] => VNone | _ => VList result end)
               end
           | inl v => h_read_items k hr title hide eas loc (S idx) (result ++ [v]) errors self
           | inr err =>
               h_read_items k hr title hide eas loc (S idx) result (errors ++ [(Some (LIdx idx), err)]) self
           end)
        (g := fun x s => match x with
           | inl VNone =>
               match errors with
               | _ :: _ => (Raise (XValidation (into_validation_error title errors hide)), s)
               | [] => (Ok (match result with [] => VNone | _ => VList result end), s)
               end
           | inl v => read_items k r title hide eas loc (S idx) (result ++ [v]) errors s
           | inr err =>
               read_items k r title hide eas loc (S idx) result (errors ++ [(Some (LIdx idx), err)]) s
           end).
      * apply agrees_try. apply agrees_reads. exact H.
      * intros [[]|err]; try apply IH. destruct errors; [apply agrees_ret|apply agrees_raise].
    + reflexivity.
    + intros s. cbn [read_items]. unfold fbind, ftry.
      destruct (r eas (loc ++ [LIdx idx]) s) as [[v|x|] s']; [destruct v; reflexivity|destruct x; reflexivity|reflexivity].
Qed.

Lemma read_homo_as : forall k title computed hr r hide, reads_as hr r ->
  reads_as (h_read_homo k title computed hr hide) (read_homo k title computed r hide).
Proof.
  intros k title computed hr r hide H. apply reads_as_agrees. intros eas loc. unfold h_read_homo, read_homo.
  apply agrees_if; [apply agrees_ret|]. apply read_items_as; auto.
Qed.

Lemma read_tuple_as : forall hrs rs title hide eas loc, Forall2 reads_as hrs rs -> forall idx result errors,
  agrees (h_read_tuple hrs title hide eas loc idx result errors) (read_tuple rs title hide eas loc idx result errors).
Proof.
  intros hrs rs title hide eas loc H; induction H as [|hr r hrs rs H1 H IH]; intros idx result errors.
  - simpl. destruct errors; [apply agrees_ret|apply agrees_raise].
  - eapply agrees_ext.
    + apply agrees_bind with
        (m := fun self => mtry (hr eas (loc ++ [LIdx idx]) self))
        (f := ftry (r eas (loc ++ [LIdx idx])))
        (k := fun x self => match x with
           | inl v => h_read_tuple hrs title hide eas loc (S idx) (result ++ [v]) errors self
           | inr err =>
               h_read_tuple hrs title hide eas loc (S idx) result (errors ++ [(Some (LIdx idx), err)]) self
           end)
        (g := fun x s => match x with
           | inl v => read_tuple rs title hide eas loc (S idx) (result ++ [v]) errors s
           | inr err =>
               read_tuple rs title hide eas loc (S idx) result (errors ++ [(Some (LIdx idx), err)]) s
           end).
      * apply agrees_try. apply agrees_reads. exact H1.
      * intros [v|err]; apply IH.
    + reflexivity.
    + intros s. cbn [read_tuple]. unfold fbind, ftry.
      destruct (r eas (loc ++ [LIdx idx]) s) as [[v|x|] s']; [reflexivity|destruct x; reflexivity|reflexivity].
Qed.

Lemma read_hetero_as : forall title computed hrs rs hide, Forall2 reads_as hrs rs ->
  reads_as (h_read_hetero title computed hrs hide) (read_hetero title computed rs hide).
Proof.
  intros title computed hrs rs hide H. apply reads_as_agrees. intros eas loc. unfold h_read_hetero, read_hetero.
  apply agrees_if; [apply agrees_ret|]. apply read_tuple_as; auto.
Qed.

Lemma read_union_prim_as : forall computed hr r, reads_as hr r ->
  reads_as (h_read_union_prim computed hr) (read_union_prim computed r).
Proof.
  intros computed hr r H. apply reads_as_agrees. intros eas loc. unfold h_read_union_prim, read_union_prim.
  apply agrees_if; [apply agrees_ret|]. apply agrees_reads; auto.
Qed.

Lemma read_union_model_as : forall title computed hrs rs hide, Forall2 reads_as hrs rs ->
  reads_as (h_read_union_model title computed hrs hide) (read_union_model title computed rs hide).
Proof.
  intros title computed hrs rs hide H. apply reads_as_agrees. intros eas loc.
  unfold h_read_union_model, read_union_model. apply agrees_if; [apply agrees_ret|].
  intros h a e F N sm T. exact (variants_ok H title hide eas loc [] sm T).
Qed.

Lemma read_tagged_as : forall hrp rp attr_name mode eas loc vs,
  (forall p, reads_as (hrp p) (rp p)) ->
  agrees (h_read_tagged hrp attr_name mode vs eas loc) (read_tagged rp attr_name mode vs eas loc).
Proof.
  intros hrp rp attr_name mode eas loc vs H; induction vs as [|[tag p] vs IH]; [exact (@agrees_ret val VNone)|].
  intros h a e F N sm T. cbn [h_read_tagged read_tagged st_el].
  destruct (find_element_ok mode (px_name p) false false T) as [h1 [F1 [N1 [r [E [T1 [R [C1 [PF [PN L1]]]]]]]]]].
  pose proof (@perm_from F h F1 PF) as FN.
  assert (NN : from_or_new (F ++ N) h N1).
  { apply from_or_new_incl. intros x Hx. apply in_or_app; right. eapply Permutation_in; eauto. }
  unfold mbind at 1. unfold lift at 1. rewrite E. unfold find_element.
  destruct (search mode e (px_name p) false false) as [fd e1]. cbn [fst snd] in *.
  assert (Next : forall (m : ref -> hm val) f sm', agrees m f -> exists h' F' N',
     m a sm' h1 = (fst (f (St e1 sm')), st_sm (snd (f (St e1 sm'))), h') /\
     tree h' a (st_el (snd (f (St e1 sm')))) F' N' /\ only_changes F h h' /\ from_or_new F h F' /\ from_or_new (F ++ N) h N').
  { intros m f sm' HA. destruct (HA h1 a e1 F1 N1 sm' T1) as [h2 [F2 [N2 [E2 [T2 [C2 [FN2 NN2]]]]]]].
    exists h2, F2, N2. split; [exact E2|]. split; [exact T2|].
    eapply two_steps; [exact C1|exact FN|exact NN|exact C2|exact FN2|exact NN2]. }
  destruct fd as [|i|]; cbn [found_ref] in R.
  - subst r. apply Next. exact IH.
  - destruct R as [c [-> CR]]. destruct (child_ref_elem T1 CR) as [ec Eec]. rewrite Eec.
    destruct (focus _ T1 Eec) as [c' [Fc [Nc [CR' [Tc _]]]]].
    assert (c' = c) by (eapply child_ref_det; eauto). subst c'.
    assert (Eg : h_get_attrib c attr_name h1 = (Some (get_attrib attr_name ec), h1)).
    { clear - Tc. rename Tc into T. parts T. unfold h_get_attrib, bind. rewrite (load_node_at _ _ Ha). simpl.
      rewrite (@load_odict_at _ _ _ Hat). reflexivity. }
    unfold mbind at 1. unfold lift at 1. rewrite Eg.
    destruct (match get_attrib attr_name ec with Some t => (t =? tag)%string | None => false end).
    + unfold mbind, h_note_line, mbind, lift. rewrite (sourceline_at Tc). unfold set_el. cbn [st_sm].
      apply (Next (hrp p eas loc) (rp p eas loc)). apply agrees_reads; auto.
    + apply Next. exact IH.
  - subst r. exists h1, F1, N1. split; [reflexivity|]. auto.
Qed.

Lemma read_wrap_as : forall path mode computed hr r, reads_as hr r ->
  reads_as (h_read_wrap path mode computed hr) (read_wrap path mode computed r).
Proof.
  intros path mode computed hr r H. apply reads_as_agrees. intros eas loc. unfold h_read_wrap, read_wrap.
  apply agrees_if; [apply agrees_ret|]. destruct path as [|tag rest]; [apply agrees_ret|].
  set (path := tag :: rest). intros h a e F N sm T.
  destruct (@find_sub_ok path mode h a e F N) as [h1 [ro [E [R [F1 [N1 [T1 [C1 [FN1 NN1]]]]]]]]]; [discriminate|auto|].
  unfold mbind at 1. unfold lift. rewrite E. cbn [st_el].
  destruct (find_sub_element path mode e) as [[idxs|] e1]; cbn [fst snd] in *.
  - destruct R as [cs [-> CH]]. rewrite (@chain_length _ _ _ _ CH).
    destruct (negb (length idxs =? 0) && (length idxs =? length path)) eqn:G.
    + assert (NE : idxs <> []) by (destruct idxs; [discriminate G|congruence]).
      destruct (@on_path_ok _ _ _ (agrees_noted loc (agrees_reads eas loc H)) idxs cs h1 a e1 F1 N1 sm a T1 CH NE)
        as [h2 [F2 [N2 [E2 [T2 [C2 [FN2 NN2]]]]]]].
      exists h2, F2, N2. split; [exact E2|]. split; [exact T2|].
      eapply two_steps; [exact C1|exact FN1|exact NN1|exact C2|exact FN2|exact NN2].
    + exists h1, F1, N1. split; [reflexivity|]. auto.
  - subst ro. exists h1, F1, N1. split; [reflexivity|]. auto.
Qed.
