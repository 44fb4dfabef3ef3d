(** PfHeap10.v -- writing over the heap agrees with writing on trees. *)

From Verif Require Import Base Elem Native Errs Names Ser Write Api Heap SpecHeap HeapRead HeapRead2 HeapWrite SpecHeap3.
From Verif Require Import PfElem PfHeap PfHeap2 PfHeap3 PfHeap4 PfHeap5 PfHeap6 PfHeap9.

Section Writing.
Variable nsr : nsmap -> ref.
Variable maps : list nsmap.
Notation X := (map nsr maps).

Definition wagrees (m : ref -> wm unit) (f : elem -> out elem) : Prop :=
  forall h, placed nsr maps h -> writes X m f h.

Lemma placed_lt : forall h x, placed nsr maps h -> In x X -> x < length h.
Proof. intros h x P H. apply in_map_iff in H. destruct H as [m [<- H]]. eapply nth_lt. apply P; auto. Qed.

Lemma placed_keeps : forall h h' F, placed nsr maps h -> (forall x, In x X -> ~ In x F) -> only_changes F h h' ->
  placed nsr maps h'.
Proof.
  intros h h' F P A [L C] m Hm. rewrite C; [apply P; auto| |].
  - eapply nth_lt. apply P; auto.
  - apply A. apply in_map; auto.
Qed.

Lemma apart_keeps : forall h F F', placed nsr maps h -> (forall x, In x X -> ~ In x F) -> from_or_new F h F' ->
  forall x, In x X -> ~ In x F'.
Proof.
  intros h F F' P A FN x Hx H. destruct (FN _ H) as [H'|H']; [exact (A _ Hx H')|].
  pose proof (@placed_lt _ _ P Hx). lia.
Qed.

Lemma wa_ret : wagrees (fun _ => wret tt) (fun e => Ok e).
Proof.
  intros h P a e F N T A. exists h. split; [split; [reflexivity|]|apply only_changes_refl].
  exists F, N. split; [exact T|]. split; apply from_or_new_incl; auto with datatypes.
Qed.

Lemma wa_raise : forall x, wagrees (fun _ => wraise x) (fun _ => Raise x).
Proof. intros x h P a e F N T A. exists h. split; [reflexivity|apply only_changes_refl]. Qed.

Lemma wa_fuel : wagrees (fun _ h => (Fuel, h)) (fun _ => Fuel).
Proof. intros h P a e F N T A. exists h. split; [reflexivity|apply only_changes_refl]. Qed.

Lemma wa_pure : forall A (o : out A) (k : A -> ref -> wm unit) g, (forall x, wagrees (k x) (g x)) ->
  wagrees (fun a => x <-- wpure o ;; k x a) (fun e => obind o (fun x => g x e)).
Proof.
  intros A o k g H. destruct o as [x|x|]; [exact (H x)|exact (wa_raise x)|exact wa_fuel].
Qed.

Lemma wa_if : forall (b : bool) m m' f f', wagrees m f -> wagrees m' f' ->
  wagrees (fun a => if b then m a else m' a) (fun e => if b then f e else f' e).
Proof. intros [] m m' f f' H H'; assumption. Qed.

Lemma wa_bind : forall m f k g, wagrees m f -> wagrees k g ->
  wagrees (fun a => _ <-- m a ;; k a) (fun e => obind (f e) g).
Proof.
  intros m f k g H K h P a e F N T A. destruct (H h P a e F N T A) as [h1 [R C1]].
  unfold wbind. destruct (f e) as [e1|x|]; cbn [obind].
  - destruct R as [E [F1 [N1 [T1 [FN1 NN1]]]]]. rewrite E.
    pose proof (placed_keeps P A C1) as P1. pose proof (apart_keeps P A FN1) as A1.
    destruct (K h1 P1 a e1 F1 N1 T1 A1) as [h2 [R2 C2]]. exists h2. pose proof C1 as [L1 _].
    assert (C : only_changes F h h2) by (eapply only_changes_trans; eauto).
    destruct (g e1) as [e2|x|]; (split; [|exact C]); try exact R2.
    destruct R2 as [E2 [F2 [N2 [T2 [FN2 NN2]]]]]. split; [exact E2|]. exists F2, N2. split; [exact T2|].
    split; [eapply from_or_new_trans; eauto|].
    intros x Hx. destruct (NN2 _ Hx) as [G|G]; [|right; lia]. rewrite !in_app_iff in G. destruct G as [G|[G|G]].
    + left. apply in_or_app; auto.
    + destruct (FN1 _ G) as [G'|G']; [left; rewrite !in_app_iff; auto|right; auto].
    + apply NN1; auto.
  - rewrite R. exists h1. auto.
  - rewrite R. exists h1. auto.
Qed.

(** a method call that returns nothing *)
Lemma wa_lift : forall (m : ref -> hp unit) f, implements m (fun e => (tt, f e)) ->
  wagrees (fun a => wlift (m a)) (fun e => Ok (f e)).
Proof.
  intros m f H h P a e F N T A. destruct (H h a e F N T) as [h' [F' [N' [E [T' [C [FN NN]]]]]]].
  exists h'. split; [|exact C]. unfold wlift. rewrite E. split; [reflexivity|].
  exists F', N'. split; [exact T'|]. split; [exact FN|]. intros x Hx. destruct (NN _ Hx) as [G|G]; auto.
  left. apply in_or_app; auto.
Qed.

Lemma wa_ext : forall m m' f f', wagrees m f -> (forall a h, m' a h = m a h) -> (forall e, f' e = f e) -> wagrees m' f'.
Proof.
  intros m m' f f' H Em Ef h P a e F N T A. destruct (H h P a e F N T A) as [h' R]. exists h'.
  rewrite Ef, Em. exact R.
Qed.

(** ---- a new element, written and then put in place ---- *)
(** [sub] is a new element *)
Definition fresh_at (h0 h : heap) (sub : ref) (e : elem) : Prop :=
  only_changes [] h0 h /\ exists F N, tree h sub e F N /\ (forall x, In x F -> length h0 <= x) /\
    (forall x, In x N -> In x X \/ length h0 <= x).

Lemma odict_of : forall h nsm, placed nsr maps h -> incl (opt_list nsm) maps -> odict_at h (option_map nsr nsm) nsm.
Proof. intros h [m|] P I; simpl; [|exact Logic.I]. apply P. apply I. simpl; auto. Qed.

Lemma incl_map_opt : forall nsm x, incl (opt_list nsm) maps -> In x (opt_list (option_map nsr nsm)) -> In x X.
Proof. intros [m|] x I H; simpl in H; [|destruct H]. destruct H as [<-|[]]. apply in_map. apply I. simpl; auto. Qed.

Lemma make_sub_ok : forall b name nsm h, placed nsr maps h -> incl (opt_list nsm) maps ->
  exists sub h', h_make_sub nsr b name nsm h = (Ok sub, h') /\ fresh_at h h' sub (make_element b name nsm).
Proof.
  intros b name nsm h P I. destruct (@make_element_ok h b name _ nsm (@odict_of h nsm P I)) as [c [h' [E [T [C [Ec L]]]]]].
  exists c, h'. unfold h_make_sub, wlift. rewrite E. split; [reflexivity|]. split; [exact C|].
  eexists _, _. split; [exact T|]. split.
  - intros x Hx. simpl in Hx. lia.
  - intros x Hx. left. destruct b; [eapply incl_map_opt; eauto|destruct Hx].
Qed.

Lemma append_fresh : forall h0 h sub es a e F N, tree h0 a e F N -> placed nsr maps h0 -> (forall x, In x X -> ~ In x F) ->
  fresh_at h0 h sub es ->
  exists h' F' N', h_append_element a sub h = (Some tt, h') /\ tree h' a (append_element es e) F' N' /\
    from_or_new F h0 F' /\ from_or_new (X ++ F ++ N) h0 N' /\ only_changes F h0 h'.
Proof.
  intros h0 h sub es a e F N T P A [C [Fc [Nc [Tc [AF AN]]]]]. pose proof C as [L _].
  assert (LT : forall x, In x F \/ In x N -> x < length h0) by (intros x Hx; eapply tree_lt; eauto).
  assert (T1 : tree h a e F N) by (eapply tree_frame; [exact T|]; intros x Hx; apply (only_changes_nil C); auto).
  destruct (@append_ok h a e F N sub es Fc Nc T1 Tc) as [h' [F' [N' [E [T' [C' [L' [IF [IN _]]]]]]]]].
  - intros x Hx. specialize (AF _ Hx). split; intros H; assert (x < length h0) by auto; lia.
  - intros x Hx H. destruct (AN _ Hx) as [G|G]; [exact (A _ G H)|]. assert (x < length h0) by auto. lia.
  - exists h', F', N'. split; [exact E|]. split; [exact T'|]. split; [|split].
    + intros x Hx. apply IF in Hx. apply in_app_or in Hx. destruct Hx; auto.
    + intros x Hx. apply IN in Hx. apply in_app_or in Hx. destruct Hx as [Hx|Hx].
      * left. rewrite !in_app_iff. auto.
      * destruct (AN _ Hx); [left; apply in_or_app; auto|right; auto].
    + eapply only_changes_trans with (F' := F); [|exact C'|apply from_or_new_refl].
      eapply only_changes_incl; [exact C|]. intros x [].
Qed.

Lemma is_empty_at : forall h a e F N, tree h a e F N -> h_is_empty a h = (Some (is_empty e), h).
Proof.
  intros h a e F N T. parts T. unfold h_is_empty, bind. rewrite (load_node_at _ _ Ha). simpl.
  rewrite (@load_odict_at _ _ _ Hat), (load_list_at _ _ Hl). unfold ret, is_empty.
  rewrite (owns_all_lengths Hall). reflexivity.
Qed.

(** putting a finished new element in place *)
Lemma place_fresh : forall fl h0 h sub es a e F N, tree h0 a e F N -> placed nsr maps h0 -> (forall x, In x X -> ~ In x F) ->
  fresh_at h0 h sub es ->
  exists h' F' N', h_append_unless_empty fl sub a h = (Ok tt, h') /\ tree h' a (append_unless_empty fl es e) F' N' /\
    from_or_new F h0 F' /\ from_or_new (X ++ F ++ N) h0 N' /\ only_changes F h0 h'.
Proof.
  intros fl h0 h sub es a e F N T P A FR.
  destruct (append_fresh T P A FR) as [h' [F' [N' [E [T' R]]]]].
  unfold h_append_unless_empty, append_unless_empty.
  destruct (fl_skip_empty fl).
  - unfold wbind, wlift. destruct FR as [C [Fc [Nc [Tc _]]]]. rewrite (is_empty_at Tc). cbn [andb].
    destruct (is_empty es).
    + exists h, F, N. split; [reflexivity|]. split.
      { eapply tree_frame; [exact T|]. intros x Hx. apply (only_changes_nil C). eapply tree_lt; eauto. }
      split; [apply from_or_new_incl; auto with datatypes|]. split; [apply from_or_new_incl; auto with datatypes|].
      eapply only_changes_incl; [exact C|]. intros x [].
    + exists h', F', N'. rewrite E. split; [reflexivity|]. split; [exact T'|exact R].
  - unfold wlift. rewrite E. exists h', F', N'. split; [reflexivity|]. split; [exact T'|exact R].
Qed.

(** write into a new element *)
Lemma write_fresh : forall h0 h sub es (m : ref -> wm unit) f, placed nsr maps h0 -> fresh_at h0 h sub es -> wagrees m f ->
  exists h', match f es with
             | Ok es' => m sub h = (Ok tt, h') /\ fresh_at h0 h' sub es'
             | Raise x => m sub h = (Raise x, h')
             | Fuel => m sub h = (Fuel, h')
             end /\ only_changes [] h0 h'.
Proof.
  intros h0 h sub es m f P [C [F [N [T [AF AN]]]]] H. pose proof C as [L _].
  assert (A0 : forall x, In x X -> ~ In x ([] : list ref)) by (intros x _ []).
  assert (A : forall x, In x X -> ~ In x F).
  { intros x Hx HF. specialize (AF _ HF). pose proof (@placed_lt _ _ P Hx). lia. }
  destruct (H h (placed_keeps P A0 C) sub es F N T A) as [h' [R C']]. exists h'.
  assert (CC : only_changes [] h0 h').
  { destruct C' as [L' K']. split; [lia|]. intros x Hx _. rewrite K'; [apply (only_changes_nil C Hx)|lia|].
    intros HF. specialize (AF _ HF). lia. }
  split; [|exact CC]. destruct (f es) as [es'|x|]; [|exact R|exact R].
  destruct R as [E [F' [N' [T' [FN NN]]]]]. split; [exact E|]. split; [exact CC|]. exists F', N'. split; [exact T'|].
  split.
  - intros x Hx. destruct (FN _ Hx) as [G|G]; [auto|lia].
  - intros x Hx. destruct (NN _ Hx) as [G|G]; [|right; lia]. rewrite !in_app_iff in G. destruct G as [G|[G|G]]; auto.
Qed.

Lemma wa_sub : forall b name nsm fl m f, incl (opt_list nsm) maps -> wagrees m f ->
  wagrees (fun a => sub <-- h_make_sub nsr b name nsm ;; _ <-- m sub ;; h_append_unless_empty fl sub a)
          (fun e => obind (f (make_element b name nsm)) (fun sub => Ok (append_unless_empty fl sub e))).
Proof.
  intros b name nsm fl m f I H h P a e F N T A.
  destruct (@make_sub_ok b name nsm h P I) as [sub [h1 [E1 FR1]]].
  destruct (write_fresh P FR1 H) as [h2 [R2 C2]]. unfold wbind. rewrite E1.
  assert (C2' : only_changes F h h2) by (eapply only_changes_incl; [exact C2|]; intros x []).
  destruct (f (make_element b name nsm)) as [es|x|]; cbn [obind].
  - destruct R2 as [E2 FR2]. rewrite E2.
    destruct (place_fresh fl T P A FR2) as [h3 [F' [N' [E3 [T3 [FN [NN C3]]]]]]].
    exists h3. split; [|exact C3]. split; [exact E3|]. exists F', N'. auto.
  - rewrite R2. exists h2. auto.
  - rewrite R2. exists h2. auto.
Qed.

Lemma wa_nil_sub : forall b name nsm, incl (opt_list nsm) maps ->
  wagrees (fun a => sub <-- h_make_sub nsr b name nsm ;; _ <-- wlift (h_make_element_nill sub) ;; wlift (h_append_element a sub))
          (fun e => Ok (append_element (make_element_nill (make_element b name nsm)) e)).
Proof.
  intros b name nsm I h P a e F N T A.
  destruct (@make_sub_ok b name nsm h P I) as [sub [h1 [E1 FR1]]].
  destruct (write_fresh P FR1 (@wa_lift _ _ make_element_nill_impl)) as [h2 [[E2 FR2] C2]].
  unfold wbind. rewrite E1, E2.
  destruct (append_fresh T P A FR2) as [h3 [F' [N' [E3 [T3 [FN [NN C3]]]]]]].
  exists h3. split; [|exact C3]. unfold wlift. rewrite E3. split; [reflexivity|]. exists F', N'. auto.
Qed.

(** ---- the serializers ---- *)
Notation was := (writes_as nsr maps).

Lemma was_of : forall hw w, (forall fl v enc, wagrees (fun a => hw fl a v enc) (fun e => w fl e v enc)) -> was hw w.
Proof. intros hw w H fl v enc h P. exact (H fl v enc h P). Qed.

Lemma of_was : forall hw w fl v enc, was hw w -> wagrees (fun a => hw fl a v enc) (fun e => w fl e v enc).
Proof. intros hw w fl v enc H h P. exact (H fl v enc h P). Qed.

Lemma write_text_as : forall nillable, was (h_write_text nillable) (write_text nillable).
Proof.
  intros nillable. apply was_of. intros fl v enc. unfold h_write_text, write_text.
  apply wa_if; [apply wa_ret|].
  eapply wa_ext.
  - apply wa_bind with (m := fun a => if nillable && is_none v then wlift (h_make_element_nill a) else wret tt)
      (f := fun e => if nillable && is_none v then Ok (make_element_nill e) else Ok e)
      (k := fun a => s <-- wpure (encode_primitive enc) ;; wlift (h_set_text a s))
      (g := fun e => obind (encode_primitive enc) (fun s => Ok (set_text s e))).
    + apply wa_if; [apply wa_lift; apply make_element_nill_impl|apply wa_ret].
    + apply wa_pure. intros s. apply wa_lift. apply set_text_impl.
  - reflexivity.
  - intros e. destruct (nillable && is_none v); reflexivity.
Qed.

Lemma write_attr_as : forall name, was (h_write_attr name) (write_attr name).
Proof.
  intros name. apply was_of. intros fl v enc. unfold h_write_attr, write_attr.
  apply wa_if; [apply wa_ret|]. apply wa_pure. intros s. apply wa_lift. apply set_attribute_impl.
Qed.

Lemma write_elem_as : forall b name nsm nillable, incl (opt_list nsm) maps ->
  was (h_write_elem nsr b name nsm nillable) (write_elem b name nsm nillable).
Proof.
  intros b name nsm nillable I. apply was_of. intros fl v enc. unfold h_write_elem, write_elem.
  apply wa_if; [apply wa_ret|].
  exact (@wa_sub b name nsm fl _ _ I (of_was fl v enc (write_text_as nillable))).
Qed.

Lemma write_attrs_as : forall a, was (h_write_attrs a) (write_attrs a).
Proof.
  intros ats. apply was_of. intros fl v enc. unfold h_write_attrs, write_attrs.
  apply wa_if; [apply wa_ret|]. destruct enc; try apply wa_raise.
  apply wa_pure with (k := fun items self => wlift (h_set_attributes self (dict_of items)))
    (g := fun items e => Ok (set_attributes (dict_of items) e)).
  intros items. apply wa_lift. apply set_attributes_impl.
Qed.

Lemma write_map_elem_as : forall b name a, incl (opt_list (as_nsmap a)) maps ->
  was (h_write_map_elem nsr b name a) (write_map_elem b name a).
Proof.
  intros b name ats I. apply was_of. intros fl v enc. unfold h_write_map_elem, write_map_elem.
  pose proof (@wa_sub b name (as_nsmap ats) fl _ _ I (of_was fl v enc (write_attrs_as ats))) as G.
  apply wa_if; [|exact G]. destruct (py_len v) as [[|k]|]; [apply wa_ret|exact G|apply wa_raise].
Qed.

Lemma write_items_as : forall hw w fl, was hw w -> forall vs encs,
  wagrees (fun a => h_write_items hw fl a vs encs) (fun e => write_items w fl e vs encs).
Proof.
  intros hw w fl H vs; induction vs as [|v vs IH]; intros encs; [exact wa_ret|].
  destruct encs as [|enc encs]; [exact wa_ret|]. cbn [h_write_items write_items].
  apply wa_if; [apply IH|].
  apply wa_bind with (m := fun a => hw fl a v enc) (k := fun a => h_write_items hw fl a vs encs);
    [apply of_was; auto|apply IH].
Qed.

Lemma write_homo_as : forall hw w, was hw w -> was (h_write_homo hw) (write_homo w).
Proof.
  intros hw w H. apply was_of. intros fl v enc. unfold h_write_homo, write_homo.
  apply wa_if; [apply wa_ret|].
  apply wa_pure with (k := fun vs a => if fl_skip_empty fl && (length vs =? 0)%nat then wret tt
      else encs <-- wpure (py_iter enc) ;; h_write_items hw fl a vs encs)
    (g := fun vs e => if fl_skip_empty fl && (length vs =? 0)%nat then Ok e
      else obind (py_iter enc) (fun encs => write_items w fl e vs encs)).
  intros vs. apply wa_if; [apply wa_ret|].
  apply wa_pure with (k := fun encs a => h_write_items hw fl a vs encs).
  intros encs. apply write_items_as; auto.
Qed.

Lemma write_tuple_as : forall hws ws fl, Forall2 was hws ws -> forall vs encs,
  wagrees (fun a => h_write_tuple hws fl a vs encs) (fun e => write_tuple ws fl e vs encs).
Proof.
  intros hws ws fl H; induction H as [|hw w hws ws H1 H IH]; intros vs encs; [exact wa_ret|].
  destruct vs as [|v vs]; [exact wa_ret|]. destruct encs as [|enc encs]; [exact wa_ret|].
  cbn [h_write_tuple write_tuple].
  apply wa_bind with (m := fun a => hw fl a v enc) (k := fun a => h_write_tuple hws fl a vs encs);
    [apply of_was; auto|apply IH].
Qed.

Lemma Forall2_length' : forall A B (R : A -> B -> Prop) l m, Forall2 R l m -> length l = length m.
Proof. intros A B R l m H; induction H; simpl; auto. Qed.

Lemma write_hetero_as : forall hws ws, Forall2 was hws ws -> was (h_write_hetero hws) (write_hetero ws).
Proof.
  intros hws ws H. apply was_of. intros fl v enc. unfold h_write_hetero, write_hetero.
  rewrite (Forall2_length' H).
  apply wa_if; [apply wa_ret|].
  apply wa_pure with (k := fun vs a => if fl_skip_empty fl && (length vs =? 0)%nat then wret tt
      else if negb (length vs =? length ws)%nat then wraise XSerialization
      else encs <-- wpure (py_iter enc) ;; h_write_tuple hws fl a vs encs)
    (g := fun vs e => if fl_skip_empty fl && (length vs =? 0)%nat then Ok e
      else if negb (length vs =? length ws)%nat then Raise XSerialization
      else obind (py_iter enc) (fun encs => write_tuple ws fl e vs encs)).
  intros vs. apply wa_if; [apply wa_ret|]. apply wa_if; [apply wa_raise|].
  apply wa_pure with (k := fun encs a => h_write_tuple hws fl a vs encs).
  intros encs. apply write_tuple_as; auto.
Qed.

Lemma write_union_as : forall hwp wp vs, (forall p, In p vs -> was (hwp p) (wp p)) ->
  was (h_write_union hwp vs) (write_union wp vs).
Proof.
  intros hwp wp vs H. apply was_of. intros fl v enc. induction vs as [|p vs IH]; [exact wa_ret|].
  cbn [h_write_union write_union]. apply wa_if.
  - apply of_was. apply H. simpl; auto.
  - apply IH. intros q Hq. apply H. simpl; auto.
Qed.

Lemma dget_in : forall A k (d : list (string * A)) x, dget k d = Some x -> In (k, x) d.
Proof.
  intros A k d; induction d as [|[k' v'] d IH]; intros x E; simpl in E; [discriminate|].
  destruct (k =? k')%string eqn:Ek; [|right; auto]. apply String.eqb_eq in Ek. subst. inversion E. simpl; auto.
Qed.

Lemma write_tagged_as : forall hwp wp disc vs, (forall t p, In (t, p) vs -> was (hwp p) (wp p)) ->
  was (h_write_tagged hwp disc vs) (write_tagged wp disc vs).
Proof.
  intros hwp wp disc vs H. apply was_of. intros fl v enc. unfold h_write_tagged, write_tagged.
  destruct enc as [| | | | | |d| |]; try apply wa_raise. destruct (dget disc d) as [tag|]; [|apply wa_ret].
  destruct (py_truthy tag); [|apply wa_ret]. destruct tag as [| | |t| | | | |]; try apply wa_raise.
  destruct (dget t vs) as [p|] eqn:E; [|apply wa_raise]. apply of_was. eapply H. eapply dget_in; eauto.
Qed.

Lemma write_path_as : forall b mode nsm k g, incl (opt_list nsm) maps -> wagrees k g -> forall path,
  wagrees (h_write_path nsr b mode nsm path k) (write_path b mode nsm path g).
Proof.
  intros b mode nsm k g I H path; induction path as [|part rest IH]; [exact H|].
  intros h P a e F N T A. cbn [h_write_path write_path].
  assert (AX : forall x, In x (opt_list (option_map nsr nsm)) -> ~ In x F).
  { intros x Hx. apply A. eapply incl_map_opt; eauto. }
  destruct (@find_or_create_ok h a e F N b part mode _ nsm T (@odict_of h nsm P I) AX) as [h1 [r [E [R [F1 [N1 [T1 [C1 [FN1 NN1]]]]]]]]].
  pose proof C1 as [L1 _].
  assert (NN1' : from_or_new (X ++ F ++ N) h N1).
  { intros x Hx. destruct (NN1 _ Hx) as [G|G]; auto. apply in_app_or in G. destruct G as [G|G].
    - left. apply in_or_app; left. eapply incl_map_opt; eauto.
    - left. apply in_or_app; auto. }
  unfold wbind, wlift. rewrite E. destruct (find_element_or_create b e part mode nsm) as [[|i|] e1]; cbn [fst snd] in *.
  - subst r. exists h1. split; [reflexivity|exact C1].
  - destruct R as [c [-> CR]]. destruct (child_ref_elem T1 CR) as [ec Eec]. rewrite Eec.
    destruct (focus _ T1 Eec) as [c' [Fc [Nc [CR' [Tc [IFc [INc [_ Back]]]]]]]].
    assert (c' = c) by (eapply child_ref_det; eauto). subst c'.
    pose proof (placed_keeps P A C1) as P1. pose proof (apart_keeps P A FN1) as A1.
    assert (Ac : forall x, In x X -> ~ In x Fc) by (intros x Hx HF; exact (A1 _ Hx (IFc _ HF))).
    destruct (IH h1 P1 c ec Fc Nc Tc Ac) as [h2 [R2 C2]].
    assert (C02 : only_changes F h h2).
    { eapply only_changes_trans; [exact C1| |exact FN1]. eapply only_changes_incl; [exact C2|exact IFc]. }
    destruct (write_path b mode nsm rest g ec) as [ec'|x|]; cbn [obind].
    + destruct R2 as [E2 [Fc2 [Nc2 [T2 [FN2 NN2]]]]]. rewrite E2.
      destruct (Back X h2 ec' Fc2 Nc2 T2 C2) as [_ [F3 [N3 [T3 [C3 [FN3 [NN3 _]]]]]]]; auto.
      { intros x Hx. split; [auto|eapply placed_lt; eauto]. }
      exists h2. split; [|exact C02]. split; [reflexivity|]. exists F3, N3. split; [exact T3|].
      split; [eapply from_or_new_trans; eauto|].
      intros x Hx. destruct (NN3 _ Hx) as [G|G]; [|right; lia]. rewrite !in_app_iff in G. destruct G as [G|[G|G]].
      * left. apply in_or_app; auto.
      * destruct (FN1 _ G) as [G'|G']; [left; rewrite !in_app_iff; auto|right; auto].
      * apply NN1'; auto.
    + rewrite R2. exists h2. auto.
    + rewrite R2. exists h2. auto.
  - subst r. exists h1. split; [reflexivity|exact C1].
Qed.

Lemma write_wrap_as : forall b path nsm mode hw w, incl (opt_list nsm) maps -> was hw w ->
  was (h_write_wrap nsr b path nsm mode hw) (write_wrap b path nsm mode w).
Proof.
  intros b path nsm mode hw w I H. apply was_of. intros fl v enc. unfold h_write_wrap, write_wrap.
  apply wa_if; [apply wa_ret|]. apply wa_if; [apply wa_ret|].
  apply write_path_as; [exact I|]. apply of_was; auto.
Qed.

Lemma write_raw_as : forall b, was (h_write_raw b) (fun fl e v _ => write_raw b fl e v).
Proof.
  intros b. apply was_of. intros fl v enc. unfold h_write_raw, write_raw.
  destruct v as [| | | | | | | |n]; try apply wa_raise; [apply wa_ret|].
  intros h P a e F N T A. destruct (from_native_built b n h) as [sub [h1 [E [C [Fc [Tc AF]]]]]].
  assert (FR : fresh_at h h1 sub (from_native b n)).
  { split; [exact C|]. exists Fc, []. split; [exact Tc|]. split; [exact AF|]. intros x []. }
  destruct (place_fresh fl T P A FR) as [h3 [F' [N' [E3 [T3 [FN [NN C3]]]]]]].
  exists h3. split; [|exact C3]. unfold wbind, wlift. rewrite E. split; [exact E3|]. exists F', N'. auto.
Qed.

Definition cser_ok (o : option (val -> ref -> val -> wm unit)) (o' : option (val -> elem -> val -> out elem)) : Prop :=
  match o, o' with
  | Some hf, Some f => forall v x, wagrees (fun a => hf v a x) (fun e => f v e x)
  | None, None => True
  | _, _ => False
  end.

Lemma write_fields_as : forall hw w hc m fl v enc, (forall name, cser_ok (hc name) (md_cser m name)) -> forall fs,
  (forall name s, In (name, s) fs -> was (hw s) (w s)) ->
  wagrees (fun a => h_write_fields hw hc m fs fl a v enc) (fun e => write_fields w m fs fl e v enc).
Proof.
  intros hw w hc m fl v enc HC fs; induction fs as [|[name s] fs IH]; intros H; [exact wa_ret|].
  assert (IH' : wagrees (fun a => h_write_fields hw hc m fs fl a v enc) (fun e => write_fields w m fs fl e v enc)).
  { apply IH. intros n' s' Hi. eapply H. right; eauto. }
  cbn [h_write_fields write_fields]. apply wa_if; [exact IH'|].
  apply wa_pure with (o := if fl_exclude_unset fl then is_unset v name else Ok false)
    (k := fun (unset : bool) a => if unset then h_write_fields hw hc m fs fl a v enc
          else
            x <-- wpure (py_getattr v name) ;;
            _ <-- match hc name with
                 | Some custom => custom v a x
                 | None => xe <-- wpure (py_getitem enc name) ;; hw s fl a x xe
                 end ;;
            h_write_fields hw hc m fs fl a v enc)
    (g := fun (unset : bool) e => if unset then write_fields w m fs fl e v enc
        else
          obind (py_getattr v name) (fun x =>
          obind (match md_cser m name with
                 | Some custom => custom v e x
                 | None => obind (py_getitem enc name) (fun xe => w s fl e x xe)
                 end)
                (fun e' => write_fields w m fs fl e' v enc))).
  intros unset. apply wa_if; [exact IH'|].
  apply wa_pure with (o := py_getattr v name)
    (k := fun x a =>
            _ <-- match hc name with
                 | Some custom => custom v a x
                 | None => xe <-- wpure (py_getitem enc name) ;; hw s fl a x xe
                 end ;;
            h_write_fields hw hc m fs fl a v enc)
    (g := fun x e =>
          obind (match md_cser m name with
                 | Some custom => custom v e x
                 | None => obind (py_getitem enc name) (fun xe => w s fl e x xe)
                 end)
                (fun e' => write_fields w m fs fl e' v enc)).
  intros x.
  apply wa_bind with (m := fun a => match hc name with
                 | Some custom => custom v a x
                 | None => xe <-- wpure (py_getitem enc name) ;; hw s fl a x xe
                 end)
    (f := fun e => match md_cser m name with
                 | Some custom => custom v e x
                 | None => obind (py_getitem enc name) (fun xe => w s fl e x xe)
                 end) (k := fun a => h_write_fields hw hc m fs fl a v enc); [|exact IH'].
  specialize (HC name). unfold cser_ok in HC. destruct (hc name), (md_cser m name); try contradiction; [apply HC|].
  apply wa_pure with (k := fun xe a => hw s fl a x xe) (g := fun xe e => w s fl e x xe).
  intros xe. apply of_was. eapply H. left; reflexivity.
Qed.

Lemma write_model_as : forall hw w hc m, (forall name, cser_ok (hc name) (md_cser m name)) ->
  (forall name s, In (name, s) (md_fields m) -> was (hw s) (w s)) ->
  was (h_write_model hw hc m) (write_model w m).
Proof.
  intros hw w hc m HC H. apply was_of. intros fl v enc. unfold h_write_model, write_model.
  apply wa_if; [apply wa_ret|]. apply wa_if; [|apply write_fields_as; auto].
  apply wa_pure with (o := if fl_exclude_unset fl then is_unset v "root" else Ok false)
    (k := fun (unset : bool) a => if unset then wret tt
      else
        match md_fields m with
        | (_, s) :: _ => x <-- wpure (py_getattr v "root") ;; hw s (with_skip_empty m fl) a x enc
        | [] => wraise XUnmodelled
        end)
    (g := fun (unset : bool) e => if unset then Ok e
      else
        match md_fields m with
        | (_, s) :: _ => obind (py_getattr v "root") (fun x => w s (with_skip_empty m fl) e x enc)
        | [] => Raise XUnmodelled
        end).
  intros unset. apply wa_if; [apply wa_ret|]. destruct (md_fields m) as [|[name s] fs]; [apply wa_raise|].
  apply wa_pure with (k := fun x a => hw s (with_skip_empty m fl) a x enc).
  intros x. apply of_was. eapply H. left; reflexivity.
Qed.

Section Env.
Variable ev : env.
Variable hc : hcsers.
Hypothesis Cov : covers maps ev.
Hypothesis HC : custom_sers_as nsr maps hc ev.

Lemma cser_of : forall cls m, en_model ev cls = Some m -> forall name, cser_ok (hc cls name) (md_cser m name).
Proof.
  intros cls m E name. specialize (HC _ name E). unfold cser_ok.
  destruct (hc cls name), (md_cser m name); try contradiction; auto.
Qed.

Lemma write_proxy_as : forall hw w p, incl (opt_list (px_nsmap p)) maps ->
  (forall s, incl (ser_maps s) maps -> was (hw s) (w s)) ->
  was (h_write_proxy nsr ev hc hw p) (write_proxy ev w p).
Proof.
  intros hw w p I H. apply was_of. intros fl v enc. unfold h_write_proxy, write_proxy.
  destruct (en_model ev (px_model p)) as [m|] eqn:EM; [|apply wa_raise].
  apply wa_if; [apply wa_ret|]. apply wa_if; [apply wa_nil_sub; auto|]. apply wa_if; [apply wa_ret|].
  assert (G : was (h_write_model hw (hc (px_model p)) m) (write_model w m)).
  { apply write_model_as; [apply cser_of; auto|]. intros name s Hi. apply H. intros x Hx. apply (Cov _ EM).
    unfold model_maps. apply in_or_app; right. apply in_flat_map. exists (name, s). auto. }
  exact (@wa_sub (en_backend ev) (px_name p) (px_nsmap p) fl _ _ I (of_was fl v enc G)).
Qed.

Lemma write_as : forall n s, incl (ser_maps s) maps -> was (h_write nsr n ev hc s) (write n ev s).
Proof.
  intros n; induction n as [|n IH]; intros s I.
  - apply was_of. intros fl v enc. exact wa_fuel.
  - cbn [h_write write].
    assert (HP : forall p, incl (opt_list (px_nsmap p)) maps ->
              was (h_write_proxy nsr ev hc (h_write nsr n ev hc) p) (write_proxy ev (write n ev) p)).
    { intros p Ip. apply write_proxy_as; auto. }
    destruct s; cbn [h_write_step write_step ser_maps] in *.
    + apply write_text_as.
    + apply write_attr_as.
    + apply write_elem_as; auto.
    + apply write_attrs_as.
    + apply write_map_elem_as; auto.
    + apply write_homo_as. auto.
    + apply write_hetero_as.
      assert (G : forall s, In s inners -> incl (ser_maps s) maps).
      { intros s Hs x Hx. apply I. apply in_flat_map. exists s; auto. }
      clear I. induction inners as [|s inners IHs]; simpl; constructor.
      * apply IH. apply G. simpl; auto.
      * apply IHs. intros s' Hs'. apply G. simpl; auto.
    + apply IH. auto.
    + apply write_union_as. intros p Hp. apply HP. intros x Hx. apply I. apply in_flat_map. exists p; auto.
    + apply write_tagged_as. intros t p Hp. apply HP. intros x Hx. apply I. apply in_flat_map. exists (t, p); auto.
    + apply write_wrap_as; [intros x Hx; apply I; apply in_or_app; auto|].
      apply IH. intros x Hx. apply I. apply in_or_app; auto.
    + apply write_raw_as.
    + auto.
Qed.

Lemma new_root_ok : forall tag nsm h, placed nsr maps h -> incl (opt_list nsm) maps ->
  exists a h', h_new tag None None None [] (option_map nsr nsm) (-1) h = (Some a, h') /\
    fresh_at h h' a (new_elem tag None None None [] nsm (-1)).
Proof.
  intros tag nsm h P I. pose proof (@odict_of h nsm P I) as OD.
  set (lr := length h). set (h1 := h ++ [OList []]). set (nd := Node tag (option_map nsr nsm) None None None lr 0 (-1)).
  set (h2 := h1 ++ [ONode nd]).
  assert (L1 : length h1 = S (length h)) by (unfold h1; rewrite app_length; simpl; lia).
  assert (L2 : length h2 = S (length h1)) by (unfold h2; rewrite app_length; simpl; lia).
  assert (K : forall x, x < length h -> nth_error h2 x = nth_error h x).
  { intros x Hx. unfold h2. rewrite nth_error_app1 by lia. unfold h1. apply nth_error_app1; auto. }
  exists (length h1), h2. split; [reflexivity|]. split; [split; [lia|]; intros x Hx _; auto|].
  exists (length h1 :: opt_list None ++ lr :: concat []), (opt_list (option_map nsr nsm) ++ concat []).
  assert (LX : forall x, In x (opt_list (option_map nsr nsm) ++ concat []) -> In x X).
  { intros x Hx. apply in_app_or in Hx. destruct Hx as [Hx|[]]. eapply incl_map_opt; eauto. }
  split; [split; [|split]|].
  - econstructor.
    + unfold h2. rewrite nth_error_app2, Nat.sub_diag by lia. reflexivity.
    + eapply odict_at_frame; [exact OD|]. intros x Hx. apply K. eapply odict_at_lt; eauto.
    + exact Logic.I.
    + unfold h2. rewrite nth_error_app1 by (unfold lr; lia). unfold h1, lr. rewrite nth_error_app2, Nat.sub_diag by lia. reflexivity.
    + constructor.
  - simpl. constructor; [intros [H|[]]; unfold lr in H; lia|]. constructor; [intros []|constructor].
  - intros x Hx HN. pose proof (@placed_lt _ _ P (LX _ HN)). simpl in Hx. unfold lr in Hx. lia.
  - split; [intros x Hx; simpl in Hx; unfold lr in Hx; lia|]. intros x Hx. left; auto.
Qed.

Lemma to_xml_tree_as : forall n encode v fl h, placed nsr maps h ->
  exists h', h_to_xml_tree nsr n ev hc encode v fl h = (to_xml_tree n ev encode v fl, h') /\ only_changes [] h h'.
Proof.
  intros n encode v fl h P. unfold h_to_xml_tree, to_xml_tree.
  destruct (model_type v) as [cls|]; [|exists h; split; [reflexivity|apply only_changes_refl]].
  destruct (en_model ev cls) as [m|] eqn:EM; [|exists h; split; [reflexivity|apply only_changes_refl]].
  assert (I : incl (opt_list (md_nsmap m)) maps).
  { intros x Hx. apply (Cov _ EM). unfold model_maps. apply in_or_app; auto. }
  destruct (@new_root_ok (TName (md_elem_name m)) (md_nsmap m) h P I) as [root [h1 [E1 FR1]]].
  assert (G : was (h_write_model (h_write nsr n ev hc) (hc cls) m) (write_model (write n ev) m)).
  { apply write_model_as; [apply cser_of; auto|]. intros name s Hi. apply write_as. intros x Hx. apply (Cov _ EM).
    unfold model_maps. apply in_or_app; right. apply in_flat_map. exists (name, s). auto. }
  destruct (write_fresh P FR1 (of_was fl v (encode v) G)) as [h2 [R2 C2]].
  unfold wbind at 1. unfold wlift at 1. rewrite E1. unfold wbind at 1.
  destruct (write_model (write n ev) m fl _ v (encode v)) as [e|x|]; cbn [obind].
  - destruct R2 as [E2 [_ [F [N [T _]]]]]. rewrite E2. unfold wbind, wlift_walk.
    pose proof T as [O _]. rewrite (to_native_at (en_backend ev) O (tree_depth_le T)).
    exists h2. split; [|exact C2]. destruct (to_native (en_backend ev) e); reflexivity.
  - rewrite R2. exists h2. auto.
  - rewrite R2. exists h2. auto.
Qed.
End Env.
End Writing.
