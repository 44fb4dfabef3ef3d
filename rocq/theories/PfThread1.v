(** PfThread1.v -- a program that is not interrupted does what Heap.v, HeapRead2.v and HeapWrite.v say. *)

From Verif Require Import Base Elem Native Errs Names Ser Read Write Api Heap HeapRead HeapRead2 HeapWrite
  Prog ProgRead ProgWrite SpecThread.

Lemma go_andthen : forall A B (p : prog A) (f : A -> prog B) h,
  go (andthen p f) h = match go p h with Some (x, h') => go (f x) h' | None => None end.
Proof.
  intros A B p f; induction p as [x| |o k IH|r k IH|r o k IH|k IH]; intros h; simpl; auto.
  destruct (Nat.ltb r (length h)); auto.
Qed.

(** a method that does not reach the recursion limit *)
Definition same {A} (p : pp A) (m : hp A) : Prop := forall h, go p h = Some (m h).
(** a method that may *)
Definition walk {A} (p : pp A) (m : hp A) : Prop :=
  forall h, match go p h with Some r => m h = r | None => fst (m h) = None end.

Lemma same_walk : forall A (p : pp A) m, same p m -> walk p m.
Proof. intros A p m H h. rewrite (H h). reflexivity. Qed.

Lemma same_ret : forall A (x : A), same (pret x) (ret x).
Proof. intros A x h; reflexivity. Qed.
Lemma same_raise : forall A, same (@praise A) (@raise A).
Proof. intros A h; reflexivity. Qed.
Lemma same_bind : forall A B (p : pp A) m (f : A -> pp B) g, same p m -> (forall x, same (f x) (g x)) ->
  same (pbind p f) (bind m g).
Proof.
  intros A B p m f g H K h. unfold pbind, bind. rewrite go_andthen, (H h).
  destruct (m h) as [[x|] h']; [apply K|reflexivity].
Qed.
Lemma walk_bind : forall A B (p : pp A) m (f : A -> pp B) g, walk p m -> (forall x, walk (f x) (g x)) ->
  walk (pbind p f) (bind m g).
Proof.
  intros A B p m f g H K h. unfold pbind, bind. rewrite go_andthen. specialize (H h).
  destruct (go p h) as [[[x|] h']|].
  - rewrite H. apply K.
  - rewrite H. reflexivity.
  - destruct (m h) as [[x|] h']; [discriminate|]. reflexivity.
Qed.
Lemma same_alloc : forall o, same (p_alloc o) (alloc o).
Proof. intros o h; reflexivity. Qed.
Lemma same_load : forall r, same (p_load r) (load r).
Proof. intros r h; reflexivity. Qed.
Lemma same_store : forall r o, same (p_store r o) (store r o).
Proof. intros r o h. unfold p_store, store; simpl. destruct (Nat.ltb r (length h)); reflexivity. Qed.

Create HintDb same.
Local Hint Resolve same_ret same_raise same_alloc same_load same_store : same.

Ltac same_step :=
  match goal with
  | |- same (pbind _ _) (bind _ _) => apply same_bind; [|intros ?]
  | |- same (if ?b then _ else _) _ => destruct b
  | |- same (match ?x with _ => _ end) _ => destruct x
  | |- same (let (_, _) := ?x in _) _ => destruct x
  | _ => solve [auto with same]
  end.
Ltac same_go := intros; repeat same_step.

Lemma same_load_node : forall r, same (p_load_node r) (load_node r).
Proof. unfold p_load_node, load_node; same_go. Qed.
Lemma same_load_dict : forall r, same (p_load_dict r) (load_dict r).
Proof. unfold p_load_dict, load_dict; same_go. Qed.
Lemma same_load_list : forall r, same (p_load_list r) (load_list r).
Proof. unfold p_load_list, load_list; same_go. Qed.
Local Hint Resolve same_load_node same_load_dict same_load_list : same.
Lemma same_load_odict : forall r, same (p_load_odict r) (load_odict r).
Proof. unfold p_load_odict, load_odict; same_go. Qed.
Lemma same_alloc_odict : forall r, same (p_alloc_odict r) (alloc_odict r).
Proof. unfold p_alloc_odict, alloc_odict; same_go. Qed.
Local Hint Resolve same_load_odict same_alloc_odict : same.
Lemma same_new : forall tag text tail at_ es ns line, same (p_new tag text tail at_ es ns line) (h_new tag text tail at_ es ns line).
Proof. unfold p_new, h_new; same_go. Qed.
Local Hint Resolve same_new : same.

Lemma same_map : forall A B (f : A -> pp B) g l, (forall x, same (f x) (g x)) -> same (p_map f l) (h_map g l).
Proof. intros A B f g l H; induction l; simpl; same_go. Qed.
Local Hint Resolve same_map : same.
Lemma walk_map : forall A B (f : A -> pp B) g l, (forall x, walk (f x) (g x)) -> walk (p_map f l) (h_map g l).
Proof.
  intros A B f g l H; induction l; simpl; [apply same_walk; auto with same|].
  apply walk_bind; [auto|]. intros y. apply walk_bind; [auto|]. intros ys. apply same_walk; auto with same.
Qed.

Ltac walk_step :=
  match goal with
  | |- walk (pbind _ _) (bind _ _) => apply walk_bind; [|intros ?]
  | |- walk (if ?b then _ else _) _ => destruct b
  | |- walk (match ?x with _ => _ end) _ => destruct x
  | |- walk (p_map _ _) _ => apply walk_map; intros ?
  | _ => solve [auto with same | apply same_walk; auto with same]
  end.
Ltac walk_go := intros; repeat walk_step.

Lemma walk_create_snapshot : forall fuel self, walk (p_create_snapshot fuel self) (h_create_snapshot fuel self).
Proof. induction fuel as [|fuel IH]; intros self; simpl; [intros h; reflexivity|]. walk_go. Qed.
Lemma same_apply_snapshot : forall x y, same (p_apply_snapshot x y) (h_apply_snapshot x y).
Proof. unfold p_apply_snapshot, h_apply_snapshot; same_go. Qed.
Local Hint Resolve same_apply_snapshot : same.
Lemma same_step_forward : forall x, same (p_step_forward x) (h_step_forward x).
Proof. unfold p_step_forward, h_step_forward; same_go. Qed.
Local Hint Resolve same_step_forward : same.
Lemma same_is_empty : forall x, same (p_is_empty x) (h_is_empty x).
Proof. unfold p_is_empty, h_is_empty; same_go. Qed.
Local Hint Resolve same_is_empty : same.
Lemma same_set_text : forall x t, same (p_set_text x t) (h_set_text x t).
Proof. unfold p_set_text, h_set_text; same_go. Qed.
Local Hint Resolve same_set_text : same.
Lemma same_set_attribute : forall x k v, same (p_set_attribute x k v) (h_set_attribute x k v).
Proof. unfold p_set_attribute, h_set_attribute; same_go. Qed.
Local Hint Resolve same_set_attribute : same.
Lemma same_set_attributes : forall x d, same (p_set_attributes x d) (h_set_attributes x d).
Proof. unfold p_set_attributes, h_set_attributes; same_go. Qed.
Local Hint Resolve same_set_attributes : same.
Lemma same_append_element : forall x y, same (p_append_element x y) (h_append_element x y).
Proof. unfold p_append_element, h_append_element; same_go. Qed.
Local Hint Resolve same_append_element : same.
Lemma same_get_attrib : forall x k, same (p_get_attrib x k) (h_get_attrib x k).
Proof. unfold p_get_attrib, h_get_attrib; same_go. Qed.
Local Hint Resolve same_get_attrib : same.
Lemma same_pop_text : forall x, same (p_pop_text x) (h_pop_text x).
Proof. unfold p_pop_text, h_pop_text; same_go. Qed.
Local Hint Resolve same_pop_text : same.
Lemma same_pop_tail : forall x, same (p_pop_tail x) (h_pop_tail x).
Proof. unfold p_pop_tail, h_pop_tail; same_go. Qed.
Local Hint Resolve same_pop_tail : same.
Lemma same_pop_attrib : forall x k, same (p_pop_attrib x k) (h_pop_attrib x k).
Proof. unfold p_pop_attrib, h_pop_attrib; same_go. Qed.
Local Hint Resolve same_pop_attrib : same.
Lemma same_pop_attributes : forall x, same (p_pop_attributes x) (h_pop_attributes x).
Proof. unfold p_pop_attributes, h_pop_attributes; same_go. Qed.
Local Hint Resolve same_pop_attributes : same.
Lemma same_pop_elements : forall x, same (p_pop_elements x) (h_pop_elements x).
Proof. unfold p_pop_elements, h_pop_elements; same_go. Qed.
Local Hint Resolve same_pop_elements : same.
Lemma same_tag_is : forall t x, same (p_tag_is t x) (h_tag_is t x).
Proof. unfold p_tag_is, h_tag_is; same_go. Qed.
Local Hint Resolve same_tag_is : same.
Lemma same_look_behind : forall x t, same (p_look_behind x t) (h_look_behind x t).
Proof. unfold p_look_behind, h_look_behind; same_go. Qed.
Local Hint Resolve same_look_behind : same.
Lemma same_find_from : forall l i tag, same (p_find_from i l tag) (h_find_from i l tag).
Proof. induction l as [|c l IH]; intros i tag; simpl; same_go. Qed.
Local Hint Resolve same_find_from : same.
Lemma same_strict_forward : forall x t s, same (p_strict_forward x t s) (h_strict_forward x t s).
Proof. unfold p_strict_forward, h_strict_forward; same_go. Qed.
Local Hint Resolve same_strict_forward : same.
Lemma same_ordered_forward : forall x t s, same (p_ordered_forward x t s) (h_ordered_forward x t s).
Proof. unfold p_ordered_forward, h_ordered_forward; same_go. Qed.
Local Hint Resolve same_ordered_forward : same.
Lemma same_unordered_forward : forall x t s, same (p_unordered_forward x t s) (h_unordered_forward x t s).
Proof. unfold p_unordered_forward, h_unordered_forward; same_go. Qed.
Local Hint Resolve same_unordered_forward : same.
Lemma same_forward : forall m x t s, same (p_forward m x t s) (h_forward m x t s).
Proof. intros [] x t s; simpl; auto with same. Qed.
Local Hint Resolve same_forward : same.
Lemma same_find_element : forall x t m b s, same (p_find_element x t m b s) (h_find_element x t m b s).
Proof. unfold p_find_element, h_find_element; same_go. Qed.
Local Hint Resolve same_find_element : same.
Lemma same_extract : forall x, same (p_extract x) (h_extract x).
Proof. unfold p_extract, h_extract; same_go. Qed.
Local Hint Resolve same_extract : same.
Lemma same_pop_element : forall x t m r, same (p_pop_element x t m r) (h_pop_element x t m r).
Proof. unfold p_pop_element, h_pop_element; same_go. Qed.
Local Hint Resolve same_pop_element : same.
Lemma same_find_sub_element : forall path x m, same (p_find_sub_element x path m) (h_find_sub_element x path m).
Proof. induction path as [|t path IH]; intros x m; simpl; same_go. Qed.
Local Hint Resolve same_find_sub_element : same.
Lemma same_make_element : forall b t ns, same (p_make_element b t ns) (h_make_element b t ns).
Proof. unfold p_make_element, h_make_element; same_go. Qed.
Local Hint Resolve same_make_element : same.
Lemma same_find_element_or_create : forall b x t m ns, same (p_find_element_or_create b x t m ns) (h_find_element_or_create b x t m ns).
Proof. unfold p_find_element_or_create, h_find_element_or_create; same_go. Qed.
Local Hint Resolve same_find_element_or_create : same.
Lemma same_is_element_nill : forall x, same (p_is_element_nill x) (h_is_element_nill x).
Proof. unfold p_is_element_nill, h_is_element_nill; same_go. Qed.
Local Hint Resolve same_is_element_nill : same.
Lemma same_make_element_nill : forall x, same (p_make_element_nill x) (h_make_element_nill x).
Proof. unfold p_make_element_nill, h_make_element_nill; same_go. Qed.
Local Hint Resolve same_make_element_nill : same.
Lemma same_get_sourceline : forall x, same (p_get_sourceline x) (h_get_sourceline x).
Proof. unfold p_get_sourceline, h_get_sourceline; same_go. Qed.
Local Hint Resolve same_get_sourceline : same.

Lemma walk_to_native : forall fuel b x, walk (p_to_native fuel b x) (h_to_native fuel b x).
Proof.
  induction fuel as [|fuel IH]; intros b x; simpl; [intros h; reflexivity|].
  apply walk_bind; [walk_go|]. intros n. apply walk_bind; [walk_go|]. intros at_. apply walk_bind; [walk_go|]. intros ns.
  cbv zeta. walk_go.
Qed.

Lemma walk_get_unbound : forall fuel path x, walk (p_get_unbound fuel path x) (h_get_unbound fuel path x).
Proof. induction fuel as [|fuel IH]; intros path x; simpl; [intros h; reflexivity|]. walk_go. Qed.

Lemma same_extra_error : forall x u, same (p_extra_error x u) (h_extra_error x u).
Proof. intros x [[path attr] value]; unfold p_extra_error, h_extra_error; same_go. Qed.
Local Hint Resolve same_extra_error : same.

Lemma walk_check_extra : forall title x hide, walk (p_check_extra title x hide) (h_check_extra title x hide).
Proof.
  intros title x hide h. unfold p_check_extra, h_check_extra; simpl.
  apply (@walk_bind _ _ (p_get_unbound (length h) [] x)); [apply walk_get_unbound|]. intros us. walk_go.
Qed.

Lemma same_from_native : forall b n, same (p_from_native b n) (h_from_native b n).
Proof.
  intros b n; induction n as [tag nsm text tail attrib children line IH| |] using native_ind'; simpl; auto with same.
  apply same_bind; [|intros; auto with same].
  induction IH as [|c l Hc Hl IHl]; [auto with same|]. destruct (is_xml_comment c); [exact IHl|]. same_go.
Qed.
Local Hint Resolve same_from_native : same.

(** ---- readers ---- *)

Definition msame {A} (p : pm A) (m : hm A) : Prop := forall sm h,
  match go (p sm) h with
  | Some (r, h') => m sm h = (r, h')
  | None => exists sm', m sm h = (Fuel, sm', [])
  end.

Lemma msame_ret : forall A (x : A), msame (pmret x) (mret x).
Proof. intros A x sm h; reflexivity. Qed.
Lemma msame_raise : forall A x, msame (@pmraise A x) (mraise x).
Proof. intros A x sm h; reflexivity. Qed.
Lemma msame_fuel : forall A, msame (@pmfuel A) mfuel.
Proof. intros A sm h; reflexivity. Qed.
Lemma msame_bind : forall A B (p : pm A) m (f : A -> pm B) g, msame p m -> (forall x, msame (f x) (g x)) ->
  msame (pmbind p f) (mbind m g).
Proof.
  intros A B p m f g H K sm h. unfold pmbind, mbind. rewrite go_andthen. specialize (H sm h).
  destruct (go (p sm) h) as [[[o sm'] h']|].
  - rewrite H. destruct o as [x|x|]; simpl; auto. apply K.
  - destruct H as (sm' & ->). eauto.
Qed.
Lemma msame_try : forall A (p : pm A) m, msame p m -> msame (pmtry p) (mtry m).
Proof.
  intros A p m H sm h. unfold pmtry, mtry. rewrite go_andthen. specialize (H sm h).
  destruct (go (p sm) h) as [[[o sm'] h']|].
  - rewrite H. destruct o as [x|x|]; simpl; auto. destruct x; reflexivity.
  - destruct H as (sm' & ->). eauto.
Qed.
Lemma msame_lift : forall A (p : pp A) m, same p m -> msame (plift p) (lift m).
Proof.
  intros A p m H sm h. unfold plift, lift. rewrite go_andthen, (H h). destruct (m h) as [[x|] h']; reflexivity.
Qed.
Lemma msame_walk : forall A (p : pp A) m, walk p m -> msame (plift_walk p) (lift_walk m).
Proof.
  intros A p m H sm h. unfold plift_walk, lift_walk. rewrite go_andthen. specialize (H h).
  destruct (go p h) as [[[x|] h']|].
  - rewrite H. reflexivity.
  - rewrite H. simpl. eauto.
  - destruct (m h) as [[x|] h']; [discriminate|]. eauto.
Qed.
Local Hint Resolve msame_ret msame_raise msame_fuel msame_try msame_lift msame_walk : same.

Lemma msame_note_line : forall loc x, msame (p_note_line loc x) (h_note_line loc x).
Proof.
  intros loc x. apply msame_bind; [auto with same|]. intros l sm h; reflexivity.
Qed.
Local Hint Resolve msame_note_line : same.

Ltac msame_step :=
  match goal with
  | |- msame (pmbind _ _) (mbind _ _) => apply msame_bind; [|intros ?]
  | |- msame (if ?b then _ else _) _ => destruct b
  | |- msame (match ?x with _ => _ end) _ => destruct x
  | |- msame (pmtry _) _ => apply msame_try
  | |- msame (plift _) _ => apply msame_lift; same_go
  | _ => solve [auto with same]
  end.
Ltac msame_go := intros; repeat msame_step.

Definition rsame (p : preader) (r : hreader) : Prop := forall eas loc x, msame (p eas loc x) (r eas loc x).

Lemma rsame_text : forall c n, rsame (p_read_text c n) (h_read_text c n).
Proof. intros c n eas loc x; unfold p_read_text, h_read_text; msame_go. Qed.
Lemma rsame_attr : forall n c, rsame (p_read_attr n c) (h_read_attr n c).
Proof. intros n c eas loc x; unfold p_read_attr, h_read_attr; msame_go. Qed.
Lemma rsame_elem : forall n m c ni, rsame (p_read_elem n m c ni) (h_read_elem n m c ni).
Proof. intros n m c ni eas loc x; unfold p_read_elem, h_read_elem; msame_go; apply rsame_text. Qed.
Lemma rsame_attrs : forall a, rsame (p_read_attrs a) (h_read_attrs a).
Proof. intros a eas loc x; unfold p_read_attrs, h_read_attrs; msame_go. Qed.
Lemma rsame_map_elem : forall n m a, rsame (p_read_map_elem n m a) (h_read_map_elem n m a).
Proof. intros n m a eas loc x; unfold p_read_map_elem, h_read_map_elem; msame_go; apply rsame_attrs. Qed.

Lemma msame_items : forall r r', rsame r r' -> forall k title hide eas loc idx result errors x,
  msame (p_read_items k r title hide eas loc idx result errors x) (h_read_items k r' title hide eas loc idx result errors x).
Proof.
  intros r r' H. induction k as [|k IH]; intros; simpl; [auto with same|].
  apply msame_bind; [apply msame_try; apply H|]. intros [[]|]; try apply IH. destruct errors; auto with same.
Qed.
Lemma rsame_homo : forall k title c r r' hide, rsame r r' -> rsame (p_read_homo k title c r hide) (h_read_homo k title c r' hide).
Proof. intros k title c r r' hide H eas loc x; unfold p_read_homo, h_read_homo. destruct c; [auto with same|]. apply msame_items; auto. Qed.

Lemma msame_tuple : forall title hide rs rs', Forall2 rsame rs rs' -> forall eas loc idx result errors x,
  msame (p_read_tuple rs title hide eas loc idx result errors x) (h_read_tuple rs' title hide eas loc idx result errors x).
Proof.
  intros title hide rs rs' H; induction H as [|r r' rs rs' Hr Hrs IH]; intros; simpl.
  - destruct errors; auto with same.
  - apply msame_bind; [apply msame_try; apply Hr|]. intros [v|err]; apply IH.
Qed.
Lemma rsame_hetero : forall title c rs rs' hide, Forall2 rsame rs rs' ->
  rsame (p_read_hetero title c rs hide) (h_read_hetero title c rs' hide).
Proof. intros title c rs rs' hide H eas loc x; unfold p_read_hetero, h_read_hetero. destruct c; [auto with same|]. apply msame_tuple; auto. Qed.

Lemma rsame_union_prim : forall c r r', rsame r r' -> rsame (p_read_union_prim c r) (h_read_union_prim c r').
Proof. intros c r r' H eas loc x; unfold p_read_union_prim, h_read_union_prim. destruct c; [auto with same|]. apply H. Qed.

Lemma msame_variants : forall title hide eas loc x rs rs', Forall2 rsame rs rs' -> forall errors,
  msame (p_read_variants rs title hide eas loc errors x) (h_read_variants rs' title hide eas loc errors x).
Proof.
  intros title hide eas loc x rs rs' H; induction H as [|r r' rs rs' Hr Hrs IH]; intros errors sm h.
  - cbn [p_read_variants h_read_variants]. destruct errors; [reflexivity|]. rewrite go_andthen, (same_step_forward x h).
    destruct (h_step_forward x h) as [[u|] h']; reflexivity.
  - cbn [p_read_variants h_read_variants]. rewrite go_andthen. cbn [go].
    pose proof (walk_create_snapshot (length h) x h) as K.
    destruct (go (p_create_snapshot (length h) x) h) as [[[s|] h1]|].
    + rewrite K. rewrite go_andthen. specialize (Hr eas loc s sm h1).
      destruct (go (r eas loc s sm) h1) as [[[o sm'] h2]|].
      * rewrite Hr. cbn [fst snd]. destruct o as [v|e|]; cbn [fst snd].
        -- destruct v; try apply IH; rewrite go_andthen, (same_apply_snapshot x s h2);
             destruct (h_apply_snapshot x s h2) as [[u|] h3]; reflexivity.
        -- destruct e; try reflexivity. apply IH.
        -- reflexivity.
      * destruct Hr as (sm' & ->). eauto.
    + rewrite K. simpl. eauto.
    + destruct (h_create_snapshot (length h) x h) as [[s|] h1]; [discriminate|]. eauto.
Qed.
Lemma rsame_union_model : forall title c rs rs' hide, Forall2 rsame rs rs' ->
  rsame (p_read_union_model title c rs hide) (h_read_union_model title c rs' hide).
Proof.
  intros title c rs rs' hide H eas loc x; unfold p_read_union_model, h_read_union_model. destruct c; [auto with same|].
  apply msame_variants; auto.
Qed.

Lemma msame_tagged : forall rp rp', (forall p, rsame (rp p) (rp' p)) -> forall a m vs eas loc x,
  msame (p_read_tagged rp a m vs eas loc x) (h_read_tagged rp' a m vs eas loc x).
Proof.
  intros rp rp' H a m vs; induction vs as [|[tag p] vs IH]; intros eas loc x; simpl; [auto with same|].
  msame_go; try apply IH; apply H.
Qed.

Lemma rsame_wrap : forall path m c r r', rsame r r' -> rsame (p_read_wrap path m c r) (h_read_wrap path m c r').
Proof. intros path m c r r' H eas loc x; unfold p_read_wrap, h_read_wrap; msame_go; apply H. Qed.

Lemma walk_size : forall A (p : nat -> pp A) (m : nat -> hp A), (forall n, walk (p n) (m n)) ->
  walk (Size p) (fun h => m (length h) h).
Proof. intros A p m H h. apply H. Qed.

Lemma rsame_raw : forall b n m c, rsame (p_read_raw b n m c) (h_read_raw b n m c).
Proof.
  intros b n m c eas loc x; unfold p_read_raw, h_read_raw. msame_go.
  apply msame_walk. apply (@walk_size _ (fun n => p_to_native n b r) (fun n => h_to_native n b r)).
  intros k. apply walk_to_native.
Qed.

Lemma msame_validate : forall m input x, msame (p_validate_result m input x) (h_validate_result m input x).
Proof.
  intros m input x. unfold p_validate_result, h_validate_result. apply msame_bind.
  - destruct (md_forbid m); [|auto with same]. apply msame_walk, walk_check_extra.
  - intros [err|]; [auto with same|]. intros sm h. destruct (md_validate m input); reflexivity.
Qed.
Local Hint Resolve msame_validate : same.

Lemma msame_custom : forall f x, msame (p_run_custom f x) (h_run_custom (uninterrupted f) x).
Proof.
  intros f x sm h. unfold p_run_custom, h_run_custom, uninterrupted. rewrite go_andthen.
  destruct (go (f x) h) as [[r h']|]; [reflexivity|]. eauto.
Qed.

Lemma msame_fields : forall r r' hc m, (forall s, rsame (r s) (r' s)) -> forall fs eas result errors x,
  msame (p_read_fields r hc m fs eas result errors x)
        (h_read_fields r' (fun name => option_map uninterrupted (hc name)) m fs eas result errors x).
Proof.
  intros r r' hc m H fs; induction fs as [|[name s] fs IH]; intros eas result errors x; simpl; [auto with same|].
  apply msame_bind; [auto with same|]. intros _. apply msame_bind.
  - apply msame_try. destruct (hc name); simpl; [apply msame_custom|apply H].
  - intros [[]|err]; apply IH.
Qed.

Lemma rsame_model : forall r r' hc m, (forall s, rsame (r s) (r' s)) ->
  rsame (p_read_model r hc m) (h_read_model r' (fun name => option_map uninterrupted (hc name)) m).
Proof.
  intros r r' hc m H eas loc x. unfold p_read_model, h_read_model. destruct (md_root m).
  - unfold p_read_root_model, h_read_root_model. destruct (md_fields m) as [|[nm s] fs]; [auto with same|].
    apply msame_bind; [apply msame_try; apply H|]. intros [v|err]; auto with same.
  - unfold p_read_plain_model, h_read_plain_model. apply msame_bind; [apply msame_fields; auto|].
    intros [result errors]. simpl. destruct errors; auto with same.
Qed.

Lemma rsame_proxy : forall ev hc r r' p, (forall s, rsame (r s) (r' s)) ->
  rsame (p_read_proxy ev hc r p) (h_read_proxy ev (uninterrupted_vals hc) r' p).
Proof.
  intros ev hc r r' p H eas loc x. unfold p_read_proxy, h_read_proxy. destruct (en_model ev (px_model p)) as [m|]; [|auto with same].
  msame_go; apply (@rsame_model r r' (hc (px_model p)) m H).
Qed.

Lemma rsame_read : forall n ev hc s, rsame (p_read n ev hc s) (h_read n ev (uninterrupted_vals hc) s).
Proof.
  induction n as [|n IH]; intros ev hc s; simpl; [intros eas loc x; auto with same|].
  destruct s; simpl.
  - apply rsame_text.
  - apply rsame_attr.
  - apply rsame_elem.
  - apply rsame_attrs.
  - apply rsame_map_elem.
  - apply rsame_homo; auto.
  - apply rsame_hetero. induction inners; simpl; constructor; auto.
  - apply rsame_union_prim; auto.
  - apply rsame_union_model. induction variants; simpl; constructor; auto. apply rsame_proxy; auto.
  - intros eas loc x. destruct computed; [auto with same|]. apply msame_tagged. intros p. apply rsame_proxy; auto.
  - apply rsame_wrap; auto.
  - apply rsame_raw.
  - apply rsame_proxy; auto.
Qed.

(** a result of a call: [None] is a reached recursion limit, for which the heap models keep nothing *)
Definition csame {A} (p : prog (out A)) (m : heap -> out A * heap) : Prop := forall h,
  match go p h with
  | Some r => m h = r
  | None => m h = (Fuel, [])
  end.

Lemma from_xml_tree_go : forall n ev hc cls root eas,
  csame (p_from_xml_tree n ev hc cls root eas) (h_from_xml_tree n ev (uninterrupted_vals hc) cls root eas).
Proof.
  intros n ev hc cls root eas h. unfold p_from_xml_tree, h_from_xml_tree.
  destruct (en_model ev cls) as [m|]; [|reflexivity].
  destruct (tag_is (native_tag root) (md_elem_name m)); [|reflexivity].
  rewrite go_andthen, (same_from_native (en_backend ev) root h).
  destruct (h_from_native (en_backend ev) root h) as [[self|] h1]; [|reflexivity].
  rewrite go_andthen.
  pose proof (@rsame_model (p_read n ev hc) (h_read n ev (uninterrupted_vals hc)) (hc cls) m (rsame_read n ev hc) eas [] self [] h1) as K.
  destruct (go (p_read_model (p_read n ev hc) (hc cls) m eas [] self []) h1) as [[[o sm'] h2]|].
  - unfold uninterrupted_vals in *. rewrite K. reflexivity.
  - destruct K as (sm' & K). unfold uninterrupted_vals in *. rewrite K. reflexivity.
Qed.

(** ---- writers ---- *)

Lemma csame_ret : forall A (x : A), csame (pwret x) (wret x).
Proof. intros A x h; reflexivity. Qed.
Lemma csame_raise : forall A x, csame (@pwraise A x) (wraise x).
Proof. intros A x h; reflexivity. Qed.
Lemma csame_pure : forall A (o : out A), csame (pwpure o) (wpure o).
Proof. intros A o h; reflexivity. Qed.
Lemma csame_bind : forall A B (p : pw A) m (f : A -> pw B) g, csame p m -> (forall x, csame (f x) (g x)) ->
  csame (pwbind p f) (wbind m g).
Proof.
  intros A B p m f g H K h. unfold pwbind, wbind. rewrite go_andthen. specialize (H h).
  destruct (go p h) as [[o h']|].
  - rewrite H. destruct o as [x|x|]; simpl; auto. apply K.
  - rewrite H. reflexivity.
Qed.
Lemma csame_lift : forall A (p : pp A) m, same p m -> csame (pwlift p) (wlift m).
Proof. intros A p m H h. unfold pwlift, wlift. rewrite go_andthen, (H h). destruct (m h) as [[x|] h']; reflexivity. Qed.
Lemma csame_walk : forall A (p : pp A) m, walk p m -> csame (pwlift_walk p) (wlift_walk m).
Proof.
  intros A p m H h. unfold pwlift_walk, wlift_walk. rewrite go_andthen. specialize (H h).
  destruct (go p h) as [[[x|] h']|].
  - rewrite H. reflexivity.
  - rewrite H. reflexivity.
  - destruct (m h) as [[x|] h']; [discriminate|]. reflexivity.
Qed.
Local Hint Resolve csame_ret csame_raise csame_pure csame_lift csame_walk : same.

Ltac csame_step :=
  match goal with
  | |- csame (pwbind _ _) (wbind _ _) => apply csame_bind; [|intros ?]
  | |- csame (if ?b then _ else _) _ => destruct b
  | |- csame (match ?x with _ => _ end) _ => destruct x
  | |- csame (pwlift _) _ => apply csame_lift; same_go
  | _ => solve [auto with same]
  end.
Ltac csame_go := intros; repeat csame_step.

Definition wsame (p : pwriter) (w : hwriter) : Prop := forall fl x v enc, csame (p fl x v enc) (w fl x v enc).

Lemma same_length2 : forall A B (R : A -> B -> Prop) l l', Forall2 R l l' -> length l = length l'.
Proof. intros A B R l l' H; induction H; simpl; auto. Qed.

Section Writers.
  Variable nsr : nsmap -> ref.

  Lemma wsame_text : forall n, wsame (p_write_text n) (h_write_text n).
  Proof. intros n fl x v enc; unfold p_write_text, h_write_text; csame_go. Qed.
  Lemma wsame_attr : forall n, wsame (p_write_attr n) (h_write_attr n).
  Proof. intros n fl x v enc; unfold p_write_attr, h_write_attr; csame_go. Qed.
  Lemma csame_make_sub : forall b n nsm, csame (p_make_sub nsr b n nsm) (h_make_sub nsr b n nsm).
  Proof. intros; unfold p_make_sub, h_make_sub; csame_go. Qed.
  Local Hint Resolve csame_make_sub : same.
  Lemma csame_append : forall fl sub x, csame (p_append_unless_empty fl sub x) (h_append_unless_empty fl sub x).
  Proof. intros; unfold p_append_unless_empty, h_append_unless_empty; csame_go. Qed.
  Local Hint Resolve csame_append : same.
  Lemma wsame_elem : forall b n nsm ni, wsame (p_write_elem nsr b n nsm ni) (h_write_elem nsr b n nsm ni).
  Proof. intros b n nsm ni fl x v enc; unfold p_write_elem, h_write_elem; csame_go; apply wsame_text. Qed.
  Lemma wsame_attrs : forall a, wsame (p_write_attrs a) (h_write_attrs a).
  Proof. intros a fl x v enc; unfold p_write_attrs, h_write_attrs; csame_go. Qed.
  Lemma wsame_map_elem : forall b n a, wsame (p_write_map_elem nsr b n a) (h_write_map_elem nsr b n a).
  Proof. intros b n a fl x v enc; unfold p_write_map_elem, h_write_map_elem; csame_go; apply wsame_attrs. Qed.
  Lemma csame_items : forall w w', wsame w w' -> forall vs encs fl x, csame (p_write_items w fl x vs encs) (h_write_items w' fl x vs encs).
  Proof. intros w w' H vs; induction vs as [|v vs IH]; intros [|e encs] fl x; simpl; csame_go; apply H. Qed.
  Lemma wsame_homo : forall w w', wsame w w' -> wsame (p_write_homo w) (h_write_homo w').
  Proof. intros w w' H fl x v enc; unfold p_write_homo, h_write_homo; csame_go; apply csame_items; auto. Qed.
  Lemma csame_tuple : forall ws ws', Forall2 wsame ws ws' -> forall vs encs fl x, csame (p_write_tuple ws fl x vs encs) (h_write_tuple ws' fl x vs encs).
  Proof. intros ws ws' H; induction H as [|w w' ws ws' Hw Hws IH]; intros [|v vs] [|e encs] fl x; simpl; csame_go; apply Hw. Qed.
  Lemma wsame_hetero : forall ws ws', Forall2 wsame ws ws' -> wsame (p_write_hetero ws) (h_write_hetero ws').
  Proof.
    intros ws ws' H fl x v enc; unfold p_write_hetero, h_write_hetero. rewrite (same_length2 H). csame_go; apply csame_tuple; auto.
  Qed.
  Lemma csame_union : forall wp wp', (forall p, wsame (wp p) (wp' p)) -> forall vs fl x v enc,
    csame (p_write_union wp vs fl x v enc) (h_write_union wp' vs fl x v enc).
  Proof. intros wp wp' H vs; induction vs as [|p vs IH]; intros fl x v enc; simpl; csame_go; apply H. Qed.
  Lemma wsame_tagged : forall wp wp', (forall p, wsame (wp p) (wp' p)) -> forall d vs, wsame (p_write_tagged wp d vs) (h_write_tagged wp' d vs).
  Proof. intros wp wp' H d vs fl x v enc; unfold p_write_tagged, h_write_tagged; csame_go; apply H. Qed.
  Lemma csame_path : forall b m nsm path k k', (forall x, csame (k x) (k' x)) -> forall x,
    csame (p_write_path nsr b m nsm path k x) (h_write_path nsr b m nsm path k' x).
  Proof. intros b m nsm path k k' H; induction path as [|t path IH]; intros x; simpl; csame_go. Qed.
  Lemma wsame_wrap : forall b path nsm m w w', wsame w w' -> wsame (p_write_wrap nsr b path nsm m w) (h_write_wrap nsr b path nsm m w').
  Proof. intros b path nsm m w w' H fl x v enc; unfold p_write_wrap, h_write_wrap; csame_go; apply csame_path. intros c; apply H. Qed.
  Lemma wsame_raw : forall b, wsame (p_write_raw b) (h_write_raw b).
  Proof. intros b fl x v enc; unfold p_write_raw, h_write_raw; csame_go. Qed.

  Lemma csame_custom : forall (f : val -> ref -> val -> pw unit) v x y, csame (f v x y) (uninterrupted (fun self => f v self y) x).
  Proof. intros f v x y h. unfold uninterrupted. destruct (go (f v x y) h); reflexivity. Qed.

  Lemma csame_fields : forall w w' hc m, (forall s, wsame (w s) (w' s)) -> forall fs fl x v enc,
    csame (p_write_fields w hc m fs fl x v enc)
          (h_write_fields w' (fun name => option_map (fun f v x y => uninterrupted (fun self => f v self y) x) (hc name)) m fs fl x v enc).
  Proof.
    intros w w' hc m H fs; induction fs as [|[name s] fs IH]; intros fl x v enc; simpl; [auto with same|].
    destruct (str_in name (md_sexclude m)); [apply IH|]. apply csame_bind; [auto with same|]. intros [|]; [apply IH|].
    apply csame_bind; [auto with same|]. intros y. apply csame_bind; [|intros; apply IH].
    destruct (hc name) as [f|]; simpl; [apply csame_custom|].
    apply csame_bind; [auto with same|]. intros e. apply H.
  Qed.
  Lemma wsame_model : forall w w' hc m, (forall s, wsame (w s) (w' s)) ->
    wsame (p_write_model w hc m)
          (h_write_model w' (fun name => option_map (fun f v x y => uninterrupted (fun self => f v self y) x) (hc name)) m).
  Proof.
    intros w w' hc m H fl x v enc; unfold p_write_model, h_write_model. destruct (is_none v); [auto with same|].
    destruct (md_root m); [|apply csame_fields; auto]. csame_go; apply H.
  Qed.
  Lemma wsame_proxy : forall ev hc w w' p, (forall s, wsame (w s) (w' s)) ->
    wsame (p_write_proxy nsr ev hc w p) (h_write_proxy nsr ev (uninterrupted_sers hc) w' p).
  Proof.
    intros ev hc w w' p H fl x v enc; unfold p_write_proxy, h_write_proxy. destruct (en_model ev (px_model p)) as [m|]; [|auto with same].
    csame_go; apply (@wsame_model w w' (hc (px_model p)) m H).
  Qed.

  Lemma wsame_write : forall n ev hc s, wsame (p_write nsr n ev hc s) (h_write nsr n ev (uninterrupted_sers hc) s).
  Proof.
    induction n as [|n IH]; intros ev hc s; simpl; [intros fl x v enc h; reflexivity|].
    destruct s; simpl.
    - apply wsame_text.
    - apply wsame_attr.
    - apply wsame_elem.
    - apply wsame_attrs.
    - apply wsame_map_elem.
    - apply wsame_homo; auto.
    - apply wsame_hetero. induction inners; simpl; constructor; auto.
    - apply IH.
    - intros fl x v enc. apply csame_union. intros p. apply wsame_proxy; auto.
    - apply wsame_tagged. intros p. apply wsame_proxy; auto.
    - apply wsame_wrap; auto.
    - apply wsame_raw.
    - apply wsame_proxy; auto.
  Qed.

  Lemma to_xml_tree_go : forall n ev hc encode v fl,
    csame (p_to_xml_tree nsr n ev hc encode v fl) (h_to_xml_tree nsr n ev (uninterrupted_sers hc) encode v fl).
  Proof.
    intros n ev hc encode v fl. unfold p_to_xml_tree, h_to_xml_tree.
    destruct (model_type v) as [cls|]; [|auto with same]. destruct (en_model ev cls) as [m|]; [|auto with same].
    apply csame_bind; [auto with same|]. intros root. apply csame_bind.
    - apply (@wsame_model (p_write nsr n ev hc) (h_write nsr n ev (uninterrupted_sers hc)) (hc cls) m (wsame_write n ev hc)).
    - intros _. apply csame_bind; [|csame_go]. apply csame_walk.
      apply (@walk_size _ (fun n => p_to_native n (en_backend ev) root) (fun n => h_to_native n (en_backend ev) root)).
      intros k. apply walk_to_native.
  Qed.
End Writers.
