(** PfHeap.v -- a program that cannot reach a set of objects cannot change them. *)

From Verif Require Import Base Elem Heap SpecHeap.

Section Frame.
  Variable P : ref -> Prop.   (* the protected objects *)

  Definition outside (o : obj) : Prop := forall x, In x (refs_of o) -> ~ P x.

  Definition inv (h : heap) : Prop :=
    (forall r, P r -> r < length h) /\
    (forall r o, nth_error h r = Some o -> ~ P r -> outside o).

  Definition keeps (h h' : heap) : Prop :=
    length h <= length h' /\ forall r, P r -> nth_error h' r = nth_error h r.

  Definition hoare {A} (m : hp A) (G : A -> Prop) : Prop :=
    forall h, inv h ->
      inv (snd (m h)) /\ keeps h (snd (m h)) /\ forall x, fst (m h) = Some x -> G x.

  Lemma keeps_refl : forall h, keeps h h.
  Proof. split; auto. Qed.

  Lemma keeps_trans : forall a b c, keeps a b -> keeps b c -> keeps a c.
  Proof.
    intros a b c [L1 E1] [L2 E2]; split; [lia|].
    intros r HP. rewrite E2, E1; auto.
  Qed.

  Lemma hoare_ret : forall A (x : A) (G : A -> Prop), G x -> hoare (ret x) G.
  Proof. intros A x G HG h I. simpl. split; [auto|]. split; [apply keeps_refl|]. intros y E; inversion E; subst; auto. Qed.

  Lemma hoare_raise : forall A (G : A -> Prop), hoare raise G.
  Proof. intros A G h I. simpl. split; [auto|]. split; [apply keeps_refl|]. intros y E; inversion E. Qed.

  Lemma hoare_bind : forall A B (m : hp A) (f : A -> hp B) G G',
    hoare m G -> (forall x, G x -> hoare (f x) G') -> hoare (bind m f) G'.
  Proof.
    intros A B m f G G' Hm Hf h I. unfold bind.
    destruct (Hm h I) as [I1 [K1 G1]].
    destruct (m h) as [[x|] h1]; simpl in *.
    - destruct (Hf x (G1 x eq_refl) h1 I1) as [I2 [K2 G2]].
      split; [auto|]. split; [eapply keeps_trans; eauto|auto].
    - split; [auto|]. split; [auto|]. intros y E; inversion E.
  Qed.

  Lemma hoare_weaken : forall A (m : hp A) (G G' : A -> Prop),
    hoare m G -> (forall x, G x -> G' x) -> hoare m G'.
  Proof.
    intros A m G G' H HG h I. destruct (H h I) as [I1 [K1 G1]].
    split; [auto|]. split; auto.
  Qed.

  Lemma hoare_load : forall r, ~ P r -> hoare (load r) outside.
  Proof.
    intros r NP h I. simpl. split; [auto|]. split; [apply keeps_refl|].
    intros o E. destruct I as [_ I]. eapply I; eauto.
  Qed.

  Lemma nth_upd_other : forall A i j (x : A) l, i <> j -> nth_error (list_upd i x l) j = nth_error l j.
  Proof.
    intros A i j x l; revert i j; induction l as [|y l IH]; intros [|i] [|j] NE; simpl; auto; try congruence.
  Qed.

  Lemma nth_upd_same : forall A i (x : A) l, i < length l -> nth_error (list_upd i x l) i = Some x.
  Proof.
    intros A i x l; revert i; induction l as [|y l IH]; intros [|i] L; simpl in *; auto; try lia.
    apply IH. lia.
  Qed.

  Lemma upd_length : forall A i (x : A) l, length (list_upd i x l) = length l.
  Proof. intros A i x l; revert i; induction l as [|y l IH]; intros [|i]; simpl; auto. Qed.

  Lemma hoare_store : forall r o, ~ P r -> outside o -> hoare (store r o) (fun _ => True).
  Proof.
    intros r o NP O h I. unfold store. destruct (Nat.ltb r (length h)) eqn:E; simpl.
    - apply Nat.ltb_lt in E. destruct I as [I1 I2]. split; [|split; [|auto]].
      + split.
        * intros x Px. rewrite upd_length. auto.
        * intros x o' Ex NPx. destruct (Nat.eq_dec r x) as [->|NE].
          -- rewrite nth_upd_same in Ex by auto. inversion Ex; subst; auto.
          -- rewrite nth_upd_other in Ex by auto. eapply I2; eauto.
      + split; [rewrite upd_length; auto|].
        intros x Px. apply nth_upd_other. intros ->. contradiction.
    - split; [auto|]. split; [apply keeps_refl|auto].
  Qed.

  Lemma hoare_alloc : forall o, outside o -> hoare (alloc o) (fun r => ~ P r).
  Proof.
    intros o O h I. simpl. destruct I as [I1 I2]. split; [|split].
    - split.
      + intros x Px. rewrite app_length; simpl. specialize (I1 _ Px). lia.
      + intros x o' Ex NPx. destruct (Nat.lt_ge_cases x (length h)) as [L|L].
        * rewrite nth_error_app1 in Ex by auto. eapply I2; eauto.
        * rewrite nth_error_app2 in Ex by auto.
          destruct (x - length h) as [|k]; simpl in Ex; [inversion Ex; subst; auto|].
          destruct k; discriminate.
    - split; [rewrite app_length; simpl; lia|].
      intros x Px. apply nth_error_app1. auto.
    - intros x E; inversion E; subst. intros Px. specialize (I1 _ Px). lia.
  Qed.

  (** the references of the parts of a node *)
  Definition node_out (n : node) : Prop := outside (ONode n).
  Definition all_out (l : list ref) : Prop := forall x, In x l -> ~ P x.
  Definition opt_out (o : option ref) : Prop := all_out (opt_list o).

  Lemma node_out_parts : forall n,
    node_out n <-> opt_out (n_nsmap n) /\ opt_out (n_attrib n) /\ ~ P (n_elems n).
  Proof.
    intros n; unfold node_out, outside, opt_out, all_out; simpl. split.
    - intros H. repeat split.
      + intros x Hx. apply H. apply in_or_app; auto.
      + intros x Hx. apply H. apply in_or_app; right; apply in_or_app; auto.
      + apply H. apply in_or_app; right; apply in_or_app; right; simpl; auto.
    - intros [A [B C]] x Hx. apply in_app_or in Hx. destruct Hx as [Hx|Hx]; [auto|].
      apply in_app_or in Hx. destruct Hx as [Hx|[<-|[]]]; auto.
  Qed.

  Lemma hoare_load_node : forall r, ~ P r -> hoare (load_node r) node_out.
  Proof.
    intros r NP. eapply hoare_bind; [apply hoare_load; auto|].
    intros [n|d|l] O; [apply hoare_ret; auto|apply hoare_raise|apply hoare_raise].
  Qed.

  Lemma hoare_load_dict : forall r, ~ P r -> hoare (load_dict r) (fun _ => True).
  Proof.
    intros r NP. eapply hoare_bind; [apply hoare_load; auto|].
    intros [n|d|l] O; [apply hoare_raise|apply hoare_ret; auto|apply hoare_raise].
  Qed.

  Lemma hoare_load_list : forall r, ~ P r -> hoare (load_list r) all_out.
  Proof.
    intros r NP. eapply hoare_bind; [apply hoare_load; auto|].
    intros [n|d|l] O; [apply hoare_raise|apply hoare_raise|apply hoare_ret; exact O].
  Qed.

  Lemma hoare_load_odict : forall r, opt_out r -> hoare (load_odict r) (fun _ => True).
  Proof.
    intros [r|] NP; simpl; [|apply hoare_ret; auto].
    eapply hoare_bind; [apply hoare_load_dict; apply NP; simpl; auto|].
    intros x _. apply hoare_ret; auto.
  Qed.

  Lemma outside_dict : forall d, outside (ODict d).
  Proof. intros d x []. Qed.

  Lemma hoare_alloc_odict : forall d, hoare (alloc_odict d) opt_out.
  Proof.
    intros [d|]; simpl; [|apply hoare_ret; intros x []].
    eapply hoare_bind; [apply hoare_alloc, outside_dict|].
    intros x Hx. apply hoare_ret. intros y [<-|[]]; auto.
  Qed.

  Lemma hoare_new : forall tag text tail at_ es ns line, all_out es -> opt_out ns ->
    hoare (h_new tag text tail at_ es ns line) (fun r => ~ P r).
  Proof.
    intros tag text tail at_ es ns line He Hn. unfold h_new.
    eapply hoare_bind; [apply hoare_alloc_odict|]. intros ar Ha.
    eapply hoare_bind; [apply hoare_alloc; exact He|]. intros lr Hl.
    apply hoare_alloc. apply node_out_parts; simpl; auto.
  Qed.

  Lemma all_out_nil : all_out [].
  Proof. intros x []. Qed.

  Lemma opt_out_none : opt_out None.
  Proof. intros x []. Qed.

  Lemma opt_out_some : forall r, ~ P r -> opt_out (Some r).
  Proof. intros r H x [<-|[]]; auto. Qed.

  Lemma opt_out_some_inv : forall r, opt_out (Some r) -> ~ P r.
  Proof. intros r H. apply H; simpl; auto. Qed.

  Lemma hoare_map : forall A (f : A -> hp ref) l,
    (forall x, In x l -> hoare (f x) (fun r => ~ P r)) -> hoare (h_map f l) all_out.
  Proof.
    intros A f l; induction l as [|x l IH]; intros H; simpl.
    - apply hoare_ret, all_out_nil.
    - eapply hoare_bind; [apply H; simpl; auto|]. intros y Hy.
      eapply hoare_bind; [apply IH; intros z Hz; apply H; simpl; auto|]. intros ys Hys.
      apply hoare_ret. intros z [<-|Hz]; auto.
  Qed.

  Ltac nodeparts H := let A := fresh "Hns" in let B := fresh "Hat" in let C := fresh "Hel" in
    pose proof H as A; apply node_out_parts in A; destruct A as [A [B C]].

  Ltac hb lem := eapply hoare_bind; [apply lem; auto; fail|].
  Ltac done_node := apply node_out_parts; simpl; auto.

  Lemma hoare_snapshot : forall fuel a, ~ P a -> hoare (h_create_snapshot fuel a) (fun r => ~ P r).
  Proof.
    induction fuel as [|fuel IH]; intros a NP; simpl; [apply hoare_raise|].
    hb hoare_load_node. intros n Hn. nodeparts Hn.
    hb hoare_load_odict. intros at_ _.
    hb hoare_load_list. intros l Hl.
    eapply hoare_bind; [apply hoare_map; intros x Hx; apply IH; apply Hl; auto|]. intros es Hes.
    hb hoare_load_odict. intros ns _.
    hb hoare_alloc_odict. intros nsr Hnsr.
    hb hoare_new. intros e He.
    hb hoare_load_node. intros n' Hn'. nodeparts Hn'.
    eapply hoare_bind; [apply hoare_store; [auto|done_node]|]. intros _ _.
    apply hoare_ret; auto.
  Qed.

  Lemma hoare_apply : forall a s, ~ P a -> ~ P s -> hoare (h_apply_snapshot a s) (fun _ => True).
  Proof.
    intros a s Ha Hs. unfold h_apply_snapshot.
    hb hoare_load_node. intros n Hn. hb hoare_load_node. intros m Hm. nodeparts Hm.
    apply hoare_store; [auto|done_node].
  Qed.

  Lemma hoare_step : forall a, ~ P a -> hoare (h_step_forward a) (fun _ => True).
  Proof.
    intros a Ha. unfold h_step_forward. hb hoare_load_node. intros n Hn. nodeparts Hn.
    apply hoare_store; [auto|done_node].
  Qed.

  Lemma hoare_is_empty : forall a, ~ P a -> hoare (h_is_empty a) (fun _ => True).
  Proof.
    intros a Ha. unfold h_is_empty. hb hoare_load_node. intros n Hn. nodeparts Hn.
    hb hoare_load_odict. intros d _. hb hoare_load_list. intros l Hl. apply hoare_ret; auto.
  Qed.

  Lemma hoare_set_text : forall a t, ~ P a -> hoare (h_set_text a t) (fun _ => True).
  Proof.
    intros a t Ha. unfold h_set_text. hb hoare_load_node. intros n Hn. nodeparts Hn.
    apply hoare_store; [auto|done_node].
  Qed.

  Lemma hoare_set_attribute : forall a k v, ~ P a -> hoare (h_set_attribute a k v) (fun _ => True).
  Proof.
    intros a k v Ha. unfold h_set_attribute. hb hoare_load_node. intros n Hn. nodeparts Hn.
    eapply hoare_bind with (G := fun r => ~ P r).
    - destruct (n_attrib n) as [r|].
      + apply hoare_ret. apply opt_out_some_inv; auto.
      + eapply hoare_bind; [apply hoare_alloc, outside_dict|]. intros r Hr.
        eapply hoare_bind; [apply hoare_store; [auto|]|].
        * apply node_out_parts; simpl; repeat split; auto. apply opt_out_some; auto.
        * intros _ _. apply hoare_ret; auto.
    - intros r Hr. hb hoare_load_dict. intros d _. apply hoare_store; auto. apply outside_dict.
  Qed.

  Lemma hoare_set_attributes : forall a d, ~ P a -> hoare (h_set_attributes a d) (fun _ => True).
  Proof.
    intros a d Ha. unfold h_set_attributes. hb hoare_load_node. intros n Hn. nodeparts Hn.
    eapply hoare_bind; [apply hoare_alloc, outside_dict|]. intros r Hr.
    apply hoare_store; auto. apply node_out_parts; simpl; repeat split; auto. apply opt_out_some; auto.
  Qed.

  Lemma hoare_append : forall a c, ~ P a -> ~ P c -> hoare (h_append_element a c) (fun _ => True).
  Proof.
    intros a c Ha Hc. unfold h_append_element. hb hoare_load_node. intros n Hn. nodeparts Hn.
    hb hoare_load_list. intros l Hl.
    eapply hoare_bind; [apply hoare_store; [auto|]|].
    - intros x Hx. simpl in Hx. apply in_app_or in Hx. destruct Hx as [Hx|[<-|[]]]; auto.
    - intros _ _. apply hoare_store; [auto|done_node].
  Qed.

  Lemma hoare_get_attrib : forall a k, ~ P a -> hoare (h_get_attrib a k) (fun _ => True).
  Proof.
    intros a k Ha. unfold h_get_attrib. hb hoare_load_node. intros n Hn. nodeparts Hn.
    hb hoare_load_odict. intros d _. apply hoare_ret; auto.
  Qed.

  Lemma hoare_pop_text : forall a, ~ P a -> hoare (h_pop_text a) (fun _ => True).
  Proof.
    intros a Ha. unfold h_pop_text. hb hoare_load_node. intros n Hn. nodeparts Hn.
    eapply hoare_bind; [apply hoare_store; [auto|done_node]|]. intros _ _. apply hoare_ret; auto.
  Qed.

  Lemma hoare_pop_tail : forall a, ~ P a -> hoare (h_pop_tail a) (fun _ => True).
  Proof.
    intros a Ha. unfold h_pop_tail. hb hoare_load_node. intros n Hn. nodeparts Hn.
    eapply hoare_bind; [apply hoare_store; [auto|done_node]|]. intros _ _. apply hoare_ret; auto.
  Qed.

  Lemma hoare_pop_attrib : forall a k, ~ P a -> hoare (h_pop_attrib a k) (fun _ => True).
  Proof.
    intros a k Ha. unfold h_pop_attrib. hb hoare_load_node. intros n Hn. nodeparts Hn.
    destruct (n_attrib n) as [r|]; [|apply hoare_ret; auto].
    pose proof (opt_out_some_inv Hat) as Hr.
    hb hoare_load_dict. intros d _. destruct (dget k d); [|apply hoare_ret; auto].
    eapply hoare_bind; [apply hoare_store; [auto|apply outside_dict]|].
    intros _ _. apply hoare_ret; auto.
  Qed.

  Lemma hoare_pop_attributes : forall a, ~ P a -> hoare (h_pop_attributes a) opt_out.
  Proof.
    intros a Ha. unfold h_pop_attributes. hb hoare_load_node. intros n Hn. nodeparts Hn.
    eapply hoare_bind; [apply hoare_store; [auto|]|].
    - apply node_out_parts; simpl; repeat split; auto. apply opt_out_none.
    - intros _ _. apply hoare_ret; auto.
  Qed.

  Lemma hoare_pop_elements : forall a, ~ P a -> hoare (h_pop_elements a) all_out.
  Proof.
    intros a Ha. unfold h_pop_elements. hb hoare_load_node. intros n Hn. nodeparts Hn.
    hb hoare_load_list. intros l Hl.
    eapply hoare_bind; [apply hoare_alloc; apply all_out_nil|]. intros r Hr.
    eapply hoare_bind; [apply hoare_store; [auto|done_node]|]. intros _ _. apply hoare_ret; auto.
  Qed.

  Lemma hoare_tag_is : forall t r, ~ P r -> hoare (h_tag_is t r) (fun _ => True).
  Proof. intros t r Hr. unfold h_tag_is. hb hoare_load_node. intros n Hn. apply hoare_ret; auto. Qed.

  Lemma all_out_nth : forall l i c, all_out l -> nth_error l i = Some c -> ~ P c.
  Proof. intros l i c H E. apply H. eapply nth_error_In; eauto. Qed.

  Lemma hoare_look_behind : forall a t, ~ P a -> hoare (h_look_behind a t) opt_out.
  Proof.
    intros a t Ha. unfold h_look_behind. hb hoare_load_node. intros n Hn. nodeparts Hn.
    destruct (n_next n) as [|i]; [apply hoare_ret, opt_out_none|].
    hb hoare_load_list. intros l Hl.
    destruct (nth_error l i) as [c|] eqn:E; [|apply hoare_raise].
    pose proof (all_out_nth _ Hl E) as Hc.
    hb hoare_tag_is. intros [] _; apply hoare_ret; [apply opt_out_some; auto|apply opt_out_none].
  Qed.

  Definition pair_out (o : option (nat * ref)) : Prop :=
    match o with Some (_, c) => ~ P c | None => True end.

  Lemma hoare_find_from : forall l i t, all_out l -> hoare (h_find_from i l t) pair_out.
  Proof.
    induction l as [|c l IH]; intros i t Hl; simpl; [apply hoare_ret; simpl; auto|].
    assert (Hc : ~ P c) by (apply Hl; simpl; auto).
    hb hoare_tag_is. intros [] _; [apply hoare_ret; auto|].
    apply IH. intros x Hx. apply Hl; simpl; auto.
  Qed.

  Lemma in_skipn : forall A n (l : list A) x, In x (skipn n l) -> In x l.
  Proof.
    intros A n; induction n as [|n IH]; intros [|y l] x Hx; simpl in *; auto.
  Qed.

  Lemma all_out_skipn : forall n l, all_out l -> all_out (skipn n l).
  Proof. intros n l H x Hx. apply H. eapply in_skipn; eauto. Qed.

  Lemma list_upd_in : forall A i (x : A) l y, In y (list_upd i x l) -> y = x \/ In y l.
  Proof.
    intros A i x l; revert i; induction l as [|z l IH]; intros [|i] y Hy; simpl in *; auto.
    - destruct Hy as [<-|Hy]; auto.
    - destruct Hy as [<-|Hy]; auto. destruct (IH _ _ Hy); auto.
  Qed.

  Lemma all_out_swap : forall i j l, all_out l -> all_out (list_swap i j l).
  Proof.
    intros i j l H. unfold list_swap.
    destruct (nth_error l i) eqn:E1; auto. destruct (nth_error l j) eqn:E2; auto.
    intros x Hx. apply list_upd_in in Hx. destruct Hx as [->|Hx].
    - eapply all_out_nth; eauto.
    - apply list_upd_in in Hx. destruct Hx as [->|Hx]; [eapply all_out_nth; eauto|auto].
  Qed.

  Lemma hoare_maybe_step : forall (b : bool) a n, ~ P a -> node_out n ->
    hoare (if b then store a (ONode n) else ret tt) (fun _ => True).
  Proof. intros [] a n Ha Hn; [apply hoare_store; auto|apply hoare_ret; auto]. Qed.

  Lemma hoare_strict : forall a t st, ~ P a -> hoare (h_strict_forward a t st) opt_out.
  Proof.
    intros a t st Ha. unfold h_strict_forward. hb hoare_load_node. intros n Hn. nodeparts Hn.
    hb hoare_load_list. intros l Hl.
    destruct (nth_error l (n_next n)) as [c|] eqn:E; [|apply hoare_ret, opt_out_none].
    pose proof (all_out_nth _ Hl E) as Hc.
    hb hoare_tag_is. intros [] _; [|apply hoare_ret, opt_out_none].
    eapply hoare_bind; [apply hoare_maybe_step; [auto|done_node]|].
    intros _ _. apply hoare_ret, opt_out_some; auto.
  Qed.

  Lemma hoare_ordered : forall a t st, ~ P a -> hoare (h_ordered_forward a t st) opt_out.
  Proof.
    intros a t st Ha. unfold h_ordered_forward. hb hoare_load_node. intros n Hn. nodeparts Hn.
    hb hoare_load_list. intros l Hl.
    eapply hoare_bind; [apply hoare_find_from, all_out_skipn; auto|].
    intros [[i c]|] Hc; [|apply hoare_ret, opt_out_none].
    eapply hoare_bind; [apply hoare_maybe_step; [auto|done_node]|].
    intros _ _. apply hoare_ret, opt_out_some; auto.
  Qed.

  Lemma hoare_unordered : forall a t st, ~ P a -> hoare (h_unordered_forward a t st) opt_out.
  Proof.
    intros a t st Ha. unfold h_unordered_forward. hb hoare_load_node. intros n Hn. nodeparts Hn.
    hb hoare_load_list. intros l Hl.
    eapply hoare_bind; [apply hoare_find_from, all_out_skipn; auto|].
    intros [[i c]|] Hc; [|apply hoare_ret, opt_out_none].
    eapply hoare_bind; [apply hoare_store; [auto|apply all_out_swap; auto]|]. intros _ _.
    eapply hoare_bind; [apply hoare_maybe_step; [auto|done_node]|].
    intros _ _. apply hoare_ret, opt_out_some; auto.
  Qed.

  Lemma hoare_find_element : forall a t m be st, ~ P a ->
    hoare (h_find_element a t m be st) opt_out.
  Proof.
    intros a t m be st Ha. unfold h_find_element.
    assert (HF : hoare (h_forward m a t st) opt_out).
    { destruct m; simpl; [apply hoare_strict|apply hoare_ordered|apply hoare_unordered]; auto. }
    destruct be; auto.
    eapply hoare_bind; [apply hoare_look_behind; auto|].
    intros [c|] Hc; auto. apply hoare_ret; auto.
  Qed.

  Lemma hoare_extract : forall c, ~ P c -> hoare (h_extract c) (fun r => ~ P r).
  Proof.
    intros c Hc'. unfold h_extract.
    hb hoare_load_node. intros n Hn. nodeparts Hn.
    hb hoare_pop_text. intros te _.
    hb hoare_pop_tail. intros ta _.
    hb hoare_pop_attributes. intros ar Har.
    hb hoare_load_odict. intros d _.
    hb hoare_pop_elements. intros es Hes.
    apply hoare_new; auto.
  Qed.

  Lemma hoare_pop_element : forall a t m rm, ~ P a -> hoare (h_pop_element a t m rm) opt_out.
  Proof.
    intros a t m rm Ha. unfold h_pop_element.
    eapply hoare_bind; [apply hoare_find_element; auto|].
    intros [c|] Hc; [|apply hoare_ret, opt_out_none].
    pose proof (opt_out_some_inv Hc) as Hc'.
    destruct rm; [|apply hoare_ret; auto].
    hb hoare_extract. intros r Hr. apply hoare_ret, opt_out_some; auto.
  Qed.

  Lemma hoare_find_sub : forall path a m, ~ P a -> hoare (h_find_sub_element a path m) all_out.
  Proof.
    induction path as [|t path IH]; intros a m Ha; cbn [h_find_sub_element]; [apply hoare_raise|].
    eapply hoare_bind; [apply hoare_find_element; auto|].
    intros [c|] Hc; [|apply hoare_ret, all_out_nil].
    pose proof (opt_out_some_inv Hc) as Hc'.
    destruct path as [|t' path].
    - apply hoare_ret; auto.
    - eapply hoare_bind; [apply IH; auto|]. intros cs Hcs. apply hoare_ret.
      intros x [<-|Hx]; auto.
  Qed.

  Lemma hoare_make_element : forall b t ns, opt_out ns -> hoare (h_make_element b t ns) (fun r => ~ P r).
  Proof.
    intros b t ns H. apply hoare_new; [apply all_out_nil|]. destruct b; auto. apply opt_out_none.
  Qed.

  Lemma hoare_find_or_create : forall b a t m ns, ~ P a -> opt_out ns ->
    hoare (h_find_element_or_create b a t m ns) (fun r => ~ P r).
  Proof.
    intros b a t m ns Ha Hn. unfold h_find_element_or_create.
    eapply hoare_bind; [apply hoare_find_element; auto|].
    intros [c|] Hc; [apply hoare_ret; apply opt_out_some_inv; auto|].
    hb hoare_make_element. intros e He.
    eapply hoare_bind; [apply hoare_append; auto|]. intros _ _. apply hoare_ret; auto.
  Qed.

  Lemma hoare_var : forall vs i, all_out vs -> hoare (var vs i) (fun r => ~ P r).
  Proof.
    intros vs i H. unfold var. destruct (nth_error vs i) eqn:E; [|apply hoare_raise].
    apply hoare_ret. eapply all_out_nth; eauto.
  Qed.

  Lemma hoare_ovar : forall vs o, all_out vs -> hoare (ovar vs o) opt_out.
  Proof.
    intros vs [i|] H; simpl; [|apply hoare_ret, opt_out_none].
    eapply hoare_bind; [apply hoare_var; auto|]. intros r Hr. apply hoare_ret, opt_out_some; auto.
  Qed.

  Lemma hoare_nothing : forall A (m : hp A) G, hoare m G -> hoare (nothing m) all_out.
  Proof. intros A m G H. eapply hoare_bind; [exact H|]. intros x _. apply hoare_ret, all_out_nil. Qed.

  Lemma hoare_one : forall (m : hp ref), hoare m (fun r => ~ P r) -> hoare (one m) all_out.
  Proof.
    intros m H. eapply hoare_bind; [exact H|]. intros x Hx. apply hoare_ret.
    intros y [<-|[]]; auto.
  Qed.

  Lemma hoare_maybe : forall (m : hp (option ref)), hoare m opt_out -> hoare (maybe m) all_out.
  Proof. intros m H. eapply hoare_bind; [exact H|]. intros x Hx. apply hoare_ret. exact Hx. Qed.

  Ltac v vs := eapply hoare_bind; [apply hoare_var; auto; fail|]; cbv beta.

  Lemma hoare_exec : forall vs c, all_out vs -> hoare (exec vs c) all_out.
  Proof.
    intros vs c H. destruct c; simpl;
      try (v vs; intros a Ha).
    - apply hoare_one, hoare_snapshot; auto.
    - v vs; intros b Hb. eapply hoare_nothing, hoare_apply; auto.
    - eapply hoare_nothing, hoare_step; auto.
    - eapply hoare_nothing, hoare_is_empty; auto.
    - eapply hoare_nothing, hoare_set_text; auto.
    - eapply hoare_nothing, hoare_set_attribute; auto.
    - eapply hoare_nothing, hoare_set_attributes; auto.
    - v vs; intros b Hb. eapply hoare_nothing, hoare_append; auto.
    - eapply hoare_nothing, hoare_get_attrib; auto.
    - eapply hoare_nothing, hoare_pop_text; auto.
    - eapply hoare_nothing, hoare_pop_tail; auto.
    - eapply hoare_nothing, hoare_pop_attrib; auto.
    - apply hoare_maybe, hoare_pop_attributes; auto.
    - apply hoare_pop_elements; auto.
    - apply hoare_maybe, hoare_pop_element; auto.
    - apply hoare_maybe, hoare_find_element; auto.
    - apply hoare_find_sub; auto.
    - eapply hoare_bind; [apply hoare_ovar; auto|]. intros o Ho.
      apply hoare_one, hoare_find_or_create; auto.
    - eapply hoare_bind; [apply hoare_ovar; auto|]. intros o Ho.
      apply hoare_one, hoare_make_element; auto.
    - hb hoare_load_node. intros n Hn. nodeparts Hn. apply hoare_ret; auto.
    - apply hoare_one, hoare_alloc, outside_dict.
    - hb hoare_load_dict. intros x _. eapply hoare_nothing, hoare_store; auto. apply outside_dict.
    - hb hoare_load_dict. intros x _. eapply hoare_nothing, hoare_store; auto. apply outside_dict.
  Qed.

  (** the frame theorem *)
  Lemma run_frame : forall p vs h vs' h', inv h -> all_out vs -> run p vs h = (vs', h') ->
    inv h' /\ keeps h h' /\ all_out vs'.
  Proof.
    induction p as [|c p IH]; intros vs h vs' h' I H E; simpl in E.
    - inversion E; subst. split; [auto|]. split; [apply keeps_refl|auto].
    - destruct (hoare_exec c H I) as [I1 [K1 G1]].
      destruct (exec vs c h) as [[rs|] h1]; simpl in *.
      + apply IH in E; auto.
        * destruct E as [I2 [K2 O2]]. split; [auto|]. split; [eapply keeps_trans; eauto|auto].
        * intros x Hx. apply in_app_or in Hx. destruct Hx as [Hx|Hx]; auto. eapply G1; eauto.
      + apply IH in E; auto.
        destruct E as [I2 [K2 O2]]. split; [auto|]. split; [eapply keeps_trans; eauto|auto].
  Qed.
End Frame.
