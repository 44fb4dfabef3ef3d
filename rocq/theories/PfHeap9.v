(** PfHeap9.v -- reading over the heap agrees with reading on trees: raw elements, the extra check,
    models and [from_native]. *)

From Verif Require Import Base Elem Native Errs Names Ser Read Api Heap SpecHeap HeapRead HeapRead2 SpecHeap2.
From Verif Require Import PfElem PfHeap PfHeap2 PfHeap3 PfHeap4 PfHeap5 PfHeap6 PfHeap7 PfHeap8.

(** ---- raw elements ---- *)
Lemma map_opt_map : forall A B (f : A -> option B) l, map_opt (fun x => x) (map f l) = map_opt f l.
Proof. intros A B f l; induction l as [|x l IH]; simpl; [reflexivity|]. destruct (f x); [|reflexivity]. rewrite IH. reflexivity. Qed.

(** a comprehension over the children that only looks *)
Lemma h_map_children : forall B (m : ref -> hp B) (f : elem -> B) h rs es Fs Ns, owns_all h rs es Fs Ns ->
  (forall c ec Fc Nc, In ec es -> owns h c ec Fc Nc -> m c h = (Some (f ec), h)) ->
  h_map m rs h = (Some (map f es), h).
Proof.
  intros B m f h rs es Fs Ns H; induction H as [|a e F N rs es Fs Ns O1 O2 IH]; intros K; simpl; [reflexivity|].
  unfold bind. rewrite (K _ e F N) by (simpl; auto). rewrite IH; [reflexivity|].
  intros c ec Fc Nc Hi. apply K. simpl; auto.
Qed.

Lemma depth_child : forall c es k, In c es -> list_max (map tree_depth es) <= k -> tree_depth c <= k.
Proof.
  intros c es k Hi L. assert (K : forall x, In x (map tree_depth es) -> x <= k).
  { apply Forall_forall. apply list_max_le. exact L. }
  apply K. apply in_map. exact Hi.
Qed.

Lemma to_native_at : forall b e fuel h a F N, owns h a e F N -> tree_depth e <= fuel ->
  h_to_native fuel b a h = (Some (to_native b e), h).
Proof.
  intros b e; induction e as [tag ns text tail attrs es next line HF] using elem_ind'.
  intros fuel h a F N O D. destruct fuel as [|fuel]; [simpl in D; lia|]. simpl in D.
  inversion O as [a' tag' nsr ns' text' tail' ar attrs' lr rs es' next' line' Fs Ns Ha Hns Hat Hl Hall]; subst.
  cbn [h_to_native]. unfold bind at 1. rewrite (load_node_at _ _ Ha). cbn [n_attrib n_nsmap n_tag n_elems n_text n_tail].
  unfold bind at 1. rewrite (@load_odict_at _ _ _ Hat). unfold bind at 1. rewrite (@load_odict_at _ _ _ Hns).
  destruct tag as [t|]; [|destruct b; reflexivity].
  unfold bind at 1. rewrite (load_list_at _ _ Hl). unfold bind.
  rewrite (@h_map_children _ (h_to_native fuel b) (to_native b) h rs es Fs Ns Hall).
  - rewrite map_opt_map. reflexivity.
  - intros c ec Fc Nc Hi Oc. rewrite Forall_forall in HF. eapply HF; eauto. eapply depth_child; eauto. lia.
Qed.

Lemma read_raw_as : forall b name mode computed,
  reads_as (h_read_raw b name mode computed) (read_raw b name mode computed).
Proof.
  intros b name mode computed. apply reads_as_agrees. intros eas loc. unfold h_read_raw, read_raw.
  apply agrees_if; [apply agrees_ret|].
  set (after := fun c' : ref => _ <~ h_note_line loc c' ;;
                 o <~ lift_walk (fun h => h_to_native (length h) b c' h) ;;
                 match o with Some n => mret (VRaw n) | None => mraise XTypeError end).
  eapply agrees_ext.
  - apply agrees_found with (search_h := fun a => h_pop_element a name mode false)
      (search_f := fun e => pop_element e name mode)
      (m := fun c => r <~ lift (h_extract c) ;; after r)
      (f := fun c =>
         let (fresh, c') := extract (st_el c) in
         (match to_native b fresh with Some n => Ok (VRaw n) | None => Raise XTypeError end,
          St c' (sset loc (e_line (st_el c)) (st_sm c)))); [apply pop_element_search|].
    intros h c ec Fc Nc sm T.
    destruct (extract_ok T) as [r [h1 [F1 [N1 [Fr [Nr [E [T1 [Tr [C1 [FN1 [IN1 _]]]]]]]]]]]].
    exists h1, F1, N1. unfold mbind at 1. unfold lift at 1. rewrite E. unfold after, mbind, h_note_line, mbind, lift, lift_walk.
    rewrite (sourceline_at Tr). pose proof Tr as [Or _]. rewrite (to_native_at b Or (tree_depth_le Tr)).
    cbn [st_el st_sm]. destruct (extract ec) as [fresh ec'] eqn:Ex. cbn [fst snd] in *.
    assert (El : e_line fresh = e_line ec) by (unfold extract in Ex; inversion Ex; reflexivity).
    rewrite El. split; [destruct (to_native b fresh); reflexivity|]. split; [exact T1|]. split; [exact C1|].
    split; [exact FN1|]. apply from_or_new_incl. auto with datatypes.
  - intros a sm h. unfold h_pop_element, mbind, lift, lift_walk, bind.
    destruct (h_find_element a name mode false true h) as [[[c|]|] h']; try reflexivity.
    unfold ret. destruct (h_extract c h') as [[r|] h'']; reflexivity.
  - reflexivity.
Qed.

(** ---- the extra check ---- *)
Definition tag_at (h : heap) (r : ref) (t : xtag) : Prop := exists n, nth_error h r = Some (ONode n) /\ n_tag n = t.

Definition line_at (h : heap) (r : ref) (l : Z) : Prop := exists n, nth_error h r = Some (ONode n) /\ n_line n = l.

(** an entry over references stands for an entry over tags *)
Definition stands (h : heap) (root : ref) (u : list ref * option string * string) (v : unbound) : Prop :=
  let '(path, attr, value) := u in
  Forall2 (tag_at h) path (u_path v) /\ attr = u_attr v /\ value = u_value v /\ line_at h (last path root) (u_line v).

Lemma h_map_Forall2 : forall B C (m : ref -> hp B) (R : B -> C -> Prop) (f : elem -> C) h rs es Fs Ns,
  owns_all h rs es Fs Ns ->
  (forall c ec Fc Nc, In ec es -> owns h c ec Fc Nc -> exists y, m c h = (Some y, h) /\ R y (f ec)) ->
  exists ys, h_map m rs h = (Some ys, h) /\ Forall2 R ys (map f es).
Proof.
  intros B C m R f h rs es Fs Ns H; induction H as [|a e F N rs es Fs Ns O1 O2 IH]; intros K; simpl.
  - exists []. split; [reflexivity|constructor].
  - destruct (K a e F N) as [y [Ey Ry]]; [simpl; auto|auto|].
    destruct IH as [ys [Eys Rys]]. { intros c ec Fc Nc Hi. apply K. simpl; auto. }
    exists (y :: ys). unfold bind. rewrite Ey, Eys. split; [reflexivity|constructor; auto].
Qed.

Lemma Forall2_concat : forall A B (R : A -> B -> Prop) ls ms, Forall2 (Forall2 R) ls ms -> Forall2 R (concat ls) (concat ms).
Proof. intros A B R ls ms H; induction H; simpl; [constructor|]. apply Forall2_app; auto. Qed.

Lemma last_snoc : forall A (l : list A) x d, last (l ++ [x]) d = x.
Proof. intros A l x d; induction l as [|y l IH]; [reflexivity|]. simpl. destruct (l ++ [x]) eqn:E; [destruct l; discriminate|auto]. Qed.

Lemma get_unbound_at : forall root e fuel h a F N path tags, owns h a e F N -> tree_depth e <= fuel ->
  Forall2 (tag_at h) path tags -> last path root = a ->
  exists us, h_get_unbound fuel path a h = (Some us, h) /\ Forall2 (stands h root) us (get_unbound tags e).
Proof.
  intros root e; induction e as [tag ns text tail attrs es next line HF] using elem_ind'.
  intros fuel h a F N path tags O D HP EL. destruct fuel as [|fuel]; [simpl in D; lia|]. simpl in D.
  inversion O as [a' tag' nsr ns' text' tail' ar attrs' lr rs es' next' line' Fs Ns Ha Hns Hat Hl Hall]; subst.
  set (a := last path root) in *.
  destruct (@h_map_Forall2 _ _ (fun c => h_get_unbound fuel (path ++ [c]) c) (Forall2 (stands h root))
              (fun c => get_unbound (tags ++ [e_tag c]) c) h rs es Fs Ns Hall) as [ys [Ey Ry]].
  { intros c ec Fc Nc Hi Oc. rewrite Forall_forall in HF. eapply HF; eauto.
    - eapply depth_child; eauto. lia.
    - apply Forall2_app; [exact HP|]. constructor; [|constructor]. inversion Oc; subst. eexists; split; [eassumption|reflexivity].
    - apply last_snoc. }
  assert (La : line_at h (last path root) line) by (eexists; split; [exact Ha|reflexivity]).
  cbn [h_get_unbound]. unfold bind at 1. rewrite (load_node_at _ _ Ha). cbn [n_attrib n_elems n_text n_tail].
  unfold bind at 1. rewrite (@load_odict_at _ _ _ Hat). unfold bind at 1. rewrite (load_list_at _ _ Hl).
  unfold bind. rewrite Ey. eexists. split; [reflexivity|]. cbn [get_unbound].
  assert (One : forall o : option string, Forall2 (stands h root) (map (fun t => (path, None, t)) (opt_list o))
                    (map (fun t => Unbound tags None t line) (opt_list o))).
  { intros [t|]; simpl; constructor; [|constructor]. repeat split; auto. }
  apply Forall2_app; [apply One|]. apply Forall2_app; [apply One|]. apply Forall2_app.
  - destruct attrs as [d|]; [|constructor]. induction d as [|kv d IH]; simpl; constructor; [|].
    + repeat split; auto.
    + clear - HP La. induction d as [|kv' d IH]; simpl; constructor; auto. repeat split; auto.
  - rewrite flat_map_concat_map. apply Forall2_concat. exact Ry.
Qed.

Lemma load_tags : forall h path tags, Forall2 (tag_at h) path tags ->
  exists ns, h_map load_node path h = (Some ns, h) /\ map n_tag ns = tags.
Proof.
  intros h path tags H; induction H as [|r t path tags [n [E1 E2]] H [ns [E3 E4]]]; simpl.
  - exists []. auto.
  - exists (n :: ns). unfold bind. rewrite (load_node_at _ _ E1), E3. simpl. split; [reflexivity|congruence].
Qed.

Lemma extra_errors_at : forall h root us vs, Forall2 (stands h root) us vs ->
  h_map (h_extra_error root) us h = (Some (map extra_error vs), h).
Proof.
  intros h root us vs H; induction H as [|u v us vs H1 H IH]; [reflexivity|]. simpl.
  assert (E : h_extra_error root u h = (Some (extra_error v), h)).
  { destruct u as [[path attr] value]. destruct H1 as [HP [-> [-> [n [E1 E2]]]]].
    destruct (load_tags HP) as [ns [E3 E4]]. unfold h_extra_error, h_get_sourceline, bind.
    rewrite (load_node_at _ _ E1). unfold ret. rewrite E3, E4, E2. destruct v; reflexivity. }
  unfold bind. rewrite E, IH. reflexivity.
Qed.

Lemma check_extra_at : forall title hide h a e F N, tree h a e F N ->
  h_check_extra title a hide h = (Some (check_extra title e hide), h).
Proof.
  intros title hide h a e F N T. pose proof T as [O _].
  destruct (@get_unbound_at a e (length h) h a F N [] [] O (tree_depth_le T)) as [us [E R]]; [constructor|reflexivity|].
  unfold h_check_extra, bind. rewrite E, (extra_errors_at R). unfold check_extra.
  destruct (get_unbound [] e); reflexivity.
Qed.

Lemma validate_as : forall m input,
  agrees (h_validate_result m input) (fun s => (validate_result m input s, s)).
Proof.
  intros m input h a e F N sm T. exists h, F, N.
  assert (E : h_validate_result m input a sm h = (validate_result m input (St e sm), sm, h)).
  { unfold h_validate_result, mbind, validate_result. cbn [st_el st_sm].
    destruct (md_forbid m).
    - unfold lift_walk. rewrite (check_extra_at _ _ T). destruct (check_extra (md_name m) e (md_hide m)); [reflexivity|].
      destruct (md_validate m input); reflexivity.
    - cbn [mret]. unfold mret. destruct (md_validate m input); reflexivity. }
  rewrite E. split; [reflexivity|]. split; [exact T|]. split; [apply only_changes_refl|].
  split; apply from_or_new_incl; auto with datatypes.
Qed.

(** ---- models ---- *)
Definition custom_ok (o : option (ref -> heap -> out val * heap)) (o' : option (elem -> out val * elem)) : Prop :=
  match o, o' with
  | Some hf, Some f => custom_as hf f
  | None, None => True
  | _, _ => False
  end.

Lemma run_custom_as : forall hf f, custom_as hf f -> agrees (h_run_custom hf) (run_custom f).
Proof.
  intros hf f H h a e F N sm T. destruct (H h a e F N T) as [h' [F' [N' [E R]]]].
  exists h', F', N'. unfold h_run_custom, run_custom. rewrite E. cbn [st_el]. destruct (f e) as [o e']. cbn [fst snd] in *.
  split; [reflexivity|exact R].
Qed.

Lemma read_fields_as : forall hr r hc m eas, (forall s, reads_as (hr s) (r s)) ->
  (forall name, custom_ok (hc name) (md_cval m name)) -> forall fs result errors,
  agrees (h_read_fields hr hc m fs eas result errors) (read_fields r m fs eas result errors).
Proof.
  intros hr r hc m eas H HC fs; induction fs as [|[name fser] fs IH]; intros result errors; [apply agrees_ret|].
  eapply agrees_ext.
  - apply agrees_noted with (loc := [LKey name])
      (m := fun self =>
        x <~ mtry (match hc name with
                 | Some custom => h_run_custom custom self
                 | None => hr fser eas [LKey name] self
                 end) ;;
        match x with
        | inl VNone => h_read_fields hr hc m fs eas result errors self
        | inl v =>
          let key := match dget name (md_valias m) with Some a => a | None => name end in
          h_read_fields hr hc m fs eas (dset key v result) errors self
        | inr err => h_read_fields hr hc m fs eas result (dset name err errors) self
        end)
      (f := fbind (ftry (match md_cval m name with
                         | Some custom => run_custom custom
                         | None => r fser eas [LKey name]
                         end))
        (fun x s => match x with
        | inl VNone => read_fields r m fs eas result errors s
        | inl v =>
          let key := match dget name (md_valias m) with Some a => a | None => name end in
          read_fields r m fs eas (dset key v result) errors s
        | inr err => read_fields r m fs eas result (dset name err errors) s
        end)).
    apply agrees_bind.
    + apply agrees_try. specialize (HC name). unfold custom_ok in HC.
      destruct (hc name), (md_cval m name); try contradiction; [apply run_custom_as; auto|apply agrees_reads; auto].
    + intros [[]|err]; apply IH.
  - reflexivity.
  - intros s. cbn [read_fields]. unfold fbind, ftry.
    destruct (md_cval m name).
    + destruct (run_custom p (note_line [LKey name] s)) as [[v|x|] s']; [destruct v; reflexivity|destruct x; reflexivity|reflexivity].
    + destruct (r fser eas [LKey name] (note_line [LKey name] s)) as [[v|x|] s'];
        [destruct v; reflexivity|destruct x; reflexivity|reflexivity].
Qed.

Lemma read_model_as : forall hr r hc m, (forall s, reads_as (hr s) (r s)) ->
  (forall name, custom_ok (hc name) (md_cval m name)) -> reads_as (h_read_model hr hc m) (read_model r m).
Proof.
  intros hr r hc m H HC. unfold h_read_model, read_model. apply reads_as_agrees. intros eas loc.
  destruct (md_root m).
  - unfold h_read_root_model, read_root_model. destruct (md_fields m) as [|[fname rser] fs]; [apply agrees_raise|].
    eapply agrees_ext.
    + apply agrees_bind with (m := fun self => mtry (hr rser eas loc self)) (f := ftry (r rser eas loc))
        (k := fun x self => match x with
          | inl v => h_validate_result m (if is_none v then None else Some v) self
          | inr err => mraise (XValidation (into_validation_error (md_name m) [(None, err)] (md_hide m)))
          end)
        (g := fun x s => match x with
          | inl v => (validate_result m (if is_none v then None else Some v) s, s)
          | inr err => (Raise (XValidation (into_validation_error (md_name m) [(None, err)] (md_hide m))), s)
          end).
      * apply agrees_try. apply agrees_reads. apply H.
      * intros [v|err]; [apply validate_as|apply agrees_raise].
    + reflexivity.
    + intros s. unfold fbind, ftry. destruct (r rser eas loc s) as [[v|x|] s']; [reflexivity|destruct x; reflexivity|reflexivity].
  - unfold h_read_plain_model, read_plain_model. eapply agrees_ext.
    + apply agrees_bind with (m := h_read_fields hr hc m (md_fields m) eas [] [])
        (f := read_fields r m (md_fields m) eas [] [])
        (k := fun x self => match snd x with
          | _ :: _ =>
              mraise (XValidation (into_validation_error (md_name m)
                (map (fun kv => (Some (LKey (fst kv)), snd kv)) (snd x)) (md_hide m)))
          | [] => h_validate_result m (Some (VDict (fst x))) self
          end)
        (g := fun x s => match snd x with
          | _ :: _ =>
              (Raise (XValidation (into_validation_error (md_name m)
                (map (fun kv => (Some (LKey (fst kv)), snd kv)) (snd x)) (md_hide m))), s)
          | [] => (validate_result m (Some (VDict (fst x))) s, s)
          end).
      * apply read_fields_as; auto.
      * intros [result errors]. cbn [fst snd]. destruct errors; [apply validate_as|apply agrees_raise].
    + reflexivity.
    + intros s. unfold fbind. destruct (read_fields r m (md_fields m) eas [] [] s) as [[[result errors]|x|] s'];
        [destruct errors|destruct x|]; reflexivity.
Qed.

Lemma read_proxy_as : forall ev hc hr r p, customs_as hc ev -> (forall s, reads_as (hr s) (r s)) ->
  reads_as (h_read_proxy ev hc hr p) (read_proxy ev r p).
Proof.
  intros ev hc hr r p HC H. apply reads_as_agrees. intros eas loc. unfold h_read_proxy, read_proxy.
  destruct (en_model ev (px_model p)) as [m|] eqn:EM; [|apply agrees_raise].
  apply agrees_if; [apply agrees_ret|].
  apply agrees_found with (search_h := fun a => h_pop_element a (px_name p) (px_mode p) false)
    (search_f := fun e => pop_element e (px_name p) (px_mode p))
    (m := fun c' => _ <~ h_note_line loc c' ;; nil <~ lift (h_is_element_nill c') ;;
            if nil then mret VNone else h_read_model hr (hc (px_model p)) m eas loc c'); [apply pop_element_search|].
  apply agrees_noted with (m := fun c' => nil <~ lift (h_is_element_nill c') ;;
            if nil then mret VNone else h_read_model hr (hc (px_model p)) m eas loc c')
    (f := fun c1 => let (nil, e1) := is_element_nill (st_el c1) in
             if nil then (Ok VNone, set_el e1 c1) else read_model r m eas loc (set_el e1 c1)).
  eapply agrees_ext.
  - apply agrees_bind with (m := fun c' => lift (h_is_element_nill c')) (f := flift is_element_nill)
      (k := fun (nil : bool) c' => if nil then mret VNone else h_read_model hr (hc (px_model p)) m eas loc c')
      (g := fun (nil : bool) s => if nil then (Ok VNone, s) else read_model r m eas loc s).
    + apply agrees_lift. apply is_element_nill_impl.
    + intros nil. apply agrees_if; [apply agrees_ret|]. apply agrees_reads. apply read_model_as; auto.
      intros name. exact (HC _ _ name EM).
  - reflexivity.
  - intros [e sm]. unfold fbind, flift. cbn [st_el]. destruct (is_element_nill e) as [nil e1]. reflexivity.
Qed.

Lemma Forall2_map_same : forall A B C (R : B -> C -> Prop) (f : A -> B) (g : A -> C) l,
  (forall x, R (f x) (g x)) -> Forall2 R (map f l) (map g l).
Proof. intros A B C R f g l H; induction l; simpl; constructor; auto. Qed.

Lemma read_as : forall ev hc, customs_as hc ev -> forall n s, reads_as (h_read n ev hc s) (read n ev s).
Proof.
  intros ev hc HC n; induction n as [|n IH]; intros s.
  - apply reads_as_agrees. intros eas loc. apply agrees_fuel.
  - cbn [h_read read]. assert (HP : forall p, reads_as (h_read_proxy ev hc (h_read n ev hc) p) (read_proxy ev (read n ev) p)).
    { intros p. apply read_proxy_as; auto. }
    destruct s; cbn [h_read_step read_step].
    + apply read_text_as.
    + apply read_attr_as.
    + apply read_elem_as.
    + apply read_attrs_as.
    + apply read_map_elem_as.
    + apply read_homo_as. auto.
    + apply read_hetero_as. apply Forall2_map_same. auto.
    + apply read_union_prim_as. auto.
    + apply read_union_model_as. apply Forall2_map_same. auto.
    + apply reads_as_agrees. intros eas loc. apply agrees_if; [apply agrees_ret|]. apply read_tagged_as. auto.
    + apply read_wrap_as. auto.
    + apply read_raw_as.
    + auto.
Qed.

(** ---- [from_native] ---- *)
Definition built (h h' : heap) (a : ref) (e : elem) : Prop :=
  only_changes [] h h' /\ exists F, tree h' a e F [] /\ (forall x, In x F -> length h <= x).

Definition built_all (h h' : heap) (rs : list ref) (es : list elem) : Prop :=
  only_changes [] h h' /\ exists Fs Ns, owns_all h' rs es Fs Ns /\ NoDup (concat Fs) /\ concat Ns = [] /\
    (forall x, In x (concat Fs) -> length h <= x).

Lemma only_changes_nil : forall h h' x, only_changes [] h h' -> x < length h -> nth_error h' x = nth_error h x.
Proof. intros h h' x [_ C] L. apply C; auto. Qed.

Lemma new_built : forall tag text tail d es rs line h h1, built_all h h1 rs es ->
  exists a h2, h_new tag text tail (Some d) rs None line h1 = (Some a, h2) /\
    built h h2 a (new_elem tag text tail (Some d) es None line).
Proof.
  intros tag text tail d es rs line h h1 [C1 [Fs [Ns [O [ND [EN A]]]]]]. pose proof C1 as [L1 _].
  set (ar := length h1). set (h2 := h1 ++ [ODict d]). set (lr := length h2). set (h3 := h2 ++ [OList rs]).
  set (nd := Node tag None text tail (Some ar) lr 0 line). set (h4 := h3 ++ [ONode nd]).
  assert (L2 : length h2 = S (length h1)) by (unfold h2; rewrite app_length; simpl; lia).
  assert (L3 : length h3 = S (length h2)) by (unfold h3; rewrite app_length; simpl; lia).
  assert (L4 : length h4 = S (length h3)) by (unfold h4; rewrite app_length; simpl; lia).
  assert (K : forall x, x < length h1 -> nth_error h4 x = nth_error h1 x).
  { intros x Hx. unfold h4. rewrite nth_error_app1 by lia. unfold h3. rewrite nth_error_app1 by lia.
    unfold h2. apply nth_error_app1; auto. }
  exists (length h3), h4. split.
  { unfold h_new, bind, alloc_odict, bind, alloc, ret. reflexivity. }
  assert (LA : forall x, In x (concat Fs) -> x < length h1).
  { intros x Hx. eapply owns_all_lt; [exact O|left; exact Hx]. }
  split.
  - split; [lia|]. intros x Hx _. rewrite K by lia. apply (only_changes_nil C1 Hx).
  - exists (length h3 :: opt_list (Some ar) ++ lr :: concat Fs). split.
    + split; [|split].
      * assert (O4 : owns h4 (length h3) (Elem tag None text tail (Some d) es 0 line)
                  (length h3 :: opt_list (Some ar) ++ lr :: concat Fs) (opt_list None ++ concat Ns)).
        { econstructor.
          - unfold h4. rewrite nth_error_app2, Nat.sub_diag by lia. reflexivity.
          - exact I.
          - simpl. unfold h4. rewrite nth_error_app1 by (unfold ar; lia). unfold h3. rewrite nth_error_app1 by (unfold ar; lia).
            unfold h2, ar. rewrite nth_error_app2, Nat.sub_diag by lia. reflexivity.
          - unfold h4. rewrite nth_error_app1 by (unfold lr; lia). unfold h3, lr.
            rewrite nth_error_app2, Nat.sub_diag by lia. reflexivity.
          - eapply owns_all_frame; [exact O|]. intros x Hx. apply K. eapply owns_all_lt; eauto. }
        rewrite EN in O4. exact O4.
      * simpl. constructor.
        { intros [H|[H|H]]; [unfold ar in H; lia|unfold lr in H; lia|]. specialize (LA _ H). lia. }
        constructor.
        { intros [H|H]; [unfold lr, ar in H; lia|]. specialize (LA _ H). unfold ar in LA. lia. }
        constructor; [|exact ND]. intros H. specialize (LA _ H). unfold lr in LA. lia.
      * intros x _ [].
    + intros x [<-|[<-|[<-|H]]]; [lia|unfold ar; lia|unfold lr; lia|auto].
Qed.

Lemma built_all_nil : forall h, built_all h h [] [].
Proof.
  intros h. split; [apply only_changes_refl|]. exists [], []. split; [constructor|]. split; [constructor|].
  split; [reflexivity|]. intros x [].
Qed.

Lemma built_all_cons : forall h h1 h2 a e rs es, built h h1 a e -> built_all h1 h2 rs es ->
  built_all h h2 (a :: rs) (e :: es).
Proof.
  intros h h1 h2 a e rs es [C1 [F [T A]]] [C2 [Fs [Ns [O [ND [EN A2]]]]]]. pose proof C1 as [L1 _]. pose proof T as [Oa [NDa _]].
  pose proof C2 as [L2 _].
  split.
  - split; [lia|]. intros x Hx _. rewrite (only_changes_nil C2) by lia. apply (only_changes_nil C1 Hx).
  - exists (F :: Fs), ([] :: Ns). split.
    + constructor; [|exact O]. eapply owns_frame; [exact Oa|]. intros x Hx. apply (only_changes_nil C2).
      eapply owns_lt; eauto.
    + split; [|split].
      * simpl. apply NoDup_app_intro; auto. intros x Hx Hx'. specialize (A2 _ Hx').
        assert (x < length h1) by (eapply owns_lt; [exact Oa|auto]). lia.
      * simpl. exact EN.
      * simpl. intros x Hx. apply in_app_or in Hx. destruct Hx as [Hx|Hx]; [auto|]. specialize (A2 _ Hx). lia.
Qed.

Lemma from_native_built : forall b n h, exists a h', h_from_native b n h = (Some a, h') /\ built h h' a (from_native b n).
Proof.
  intros b n; induction n as [tag ns text tail attrib children line HF|text tail|text tail attrib] using native_ind'; intros h.
  - cbn [h_from_native from_native]. unfold bind at 1.
    set (each := (fix each (l : list native) : hp (list ref) :=
               match l with
               | [] => ret []
               | c :: l' =>
                   if is_xml_comment c then each l'
                   else r <- h_from_native b c ;; rs <- each l' ;; ret (r :: rs)
               end)).
    assert (K : exists rs h1, each children h = (Some rs, h1) /\
        built_all h h1 rs (flat_map (fun c => if is_xml_comment c then [] else [from_native b c]) children)).
    { revert h. induction HF as [|c children Hc HF IH]; intros h.
      - exists [], h. split; [reflexivity|apply built_all_nil].
      - assert (Ec : each (c :: children) = if is_xml_comment c then each children
                     else r <- h_from_native b c ;; rs <- each children ;; ret (r :: rs)) by reflexivity.
        rewrite Ec. cbn [flat_map]. destruct (is_xml_comment c); [apply IH|].
        destruct (Hc h) as [a [h1 [E1 B1]]]. destruct (IH h1) as [rs [h2 [E2 B2]]].
        exists (a :: rs), h2. unfold bind. rewrite E1, E2. split; [reflexivity|].
        simpl. eapply built_all_cons; eauto. }
    destruct K as [rs [h1 [E B]]]. rewrite E.
    exact (new_built (TName tag) text tail attrib (native_line b line) B).
  - exact (new_built TSpecial text tail [] (-1) (built_all_nil h)).
  - exact (new_built TSpecial text tail attrib (native_line b line) (built_all_nil h)).
Qed.

Lemma from_xml_tree_as : forall n ev hc cls root eas h, customs_as hc ev ->
  exists h', h_from_xml_tree n ev hc cls root eas h = (from_xml_tree n ev cls root eas, h') /\ only_changes [] h h'.
Proof.
  intros n ev hc cls root eas h HC. unfold h_from_xml_tree, from_xml_tree.
  destruct (en_model ev cls) as [m|] eqn:EM; [|exists h; split; [reflexivity|apply only_changes_refl]].
  destruct (tag_is (native_tag root) (md_elem_name m)); [|exists h; split; [reflexivity|apply only_changes_refl]].
  destruct (from_native_built (en_backend ev) root h) as [a [h1 [E1 [C1 [F [T A]]]]]]. rewrite E1.
  assert (HM : reads_as (h_read_model (h_read n ev hc) (hc cls) m) (read_model (read n ev) m)).
  { apply read_model_as; [intros s; apply read_as; auto|]. intros name. exact (HC _ _ name EM). }
  destruct (HM eas [] h1 a _ F [] [] T) as [h2 [F2 [N2 [E2 [_ [[L2 C2] _]]]]]]. rewrite E2.
  exists h2. split; [reflexivity|]. pose proof C1 as [L1 _]. split; [lia|]. intros x Hx _.
  rewrite C2; [apply (only_changes_nil C1 Hx)|lia|]. intros H. specialize (A _ H). lia.
Qed.
