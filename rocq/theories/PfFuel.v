(** PfFuel.v -- more fuel never changes a result: the model's fuel is only a recursion bound. *)

From Verif Require Import Base Elem Native Errs Names Ser Write Read Api.

(** [p1] ran out of fuel, or both agree *)
Definition rle {A B} (p1 p2 : out A * B) : Prop := fst p1 = Fuel \/ p1 = p2.

Definition reader_le (r1 r2 : reader) : Prop := forall eas loc s, rle (r1 eas loc s) (r2 eas loc s).

Lemma rle_refl : forall A B (p : out A * B), rle p p.
Proof. intros; right; auto. Qed.

Lemma rle_trans : forall A B (p q r : out A * B), rle p q -> rle q r -> rle p r.
Proof. intros A B p q r [H| ->] H2; [left; auto|auto]. Qed.

Lemma on_child_le : forall A i (f1 f2 : st -> rres A) s, (forall c, rle (f1 c) (f2 c)) ->
  rle (on_child i f1 s) (on_child i f2 s).
Proof.
  intros A i f1 f2 s H; unfold on_child. destruct (nth_error _ i) as [c|]; [|apply rle_refl].
  destruct (H (St c (st_sm s))) as [F|E].
  - destruct (f1 _) as [o s']; simpl in F; subst o. left; auto.
  - rewrite E. apply rle_refl.
Qed.

Lemma with_found_le : forall p (f1 f2 : st -> rres val) s, (forall c, rle (f1 c) (f2 c)) ->
  rle (with_found p f1 s) (with_found p f2 s).
Proof.
  intros [[|i|] e] f1 f2 s H; simpl; try apply rle_refl. apply on_child_le; auto.
Qed.

Lemma read_items_le : forall r1 r2, reader_le r1 r2 -> forall k1 k2, k1 <= k2 ->
  forall title hide eas loc idx result errors s,
  rle (read_items k1 r1 title hide eas loc idx result errors s)
      (read_items k2 r2 title hide eas loc idx result errors s).
Proof.
  intros r1 r2 Hr k1; induction k1 as [|k1 IH]; intros k2 Hk title hide eas loc idx result errors s.
  - left; auto.
  - destruct k2 as [|k2]; [lia|]. cbn [read_items].
    destruct (Hr eas (loc ++ [LIdx idx]) s) as [F|E].
    + destruct (r1 eas (loc ++ [LIdx idx]) s) as [o s']; simpl in F; subst o. left; auto.
    + rewrite <- E. destruct (r1 eas (loc ++ [LIdx idx]) s) as [[v|x|] s'].
      * destruct v; try apply rle_refl; apply IH; lia.
      * destruct x; try apply rle_refl; apply IH; lia.
      * apply rle_refl.
Qed.

Lemma read_tuple_le : forall rs1 rs2, Forall2 reader_le rs1 rs2 ->
  forall title hide eas loc idx result errors s,
  rle (read_tuple rs1 title hide eas loc idx result errors s)
      (read_tuple rs2 title hide eas loc idx result errors s).
Proof.
  intros rs1 rs2 H; induction H as [|r1 r2 rs1 rs2 Hr Hrs IH]; intros title hide eas loc idx result errors s.
  - apply rle_refl.
  - cbn [read_tuple]. destruct (Hr eas (loc ++ [LIdx idx]) s) as [F|E].
    + destruct (r1 eas (loc ++ [LIdx idx]) s) as [o s']; simpl in F; subst o. left; auto.
    + rewrite <- E. destruct (r1 eas (loc ++ [LIdx idx]) s) as [[v|x|] s'].
      * apply IH.
      * destruct x; try apply rle_refl; apply IH.
      * apply rle_refl.
Qed.

Lemma read_variants_le : forall rs1 rs2, Forall2 reader_le rs1 rs2 ->
  forall title hide eas loc errors s,
  rle (read_variants rs1 title hide eas loc errors s) (read_variants rs2 title hide eas loc errors s).
Proof.
  intros rs1 rs2 H; induction H as [|r1 r2 rs1 rs2 Hr Hrs IH]; intros title hide eas loc errors s.
  - apply rle_refl.
  - cbn [read_variants]. destruct (Hr eas loc (set_el (create_snapshot (st_el s)) s)) as [F|E].
    + destruct (r1 _ _ _) as [o s']; simpl in F; subst o. left; auto.
    + rewrite <- E. destruct (r1 _ _ _) as [[v|x|] s'].
      * destruct v; try apply rle_refl; apply IH.
      * destruct x; try apply rle_refl; apply IH.
      * apply rle_refl.
Qed.

Lemma read_tagged_le : forall rp1 rp2, (forall p, reader_le (rp1 p) (rp2 p)) ->
  forall a mode vs eas loc s,
  rle (read_tagged rp1 a mode vs eas loc s) (read_tagged rp2 a mode vs eas loc s).
Proof.
  intros rp1 rp2 H a mode vs; induction vs as [|[tag p] vs IH]; intros eas loc s; cbn [read_tagged].
  - apply rle_refl.
  - destruct (find_element _ _ _ _ _) as [[|i|] e']; try apply rle_refl; try apply IH.
    destruct (nth_error (e_elems e') i) as [c|]; [|apply rle_refl].
    destruct (match get_attrib a c with Some t => _ | None => _ end); [apply H|apply IH].
Qed.

Lemma on_path_le : forall A path (f1 f2 : st -> rres A) s, (forall c, rle (f1 c) (f2 c)) ->
  rle (on_path path f1 s) (on_path path f2 s).
Proof.
  intros A path f1 f2; induction path as [|i path IH]; intros s H; cbn [on_path]; auto.
  apply on_child_le; auto.
Qed.

Lemma read_wrap_le : forall path mode c r1 r2, reader_le r1 r2 ->
  reader_le (read_wrap path mode c r1) (read_wrap path mode c r2).
Proof.
  intros path mode c r1 r2 H eas loc s; unfold read_wrap. destruct c; [apply rle_refl|].
  destruct (find_sub_element path mode (st_el s)) as [[idxs|] e']; [|apply rle_refl].
  destruct (_ && _); [|apply rle_refl]. apply on_path_le. intros c; apply H.
Qed.

Lemma read_fields_le : forall r1 r2, (forall s, reader_le (r1 s) (r2 s)) ->
  forall m fs eas result errors s,
  rle (read_fields r1 m fs eas result errors s) (read_fields r2 m fs eas result errors s).
Proof.
  intros r1 r2 H m fs; induction fs as [|[name fser] fs IH]; intros eas result errors s.
  - apply rle_refl.
  - cbn [read_fields]. destruct (md_cval m name) as [f|].
    + destruct (run_custom f (note_line [LKey name] s)) as [[v|x|] s']; try apply rle_refl.
      * destruct v; apply IH.
      * destruct x; try apply rle_refl; apply IH.
    + destruct (H fser eas [LKey name] (note_line [LKey name] s)) as [F|E].
      * destruct (r1 _ _ _ _) as [o s']; simpl in F; subst o. left; auto.
      * rewrite <- E. destruct (r1 _ _ _ _) as [[v|x|] s']; try apply rle_refl.
        -- destruct v; apply IH.
        -- destruct x; try apply rle_refl; apply IH.
Qed.

Lemma read_model_le : forall r1 r2, (forall s, reader_le (r1 s) (r2 s)) ->
  forall m, reader_le (read_model r1 m) (read_model r2 m).
Proof.
  intros r1 r2 H m eas loc s; unfold read_model. destruct (md_root m).
  - unfold read_root_model. destruct (md_fields m) as [|[name rser] fs]; [apply rle_refl|].
    destruct (H rser eas loc s) as [F|E].
    + destruct (r1 _ _ _ _) as [o s']; simpl in F; subst o. left; auto.
    + rewrite <- E. apply rle_refl.
  - unfold read_plain_model. destruct (read_fields_le r1 r2 H m (md_fields m) eas [] [] s) as [F|E].
    + destruct (read_fields r1 _ _ _ _ _ _) as [o s']; simpl in F; subst o. left; auto.
    + rewrite <- E. apply rle_refl.
Qed.

Lemma read_proxy_le : forall ev r1 r2, (forall s, reader_le (r1 s) (r2 s)) ->
  forall p, reader_le (read_proxy ev r1 p) (read_proxy ev r2 p).
Proof.
  intros ev r1 r2 H p eas loc s; unfold read_proxy.
  destruct (en_model ev (px_model p)) as [m|]; [|apply rle_refl].
  destruct (px_computed p); [apply rle_refl|]. apply with_found_le. intros c. cbv zeta.
  destruct (is_element_nill _) as [nil e1]. destruct nil; [apply rle_refl|]. apply read_model_le; auto.
Qed.

Lemma Forall2_map_le : forall A (f g : A -> reader) l, (forall x, reader_le (f x) (g x)) ->
  Forall2 reader_le (map f l) (map g l).
Proof. intros A f g l H; induction l; simpl; constructor; auto. Qed.

Lemma read_step_le : forall ev k1 k2 r1 r2, k1 <= k2 -> (forall s, reader_le (r1 s) (r2 s)) ->
  forall s, reader_le (read_step ev k1 r1 s) (read_step ev k2 r2 s).
Proof.
  intros ev k1 k2 r1 r2 Hk H s; destruct s; cbn [read_step]; intros eas loc st0; try apply rle_refl.
  - unfold read_homo. destruct computed; [apply rle_refl|]. apply read_items_le; auto.
  - unfold read_hetero. destruct computed; [apply rle_refl|]. apply read_tuple_le. apply Forall2_map_le; auto.
  - unfold read_union_prim. destruct computed; [apply rle_refl|]. apply H.
  - unfold read_union_model. destruct computed; [apply rle_refl|]. apply read_variants_le.
    apply Forall2_map_le. intros p; apply read_proxy_le; auto.
  - destruct computed; [apply rle_refl|]. apply read_tagged_le. intros p; apply read_proxy_le; auto.
  - apply read_wrap_le; auto.
  - apply read_proxy_le; auto.
Qed.

Lemma read_le : forall ev n1 n2, n1 <= n2 -> forall s, reader_le (read n1 ev s) (read n2 ev s).
Proof.
  intros ev n1; induction n1 as [|n1 IH]; intros n2 Hn s.
  - intros eas loc st0; left; auto.
  - destruct n2 as [|n2]; [lia|]. cbn [read]. apply read_step_le; [lia|]. apply IH; lia.
Qed.

Lemma read_stable : forall ev n1 n2 s eas loc st0, n1 <= n2 ->
  fst (read n1 ev s eas loc st0) <> Fuel -> read n2 ev s eas loc st0 = read n1 ev s eas loc st0.
Proof. intros ev n1 n2 s eas loc st0 Hn HF. destruct (read_le ev Hn s eas loc st0); congruence. Qed.

Lemma from_xml_stable : forall ev n1 n2 cls root eas, n1 <= n2 ->
  from_xml_tree n1 ev cls root eas <> Fuel ->
  from_xml_tree n2 ev cls root eas = from_xml_tree n1 ev cls root eas.
Proof.
  intros ev n1 n2 cls root eas Hn HF; unfold from_xml_tree in *.
  destruct (en_model ev cls) as [m|]; auto. destruct (tag_is _ _); auto.
  destruct (read_model_le (read n1 ev) (read n2 ev) (read_le ev Hn) m eas [] (St (from_native (en_backend ev) root) [])) as [F|E].
  - congruence.
  - rewrite <- E; auto.
Qed.

(** ---- writing ---- *)

Definition ole {A} (p1 p2 : out A) : Prop := p1 = Fuel \/ p1 = p2.
Definition writer_le (w1 w2 : writer) : Prop := forall fl e v enc, ole (w1 fl e v enc) (w2 fl e v enc).

Lemma ole_refl : forall A (p : out A), ole p p.
Proof. intros; right; auto. Qed.

Lemma obind_le : forall A B (o1 o2 : out A) (f1 f2 : A -> out B), ole o1 o2 ->
  (forall a, ole (f1 a) (f2 a)) -> ole (obind o1 f1) (obind o2 f2).
Proof.
  intros A B o1 o2 f1 f2 [-> | ->] H; [left; auto|]. destruct o2; simpl; auto; apply ole_refl.
Qed.

Lemma write_items_le : forall w1 w2, writer_le w1 w2 -> forall fl vs encs e,
  ole (write_items w1 fl e vs encs) (write_items w2 fl e vs encs).
Proof.
  intros w1 w2 H fl vs; induction vs as [|v vs IH]; intros [|enc encs] e; cbn [write_items]; try apply ole_refl.
  destruct (_ && _); auto. apply obind_le; auto.
Qed.

Lemma write_homo_le : forall w1 w2, writer_le w1 w2 -> writer_le (write_homo w1) (write_homo w2).
Proof.
  intros w1 w2 H fl e v enc; unfold write_homo. destruct (is_none v); [apply ole_refl|].
  apply obind_le; [apply ole_refl|]. intros vs. destruct (_ && _); [apply ole_refl|].
  apply obind_le; [apply ole_refl|]. intros encs. apply write_items_le; auto.
Qed.

Lemma write_tuple_le : forall ws1 ws2, Forall2 writer_le ws1 ws2 -> forall fl vs encs e,
  ole (write_tuple ws1 fl e vs encs) (write_tuple ws2 fl e vs encs).
Proof.
  intros ws1 ws2 H; induction H as [|w1 w2 ws1 ws2 Hw Hws IH]; intros fl vs encs e; [apply ole_refl|].
  destruct vs as [|v vs], encs as [|enc encs]; cbn [write_tuple]; try apply ole_refl.
  apply obind_le; auto.
Qed.

Lemma Forall2_len : forall A B (R : A -> B -> Prop) l1 l2, Forall2 R l1 l2 -> length l1 = length l2.
Proof. intros A B R l1 l2 H; induction H; simpl; auto. Qed.

Lemma write_hetero_le : forall ws1 ws2, Forall2 writer_le ws1 ws2 -> writer_le (write_hetero ws1) (write_hetero ws2).
Proof.
  intros ws1 ws2 H fl e v enc; unfold write_hetero. destruct (is_none v); [apply ole_refl|].
  apply obind_le; [apply ole_refl|]. intros vs. destruct (_ && _); [apply ole_refl|].
  rewrite (Forall2_len H). destruct (negb _); [apply ole_refl|].
  apply obind_le; [apply ole_refl|]. intros encs. apply write_tuple_le; auto.
Qed.

Lemma write_union_le : forall wp1 wp2, (forall p, writer_le (wp1 p) (wp2 p)) -> forall vs,
  writer_le (write_union wp1 vs) (write_union wp2 vs).
Proof.
  intros wp1 wp2 H vs; induction vs as [|p vs IH]; intros fl e v enc; cbn [write_union]; [apply ole_refl|].
  destruct (match model_type v with Some c => _ | None => _ end); [apply H|apply IH].
Qed.

Lemma write_tagged_le : forall wp1 wp2, (forall p, writer_le (wp1 p) (wp2 p)) -> forall d vs,
  writer_le (write_tagged wp1 d vs) (write_tagged wp2 d vs).
Proof.
  intros wp1 wp2 H d vs fl e v enc; unfold write_tagged. destruct enc; try apply ole_refl.
  destruct (dget d d0) as [t|]; [|apply ole_refl]. destruct (py_truthy t); [|apply ole_refl].
  destruct t; try apply ole_refl. destruct (dget s vs); [apply H|apply ole_refl].
Qed.

Lemma write_path_le : forall b mode nsm path k1 k2, (forall e, ole (k1 e) (k2 e)) -> forall e,
  ole (write_path b mode nsm path k1 e) (write_path b mode nsm path k2 e).
Proof.
  intros b mode nsm path k1 k2 H; induction path as [|part path IH]; intros e; cbn [write_path]; auto.
  destruct (find_element_or_create _ _ _ _ _) as [[|i|] e']; try apply ole_refl.
  destruct (nth_error _ i); [|apply ole_refl]. apply obind_le; auto. intros; apply ole_refl.
Qed.

Lemma write_fields_le : forall w1 w2, (forall s, writer_le (w1 s) (w2 s)) -> forall m fs fl e v enc,
  ole (write_fields w1 m fs fl e v enc) (write_fields w2 m fs fl e v enc).
Proof.
  intros w1 w2 H m fs; induction fs as [|[name s] fs IH]; intros fl e v enc; cbn [write_fields]; [apply ole_refl|].
  destruct (str_in _ _); auto. apply obind_le; [apply ole_refl|]. intros u. destruct u; auto.
  apply obind_le; [apply ole_refl|]. intros x. apply obind_le; auto.
  destruct (md_cser m name); [apply ole_refl|]. apply obind_le; [apply ole_refl|]. intros xe; apply H.
Qed.

Lemma write_model_le : forall w1 w2, (forall s, writer_le (w1 s) (w2 s)) -> forall m,
  writer_le (write_model w1 m) (write_model w2 m).
Proof.
  intros w1 w2 H m fl e v enc; unfold write_model. destruct (is_none v); [apply ole_refl|].
  destruct (md_root m).
  - apply obind_le; [apply ole_refl|]. intros u. destruct u; [apply ole_refl|].
    destruct (md_fields m) as [|[n s] fs]; [apply ole_refl|]. apply obind_le; [apply ole_refl|]. intros x; apply H.
  - apply write_fields_le; auto.
Qed.

Lemma write_proxy_le : forall ev w1 w2, (forall s, writer_le (w1 s) (w2 s)) -> forall p,
  writer_le (write_proxy ev w1 p) (write_proxy ev w2 p).
Proof.
  intros ev w1 w2 H p fl e v enc; unfold write_proxy. destruct (en_model ev (px_model p)); [|apply ole_refl].
  destruct (_ && _); [apply ole_refl|]. destruct (_ && _); [apply ole_refl|]. destruct (is_none v); [apply ole_refl|].
  apply obind_le; [apply write_model_le; auto|]. intros; apply ole_refl.
Qed.

Lemma Forall2_map_wle : forall A (f g : A -> writer) l, (forall x, writer_le (f x) (g x)) ->
  Forall2 writer_le (map f l) (map g l).
Proof. intros A f g l H; induction l; simpl; constructor; auto. Qed.

Lemma write_le : forall ev n1 n2, n1 <= n2 -> forall s, writer_le (write n1 ev s) (write n2 ev s).
Proof.
  intros ev n1; induction n1 as [|n1 IH]; intros n2 Hn s.
  - intros fl e v enc; left; auto.
  - destruct n2 as [|n2]; [lia|]. cbn [write]. assert (H : forall s, writer_le (write n1 ev s) (write n2 ev s)) by (apply IH; lia).
    destruct s; cbn [write_step]; try (intros fl e v enc; apply ole_refl).
    + apply write_homo_le; auto.
    + apply write_hetero_le. apply Forall2_map_wle; auto.
    + apply H.
    + apply write_union_le. intros p; apply write_proxy_le; auto.
    + apply write_tagged_le. intros p; apply write_proxy_le; auto.
    + intros fl e v enc; unfold write_wrap. destruct (is_none v); [apply ole_refl|].
      destruct (_ && _); [apply ole_refl|]. apply write_path_le. intros c; apply H.
    + apply write_proxy_le; auto.
Qed.

Lemma to_xml_stable : forall ev encode n1 n2 v fl, n1 <= n2 ->
  to_xml_tree n1 ev encode v fl <> Fuel -> to_xml_tree n2 ev encode v fl = to_xml_tree n1 ev encode v fl.
Proof.
  intros ev encode n1 n2 v fl Hn HF; unfold to_xml_tree in *.
  destruct (model_type v); auto. destruct (en_model ev s) as [m|]; auto. cbv zeta in *.
  destruct (write_model_le (write n1 ev) (write n2 ev) (write_le ev Hn) m fl
    (new_elem (TName (md_elem_name m)) None None None [] (md_nsmap m) (-1)) v (encode v)) as [E|E].
  - rewrite E in HF. simpl in HF; congruence.
  - rewrite <- E; auto.
Qed.
