(** PfMoved.v -- proofs for C89: writing. *)

From Verif Require Import Base Elem Native Errs Names Ser Write Read Api SpecMoved.

Local Ltac inv H := inversion H; subst; clear H.

(** the text and the attributes of an element *)
Definition own_of (e : elem) : option string * option (dict string) := (e_text e, e_attrib e).
Definition put_own (o : option string * option (dict string)) (e : elem) : elem := set_text_o (fst o) (set_attrib_o (snd o) e).

Lemma put_own_own : forall e, put_own (own_of e) e = e.
Proof. intros []; reflexivity. Qed.

Lemma put_put : forall o o' e, put_own o (put_own o' e) = put_own o e.
Proof. intros o o' []; reflexivity. Qed.

Lemma own_put : forall o e, own_of (put_own o e) = o.
Proof. intros [t a] []; reflexivity. Qed.

(** both succeed with the same result or neither succeeds *)
Definition okeq {A} (a b : out A) : Prop := forall x, a = Ok x <-> b = Ok x.

Lemma okeq_refl : forall A (a : out A), okeq a a.
Proof. split; auto. Qed.

Lemma okeq_bind : forall A B (a b : out A) (f g : A -> out B), okeq a b -> (forall x, okeq (f x) (g x)) -> okeq (obind a f) (obind b g).
Proof.
  intros A B a b f g H F x. destruct a as [y|y|], b as [z|z|]; simpl; try (split; discriminate).
  - pose proof (proj1 (H y) eq_refl) as E. injection E as ->. apply F.
  - discriminate (proj1 (H y) eq_refl).
  - discriminate (proj1 (H y) eq_refl).
  - discriminate (proj2 (H z) eq_refl).
  - discriminate (proj2 (H z) eq_refl).
Qed.

(** ---- writers of fields on the element itself and on sub-elements ---- *)

(** [w] reads and changes the text and the attributes only *)
Definition own_writer (w : writer) : Prop := forall fl v enc, exists h, forall e, w fl e v enc = obind (h (own_of e)) (fun o => Ok (put_own o e)).

(** [w] neither reads nor changes the text and the attributes *)
Definition child_writer (w : writer) : Prop := forall fl v enc o e, w fl (put_own o e) v enc = obind (w fl e v enc) (fun e' => Ok (put_own o e')).

Lemma put_append : forall o c e, append_element c (put_own o e) = put_own o (append_element c e).
Proof. intros o c []; reflexivity. Qed.

Lemma put_unless : forall fl o c e, append_unless_empty fl c (put_own o e) = put_own o (append_unless_empty fl c e).
Proof. intros fl o c e. unfold append_unless_empty. destruct (fl_skip_empty fl && is_empty c); auto. Qed.

Lemma put_search : forall o m e tag behind step, search m (put_own o e) tag behind step =
  (fst (search m e tag behind step), put_own o (snd (search m e tag behind step))).
Proof.
  intros o m [tg ns tx tl at' els nx ln] tag behind step. unfold search.
  assert (F : forall m, forward m (put_own o (Elem tg ns tx tl at' els nx ln)) tag step =
     (fst (forward m (Elem tg ns tx tl at' els nx ln) tag step), put_own o (snd (forward m (Elem tg ns tx tl at' els nx ln) tag step)))).
  { intros []; cbn [forward]; unfold strict_forward, ordered_forward, unordered_forward; simpl.
    - destruct (nth_error els nx); auto. destruct (tag_is (e_tag e) tag); auto. destruct step; auto.
    - destruct (find_from nx (skipn nx els) tag); auto. destruct step; auto.
    - destruct (find_from nx (skipn nx els) tag); auto. destruct step; auto. }
  destruct behind; [|apply F]. change (look_behind (put_own o (Elem tg ns tx tl at' els nx ln)) tag) with (look_behind (Elem tg ns tx tl at' els nx ln) tag).
  destruct (look_behind _ tag); auto.
Qed.

Lemma put_elems : forall o e, e_elems (put_own o e) = e_elems e.
Proof. intros o []; reflexivity. Qed.

Lemma put_put_child : forall o i c e, put_child i c (put_own o e) = put_own o (put_child i c e).
Proof. intros o i c []; reflexivity. Qed.

Lemma own_written : forall n ev s, on_own s = true -> own_writer (write n ev s).
Proof.
  assert (K : forall n ev s, match s with SText _ _ | SAttr _ _ | SAttrs _ => True | _ => False end -> own_writer (write n ev s)).
  { intros [|n] ev s H fl v enc; [exists (fun _ => Fuel); auto|]. destruct s; try contradiction; cbn [write write_step]; clear H.
    - unfold write_text. destruct (is_none v && (fl_skip_empty fl || fl_exclude_none fl)).
      + exists (fun o => Ok o). intros e. simpl. rewrite put_own_own. auto.
      + exists (fun o => obind (encode_primitive enc) (fun t => Ok (Some t, if nillable && is_none v then Some (dset xsi_nil "true" (match snd o with None => [] | Some d => d end)) else snd o))).
        intros []. destruct (encode_primitive enc); simpl; auto. destruct (nillable && is_none v); auto.
    - unfold write_attr. destruct (is_none v && (fl_skip_empty fl || fl_exclude_none fl)).
      + exists (fun o => Ok o). intros e. simpl. rewrite put_own_own. auto.
      + exists (fun o => obind (encode_primitive enc) (fun t => Ok (fst o, Some (dset name t (match snd o with None => [] | Some d => d end))))).
        intros []. destruct (encode_primitive enc); simpl; auto.
    - unfold write_attrs. destruct (is_none v).
      + exists (fun o => Ok o). intros e. simpl. rewrite put_own_own. auto.
      + destruct enc; try (exists (fun _ => Raise XAttributeError); auto; fail).
        exists (fun o => obind (attrs_items (attrs_uri a) d) (fun items => Ok (fst o, Some (dict_of items)))).
        intros []. destruct (attrs_items (attrs_uri a) d); simpl; auto. }
  intros n ev s H. destruct s; try discriminate H; try (apply K; exact I).
  destruct n as [|n]; [intros fl v enc; exists (fun _ => Fuel); auto|]. cbn [write write_step].
  apply K. destruct s; try discriminate H; exact I.
Qed.

Lemma obind_ok_id : forall A B (a : out A) (f : A -> B) C (g : B -> out C), obind (obind a (fun x => Ok (f x))) g = obind a (fun x => g (f x)).
Proof. intros; destruct a; auto. Qed.

Lemma items_child : forall w, child_writer w -> forall fl o vs encs e,
  write_items w fl (put_own o e) vs encs = obind (write_items w fl e vs encs) (fun e' => Ok (put_own o e')).
Proof.
  intros w H fl o vs. induction vs as [|v vs IH]; intros [|enc encs] e; simpl; auto.
  destruct (fl_skip_empty fl && is_none v); auto. rewrite H, obind_ok_id. destruct (w fl e v enc); simpl; auto.
Qed.

Lemma tuple_child : forall ws, Forall child_writer ws -> forall fl o vs encs e,
  write_tuple ws fl (put_own o e) vs encs = obind (write_tuple ws fl e vs encs) (fun e' => Ok (put_own o e')).
Proof.
  intros ws H fl o. induction H as [|w ws Hw H IH]; intros [|v vs] [|enc encs] e; simpl; auto.
  rewrite Hw, obind_ok_id. destruct (w fl e v enc); simpl; auto.
Qed.

Lemma proxy_child : forall ev w p, child_writer (write_proxy ev w p).
Proof.
  intros ev w p fl v enc o e. unfold write_proxy. destruct (en_model ev (px_model p)); auto.
  destruct (fl_exclude_none fl && is_none v); auto. destruct (px_nillable p && is_none v); [simpl; rewrite put_append; auto|].
  destruct (is_none v); auto. destruct (write_model _ _ _ _ _ _); simpl; auto. rewrite put_unless; auto.
Qed.

Lemma union_child : forall wp, (forall p, child_writer (wp p)) -> forall vs, child_writer (write_union wp vs).
Proof.
  intros wp H vs fl v enc o e. induction vs as [|p vs IH]; simpl; auto. destruct (match model_type v with Some _ => _ | None => _ end); auto. apply H.
Qed.

Lemma path_child : forall b mode nsm path k, path <> [] -> forall o e,
  write_path b mode nsm path k (put_own o e) = obind (write_path b mode nsm path k e) (fun e' => Ok (put_own o e')).
Proof.
  intros b mode nsm [|a path] k N o e; [congruence|]. clear N. simpl. unfold find_element_or_create, find_element. rewrite put_search.
  destruct (search mode e a true true) as [[|i|] e1]; cbn [fst snd].
  - rewrite !put_elems, put_append, put_elems. destruct (nth_error _ _); auto. destruct (write_path _ _ _ _ _ _); simpl; auto; rewrite put_put_child; auto.
  - rewrite put_elems. destruct (nth_error _ _); auto. destruct (write_path _ _ _ _ _ _); simpl; auto; rewrite put_put_child; auto.
  - reflexivity.
Qed.

Lemma child_written : forall n ev s, on_children s = true -> child_writer (write n ev s).
Proof.
  induction n as [|n IH]; intros ev s H fl v enc o e; [reflexivity|]. destruct s; try discriminate H; cbn [write write_step].
  - unfold write_elem. destruct (is_none v && _); auto. destruct (write_text _ _ _ _ _); simpl; auto. rewrite put_unless; auto.
  - unfold write_map_elem. assert (X : obind (write_attrs a fl (make_element (en_backend ev) name (as_nsmap a)) v enc) (fun sub => Ok (append_unless_empty fl sub (put_own o e))) =
       obind (obind (write_attrs a fl (make_element (en_backend ev) name (as_nsmap a)) v enc) (fun sub => Ok (append_unless_empty fl sub e))) (fun e' => Ok (put_own o e'))).
    { destruct (write_attrs _ _ _ _ _); simpl; auto. rewrite put_unless; auto. }
    destruct (fl_skip_empty fl); auto. destruct (py_len v) as [[|k]|]; auto.
  - unfold write_homo. destruct (is_none v); auto. destruct (py_iter v); simpl; auto. destruct (fl_skip_empty fl && _); auto.
    destruct (py_iter enc); simpl; auto. apply items_child. apply IH; auto.
  - unfold write_hetero. destruct (is_none v); auto. destruct (py_iter v); simpl; auto. destruct (fl_skip_empty fl && _); auto. destruct (negb _); auto.
    destruct (py_iter enc); simpl; auto. apply tuple_child. simpl in H. rewrite forallb_forall in H.
    apply Forall_forall. intros w Iw. apply in_map_iff in Iw. destruct Iw as (s & <- & Is). apply IH; auto.
  - apply IH; auto.
  - apply union_child. intros; apply proxy_child.
  - unfold write_tagged. destruct enc; auto. destruct (dget disc d) as [t|]; auto. destruct (py_truthy t); auto. destruct t; auto.
    destruct (dget s variants); auto. apply proxy_child.
  - unfold write_wrap. destruct (is_none v); auto. destruct (fl_skip_empty fl && _); auto. apply path_child. intros ->; discriminate H.
  - unfold write_raw. destruct v; auto. simpl. rewrite put_unless; auto.
  - apply proxy_child.
Qed.

Lemma own_not_child : forall s, on_own s = true -> on_children s = false.
Proof. intros s H. destruct s; try discriminate H; auto. destruct s; try discriminate H; auto. Qed.

(** ---- the fields ---- *)

Definition owns (fs : list (string * ser)) := filter (fun f => on_own (snd f)) fs.
Definition kids (fs : list (string * ser)) := filter (fun f => on_children (snd f)) fs.

(** a class is written field by field on the element itself, and field by field on sub-elements *)
Lemma fields_apart : forall n ev m fl v enc fs, (forall f, In f fs -> (on_own (snd f) = true \/ on_children (snd f) = true) /\ md_cser m (fst f) = None) ->
  forall a b r, write_fields (write n ev) m fs fl (put_own (own_of a) b) v enc = Ok r <->
    exists x y, write_fields (write n ev) m (owns fs) fl a v enc = Ok x /\ write_fields (write n ev) m (kids fs) fl b v enc = Ok y /\ r = put_own (own_of x) y.
Proof.
  intros n ev m fl v enc fs. induction fs as [|[name s] fs IH]; intros H a b r.
  - simpl. split; [intros E; injection E as <-; eauto|]. intros (x & y & E1 & E2 & ->). congruence.
  - assert (H' := fun f I => H f (or_intror I)). specialize (IH H'). destruct (H (name, s) (or_introl eq_refl)) as [C Cn]. cbn [fst snd] in C, Cn.
    assert (Hd : forall fs0 e, write_fields (write n ev) m ((name, s) :: fs0) fl e v enc =
      (if str_in name (md_sexclude m) then write_fields (write n ev) m fs0 fl e v enc
       else obind (if fl_exclude_unset fl then is_unset v name else Ok false) (fun unset =>
         if unset then write_fields (write n ev) m fs0 fl e v enc
         else obind (py_getattr v name) (fun x => obind (obind (py_getitem enc name) (fun xe => write n ev s fl e x xe)) (fun e' => write_fields (write n ev) m fs0 fl e' v enc))))).
    { intros fs0 e. cbn [write_fields]. rewrite Cn. reflexivity. }
    unfold owns, kids in *. cbn [filter]. cbn [snd].
    destruct C as [C|C].
    + rewrite C, (@own_not_child s C), !Hd. destruct (str_in name (md_sexclude m)); auto.
      destruct (if fl_exclude_unset fl then is_unset v name else Ok false) as [[]|x|]; cbn [obind]; auto;
        try (split; [discriminate|intros (? & ? & E & _); discriminate E]).
      destruct (py_getattr v name) as [x|x|]; cbn [obind]; try (split; [discriminate|intros (? & ? & E & _); discriminate E]).
      destruct (py_getitem enc name) as [xe|xe|]; cbn [obind]; try (split; [discriminate|intros (? & ? & E & _); discriminate E]).
      destruct (@own_written n ev s C fl x xe) as [h Hh]. rewrite !Hh, own_put. destruct (h (own_of a)) as [o|o|]; cbn [obind]; try (split; [discriminate|intros (? & ? & E & _); discriminate E]).
      rewrite put_put. rewrite <- (own_put o a) at 1. apply IH.
    + assert (C' : on_own s = false) by (destruct (on_own s) eqn:Q; auto; apply own_not_child in Q; congruence).
      rewrite C, C', !Hd. destruct (str_in name (md_sexclude m)); auto.
      destruct (if fl_exclude_unset fl then is_unset v name else Ok false) as [[]|x|]; cbn [obind]; auto;
        try (split; [discriminate|intros (? & ? & _ & E & _); discriminate E]).
      destruct (py_getattr v name) as [x|x|]; cbn [obind]; try (split; [discriminate|intros (? & ? & _ & E & _); discriminate E]).
      destruct (py_getitem enc name) as [xe|xe|]; cbn [obind]; try (split; [discriminate|intros (? & ? & _ & E & _); discriminate E]).
      rewrite (@child_written n ev s C fl x xe (own_of a) b). destruct (write n ev s fl b x xe) as [b'|b'|]; cbn [obind]; try (split; [discriminate|intros (? & ? & _ & E & _); discriminate E]).
      apply IH.
Qed.

Section Envs.
  Variables ev ev' : env.
  Hypothesis HE : moved_env ev ev'.

  Definition wlike (w w' : writer) : Prop := forall fl e v enc, okeq (w fl e v enc) (w' fl e v enc).

  Lemma items_moved : forall w w', wlike w w' -> forall fl vs encs e, okeq (write_items w fl e vs encs) (write_items w' fl e vs encs).
  Proof.
    intros w w' H fl vs. induction vs as [|v vs IH]; intros [|enc encs] e; simpl; try apply okeq_refl.
    destruct (fl_skip_empty fl && is_none v); auto. apply okeq_bind; auto.
  Qed.

  Lemma tuple_moved : forall ws ws', Forall2 wlike ws ws' -> forall fl vs encs e, okeq (write_tuple ws fl e vs encs) (write_tuple ws' fl e vs encs).
  Proof.
    intros ws ws' H fl. induction H as [|w w' ws ws' Hw H IH]; intros [|v vs] [|enc encs] e; simpl; try apply okeq_refl.
    apply okeq_bind; auto.
  Qed.

  Lemma path_moved : forall b mode nsm path k k', (forall e, okeq (k e) (k' e)) -> forall e, okeq (write_path b mode nsm path k e) (write_path b mode nsm path k' e).
  Proof.
    intros b mode nsm path k k' H. induction path as [|a path IH]; intros e; simpl; auto.
    destruct (find_element_or_create b e a mode nsm) as [[|i|] e1]; try apply okeq_refl. destruct (nth_error (e_elems e1) i); [|apply okeq_refl].
    apply okeq_bind; auto. intros; apply okeq_refl.
  Qed.

  Lemma fields_moved : forall w w' m m' fl v enc, (forall s, wlike (w s) (w' s)) -> moved_class m m' -> forall fs e,
    okeq (write_fields w m fs fl e v enc) (write_fields w' m' fs fl e v enc).
  Proof.
    intros w w' m m' fl v enc Hw Hm fs. induction fs as [|[name s] fs IH]; intros e; [apply okeq_refl|]. cbn [write_fields].
    rewrite (mc_exclude Hm), (mc_cser Hm). destruct (str_in name (md_sexclude m)); auto.
    apply okeq_bind; [apply okeq_refl|]. intros []; auto. apply okeq_bind; [apply okeq_refl|]. intros x.
    apply okeq_bind; auto. destruct (md_cser m name); [apply okeq_refl|]. apply okeq_bind; [apply okeq_refl|]. intros; apply Hw.
  Qed.

  Lemma cser_in : forall m m', moved_class m m' -> rearranged (md_fields m) (md_fields m') ->
    (forall name, In name (map fst (md_fields m)) -> md_cser m name = None /\ md_cval m name = None) ->
    forall f, In f (md_fields m') -> In f (md_fields m).
  Proof.
    intros m m' Hm (C & O & K) N f I. destruct (C f (or_intror I)) as [Q|Q].
    - assert (J : In f (owns (md_fields m'))) by (apply filter_In; auto). unfold owns in J. rewrite <- O in J. apply filter_In in J. apply J.
    - assert (J : In f (kids (md_fields m'))) by (apply filter_In; auto). unfold kids in J. rewrite <- K in J. apply filter_In in J. apply J.
  Qed.

  Lemma with_skip_moved : forall m m' fl, moved_class m m' -> with_skip_empty m' fl = with_skip_empty m fl.
  Proof. intros m m' fl Hm. unfold with_skip_empty. rewrite (mc_skip Hm). auto. Qed.

  Lemma model_moved : forall n m m', moved_class m m' -> (forall s, wlike (write n ev s) (write n ev' s)) ->
    wlike (write_model (write n ev) m) (write_model (write n ev') m').
  Proof.
    intros n m m' Hm Hw fl e v enc. unfold write_model. rewrite (mc_root Hm), (with_skip_moved _ Hm).
    destruct (is_none v); [apply okeq_refl|]. destruct (mc_fields Hm) as [Q|(R & Q & U)].
    - rewrite Q. destruct (md_root m); [|apply fields_moved; auto]. apply okeq_bind; [apply okeq_refl|].
      intros []; [apply okeq_refl|]. destruct (md_fields m) as [|[k s] fs]; [apply okeq_refl|]. apply okeq_bind; [apply okeq_refl|]. intros; apply Hw.
    - rewrite R. intros r. rewrite <- (put_own_own e). set (fl' := with_skip_empty m fl).
      rewrite (@fields_apart n ev m fl' v enc (md_fields m)).
      2:{ intros f I. split; [apply (proj1 Q); auto|]. apply U. apply in_map; auto. }
      rewrite (@fields_apart n ev' m' fl' v enc (md_fields m')).
      2:{ intros f I. split; [apply (proj1 Q); auto|]. rewrite (mc_cser Hm). apply U. apply in_map. eapply cser_in; eauto. }
      destruct Q as (_ & O & K). unfold owns, kids. rewrite <- O, <- K. fold (owns (md_fields m)) (kids (md_fields m)).
      split; intros (x & y & E1 & E2 & ->); exists x, y; (split; [|split; [|reflexivity]]).
      1,2: apply (@fields_moved (write n ev) (write n ev') m m' fl' v enc Hw Hm); assumption.
      1,2: apply (@fields_moved (write n ev) (write n ev') m m' fl' v enc Hw Hm); assumption.
  Qed.

  Lemma proxy_moved : forall n, (forall s, wlike (write n ev s) (write n ev' s)) -> forall p, wlike (write_proxy ev (write n ev) p) (write_proxy ev' (write n ev') p).
  Proof.
    intros n Hw p fl e v enc. unfold write_proxy. destruct HE as [Hb Hm]. rewrite Hb. specialize (Hm (px_model p)).
    destruct (en_model ev (px_model p)) as [m|], (en_model ev' (px_model p)) as [m'|]; try contradiction; [|apply okeq_refl].
    destruct (fl_exclude_none fl && is_none v); [apply okeq_refl|]. destruct (px_nillable p && is_none v); [apply okeq_refl|]. destruct (is_none v); [apply okeq_refl|].
    apply okeq_bind; [apply model_moved; auto|]. intros; apply okeq_refl.
  Qed.

  Lemma union_moved : forall wp wp', (forall p, wlike (wp p) (wp' p)) -> forall vs, wlike (write_union wp vs) (write_union wp' vs).
  Proof.
    intros wp wp' H vs fl e v enc. induction vs as [|p vs IH]; simpl; [apply okeq_refl|].
    destruct (match model_type v with Some _ => _ | None => _ end); auto. apply H.
  Qed.

  Lemma write_moved : forall n s, wlike (write n ev s) (write n ev' s).
  Proof.
    induction n as [|n IH]; intros s fl e v enc; [apply okeq_refl|]. destruct HE as [Hb _]. cbn [write]. destruct s; cbn [write_step]; try rewrite Hb; try apply okeq_refl.
    - unfold write_homo. destruct (is_none v); [apply okeq_refl|]. apply okeq_bind; [apply okeq_refl|]. intros vs.
      destruct (fl_skip_empty fl && _); [apply okeq_refl|]. apply okeq_bind; [apply okeq_refl|]. intros encs. apply items_moved; auto.
    - unfold write_hetero. destruct (is_none v); [apply okeq_refl|]. apply okeq_bind; [apply okeq_refl|]. intros vs. rewrite !map_length.
      destruct (fl_skip_empty fl && _); [apply okeq_refl|]. destruct (negb _); [apply okeq_refl|]. apply okeq_bind; [apply okeq_refl|]. intros encs.
      apply tuple_moved. induction inners; simpl; constructor; auto.
    - apply IH.
    - apply union_moved. apply proxy_moved; auto.
    - unfold write_tagged. destruct enc; try apply okeq_refl. destruct (dget disc d) as [t|]; [|apply okeq_refl]. destruct (py_truthy t); [|apply okeq_refl].
      destruct t; try apply okeq_refl. destruct (dget s variants); [|apply okeq_refl]. apply proxy_moved; auto.
    - unfold write_wrap. destruct (is_none v); [apply okeq_refl|]. destruct (fl_skip_empty fl && _); [apply okeq_refl|]. apply path_moved. intros; apply IH.
    - apply proxy_moved; auto.
  Qed.

  Lemma to_xml_moved : forall n encode v fl, okeq (to_xml_tree n ev encode v fl) (to_xml_tree n ev' encode v fl).
  Proof.
    intros n encode v fl. unfold to_xml_tree. destruct (model_type v) as [c|]; [|apply okeq_refl]. destruct HE as [Hb Hm]. specialize (Hm c). rewrite Hb.
    destruct (en_model ev c) as [m|], (en_model ev' c) as [m'|]; try contradiction; [|apply okeq_refl].
    rewrite (mc_elem Hm), (mc_nsmap Hm). apply okeq_bind; [|intros; apply okeq_refl]. apply model_moved; auto. apply write_moved.
  Qed.
End Envs.
