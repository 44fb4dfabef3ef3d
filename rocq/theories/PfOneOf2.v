(** PfOneOf2.v -- a sub-model and a union of one member write the same. *)

From Verif Require Import Base Elem Native Errs Names Ser Write Api SpecOneOf.

Local Ltac inv H := inversion H; subst; clear H.

Scheme exact_for_ind2 := Induction for exact_for Sort Prop
with exact_items_ind2 := Induction for exact_items Sort Prop
with exact_each_ind2 := Induction for exact_each Sort Prop.
Combined Scheme exact_all from exact_for_ind2, exact_items_ind2, exact_each_ind2.

Section Exact.
  Variable ev : env.

  Lemma path_ext : forall b mode ns path k k', (forall e, k e = k' e) -> forall e, write_path b mode ns path k e = write_path b mode ns path k' e.
  Proof.
    intros b mode ns path k k' H. induction path as [|t path IH]; intros e; simpl; auto.
    destruct (find_element_or_create b e t mode ns) as [[|i|] e']; auto. destruct (nth_error (e_elems e') i); auto. rewrite IH. auto.
  Qed.

  Lemma exact_written :
    (forall s s' v, exact_for ev s s' v -> forall n fl e enc, write n ev s fl e v enc = write n ev s' fl e v enc) /\
    (forall s s' vs, exact_items ev s s' vs -> forall n fl e encs, write_items (write n ev s) fl e vs encs = write_items (write n ev s') fl e vs encs) /\
    (forall l l' vs, exact_each ev l l' vs -> length l = length l' /\
      forall n fl e encs, write_tuple (map (write n ev) l) fl e vs encs = write_tuple (map (write n ev) l') fl e vs encs).
  Proof.
    apply exact_all; intros; auto.
    - destruct n as [|n]; auto. simpl. unfold write_homo. simpl. destruct (fl_skip_empty fl && Nat.eqb (length vs) 0); auto.
      destruct (py_iter enc); simpl; auto.
    - destruct n as [|n]; auto.
    - destruct H as [L H]. destruct n as [|n]; auto. simpl. unfold write_hetero. simpl. rewrite !map_length, L.
      destruct (fl_skip_empty fl && Nat.eqb (length vs) 0); auto. destruct (negb (Nat.eqb (length vs) (length l'))); auto.
      destruct (py_iter enc); simpl; auto.
    - destruct n as [|n]; auto.
    - destruct n as [|n]; auto. simpl. unfold write_wrap. destruct (is_none v); auto. destruct (fl_skip_empty fl && len_is_zero v); auto.
      apply path_ext. intros c. apply H.
    - destruct n as [|n]; auto.
    - destruct n as [|n]; auto. simpl. rewrite String.eqb_refl. auto.
    - destruct n0 as [|n0]; auto. simpl. unfold write_proxy. destruct (en_model ev (px_model q)); [|congruence]. rewrite e. simpl. destruct (fl_exclude_none fl); auto.
    - destruct encs; simpl; auto. rewrite H. match goal with |- context [if ?b then _ else _] => destruct b end; auto. match goal with |- obind ?x _ = _ => destruct x end; simpl; auto.
    - destruct H0 as [L H0]. split; [simpl; auto|]. intros. destruct encs; simpl; auto. rewrite H. match goal with |- obind ?x _ = _ => destruct x end; simpl; auto.
  Qed.
End Exact.

Lemma exact_fields_written : forall ev n m cls cls' attrs set fs fs',
  (forall name, md_cser m name = None) -> forall m', md_sexclude m' = md_sexclude m -> md_cser m' = md_cser m ->
  Forall2 (fun f f' : string * ser => fst f = fst f' /\ forall x, dget (fst f) attrs = Some x -> exact_for ev (snd f) (snd f') x) fs fs' ->
  forall fl e enc, write_fields (write n ev) m fs fl e (VModel cls attrs set) enc = write_fields (write n ev) m' fs' fl e (VModel cls' attrs set) enc.
Proof.
  intros ev n m cls cls' attrs set fs fs' C m' Es Ec F. induction F as [|[name s] [name' s'] fs fs' [En X] F IH]; intros fl e enc; auto.
  simpl in En, X. subst name'. simpl. rewrite Es, Ec, C, IH. destruct (str_in name (md_sexclude m)); auto.
  destruct (if fl_exclude_unset fl then Ok (negb (str_in name set)) else Ok false) as [[|]| |]; simpl; auto.
  destruct (dget name attrs) as [x|]; simpl; auto. destruct (py_getitem enc name) as [xe| |]; simpl; auto.
  rewrite (proj1 (exact_written ev) s s' x (X x eq_refl) n fl e xe). destruct (write n ev s' fl e x xe); simpl; auto.
Qed.

Lemma unions_written : forall ev encode cls cls' m m' attrs set, en_model ev cls = Some m -> en_model ev cls' = Some m' ->
  exact_class ev attrs m m' -> (forall name, md_cser m name = None) -> encode (VModel cls attrs set) = encode (VModel cls' attrs set) ->
  forall n fl, to_xml_tree n ev encode (VModel cls attrs set) fl = to_xml_tree n ev encode (VModel cls' attrs set) fl.
Proof.
  intros ev encode cls cls' m m' attrs set Em Em' X C Ee n fl. unfold to_xml_tree. simpl. rewrite Em, Em', Ee. inv X. simpl in C.
  unfold md_elem_name; simpl. f_equal. unfold write_model. simpl. destruct root.
  - destruct (if fl_exclude_unset fl then Ok (negb (str_in "root" set)) else Ok false) as [[|]| |]; simpl; auto.
    inv H; auto. destruct x, y. destruct H0 as [_ X]. simpl in X. destruct (dget "root" attrs) as [v|]; simpl; auto.
    unfold with_skip_empty; simpl. apply (proj1 (exact_written ev)); auto.
  - unfold with_skip_empty; simpl. apply exact_fields_written; auto.
Qed.
