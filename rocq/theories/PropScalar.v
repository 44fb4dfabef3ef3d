(** PropScalar.v -- C63: the text scalar values are written as; C22, C27: which values are empty. *)

From Verif Require Import Base Elem Native Errs Names Ser Write Read Api SpecScalar Samples PfScalar.

(** the value is None and None values are left out *)
Definition left_out (fl : flags) (v : val) : Prop :=
  v = VNone /\ (fl_skip_empty fl = true \/ fl_exclude_none fl = true).

Lemma not_left_out : forall fl v, ~ left_out fl v -> is_none v && (fl_skip_empty fl || fl_exclude_none fl) = false.
Proof.
  intros fl v H. destruct v; simpl; auto. destruct (fl_skip_empty fl) eqn:A, (fl_exclude_none fl) eqn:B; auto;
    exfalso; apply H; split; auto.
Qed.

(** C63.  An attribute field sets its attribute to the text of the value, and nothing else ... *)
Theorem C63_attribute_text : forall n ev name c fl e v enc, scalar enc -> ~ left_out fl v ->
  exists s e', write (S n) ev (SAttr name c) fl e v enc = Ok e' /\ written_as enc s /\
    get_attrib name e' = Some s /\ (forall k, k <> name -> get_attrib k e' = get_attrib k e) /\
    e_tag e' = e_tag e /\ e_text e' = e_text e /\ e_elems e' = e_elems e.
Proof.
  intros n ev name c fl e v enc Sc L. destruct (written_iff enc Sc) as (s & E & W).
  exists s. cbn [write write_step]. unfold write_attr. rewrite (not_left_out L), E. simpl.
  eexists. split; [reflexivity|]. repeat split; auto; unfold get_attrib; simpl.
  - apply dget_dset_same.
  - intros k K. rewrite dget_dset_other by congruence. destruct (e_attrib e); auto.
Qed.

(** ... a text field sets the text of the element of its model (and marks the element if the value
    is None and the field is nillable) ... *)
Theorem C63_text_text : forall n ev c ni fl e v enc, scalar enc -> ~ left_out fl v ->
  exists s e', write (S n) ev (SText c ni) fl e v enc = Ok e' /\ written_as enc s /\
    e_text e' = Some s /\ e_tag e' = e_tag e /\ e_elems e' = e_elems e /\
    (ni = true /\ v = VNone -> get_attrib xsi_nil e' = Some "true") /\
    (~ (ni = true /\ v = VNone) -> e_attrib e' = e_attrib e).
Proof.
  intros n ev c ni fl e v enc Sc L. destruct (written_iff enc Sc) as (s & E & W).
  exists s. cbn [write write_step]. unfold write_text. rewrite (not_left_out L), E. cbn [obind].
  eexists. split; [reflexivity|]. destruct ni; simpl.
  - destruct v; simpl; repeat split; auto; try (intros (_ & X); discriminate); try (intros X; exfalso; apply X; auto).
    intros _. unfold get_attrib; simpl. apply dget_dset_same.
  - repeat split; auto. intros (X & _); discriminate.
Qed.

(** ... and an element field appends an element with that text, unless the text is empty and empty
    elements are skipped *)
Theorem C63_element_text : forall n ev name nsm mode c ni fl e v enc, scalar enc -> ~ left_out fl v ->
  exists s e', write (S n) ev (SElem name nsm mode c ni) fl e v enc = Ok e' /\ written_as enc s /\
    (fl_skip_empty fl = true -> s = "" -> e' = e) /\
    (~ (fl_skip_empty fl = true /\ s = "") -> exists sub, e_elems e' = e_elems e ++ [sub] /\
       e_tag sub = TName name /\ e_text sub = Some s /\ e_elems sub = [] /\
       (ni = true /\ v = VNone -> e_attrib sub = Some [(xsi_nil, "true")]) /\
       (~ (ni = true /\ v = VNone) -> e_attrib sub = None)) /\
    e_tag e' = e_tag e /\ e_text e' = e_text e /\ e_attrib e' = e_attrib e.
Proof.
  intros n ev name nsm mode c ni fl e v enc Sc L. destruct (written_iff enc Sc) as (s & E & W).
  exists s. cbn [write write_step]. unfold write_elem, write_text. rewrite (not_left_out L), E. cbn [obind].
  eexists. split; [reflexivity|]. unfold append_unless_empty. split; [auto|].
  assert (Nn : fl_skip_empty fl = true -> v <> VNone) by (intros F ->; apply L; split; auto).
  assert (Z : fl_skip_empty fl && is_empty (set_text s (if ni && is_none v then make_element_nill (make_element (en_backend ev) name nsm) else make_element (en_backend ev) name nsm))
    = fl_skip_empty fl && String.eqb s "").
  { destruct (fl_skip_empty fl) eqn:F; auto. simpl. destruct (is_none v) eqn:N; [destruct v; try discriminate; exfalso; apply (Nn eq_refl); reflexivity|].
    rewrite andb_false_r. unfold is_empty; simpl. unfold str_truthy. destruct (String.eqb s ""); reflexivity. }
  rewrite Z. repeat split.
  - intros F ->. rewrite F. reflexivity.
  - intros X. assert (fl_skip_empty fl && String.eqb s "" = false) as ->.
    { destruct (fl_skip_empty fl); auto. simpl. destruct (String.eqb_spec s ""); auto. exfalso; auto. }
    eexists. split; [reflexivity|]. destruct ni; simpl.
    + destruct v; simpl; repeat split; auto; try (intros (_ & Y); discriminate); try (intros Y; exfalso; apply Y; auto).
    + repeat split; auto. intros (Y & _); discriminate.
  - destruct (fl_skip_empty fl && String.eqb s ""); reflexivity.
  - destruct (fl_skip_empty fl && String.eqb s ""); reflexivity.
  - destruct (fl_skip_empty fl && String.eqb s ""); reflexivity.
Qed.

(** ... while a mapping over the attributes writes its entries in Python's notation, so a boolean or
    None looks different there *)
Theorem C63_mapping_text : forall n ev a fl e v d, v <> VNone -> NoDup (dkeys d) ->
  Forall (fun kx => scalar (snd kx)) d ->
  exists e', write (S n) ev (SAttrs a) fl e v (VDict d) = Ok e' /\
    (forall k x, In (k, x) d -> exists s, shown_as x s /\ get_attrib (uri (QName k (attrs_uri a))) e' = Some s) /\
    (forall name, get_attrib name e' <> None -> exists k, In k (dkeys d) /\ name = uri (QName k (attrs_uri a))) /\
    e_tag e' = e_tag e /\ e_text e' = e_text e /\ e_elems e' = e_elems e.
Proof.
  intros n ev a fl e v d V N Sc. cbn [write write_step]. unfold write_attrs.
  destruct (is_none v) eqn:Nv; [destruct v; try discriminate; congruence|].
  destruct (@items_total (attrs_uri a) d Sc) as (items & E). rewrite E. cbn [obind].
  eexists. split; [reflexivity|]. apply items_inv in E.
  pose proof (@items_nodup _ _ _ N E) as Ni. rewrite dict_of_nodup by auto.
  repeat split; unfold get_attrib; simpl.
  - intros k x I. clear N Sc Nv V. revert Ni I.
    induction E as [|[k0 x0] [u t] d items (A & B) F IH]; simpl in *; intros Ni I; [contradiction|].
    inversion Ni as [|? ? N1 N2]; subst. destruct I as [I|I].
    + injection I as -> ->. destruct (py_str_shown _ B) as (_ & Sh). exists t. split; auto. now rewrite String.eqb_refl.
    + destruct (IH N2 I) as (s & Sh & G). exists s. split; auto.
      destruct (String.eqb_spec (uri (QName k (attrs_uri a))) (uri (QName k0 (attrs_uri a)))) as [Q|]; auto.
      exfalso. apply N1. rewrite <- Q. unfold dkeys. apply in_map_iff.
      assert (J : In (uri (QName k (attrs_uri a))) (dkeys items)).
      { rewrite (@items_keys _ _ _ F). apply (in_map (fun k => uri (QName k (attrs_uri a)))). unfold dkeys. apply in_map_iff. exists (k, x); auto. }
      unfold dkeys in J. apply in_map_iff in J. exact J.
  - intros name G. destruct (dget name items) as [t|] eqn:D; [|congruence].
    assert (J : In name (dkeys items)).
    { unfold dkeys. apply in_map_iff. exists (name, t). split; auto. clear -D. induction items as [|[k v] items IH]; simpl in *; [discriminate|].
      destruct (String.eqb_spec name k) as [->|]; [injection D as ->; auto|auto]. }
    rewrite (@items_keys _ _ _ E) in J. apply in_map_iff in J as (k & <- & I). exists k; auto.
Qed.

(** different integers have different texts, and no integer has the text of a boolean or of None *)
Theorem C63_integers_apart : forall z v s, written_as (VInt z) s -> written_as v s -> 
  match v with VInt z' => z' = z | VBool _ | VNone => False | _ => True end.
Proof.
  intros z v s H H'. inversion H as [| | |z0 s0 N| |]; subst.
  assert (D : s <> "" /\ s <> "true" /\ s <> "false").
  { inversion N as [|c r z1 C1 C2|c r z1 C1 C2]; subst; repeat split; try discriminate;
      intros E; injection E as -> ->; vm_compute in C2; discriminate. }
  destruct D as (D1 & D2 & D3). inversion H'; subst; try congruence; auto. eapply numeral_value; eauto.
Qed.

Example C63_ex : exists e',
  written_as (VInt (-120)) "-120" /\ numeral 907 "907" /\ ~ numeral 7 "07" /\
  write 1 (lib Lxml Strict) (SAttr "n" false) (Flags true true false) (make_element Lxml "a" None) (VInt (-120)) (VInt (-120)) = Ok e' /\
  get_attrib "n" e' = Some "-120" /\ ~ left_out (Flags true true false) (VInt (-120)).
Proof.
  eexists. split; [|split; [|split; [|split; [|split]]]].
  - constructor. change (-120)%Z with (- (120))%Z. apply num_negative; [discriminate|reflexivity].
  - apply num_positive; [discriminate|reflexivity].
  - intros H. inversion H; subst; congruence.
  - vm_compute; reflexivity.
  - reflexivity.
  - intros (E & _); discriminate.
Qed.

Example C63_mapping_ex : exists e',
  write 1 (lib Lxml Strict) (SAttrs (AttrsSer None None false false)) (Flags false false false) (make_element Lxml "a" None)
    (VDict [("x", VBool true); ("y", VNone); ("z", VInt 5)]) (VDict [("x", VBool true); ("y", VNone); ("z", VInt 5)]) = Ok e' /\
  e_attrib e' = Some [("x", "True"); ("y", "None"); ("z", "5")].
Proof. eexists. split; reflexivity. Qed.

(** C22, C27.  The values other than None that are left out as empty: the empty string, list, tuple,
    set and mapping, sized objects of length 0 and raw elements without children; never a number,
    a boolean or a model. *)
Theorem C22_empty_values : forall n ev path ns mode c s fl e v enc, fl_skip_empty fl = true -> empty_value v ->
  write (S n) ev (SWrap path ns mode c s) fl e v enc = Ok e.
Proof.
  intros n ev path ns mode c s fl e v enc F H. apply empty_iff in H. cbn [write write_step]. unfold write_wrap, len_is_zero.
  destruct (is_none v); auto. rewrite F, H. reflexivity.
Qed.

Example C22_empty_ex : empty_value (VList []) /\ ~ empty_value (VList [VNone]) /\ ~ empty_value (VInt 0) /\
  ~ empty_value (VBool false) /\ empty_value (VRaw (NElem "a" [] (Some "text") None [] [] None)).
Proof. repeat split; try (intros H; inversion H; fail); constructor; reflexivity. Qed.

Print Assumptions C63_attribute_text.
Print Assumptions C63_text_text.
Print Assumptions C63_element_text.
Print Assumptions C63_mapping_text.
Print Assumptions C63_integers_apart.
Print Assumptions C22_empty_values.
