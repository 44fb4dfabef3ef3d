(** PropStable.v -- C76: what was read from a document can be written and read again. *)

From Verif Require Import Base Elem Native Errs Names Ser Write Read Api Text SpecElem SpecRead SpecNames SpecSim SpecRound SpecText SpecStable
  PfNames PfRound2 PfStable Samples PropNames PropRound PropText.

(** C76.  Take any document a class accepts, whatever else there is in it: comments, elements out of order,
    attributes and elements no field is bound to.  If the classes are [steady] (fields kept apart as for C20, no
    user-written field serializers or validators, the variants of a union of different classes; pydantic accepts what it
    has made, told as text again) and the flags leave out what the document did not have (exclude_unset, or
    exclude_none if all defaults are None), then to_xml_tree of the instance is read as that very instance, with the
    same set of fields that have been set. *)
Theorem C76_what_was_read_is_kept : forall ev eas encode fl, steady encode eas ev -> leaves_out_missing ev fl ->
  forall n cls doc v, from_xml_tree n ev cls doc eas = Ok v ->
  attribute_names proper_name doc -> no_pi doc -> no_nil_entry v ->
  comes_back ev eas encode cls v fl v.
Proof.
  intros ev eas encode fl SE LO n cls doc v E An Np NN. destruct (@read_is_kept ev eas encode fl SE LO n cls doc v E NN An Np) as (m & attrs & set & rs & Em & Ev & K).
  destruct SE as (KA & _ & S3).
  assert (CN : computes_nothing ev).
  { intros c m' Em'. destruct (S3 _ _ Em') as [Lv _ _ _ _ _ _ _ _ _]. revert Lv. apply Forall_impl. intros nf Lv C. rewrite (computed_not_live C) in Lv. discriminate. }
  destruct (@C20_round_trip_identity ev eas encode cls m v fl rs KA (or_intror CN)) as (n0 & X); auto; [subst v; reflexivity|]. exists n0. auto.
Qed.

(** C76.  The same through text: with a printer and a parser that are faithful to each other, the text written for what was
    read is read as the same instance. *)
Theorem C76_kept_as_text : forall D (print : native -> out D) parse, faithful print parse ->
  forall ev eas encode fl, steady encode eas ev -> leaves_out_missing ev fl -> empties_unseen ev ->
  forall n cls doc v, from_xml_tree n ev cls doc eas = Ok v ->
  attribute_names proper_name doc -> no_pi doc -> no_nil_entry v -> no_raws v ->
  exists n0, forall n, n0 <= n -> forall s, to_xml print n ev encode v fl = Ok s -> from_xml parse n ev cls s eas = Ok v.
Proof.
  intros D print parse Fa ev eas encode fl SE LO Eu n cls doc v E An Np NN Nr. destruct (@read_is_kept ev eas encode fl SE LO n cls doc v E NN An Np) as (m & attrs & set & rs & Em & Ev & K).
  destruct SE as (KA & _ & S3).
  assert (CN : computes_nothing ev).
  { intros c m' Em'. destruct (S3 _ _ Em') as [Lv _ _ _ _ _ _ _ _ _]. revert Lv. apply Forall_impl. intros nf Lv C. rewrite (computed_not_live C) in Lv. discriminate. }
  eapply (@C58_text_identity D print parse Fa ev eas encode cls m v fl rs); eauto. subst v; reflexivity.
Qed.

(** C76.  So the first document written is a normal form: reading and writing it again changes nothing. *)
Theorem C76_normal_form : forall ev eas encode fl, steady encode eas ev -> leaves_out_missing ev fl ->
  forall n cls doc v, from_xml_tree n ev cls doc eas = Ok v ->
  attribute_names proper_name doc -> no_pi doc -> no_nil_entry v ->
  exists n0, forall n, n0 <= n -> exists doc', to_xml_tree n ev encode v fl = Ok doc' /\
    forall v', from_xml_tree n ev cls doc' eas = Ok v' -> v' = v /\ to_xml_tree n ev encode v' fl = Ok doc'.
Proof.
  intros ev eas encode fl SE LO n cls doc v E An Np NN. destruct (@C76_what_was_read_is_kept ev eas encode fl SE LO n cls doc v E An Np NN) as (n0 & X).
  exists n0. intros k Hk. destruct (X k Hk) as (doc' & W & R). exists doc'. split; auto. intros v' R'. assert (v' = v) by congruence. subst; auto.
Qed.

(** ---- non-vacuity ---- *)

(** pydantic on fields with a type (what it makes of the data, if it accepts them) and a default, if any *)
Definition type := val -> option val.
Fixpoint gather (fields : list (string * (type * option val))) (d : dict val) : option (list (string * val) * list string) :=
  match fields with
  | [] => Some ([], [])
  | (name, (ty, default)) :: fs =>
      match gather fs d with
      | None => None
      | Some (attrs, set) =>
          match dget name d with
          | Some x => match ty x with Some y => Some ((name, y) :: attrs, name :: set) | None => None end
          | None => match default with Some y => Some ((name, y) :: attrs, set) | None => None end
          end
      end
  end.
Definition checks (cls : string) (fields : list (string * (type * option val))) (i : option val) : verdict :=
  match i with
  | Some (VDict d) => match gather fields d with Some (attrs, set) => Valid (VModel cls attrs set) | None => Invalid (VErr cls [] false) end
  | _ => Invalid (VErr cls [] false)
  end.

(** a field: how it is bound, its type and its default *)
Definition field := (string * (ser * (type * option val)))%type.
Definition bound (f : field) : string * ser := (fst f, fst (snd f)).
Definition typed (f : field) : string * (type * option val) := (fst f, snd (snd f)).
Definition checking_model (cls tag : string) (fields : list field) : mdef :=
  MDef cls false tag None (map bound fields) [] [] false false None (fun _ => None) (fun _ => None) (checks cls (map typed fields)).

(** str, bool, List[C], Dict[str, str], classes, Literal, raw elements *)
Definition ty_str : type := fun x => match x with VStr t => Some (VStr t) | _ => None end.
Definition ty_bool : type := fun x =>
  match x with
  | VBool v => Some (VBool v)
  | VStr "1" | VStr "true" => Some (VBool true)
  | VStr "0" | VStr "false" => Some (VBool false)
  | _ => None
  end.
Definition ty_class (classes : list string) : type := fun x =>
  match x with VModel c _ _ => if str_in c classes then Some x else None | _ => None end.
Definition ty_list (classes : list string) : type := fun x =>
  match x with
  | VList l => if forallb (fun y => match ty_class classes y with Some _ => true | None => false end) l then Some x else None
  | _ => None
  end.
Definition ty_dict : type := fun x =>
  match x with VDict d => if forallb (fun kv => match snd kv with VStr _ => true | _ => false end) d then Some x else None | _ => None end.
Definition ty_literal (s : string) : type := fun x => match x with VStr t => if String.eqb t s then Some x else None | _ => None end.
Definition ty_raw : type := fun x => match x with VRaw _ => Some x | _ => None end.

(** to_jsonable_python *)
Fixpoint to_json (v : val) : val :=
  match v with
  | VModel _ a _ => VDict (map (fun kv : string * val => let (k, x) := kv in (k, to_json x)) a)
  | VList l => VList (map to_json l)
  | VDict d => VDict (map (fun kv : string * val => let (k, x) := kv in (k, to_json x)) d)
  | _ => v
  end.

(** what a type makes of data can be told again, and is then made again *)
Definition steady_type (ty : type) : Prop :=
  forall x y, document_data x -> ty x = Some y ->
  (exists x', retold to_json x y x') /\ forall x', retold to_json x y x' -> ty x' = Some y.

Local Ltac inv H := inversion H; subst; clear H.

Lemma str_steady : steady_type ty_str.
Proof.
  intros x y _ E. destruct x; try discriminate. simpl in E. injection E as <-. split; [eexists; constructor; simpl; eauto|].
  intros x' R. inv R. match goal with E : encode_primitive _ = _ |- _ => simpl in E; injection E as <- end. reflexivity.
Qed.

Lemma bool_steady : steady_type ty_bool.
Proof.
  intros x y D E. assert (exists t v, x = VStr t /\ t <> "" /\ y = VBool v) as (t & v & -> & Nt & ->).
  { destruct x; try discriminate; [inv D|]. unfold ty_bool in E.
    repeat (match type of E with context [match ?q with _ => _ end] => destruct q end; try discriminate); injection E as <-; eexists _, _; (split; [reflexivity|split; [discriminate|reflexivity]]). }
  split; [destruct v; (eexists; constructor; [reflexivity|reflexivity|discriminate])|].
  intros x' R. inv R. match goal with E : encode_primitive _ = _ |- _ => destruct v; vm_compute in E; injection E as <-; reflexivity end.
Qed.

Lemma class_steady : forall l, steady_type (ty_class l).
Proof.
  intros l x y _ E. destruct x; try discriminate. simpl in E. destruct (str_in cls l) eqn:I; [|discriminate]. injection E as <-. split; [eexists; constructor|].
  intros x' R. inv R. simpl. rewrite I; auto.
Qed.

Lemma list_steady : forall l, steady_type (ty_list l).
Proof.
  intros l x y _ E. destruct x as [| | | | |xs| | |]; try discriminate. cbn [ty_list] in E. destruct (forallb _ xs) eqn:F; [|discriminate]. injection E as <-.
  assert (M : Forall (fun x => exists c a s, x = VModel c a s) xs).
  { apply Forall_forall. intros z I. rewrite forallb_forall in F. specialize (F z I). destruct z; try discriminate. eauto. }
  split.
  - exists (VList xs). constructor. clear F. induction M as [|z xs (c & a & s & ->) M IH]; constructor; auto. constructor.
  - intros x' R. inv R. match goal with A : retold_all _ _ _ ?q |- _ => assert (q = xs) end.
    { match goal with A : retold_all _ _ _ ?q |- _ => revert q A end. clear F. induction M as [|z xs (c & a & s & ->) M IH]; intros q A; inv A; auto.
      match goal with R : retold _ (VModel _ _ _) _ _ |- _ => inv R end. f_equal. auto. }
    subst. cbn [ty_list]. rewrite F; auto.
Qed.

Lemma texts_json : forall d : list (string * val), forallb (fun kv => match snd kv with VStr _ => true | _ => false end) d = true -> exists ts,
  Forall2 (fun ky t => py_str (to_json (snd ky)) = Ok t) d ts /\ d = combine (map fst d) (map VStr ts).
Proof.
  intros d; induction d as [|[k v] d IH]; intros F; [exists []; split; [constructor|reflexivity]|]. simpl in F. apply andb_true_iff in F as [F1 F2].
  destruct v; try discriminate. destruct (IH F2) as (ts & T & E). exists (s :: ts). split; [constructor; auto|]. simpl. f_equal; auto.
Qed.

Lemma dict_steady : steady_type ty_dict.
Proof.
  intros x y _ E. destruct x as [| | | | | |d| |]; try discriminate. cbn [ty_dict] in E. destruct (forallb _ d) eqn:F; [|discriminate]. injection E as <-.
  destruct (texts_json _ F) as (ts & T & Ed). split; [eexists; apply rt_mapping with (ts := ts); auto|].
  intros x' R. inv R. match goal with X : Forall2 _ d ?q |- _ => assert (q = ts) end.
  { match goal with X : Forall2 _ d ?q |- _ => rename q into qs, X into Q end. clear - T Q. revert qs Q. induction T as [|a t d ts E T IH]; intros qs Q; inv Q; auto. f_equal; auto; congruence. }
  subst. rewrite <- Ed. simpl. rewrite F; auto.
Qed.

Lemma literal_steady : forall s, steady_type (ty_literal s).
Proof.
  intros s x y _ E. destruct x; try discriminate. simpl in E. destruct (String.eqb s0 s) eqn:Es; [|discriminate]. injection E as <-. split; [eexists; constructor; simpl; eauto|].
  intros x' R. inv R. match goal with E : encode_primitive _ = _ |- _ => simpl in E; injection E as <- end. simpl. rewrite Es; auto.
Qed.

Lemma raw_steady : steady_type ty_raw.
Proof. intros x y _ E. destruct x; try discriminate. injection E as <-. split; [eexists; constructor|]. intros x' R. inv R. reflexivity. Qed.

Lemma gather_spec : forall fields d attrs set, NoDup (map fst fields) -> gather fields d = Some (attrs, set) ->
  incl set (map fst fields) /\ map fst attrs = map fst fields /\
  forall name ty df, In (name, (ty, df)) fields ->
  match dget name d with
  | Some x => In name set /\ exists y, ty x = Some y /\ dget name attrs = Some y
  | None => ~ In name set /\ exists y, df = Some y /\ dget name attrs = Some y
  end.
Proof.
  intros fields d; induction fields as [|[a [ty df]] fields IH]; intros attrs set ND G; cbn [gather] in G.
  - injection G as <- <-. split; [apply incl_refl|]. split; [auto|contradiction].
  - simpl in ND. inv ND. destruct (gather fields d) as [[at0 st0]|] eqn:G0; [|discriminate]. destruct (IH at0 st0) as (I1 & I2 & I3); auto.
    assert (Other : forall name ty' df', In (name, (ty', df')) fields -> String.eqb name a = false).
    { intros name ty' df' I. apply String.eqb_neq. intros ->. apply H1. apply in_map_iff. exists (a, (ty', df')); auto. }
    assert (Na : ~ In a st0) by (intros I; apply H1; auto).
    destruct (dget a d) as [x|] eqn:Dx.
    + destruct (ty x) as [y|] eqn:Ty; [|discriminate]. injection G as <- <-. split; [|split; [simpl; f_equal; auto|]].
      * intros z [<-|I]; [left; auto|right; auto].
      * intros name ty' df' [[= <- <- <-]|I].
        -- rewrite Dx. split; [left; auto|]. exists y. simpl. rewrite String.eqb_refl; auto.
        -- specialize (I3 _ _ _ I). simpl. rewrite (Other _ _ _ I). specialize (Other _ _ _ I). apply String.eqb_neq in Other.
           destruct (dget name d); [split; [right; tauto|tauto]|split; [|tauto]]. intros [E|J]; [congruence|tauto].
    + destruct df as [y|]; [|discriminate]. injection G as <- <-. split; [|split; [simpl; f_equal; auto|]].
      * intros z I; right; auto.
      * intros name ty' df' [[= <- <- <-]|I].
        -- rewrite Dx. split; auto. exists y. simpl. rewrite String.eqb_refl; auto.
        -- specialize (I3 _ _ _ I). simpl. rewrite (Other _ _ _ I). exact I3.
Qed.

Lemma gather_same : forall d d' fields, (forall name ty df, In (name, (ty, df)) fields ->
    match dget name d, dget name d' with Some x, Some x' => ty x' = ty x | None, None => True | _, _ => False end) ->
  gather fields d' = gather fields d.
Proof.
  intros d d' fields; induction fields as [|[a [ty df]] fields IH]; intros H; auto. cbn [gather]. rewrite IH; [|intros; apply (H name ty0 df0); right; auto].
  specialize (H a ty df (or_introl eq_refl)). destruct (gather fields d) as [[at0 st0]|]; auto. destruct (dget a d), (dget a d'); try contradiction; auto. rewrite H; auto.
Qed.

Lemma same_keys_get : forall (d d' : dict val) k, map fst d' = map fst d -> match dget k d, dget k d' with Some _, Some _ | None, None => True | _, _ => False end.
Proof.
  intros d; induction d as [|[a x] d IH]; intros [|[a' x'] d'] k E; try discriminate; simpl; auto. simpl in E. injection E as -> E. destruct (String.eqb k a); auto. apply IH; auto.
Qed.

Lemma get_in : forall (d : dict val) k x, dget k d = Some x -> exists k', In (k', x) d.
Proof. intros d; induction d as [|[a y] d IH]; intros k x E; simpl in E; [discriminate|]. destruct (String.eqb k a); [injection E as ->; exists a; left; auto|]. destruct (IH _ _ E) as (k' & I). exists k'; right; auto. Qed.

(** such a pydantic is as C76 asks, if every field that is always read is required *)
Lemma checks_settle : forall cls tag eas fields, NoDup (map fst fields) -> Forall (fun f => steady_type (fst (snd (snd f)))) fields ->
  Forall (fun f => always_read eas (fst (snd f)) -> snd (snd (snd f)) = None) fields ->
  settles to_json (always_read eas) cls (checking_model cls tag fields).
Proof.
  intros cls tag eas fields ND St Al d v DD V. simpl in V. destruct (gather (map typed fields) d) as [[attrs set]|] eqn:G; [|discriminate]. injection V as <-.
  exists attrs, set. split; auto.
  assert (ND' : NoDup (map fst (map typed fields))) by (rewrite map_map; simpl; auto).
  destruct (gather_spec _ _ ND' G) as (_ & _ & Sp).
  assert (Fd : forall name s, In (name, s) (map bound fields) -> exists ty df, In (name, (ty, df)) (map typed fields) /\ steady_type ty /\ (always_read eas s -> df = None)).
  { intros name s I. apply in_map_iff in I as ([n [s' [ty df]]] & [= <- <-] & I). exists ty, df. rewrite Forall_forall in St, Al. specialize (St _ I). specialize (Al _ I). simpl in *.
    split; auto. apply in_map_iff. exists (n, (s', (ty, df))); auto. }
  split.
  - intros name s I. cbn [md_fields checking_model] in I. destruct (Fd name s I) as (ty & df & I' & Ts & Ta). specialize (Sp _ _ _ I'). unfold data_key. simpl.
    destruct (dget name d) as [x|] eqn:Dx.
    + destruct Sp as (Is & y & Ty & Dy). split; auto. destruct (get_in _ _ Dx) as (k & Ik). rewrite Forall_forall in DD. specialize (DD _ Ik). simpl in DD.
      destruct (Ts x y DD Ty) as ((x' & R) & _). eauto.
    + destruct Sp as (Ns & y & Df & _). split; auto. intros A. rewrite (Ta A) in Df. discriminate.
  - intros d' Ek R. cbn [md_validate checking_model]. simpl. rewrite (gather_same d d'); [rewrite G; auto|].
    intros name ty df I. pose proof (same_keys_get d d' name Ek) as K. destruct (dget name d) as [x|] eqn:Dx, (dget name d') as [x'|] eqn:Dx'; try contradiction; auto.
    assert (exists s, In (name, s) (map bound fields)) as (s & Ib).
    { apply in_map_iff in I as ([n [s [ty' df']]] & [= <- <- <-] & I). exists s. apply in_map_iff. exists (n, (s, (ty', df'))); auto. }
    specialize (Sp _ _ _ I). rewrite Dx in Sp. destruct Sp as (_ & y & Ty & Dy). unfold data_key in R. simpl in R. specialize (R name s x y x' Ib Dx Dy Dx').
    destruct (get_in _ _ Dx) as (k & Ik). rewrite Forall_forall in DD. specialize (DD _ Ik). simpl in DD.
    rewrite Forall_forall in St. apply in_map_iff in I as ([n [s' [ty' df']]] & [= <- <- <-] & I). destruct (St _ I x y DD Ty) as (_ & T). simpl in T. rewrite (T x' R), Ty; auto.
Qed.

(** class Circle(tag='circle'): kind: Literal['circle'] = attr(); r: str = attr()
    class Square(tag='square'): kind: Literal['square'] = attr(); a: str = element()
    class Tree(tag='tree'): open: bool = attr(); label: Optional[str] = element(default=None);
      note: str = wrapped('meta', element(), default='-'); shape: Union[Circle, Square] = Field(discriminator='kind', default=None);
      props: Dict[str, str] = element(default={'k': 'v'}); attached: Optional[raw element] = None; kids: List[Tree] = [] *)
Definition circle_fields : list field := [("kind", (SAttr "kind" false, (ty_literal "circle", None))); ("r", (SAttr "r" false, (ty_str, None)))].
Definition square_fields (m : smode) : list field := [("kind", (SAttr "kind" false, (ty_literal "square", None))); ("a", (SElem "a" None m false false, (ty_str, None)))].
Definition tree_fields (m : smode) : list field :=
  [("open", (SAttr "open" false, (ty_bool, None)));
   ("label", (SElem "label" None m false false, (ty_str, Some VNone)));
   ("note", (SWrap ["meta"] None m false (SElem "note" None m false false), (ty_str, Some (VStr "-"))));
   ("shape", (STagged false "kind" "kind" [("circle", sub "Circle" "circle" m); ("square", sub "Square" "square" m)] m, (ty_class ["Circle"; "Square"], Some VNone)));
   ("props", (SMapElem "props" m no_attrs, (ty_dict, Some (VDict [("k", VStr "v")]))));
   ("attached", (SRaw "attached" m false, (ty_raw, Some VNone)));
   ("kids", (SHomo "Tree" false (SProxy (sub "Tree" "tree" m)) false, (ty_list ["Tree"], Some (VList []))))].
Definition park (b : backend) (m : smode) : env :=
  classes b [checking_model "Tree" "tree" (tree_fields m); checking_model "Circle" "circle" circle_fields; checking_model "Square" "square" (square_fields m)].

Lemma json_encodes : forall ev, (forall cls m, en_model ev cls = Some m -> md_root m = false) -> encodes to_json ev.
Proof.
  intros ev Nr. split; [|split; auto].
  - intros cls m attrs set Em. rewrite (Nr _ _ Em). eexists. split; [reflexivity|]. intros name y D. induction attrs as [|[a x] attrs IH]; simpl in *; [discriminate|].
    destruct (String.eqb name a); [injection D as ->; reflexivity|auto].
  - intros d. simpl. f_equal. apply map_ext. intros [k x]; auto.
Qed.

Lemma checks_instance : forall cls fields i v, checks cls fields i = Valid v -> exists attrs set, v = VModel cls attrs set.
Proof. intros cls fields [[]|] v E; simpl in E; try discriminate. destruct (gather fields d) as [[attrs set]|]; [|discriminate]. injection E as <-. eauto. Qed.

Lemma checking_steady : forall ev eas cls tag fields, Forall (fun f => live (fst (snd f)) = true) fields -> Forall (fun f => tells_apart to_json ev (fst (snd f))) fields ->
  NoDup (map fst fields) -> Forall (fun f => steady_type (fst (snd (snd f)))) fields -> Forall (fun f => always_read eas (fst (snd f)) -> snd (snd (snd f)) = None) fields ->
  steady_class to_json eas ev cls (checking_model cls tag fields).
Proof.
  intros ev eas cls tag fields L T ND St Al. constructor; simpl; auto; try discriminate.
  - clear - L. induction L; constructor; auto.
  - clear - T. induction T; constructor; auto.
  - rewrite map_map. auto.
  - rewrite map_map. auto.
  - intros i v V. eapply checks_instance; eauto.
  - intros _. apply (@checks_settle cls tag eas fields); auto.
Qed.

Lemma has_kind : forall b m fields cls tag t vs, In (t, sub cls tag m) vs -> NoDup (map fst vs) -> t <> "" ->
  en_model (park b m) cls = Some (checking_model cls tag (("kind", (SAttr "kind" false, (ty_literal t, None))) :: fields)) -> NoDup (map fst fields) -> ~ In "kind" (map fst fields) ->
  has_tag to_json (park b m) "kind" "kind" vs (sub cls tag m).
Proof.
  intros b m fields cls tag t vs I ND Nt Em NF NK. exists (checking_model cls tag (("kind", (SAttr "kind" false, (ty_literal t, None))) :: fields)), false.
  split; auto. split; auto. split; [left; auto|]. intros d attrs set DD V. cbn [md_validate checking_model checks] in V.
  destruct (gather _ d) as [[at0 st0]|] eqn:G; [|discriminate]. simpl in V. injection V as <- <-.
  assert (N1 : NoDup (map fst (map typed (("kind", (SAttr "kind" false, (ty_literal t, None))) :: fields)))) by (rewrite map_map; simpl; constructor; auto).
  destruct (gather_spec _ _ N1 G) as (_ & _ & Sp). specialize (Sp "kind" (ty_literal t) None (or_introl eq_refl)). destruct (dget "kind" d) as [x|].
  - destruct Sp as (Is & y & Ty & Dy). split; auto. destruct x; try discriminate. simpl in Ty. destruct (String.eqb_spec s t) as [->|]; [|discriminate]. injection Ty as <-.
    exists (VStr t), t, (sub cls tag m). repeat split; auto. apply dget_nodup_in; auto.
  - destruct Sp as (_ & y & E & _). discriminate.
Qed.

Lemma park_steady : forall b m eas, steady to_json eas (park b m).
Proof.
  intros b m eas.
  assert (T : Forall (fun kv => has_tag to_json (park b m) "kind" "kind" [("circle", sub "Circle" "circle" m); ("square", sub "Square" "square" m)] (snd kv))
                [("circle", sub "Circle" "circle" m); ("square", sub "Square" "square" m)]).
  { constructor; [|constructor; [|constructor]]; simpl.
    - eapply (@has_kind b m [("r", (SAttr "r" false, (ty_str, None)))]) with (t := "circle"); simpl; auto; try discriminate; repeat constructor; simpl; intuition discriminate.
    - eapply (@has_kind b m [("a", (SElem "a" None m false false, (ty_str, None)))]) with (t := "square"); simpl; auto; try discriminate; repeat constructor; simpl; intuition discriminate. }
  split; [|split].
  - intros cls md Em. unfold park, classes in Em. cbn [en_model List.find md_name checking_model] in Em.
    repeat (match type of Em with context [String.eqb ?x ?y] => destruct (String.eqb x y) end; [injection Em as <-|]); try discriminate; (split; [|simpl; repeat constructor]); simpl.
    + apart_step; [apply df_attr; discriminate|]. apart_step; [apply df_one; constructor| |intros t [<-|[]]; intuition discriminate].
      apply (@apart_wrapped (park b m) eas "meta" [Wrapped [] None m false (SElem "note" None m false false)]); simpl.
      * apart_step; [apply df_one; constructor|constructor].
      * apart_step; [apply df_tagged; repeat constructor; discriminate| |intros t [<-|[<-|[]]]; intuition discriminate].
        apart_step; [apply df_one; constructor| |intros t [<-|[]]; intuition discriminate].
        apart_step; [apply df_one; constructor| |intros t [<-|[]]; intuition discriminate].
        apart_step; [apply df_list; constructor; discriminate|constructor].
      * intuition discriminate.
      * intros w [<-|[]]; discriminate.
      * intros w [<-|[]]; discriminate.
      * repeat constructor.
      * intros F; inversion F; discriminate.
    + apart_step; [apply df_attr; discriminate| |intros t [<-|[]]; intuition discriminate]. apart_step; [apply df_attr; discriminate|constructor].
    + apart_step; [apply df_attr; discriminate|]. apart_step; [apply df_one; constructor|constructor].
  - apply json_encodes. intros cls md Em. unfold park, classes in Em. cbn [en_model List.find md_name checking_model] in Em.
    repeat (match type of Em with context [String.eqb ?x ?y] => destruct (String.eqb x y) end; [injection Em as <-; reflexivity|]); discriminate.
  - intros cls md Em. unfold park, classes in Em. cbn [en_model List.find md_name checking_model] in Em.
    repeat (match type of Em with context [String.eqb ?x ?y] => destruct (String.eqb_spec x y) as [<-|] end; [injection Em as <-|]); try discriminate; apply checking_steady.
    all: try (repeat constructor; simpl; try discriminate; try apply accepts_quiet; intuition discriminate).
    all: try (repeat constructor; auto using str_steady, bool_steady, class_steady, list_steady, dict_steady, literal_steady, raw_steady; fail).
    all: try (repeat constructor; intros A; exfalso; apply A; reflexivity).
    all: unfold tree_fields, circle_fields, square_fields; repeat (apply Forall_cons; cbn [fst snd]); try apply Forall_nil;
      try apply ta_attr; try apply ta_elem; try apply ta_raw; try (apply ta_tagged; exact T); try (apply ta_list; apply ta_model); try (apply ta_wrap; apply ta_elem);
      try (apply ta_map; discriminate);
      try apply str_steady; try apply bool_steady; try apply class_steady; try apply dict_steady; try apply raw_steady; try apply list_steady; apply literal_steady.
Qed.

(** a document with elements out of order, comments, an empty list and what no field is bound to *)
Definition a_park : native :=
  NElem "tree" [(Some "p", "http://x")] (Some " ") None [("open", "1"); ("stray", "x")]
    [NComment (Some "hello") None;
     NElem "label" [] (Some "oak") (Some "
") [] [] None;
     NElem "meta" [] None None [] [NElem "note" [] (Some "old") None [] [] None] (Some 4%Z);
     NElem "square" [] None None [("kind", "square")] [NElem "a" [] (Some "2") None [] [] None] None;
     NElem "props" [] None None [("{http://x}colour", "red"); ("size", "")] [] None;
     NElem "attached" [] (Some "any") None [("k", "v")] [NComment None None; NElem "b" [] None (Some "t") [] [] None] None;
     NElem "tree" [] None None [("open", "false")] [] None;
     NElem "tree" [] None None [("open", "true")] [NElem "tree" [] None None [("open", "0")] [NElem "props" [] None None [] [] None] None] None]
    None.

Example C76_park : forall b m eas none, exists v, from_xml_tree 20 (park b m) "Tree" a_park eas = Ok v /\
  comes_back (park b m) eas to_json "Tree" v (Flags false none true) v.
Proof.
  intros b m eas none.
  assert (X : exists v, from_xml_tree 20 (park b m) "Tree" a_park eas = Ok v /\ no_nil_entry v).
  { destruct b, m, eas; (eexists; split; [vm_compute; reflexivity|simpl; intuition discriminate]). }
  destruct X as (v & E & N). exists v. split; auto. eapply C76_what_was_read_is_kept with (doc := a_park) (n := 20); auto.
  - apply park_steady.
  - split; auto.
  - simpl. unfold proper_name. repeat constructor; apply not_occurs; vm_compute; reflexivity.
  - repeat first [apply no_pi_elem | apply Forall_nil | apply Forall_cons | left; reflexivity | right].
Qed.

(** and with exclude_none instead, if every default is None:
    class Leaf(tag='leaf'): a: Optional[str] = attr(default=None); b: Optional[bool] = wrapped('w', element(default=None)) *)
Definition leaf_fields (m : smode) : list field :=
  [("a", (SAttr "a" false, (ty_str, Some VNone))); ("b", (SWrap ["w"] None m false (SElem "b" None m false false), (ty_bool, Some VNone)))].
Definition leaves (b : backend) (m : smode) : env := classes b [checking_model "Leaf" "leaf" (leaf_fields m)].

Lemma leaves_steady : forall b m eas, steady to_json eas (leaves b m) /\ none_if_missing (leaves b m).
Proof.
  intros b m eas.
  assert (E : forall cls md, en_model (leaves b m) cls = Some md -> cls = "Leaf" /\ md = checking_model "Leaf" "leaf" (leaf_fields m)).
  { intros cls md Em. unfold leaves, classes in Em. cbn [en_model List.find md_name checking_model] in Em. destruct (String.eqb_spec "Leaf" cls); [injection Em as <-; auto|discriminate]. }
  split; [split; [|split]|].
  - intros cls md Em. apply E in Em as [-> ->]. split; [|simpl; repeat constructor]. simpl.
    apart_step; [apply df_attr; discriminate|].
    apply (@apart_wrapped (leaves b m) eas "w" [Wrapped [] None m false (SElem "b" None m false false)] []); simpl.
    + apart_step; [apply df_one; constructor|constructor].
    + constructor.
    + tauto.
    + intros w [<-|[]]; discriminate.
    + intros w [<-|[]]; discriminate.
    + repeat constructor.
    + constructor.
  - apply json_encodes. intros cls md Em. apply E in Em as [-> ->]. reflexivity.
  - intros cls md Em. apply E in Em as [-> ->]. apply checking_steady; unfold leaf_fields.
    all: try (repeat constructor; simpl; try discriminate; try apply accepts_quiet; intuition discriminate).
    all: repeat (apply Forall_cons; cbn [fst snd]); try apply Forall_nil; try apply ta_attr; try (apply ta_wrap; apply ta_elem); try apply str_steady; try apply bool_steady;
      intros A; exfalso; apply A; reflexivity.
  - intros cls md Em _. apply E in Em as [-> ->]. split; [repeat constructor|]. intros d attrs set DD V name s I Dn. unfold data_key in Dn. simpl in Dn.
    cbn [md_validate checking_model checks] in V. destruct (gather _ d) as [[at0 st0]|] eqn:G; [|discriminate]. injection V as <- <-.
    assert (ND : NoDup (map fst (map typed (leaf_fields m)))) by (repeat constructor; simpl; intuition discriminate).
    destruct (gather_spec _ _ ND G) as (_ & _ & Sp).
    destruct I as [[= <- <-]|[[= <- <-]|[]]]; [specialize (Sp "a" _ _ (or_introl eq_refl))|specialize (Sp "b" _ _ (or_intror (or_introl eq_refl)))];
      rewrite Dn in Sp; destruct Sp as (_ & y & [= <-] & D); exact D.
Qed.

Definition a_leaf : native := NElem "leaf" [] None None [] [NElem "w" [] None None [] [NElem "b" [] (Some "0") None [] [] None] None] None.
Example C76_leaves : forall b m eas,
  from_xml_tree 20 (leaves b m) "Leaf" a_leaf eas = Ok (VModel "Leaf" [("a", VNone); ("b", VBool false)] ["b"]) /\
  comes_back (leaves b m) eas to_json "Leaf" (VModel "Leaf" [("a", VNone); ("b", VBool false)] ["b"]) (Flags false true false) (VModel "Leaf" [("a", VNone); ("b", VBool false)] ["b"]).
Proof.
  intros b m eas.
  assert (X : from_xml_tree 20 (leaves b m) "Leaf" a_leaf eas = Ok (VModel "Leaf" [("a", VNone); ("b", VBool false)] ["b"])) by (destruct b, m, eas; vm_compute; reflexivity).
  split; auto. destruct (leaves_steady b m eas) as [St Nm].
  apply (@C76_what_was_read_is_kept (leaves b m) eas to_json (Flags false true false) St) with (n := 20) (doc := a_leaf); auto; try (simpl; tauto).
  - split; auto.
  - repeat constructor.
  - repeat first [apply no_pi_elem | apply Forall_nil | apply Forall_cons | right].
Qed.

(** ---- what is needed ---- *)

(** [doc] is read as [v], and what is written for [v] is read as [w] *)
Definition again (ev : env) (eas : bool) (cls : string) (fl : flags) (doc : native) : option (val * val) :=
  match from_xml_tree 20 ev cls doc eas with
  | Ok v => match to_xml_tree 20 ev to_json v fl with
            | Ok doc' => match from_xml_tree 20 ev cls doc' eas with Ok w => Some (v, w) | _ => None end
            | _ => None
            end
  | _ => None
  end.
Definition leaf1 (s : ser) (ty : type) (default : option val) (b : backend) : env := classes b [checking_model "Leaf" "leaf" [("a", (s, (ty, default)))]].
Definition set_leaf (x : val) : val := VModel "Leaf" [("a", x)] ["a"].
Definition unset_leaf (x : val) : val := VModel "Leaf" [("a", x)] [].
Definition bare_leaf : native := NElem "leaf" [] None None [] [] None.

(** without the flags an optional attribute the document did not have is read as an empty text *)
Theorem C76_no_flags_refuted : forall b eas,
  again (leaf1 (SAttr "a" false) ty_str (Some VNone) b) eas "Leaf" (Flags false false false) bare_leaf = Some (unset_leaf VNone, set_leaf (VStr "")).
Proof. intros [] []; reflexivity. Qed.

(** exclude_none does not leave out other defaults: the field is then one that has been set *)
Theorem C76_default_refuted : forall b eas,
  again (leaf1 (SAttr "a" false) ty_str (Some (VStr "x")) b) eas "Leaf" (Flags false true false) bare_leaf = Some (unset_leaf (VStr "x"), set_leaf (VStr "x")).
Proof. intros [] []; reflexivity. Qed.

(** the mapping over an element that was not there comes back empty in spite of exclude_none *)
Theorem C76_missing_mapping_refuted : forall b eas m,
  again (leaf1 (SMapElem "a" m no_attrs) ty_dict (Some VNone) b) eas "Leaf" (Flags false true false) bare_leaf = Some (unset_leaf VNone, set_leaf (VDict [])).
Proof. intros [] [] []; reflexivity. Qed.

(** skip_empty leaves out empty texts that were read *)
Theorem C76_skip_empty_refuted : forall b m,
  again (leaf1 (SElem "a" None m false false) ty_str (Some (VStr "x")) b) true "Leaf" (Flags true false true)
    (NElem "leaf" [] None None [] [NElem "a" [] None None [] [] None] None) = Some (set_leaf (VStr ""), unset_leaf (VStr "x")).
Proof. intros [] []; reflexivity. Qed.

(** a nil text that has a default is left out, and empty texts are read as texts *)
Theorem C76_nil_text_refuted : forall b,
  again (leaf1 (SText false true) ty_str (Some VNone) b) true "Leaf" (Flags false false true)
    (NElem "leaf" [] None None [(xsi_nil, "true")] [] None) = Some (unset_leaf VNone, set_leaf (VStr "")).
Proof. intros []; reflexivity. Qed.

(** a type that makes an empty text of another one (str with strip_whitespace) *)
Theorem C76_stripped_refuted : forall b m,
  again (leaf1 (SElem "a" None m false false) (fun x => match x with VStr " " => Some (VStr "") | _ => ty_str x end) (Some VNone) b) false "Leaf" (Flags false false true)
    (NElem "leaf" [] None None [] [NElem "a" [] (Some " ") None [] [] None] None) = Some (set_leaf (VStr ""), unset_leaf VNone).
Proof. intros [] []; reflexivity. Qed.

(** of a tuple the first member is missing: the second takes its place *)
Theorem C76_tuple_refuted : forall b m,
  again (leaf1 (SHetero "Leaf" false [SElem "x" None m false true; SElem "x" None m false true] false) (fun x => Some x) (Some VNone) b) false "Leaf" (Flags false true true)
    (NElem "leaf" [] None None [] [NElem "x" [] None None [(xsi_nil, "1")] [] None; NElem "x" [] (Some "1") None [] [] None] None)
  = Some (set_leaf (VList [VNone; VStr "1"]), set_leaf (VList [VStr "1"; VNone])).
Proof. intros [] []; reflexivity. Qed.

Print Assumptions C76_what_was_read_is_kept.
Print Assumptions C76_kept_as_text.
Print Assumptions C76_normal_form.
Print Assumptions C76_no_flags_refuted.
Print Assumptions C76_default_refuted.
Print Assumptions C76_missing_mapping_refuted.
Print Assumptions C76_skip_empty_refuted.
Print Assumptions C76_nil_text_refuted.
Print Assumptions C76_stripped_refuted.
Print Assumptions C76_tuple_refuted.
