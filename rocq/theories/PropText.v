(** PropText.v -- C58: from_xml and to_xml on documents as text. *)

From Verif Require Import Base Elem Native Errs Names Ser Write Read Api Text SpecElem SpecRead SpecSim SpecRound SpecText
  PfText Samples PropRound.

(** C58.  Reading does not tell an element with an empty text from one without text. *)
Theorem C58_empty_text_is_no_text : forall ev, empties_unseen ev -> forall n cls root root' eas, reparsed root root' ->
  alike_out (from_xml_tree n ev cls root eas) (from_xml_tree n ev cls root' eas).
Proof. intros. apply reparsed_read; auto. Qed.

(** C58.  With a printer and a parser that are faithful to each other, the text written for a value
    is read back as the value of C20 (up to empty texts inside raw elements), and to_xml fails only if the printer does. *)
Theorem C58_text_round_trip : forall D (print : native -> out D) parse, faithful print parse ->
  forall ev eas encode cls m v fl rs w, keeps_apart ev eas -> forbids_nothing ev \/ computes_nothing ev -> empties_unseen ev ->
  model_type v = Some cls -> en_model ev cls = Some m -> kept_model ev eas fl m v (encode v) rs w ->
  exists n0, forall n, n0 <= n ->
    (exists doc, document doc /\ to_xml_tree n ev encode v fl = Ok doc /\ to_xml print n ev encode v fl = print doc) /\
    forall s, to_xml print n ev encode v fl = Ok s -> exists w', from_xml parse n ev cls s eas = Ok w' /\ alike w w'.
Proof. exact text_round_trip. Qed.

(** C58.  A value without raw elements that C20 recovers from the tree is recovered from the text. *)
Theorem C58_text_identity : forall D (print : native -> out D) parse, faithful print parse ->
  forall ev eas encode cls m v fl rs, keeps_apart ev eas -> forbids_nothing ev \/ computes_nothing ev -> empties_unseen ev ->
  model_type v = Some cls -> en_model ev cls = Some m -> kept_model ev eas fl m v (encode v) rs v -> no_raws v ->
  exists n0, forall n, n0 <= n -> forall s, to_xml print n ev encode v fl = Ok s -> from_xml parse n ev cls s eas = Ok v.
Proof.
  intros D print parse Fa ev eas encode cls m v fl rs Ka Fc Eu Ht Em K N.
  destruct (@text_round_trip D print parse Fa ev eas encode cls m v fl rs v Ka Fc Eu Ht Em K) as (n0 & X).
  exists n0. intros n Hn s W. destruct (proj2 (X n Hn) s W) as (w & R & A). rewrite R. f_equal. symmetry. apply alike_no_raws; auto.
Qed.

(** ---- non-vacuity: a printer to, and a parser from, streams of parser events ---- *)

Inductive event := Start (tag : string) (attrib : dict string) | Chars (s : string) | End.

Definition chars (o : option string) : list event := match o with None | Some "" => [] | Some s => [Chars s] end.

Fixpoint emit (n : native) : list event :=
  match n with
  | NElem tag _ text tail attrib cs _ => Start tag attrib :: chars text ++ flat_map emit cs ++ End :: chars tail
  | _ => []
  end.

Definition sax_print (n : native) : out (list event) := Ok (emit n).

(** the open elements, innermost first, and what was read of them *)
Record frame := Frame { fr_tag : string; fr_attrib : dict string; fr_text : option string; fr_done : list native }.

Definition set_tail (s : string) (n : native) : native :=
  match n with NElem tag ns text _ attrib cs line => NElem tag ns text (Some s) attrib cs line | _ => n end.

Definition add_chars (s : string) (f : frame) : frame :=
  match fr_done f with
  | [] => Frame (fr_tag f) (fr_attrib f) (Some s) []
  | c :: done => Frame (fr_tag f) (fr_attrib f) (fr_text f) (set_tail s c :: done)
  end.
Definition add_child (c : native) (f : frame) : frame := Frame (fr_tag f) (fr_attrib f) (fr_text f) (c :: fr_done f).
Definition close (f : frame) : native := NElem (fr_tag f) [] (fr_text f) None (fr_attrib f) (rev (fr_done f)) None.

Fixpoint sax (evs : list event) (f : frame) (outer : list frame) : out native :=
  match evs with
  | [] => Raise XParsing
  | Start tag a :: evs' => sax evs' (Frame tag a None []) (f :: outer)
  | Chars s :: evs' => sax evs' (add_chars s f) outer
  | End :: evs' =>
      match outer with
      | g :: outer' => sax evs' (add_child (close f) g) outer'
      | [] => match evs' with [] => Ok (close f) | _ => Raise XParsing end
      end
  end.

Definition sax_parse (evs : list event) : out native :=
  match evs with Start tag a :: evs' => sax evs' (Frame tag a None []) [] | _ => Raise XParsing end.

(** what the parser makes of a printed tree *)
Definition unempty (o : option string) : option string := match o with Some "" => None | _ => o end.
Fixpoint plain (n : native) : native :=
  match n with
  | NElem tag _ text tail attrib cs _ => NElem tag [] (unempty text) (unempty tail) attrib (map plain cs) None
  | _ => n
  end.

Lemma same_unempty : forall o, same_text o (unempty o).
Proof. intros [[|c s]|]; reflexivity. Qed.

Lemma plain_reparsed : forall n, only_elements n -> reparsed n (plain n).
Proof.
  intros n; induction n as [tag ns text tail a cs line IH| |] using native_ind'; intros H; inversion H; subst.
  simpl. constructor; try apply same_unempty.
  match goal with F : Forall only_elements cs |- _ => clear -IH F; induction cs; simpl; constructor; inversion IH; inversion F; subst; auto end.
Qed.

Lemma chars_first : forall o rest tag a outer, sax (chars o ++ rest) (Frame tag a None []) outer = sax rest (Frame tag a (unempty o) []) outer.
Proof. intros [[|c s]|]; reflexivity. Qed.

Lemma chars_tail : forall o rest c f outer, only_elements c -> native_tail c = None ->
  sax (chars o ++ rest) (add_child c f) outer =
  sax rest (add_child (match unempty o with Some s => set_tail s c | None => c end) f) outer.
Proof. intros [[|c s]|]; reflexivity. Qed.

Lemma plain_only : forall n, only_elements n -> only_elements (plain n).
Proof.
  intros n; induction n as [tag ns text tail a cs line IH| |] using native_ind'; intros H; inversion H; subst. simpl. constructor.
  match goal with F : Forall only_elements cs |- _ => clear -IH F; induction cs; simpl; constructor; inversion IH; inversion F; subst; auto end.
Qed.

Lemma sax_emit : forall n, only_elements n -> forall rest f outer,
  sax (emit n ++ rest) f outer = sax rest (add_child (plain n) f) outer.
Proof.
  intros n; induction n as [tag ns text tail a cs line IH| |] using native_ind'; intros H rest f outer; inversion H as [? ? ? ? ? ? ? F]; subst.
  cbn [emit]. rewrite <- app_comm_cons. cbn [sax]. rewrite <- app_assoc, chars_first, <- app_assoc.
  assert (X : forall done rest' g outer', fr_done g = done ->
    sax (flat_map emit cs ++ rest') g outer' =
    sax rest' (Frame (fr_tag g) (fr_attrib g) (fr_text g) (rev (map plain cs) ++ done)) outer').
  { clear -IH F. induction cs as [|c cs IHc]; intros done rest' g outer' E; simpl; [subst; destruct g; auto|].
    inversion IH as [|? ? I1 I2]; inversion F as [|? ? F1 F2]; subst. rewrite <- app_assoc, I1 by auto.
    rewrite (IHc I2 F2 (plain c :: fr_done g)) by reflexivity. simpl. rewrite <- app_assoc. reflexivity. }
  rewrite (X []) by reflexivity. rewrite <- app_comm_cons. cbn [sax].
  unfold close. simpl. rewrite app_nil_r, rev_involutive.
  rewrite chars_tail; [|constructor; clear -F; induction F; constructor; auto using plain_only|reflexivity].
  destruct (unempty tail); reflexivity.
Qed.

Lemma sax_faithful : faithful sax_print sax_parse.
Proof.
  intros t s [O T] [= <-]. exists (plain t). split; [|apply plain_reparsed; auto].
  inversion O as [tag ns text tail a cs line F]; subst. simpl in T. subst. cbn [emit sax_parse].
  rewrite chars_first.
  assert (X : forall done rest' g outer', fr_done g = done ->
    sax (flat_map emit cs ++ rest') g outer' =
    sax rest' (Frame (fr_tag g) (fr_attrib g) (fr_text g) (rev (map plain cs) ++ done)) outer').
  { clear -F. induction F as [|c cs Fc F IHc]; intros done rest' g outer' E; simpl; [subst; destruct g; auto|].
    rewrite <- app_assoc, sax_emit by auto.
    rewrite (IHc (plain c :: fr_done g)) by (subst; reflexivity). subst. simpl. rewrite <- app_assoc. reflexivity. }
  rewrite (X []) by reflexivity. simpl. unfold close. simpl. rewrite app_nil_r, rev_involutive. reflexivity.
Qed.

(** pydantic with defaults does not look into raw elements *)
Lemma alike_dget : forall d d' k, Forall2 (fun a b : string * val => fst a = fst b /\ alike (snd a) (snd b)) d d' ->
  match dget k d, dget k d' with Some x, Some y => alike x y | None, None => True | _, _ => False end.
Proof.
  intros d d' k F; induction F as [|[a x] [b y] d d' [E A] F IH]; simpl in *; auto. subst.
  destruct (String.eqb k b); auto.
Qed.

Lemma fills_alike : forall cls fields v v', alike v v' ->
  match fills cls fields (Some v), fills cls fields (Some v') with
  | Valid w, Valid w' => alike w w' | Invalid x, Invalid x' => alike_verr x x' | Crashed a, Crashed a' => a = a' | _, _ => False end.
Proof.
  intros cls fields v v' A. inversion A as [|l l' F|d d' F|c d d' st F|x x' R]; subst.
  - destruct (fills cls fields (Some v')); [apply al_refl|apply alike_verr_refl|reflexivity].
  - apply alike_verr_refl.
  - simpl. constructor. clear A. induction fields as [|[k dflt] fields IH]; simpl; constructor; auto. split; auto. simpl.
    pose proof (alike_dget k F) as X. destruct (dget k d), (dget k d'); try contradiction; auto using al_refl.
  - apply alike_verr_refl.
  - apply alike_verr_refl.
Qed.

Lemma forest_unseen : forall b m, empties_unseen (forest b m).
Proof.
  intros b m cls md; simpl; destruct (String.eqb cls "Tree"); intros E; [injection E as <-|discriminate]. split; [discriminate|].
  apply fills_alike.
Qed.

Lemma shop_unseen : forall b m, empties_unseen (shop b m).
Proof.
  intros b m cls md; simpl. repeat (destruct (String.eqb _ _)); intros E; try discriminate; injection E as <-; (split; [discriminate|apply fills_alike]).
Qed.

Lemma tree_no_raws : forall eas v, is_tree eas v -> no_raws v.
Proof. intros eas v T; induction T using is_tree_ind'; repeat constructor; auto. Qed.

(** every tree survives as text; an order with all kinds of fields survives *)
Example C58_trees : forall b m eas v, is_tree eas v -> exists n0, forall n, n0 <= n -> exists s,
  to_xml sax_print n (forest b m) jsonable v (Flags false false false) = Ok s /\
  from_xml sax_parse n (forest b m) "Tree" s eas = Ok v.
Proof.
  intros b m eas v T. destruct (tree_kept b m T) as (rs & K). destruct (forest_ok b m eas) as [Ka Cn].
  assert (Ht : model_type v = Some "Tree") by (inversion T; reflexivity).
  destruct (@C58_text_round_trip _ sax_print sax_parse sax_faithful (forest b m) eas jsonable "Tree" (tree_m m) v
              (Flags false false false) rs v Ka (or_intror Cn) (@forest_unseen b m) Ht eq_refl K) as (n1 & X).
  destruct (@C58_text_identity _ sax_print sax_parse sax_faithful (forest b m) eas jsonable "Tree" (tree_m m) v
              (Flags false false false) rs Ka (or_intror Cn) (@forest_unseen b m) Ht eq_refl K (tree_no_raws T)) as (n2 & Y).
  exists (n1 + n2). intros n Hn. destruct (X n ltac:(lia)) as ((doc & _ & _ & W) & _).
  exists (emit doc). split; auto. apply Y; [lia|auto].
Qed.

Example C58_order : forall b m eas skip none, exists n0, forall n, n0 <= n -> exists s w,
  to_xml sax_print n (shop b m) jsonable an_order (Flags skip none true) = Ok s /\
  from_xml sax_parse n (shop b m) "Order" s eas = Ok w /\ alike an_order w.
Proof.
  intros b m eas skip none. destruct (order_kept b m eas skip none) as (rs & K). destruct (shop_ok b m eas) as [Ka Fb].
  destruct (@C58_text_round_trip _ sax_print sax_parse sax_faithful (shop b m) eas jsonable "Order" (order_m m) an_order
              (Flags skip none true) rs an_order Ka (or_introl Fb) (@shop_unseen b m) eq_refl eq_refl K) as (n1 & X).
  exists n1. intros n Hn. destruct (X n Hn) as ((doc & _ & _ & W) & Y).
  destruct (Y (emit doc) W) as (w & R & A). exists (emit doc), w. auto.
Qed.

(** ---- limits ---- *)

(** class Note(tag='note'): text: Optional[str]; a: str = element() *)
Definition note_m : mdef :=
  filling_model "Note" "note" false [("text", SText false false); ("a", SElem "a" None Strict false false)] [("text", VNone); ("a", VNone)].
Definition notes : env := Env Lxml (fun c => if String.eqb c "Note" then Some note_m else None).

(** whitespace is text: a printer that indents its output (pretty_print=True) is not faithful, and
    changes what is read for a field bound to the text of an element with children *)
Theorem C58_indented_refuted : exists ev cls v doc doc' w,
  to_xml_tree 9 ev jsonable v (Flags false false false) = Ok doc /\ from_xml_tree 9 ev cls doc false = Ok v /\
  doc = NElem "note" [] (Some "") None [] [NElem "a" [] (Some "x") None [] [] None] None /\
  doc' = NElem "note" [] (Some "  ") None [] [NElem "a" [] (Some "x") (Some " ") [] [] None] None /\
  from_xml_tree 9 ev cls doc' false = Ok w /\ w <> v.
Proof.
  exists notes, "Note", (VModel "Note" [("text", VNone); ("a", VStr "x")] ["text"; "a"]).
  do 2 eexists. exists (VModel "Note" [("text", VStr "  "); ("a", VStr "x")] ["text"; "a"]).
  split; [vm_compute; reflexivity|]. split; [vm_compute; reflexivity|]. split; [reflexivity|]. split; [reflexivity|].
  split; [vm_compute; reflexivity|discriminate].
Qed.

Print Assumptions C58_empty_text_is_no_text.
Print Assumptions C58_text_round_trip.
Print Assumptions C58_text_identity.
Print Assumptions C58_indented_refuted.
