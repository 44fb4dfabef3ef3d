(** PropMoved.v -- C89: where attributes and text are declared among the elements does not matter. *)

From Verif Require Import Base Elem Native Errs Names Ser Write Read Api SpecElem SpecRead SpecSim SpecSeen SpecMoved
  PfSeen PfMoved PfMoved2 PfMoved3 Samples PropWrite PropRead2 PropRound.

(** C89, reading.  When in any classes fields bound to attributes or to the text are declared at other places among the
    fields bound to sub-elements, every document is read with the same outcome: the same value, up to the order of the
    attributes of its instances, the same error lines, up to their order and the line numbers in messages, or the same
    other exception.  (Both readings are given enough fuel; it is not part of the code.) *)
Theorem C89_reading : forall ev ev', moved_env ev ev' -> forall n cls doc eas,
  from_xml_tree n ev cls doc eas <> Fuel -> from_xml_tree n ev' cls doc eas <> Fuel ->
  moved_out (from_xml_tree n ev cls doc eas) (from_xml_tree n ev' cls doc eas).
Proof. intros ev ev' H n cls doc eas. apply from_xml_moved; auto. Qed.
Print Assumptions C89_reading.

(** C89, writing.  A value is written as the same document. *)
Theorem C89_writing : forall ev ev', moved_env ev ev' -> forall n encode v fl doc,
  to_xml_tree n ev encode v fl = Ok doc <-> to_xml_tree n ev' encode v fl = Ok doc.
Proof. intros ev ev' H n encode v fl doc. apply to_xml_moved; auto. Qed.
Print Assumptions C89_writing.

(** C89, writing values that look alike, such as the values the two versions read from one document: their attributes may
    be in different orders *)
Theorem C89_writing_alike : forall ev ev', moved_env ev ev' -> forall cls v v' encode encode' fl,
  model_type v = Some cls -> model_type v' = Some cls -> seen_inst ev (fl_exclude_unset fl) cls v (encode v) v' (encode' v') ->
  forall n doc, to_xml_tree n ev encode v fl = Ok doc <-> to_xml_tree n ev' encode' v' fl = Ok doc.
Proof.
  intros ev ev' H cls v v' encode encode' fl T T' S n doc. rewrite <- (to_xml_moved H n encode' v' fl doc).
  rewrite (@to_xml_seen ev (fl_exclude_unset fl) n cls v v' encode encode' fl); auto. tauto.
Qed.
Print Assumptions C89_writing_alike.

(** ---- examples ---- *)

Lemma data_dmem : forall d d' k, moved_data d d' -> dmem k d = dmem k d'.
Proof.
  intros d d' k (d1 & P & F).
  assert (X : forall A (l : dict A), dmem k l = true <-> In k (map fst l)).
  { intros A l. unfold dmem. induction l as [|[a x] l IH]; simpl; [split; [discriminate|tauto]|].
    destruct (String.eqb_spec k a) as [->|N]; [split; auto|]. rewrite IH. split; auto. intros [E|I]; auto. congruence. }
  assert (Y : map fst d1 = map fst d') by (clear P; induction F as [|a b l l' [E _] F IH]; simpl; congruence).
  assert (Z : In k (map fst d) <-> In k (map fst d')).
  { rewrite <- Y. split; apply Permutation_in; [apply Permutation_map; auto|apply Permutation_sym, Permutation_map; auto]. }
  pose proof (X _ d) as X1. pose proof (X _ d') as X2. destruct (dmem k d), (dmem k d'); auto.
  - symmetry. apply X2, Z, X1. auto.
  - apply X1, Z, X2. auto.
Qed.

Lemma accepts_moved : forall cls required d d', moved_data d d' -> moved_verdict (accepts cls required (Some (VDict d))) (accepts cls required (Some (VDict d'))).
Proof.
  intros cls required d d' H. unfold accepts.
  assert (Q : filter (fun k => negb (dmem k d)) required = filter (fun k => negb (dmem k d')) required).
  { apply filter_ext. intros k. rewrite (data_dmem k H). auto. }
  rewrite Q. clear Q. destruct (filter (fun k => negb (dmem k d')) required) as [|k ks] eqn:E.
  - destruct H as (d1 & P & F). simpl. eapply mv_model; eauto.
    assert (Y : map fst d1 = map fst d') by (clear P E; induction F as [|a b l l' [X _] F IH]; simpl; congruence).
    unfold dkeys. rewrite <- Y. apply Permutation_map. auto.
  - simpl. split; auto. simpl. eexists. split; [apply Permutation_refl|]. clear E. constructor; [repeat split; constructor|].
    induction ks; simpl; constructor; auto. repeat split; constructor.
Qed.

Lemma plain_moved : forall cls tag fs fs' required, rearranged fs fs' -> NoDup (map fst fs) ->
  moved_class (plain_model cls tag fs required) (plain_model cls tag fs' required).
Proof.
  intros cls tag fs fs' required H N. constructor; simpl; auto; try discriminate.
  intros _ d d'. apply accepts_moved.
Qed.

(** class Letter(BaseXmlModel, tag='letter'):
        id: str = attr(); lang: str | int = attr(); body: str; to: List[str] = element('to'); reply: List['Letter'] = element('letter');
    and a version that declares the recipients and the replies first, then the attributes and the text among them *)
Definition letter_class (m : smode) (late : bool) : mdef :=
  let i := ("id", SAttr "id" false) in
  let l := ("lang", SUnionPrim false (SAttr "lang" false)) in
  let b := ("body", SText false false) in
  let t := ("to", SHomo "Letter" false (SElem "to" None m false false) false) in
  let r := ("reply", SHomo "Letter" false (SProxy (sub "Letter" "letter" m)) false) in
  plain_model "Letter" "letter" (if late then [t; i; r; l; b] else [i; l; b; t; r]) ["id"; "body"].
Definition post (b : backend) (m : smode) (late : bool) : env :=
  Env b (fun c => if String.eqb c "Letter" then Some (letter_class m late) else None).

Lemma post_moved : forall b m late late', moved_env (post b m late) (post b m late').
Proof.
  intros b m late late'. split; auto. intros c. simpl. destruct (String.eqb c "Letter"); auto. apply plain_moved.
  - split; [|destruct late, late'; auto]. intros f I.
    destruct late, late'; simpl in I; repeat match goal with X : _ \/ _ |- _ => destruct X as [X|X] end; subst; simpl; auto; contradiction.
  - destruct late; repeat constructor; simpl; intuition discriminate.
Qed.

(** <letter id="1" lang="en">hi<to>Ann</to><to>Bob</to><letter id="2">yes</letter></letter> *)
Definition a_letter : native :=
  el "letter" [("id", "1"); ("lang", "en")] "hi" [el "to" [] "Ann" []; el "to" [] "Bob" []; el "letter" [("id", "2")] "yes" []].

(** every document is read by both versions alike; this one is read, with the attributes in another order ... *)
Example C89_ex_reading : forall b m n eas doc, from_xml_tree n (post b m false) "Letter" doc eas <> Fuel -> from_xml_tree n (post b m true) "Letter" doc eas <> Fuel ->
  moved_out (from_xml_tree n (post b m false) "Letter" doc eas) (from_xml_tree n (post b m true) "Letter" doc eas).
Proof. intros b m n eas doc. apply (C89_reading (post_moved b m false true)). Qed.

Example C89_ex_read : forall late, from_xml_tree 9 (post Lxml Strict late) "Letter" a_letter false =
  Ok (let reply := VModel "Letter" [("id", VStr "2"); ("body", VStr "yes")] ["id"; "body"] in
      if late
      then VModel "Letter" [("to", VList [VStr "Ann"; VStr "Bob"]); ("id", VStr "1"); ("reply", VList [reply]); ("lang", VStr "en"); ("body", VStr "hi")]
             ["to"; "id"; "reply"; "lang"; "body"]
      else VModel "Letter" [("id", VStr "1"); ("lang", VStr "en"); ("body", VStr "hi"); ("to", VList [VStr "Ann"; VStr "Bob"]); ("reply", VList [reply])]
             ["id"; "lang"; "body"; "to"; "reply"]).
Proof. intros []; vm_compute; reflexivity. Qed.

(** ... and this one is rejected with the same lines in another order *)
Example C89_ex_rejected : forall late, exists e, from_xml_tree 9 (post Lxml Strict late) "Letter"
    (el "letter" [] "" [el "letter" [] "x" []; el "letter" [("id", "3")] "" []]) false = Raise (XValidation e) /\
  map le_loc (ve_lines e) = [[LKey "reply"; LIdx 0; LKey "id"]; [LKey "reply"; LIdx 1; LKey "body"]].
Proof. intros []; eexists; (split; [vm_compute; reflexivity|reflexivity]). Qed.

Example C89_ex_writing : forall b m n encode v fl doc,
  to_xml_tree n (post b m false) encode v fl = Ok doc <-> to_xml_tree n (post b m true) encode v fl = Ok doc.
Proof. intros b m. apply (C89_writing (post_moved b m false true)). Qed.

Example C89_ex_written : forall late,
  to_xml_tree 9 (post Lxml Strict late) jsonable
    (VModel "Letter" [("id", VStr "1"); ("lang", VNone); ("body", VStr "hi"); ("to", VList [VStr "Ann"]);
                      ("reply", VList [VModel "Letter" [("id", VStr "2"); ("lang", VNone); ("body", VStr "yes"); ("to", VNone); ("reply", VNone)] []])] [])
    (Flags true false false) =
  Ok (NElem "letter" [] (Some "hi") None [("id", "1")] [NElem "to" [] (Some "Ann") None [] [] None; NElem "letter" [] (Some "yes") None [("id", "2")] [] None] None).
Proof. intros []; vm_compute; reflexivity. Qed.

(** letters of any depth, the attributes of one in the order of one version of the class, of the other in the other order *)
Inductive same_letter : val -> val -> Prop :=
| same_letter_intro : forall i l b t rs rs' set set', Forall2 same_letter rs rs' ->
    same_letter (VModel "Letter" [("id", VStr i); ("lang", VStr l); ("body", VStr b); ("to", t); ("reply", VList rs)] set)
      (VModel "Letter" [("to", t); ("id", VStr i); ("reply", VList rs'); ("lang", VStr l); ("body", VStr b)] set').

Fixpoint same_letter_ind' (P : val -> val -> Prop)
    (H : forall i l b t rs rs' set set', Forall2 same_letter rs rs' -> Forall2 P rs rs' ->
       P (VModel "Letter" [("id", VStr i); ("lang", VStr l); ("body", VStr b); ("to", t); ("reply", VList rs)] set)
         (VModel "Letter" [("to", t); ("id", VStr i); ("reply", VList rs'); ("lang", VStr l); ("body", VStr b)] set'))
    (v w : val) (t : same_letter v w) : P v w :=
  match t in same_letter v w return P v w with
  | same_letter_intro i l b t set set' F =>
      H i l b t _ _ set set' F ((fix all l l' (f : Forall2 same_letter l l') : Forall2 P l l' :=
         match f in Forall2 _ l l' return Forall2 P l l' with
         | Forall2_nil _ => Forall2_nil P
         | Forall2_cons x y hx hl => Forall2_cons x y (@same_letter_ind' P H x y hx) (all _ _ hl)
         end) _ _ F)
  end.

Lemma same_letter_seen : forall b m v w, same_letter v w -> seen_inst (post b m false) false "Letter" v (jsonable v) w (jsonable w).
Proof.
  intros b m v w H. induction H as [i l bo t rs rs' set set' F IH] using same_letter_ind'. simpl.
  eapply si_fields; [reflexivity|reflexivity|]. intros name s I _. split; [discriminate|]. intros _.
  simpl in I. destruct I as [I|[I|[I|[I|[I|[]]]]]]; injection I as <- <-; simpl;
    (split; [split; discriminate|split; [discriminate|]]); intros _; (split; [split; discriminate|]);
    intros x x' y y' X X' Y Y'; injection X as <-; injection X' as <-; injection Y as <-; injection Y' as <-; try apply sa_same.
  set (p := fun v => (v, jsonable v)).
  replace rs with (map fst (map p rs)) at 1 by (rewrite map_map; simpl; apply map_id).
  replace (map jsonable rs) with (map snd (map p rs)) by (rewrite map_map; reflexivity).
  replace rs' with (map fst (map p rs')) at 1 by (rewrite map_map; simpl; apply map_id).
  replace (map jsonable rs') with (map snd (map p rs')) by (rewrite map_map; reflexivity).
  apply sa_list. clear -IH. induction IH as [|a b' l l' Ha Hl IH]; simpl; constructor; auto. apply sa_proxy. exact Ha.
Qed.

Example C89_ex_alike : forall b m n v w skip none doc, same_letter v w ->
  to_xml_tree n (post b m false) jsonable v (Flags skip none false) = Ok doc <->
  to_xml_tree n (post b m true) jsonable w (Flags skip none false) = Ok doc.
Proof.
  intros b m n v w skip none doc H. apply (@C89_writing_alike _ _ (post_moved b m false true) "Letter" v w jsonable jsonable (Flags skip none false)); auto.
  - inversion H; reflexivity.
  - inversion H; reflexivity.
  - apply same_letter_seen; auto.
Qed.

(** ---- what must not be moved ---- *)

Definition one_class (m : mdef) : env := Env Lxml (fun c => if String.eqb c "Letter" then Some m else None).

(** the order of fields bound to different sub-elements matters in the default search mode *)
Theorem C89_elements_refuted : exists f g doc, on_children (snd f) = true /\ on_children (snd g) = true /\
  (exists v, from_xml_tree 9 (one_class (plain_model "Letter" "letter" [f; g] [fst f; fst g])) "Letter" doc false = Ok v) /\
  (exists e, from_xml_tree 9 (one_class (plain_model "Letter" "letter" [g; f] [fst f; fst g])) "Letter" doc false = Raise (XValidation e)).
Proof.
  exists ("to", SElem "to" None Strict false false), ("sent", SElem "sent" None Strict false false),
    (el "letter" [] "" [el "to" [] "Ann" []; el "sent" [] "today" []]).
  split; [reflexivity|]. split; [reflexivity|]. split; eexists; vm_compute; reflexivity.
Qed.
Print Assumptions C89_elements_refuted.

(** so does the order of an attribute and a mapping of all attributes *)
Theorem C89_mapping_refuted : exists f g doc, on_own (snd f) = true /\ on_own (snd g) = true /\
  (exists v, from_xml_tree 9 (one_class (plain_model "Letter" "letter" [f; g] [fst f; fst g])) "Letter" doc false = Ok v) /\
  (exists e, from_xml_tree 9 (one_class (plain_model "Letter" "letter" [g; f] [fst f; fst g])) "Letter" doc false = Raise (XValidation e)).
Proof.
  exists ("id", SAttr "id" false), ("rest", SAttrs (AttrsSer None None false false)),
    (el "letter" [("id", "1"); ("lang", "en")] "" []).
  split; [reflexivity|]. split; [reflexivity|]. split; eexists; vm_compute; reflexivity.
Qed.
Print Assumptions C89_mapping_refuted.

(** moving an attribute changes the line an error names: declared before a sub-model that has a field of the same name,
    an attribute of Outer is reported with the line of Inner.x; declared after it, with its own line *)
Definition outer_of (late : bool) : env := Env Lxml (fun c =>
  if String.eqb c "Outer" then Some (checked_model "Outer" "outer"
    (let x := ("x", SAttr "x" false) in let y := ("y", SProxy (sub "Inner" "inner" Strict)) in if late then [y; x] else [x; y]) "x" [LKey "x"])
  else if String.eqb c "Inner" then Some (plain_model "Inner" "inner" [("x", SElem "x" None Strict false false)] ["x"])
  else None).

Theorem C89_lines_refuted : exists doc e e',
  from_xml_tree 9 (outer_of false) "Outer" doc false = Raise (XValidation e) /\ from_xml_tree 9 (outer_of true) "Outer" doc false = Raise (XValidation e') /\
  map le_msg (ve_lines e) = [MLine 4 (MText "bad")] /\ map le_msg (ve_lines e') = [MLine 1 (MText "bad")].
Proof.
  exists (NElem "outer" [] None None [("x", "bad")] [el_at 3 "inner" "" [el_at 4 "x" "1" []]] (Some 1%Z)).
  do 2 eexists. split; [vm_compute; reflexivity|]. split; [vm_compute; reflexivity|]. split; reflexivity.
Qed.
Print Assumptions C89_lines_refuted.
