(** PropEvolve.v -- C85: programs with the old classes read what programs with the new classes write. *)

From Coq Require Import Relation_Operators.
From Verif Require Import Base Elem Native Errs Names Ser Write Read Api SpecElem SpecRead SpecSim SpecRead2 SpecRound SpecStray SpecAttrs
  SpecWrite SpecOut SpecTail SpecEvolve PfFuel PfOut5 PfEvolve PfEvolve2 PfEvolve3 PfEvolve4 Samples PropRead PropWrite PropStray PropAttrs PropOut PropRound.

(** C85.  A library of classes grows: classes get new fields -- attributes and elements with new names -- and there
    may be new classes ([evolved]).  A program with the new classes writes a value; a program that still has the old
    ones, in ordered mode, reads the document.  It gets what it would get from the document the old classes write for
    the same value without the new fields ([trimmed_instance]): the same value, or a ValidationError in either case. *)
Theorem C85_old_classes_read_new_documents : forall U A T W new ev ev' eas,
  evolved U A new ev ev' -> names_apart T W ev -> env_asks U W Ordered ev -> env_attrs A W ev ->
  wf_env named_tag (fun _ => False) ev -> forbids_nothing ev -> env_lists_ok eas ev -> no_customs ev -> no_customs ev' ->
  forall cls m attrs' set' v encode encode' fl k doc',
  en_model ev cls = Some m -> (forall k, takes_attr m k -> A (md_elem_name m) k = true) -> fl_skip_empty fl = false ->
  trimmed_instance ev U cls v (encode v) (VModel cls attrs' set') (encode' (VModel cls attrs' set')) ->
  raws_apart ev' (VModel cls attrs' set') -> (forall n, raw_in n (VModel cls attrs' set') -> no_pi n) ->
  to_xml_tree k ev' encode' (VModel cls attrs' set') fl = Ok doc' ->
  exists doc, (exists N, forall n, N <= n -> to_xml_tree n ev encode v fl = Ok doc) /\
    forall n n', from_xml_tree n ev cls doc eas <> Fuel -> from_xml_tree n' ev cls doc' eas <> Fuel ->
    same_result (from_xml_tree n ev cls doc eas) (from_xml_tree n' ev cls doc' eas).
Proof.
  intros U A T W new ev ev' eas HE HN HU HA Wf Fb Ls NC NC' cls m attrs' set' v encode encode' fl k doc' Em Hm Fl Tr Ra Pv Wr.
  apply written_document in Wr; auto. pose proof (document_no_pi Wr Pv) as Np.
  destruct (@evolved_document U A T W false new ev ev' HE HN (asks_looks HU) ltac:(discriminate) cls fl v (encode v) _ _ doc' Fl Tr (ex_intro _ attrs' (ex_intro _ set' eq_refl)) Wr)
    as (doc & D & mid & M1 & M2 & M3 & M4 & _).
  exists doc. split; [apply document_written; auto|].
  destruct (M3 Np) as [Np1 Np0].
  eapply C83_later_versions_readable with (A := A) (U := U) (W := W); eauto.
  apply rt1n_trans with mid; [split; auto|]. apply rt1n_trans with doc'; [split; auto|]. apply rt1n_refl.
Qed.
Print Assumptions C85_old_classes_read_new_documents.

(** C85 with C20: if the old classes keep their fields apart, the old program reads from the new document what the
    value without the new fields is read back as ([kept_model]). *)
Theorem C85_old_fields_recovered : forall U A T W new ev ev' eas,
  evolved U A new ev ev' -> names_apart T W ev -> env_asks U W Ordered ev -> env_attrs A W ev ->
  wf_env named_tag (fun _ => False) ev -> forbids_nothing ev -> env_lists_ok eas ev -> no_customs ev -> no_customs ev' ->
  keeps_apart ev eas ->
  forall cls m attrs' set' attrs set encode encode' fl k doc' rs w,
  en_model ev cls = Some m -> (forall k, takes_attr m k -> A (md_elem_name m) k = true) -> fl_skip_empty fl = false ->
  trimmed_instance ev U cls (VModel cls attrs set) (encode (VModel cls attrs set)) (VModel cls attrs' set') (encode' (VModel cls attrs' set')) ->
  raws_apart ev' (VModel cls attrs' set') -> (forall n, raw_in n (VModel cls attrs' set') -> no_pi n) ->
  kept_model ev eas fl m (VModel cls attrs set) (encode (VModel cls attrs set)) rs w ->
  to_xml_tree k ev' encode' (VModel cls attrs' set') fl = Ok doc' ->
  exists N, forall n, N <= n -> from_xml_tree n ev cls doc' eas = Ok w.
Proof.
  intros U A T W new ev ev' eas HE HN HU HA Wf Fb Ls NC NC' KA cls m attrs' set' attrs set encode encode' fl k doc' rs w Em Hm Fl Tr Ra Pv Km Wr.
  destruct (@C85_old_classes_read_new_documents U A T W new ev ev' eas HE HN HU HA Wf Fb Ls NC NC' cls m attrs' set' _ encode encode' fl k doc' Em Hm Fl Tr Ra Pv Wr)
    as (doc & (N1 & D1) & R).
  destruct (@C20_round_trip ev eas encode cls m (VModel cls attrs set) fl rs w KA (or_introl Fb) eq_refl Em Km) as (N2 & D2).
  destruct (D2 (Nat.max N1 N2) ltac:(lia)) as (doc2 & W2 & R2). rewrite (D1 (Nat.max N1 N2) ltac:(lia)) in W2. injection W2 as <-.
  destruct (C07_from_xml_terminates Ls cls doc') as (q & o & No & Ho).
  exists q. intros n L. rewrite (Ho n L).
  specialize (R (Nat.max N1 N2) n). rewrite R2, (Ho n L) in R. specialize (R ltac:(discriminate) No).
  destruct o as [w'|x|]; simpl in R; try contradiction. congruence.
Qed.
Print Assumptions C85_old_fields_recovered.

(** ---- non-vacuity: lib grown ---- *)

(** Node gets an attribute and, before its children, an element; Circle an attribute; Shapes an attribute and a list of
    instances of a new class, between a wrapped field and a raw element *)
Definition grown (m : smode) : env :=
  Env Lxml (fun c => if String.eqb c "Node" then Some (plain_model "Node" "node"
                       [("id", SAttr "id" false); ("color", SAttr "color" false); ("value", SElem "value" None m false false);
                        ("label", SElem "label" None m false false);
                        ("children", SHomo "Node" false (SProxy (sub "Node" "node" m)) false)] ["value"])
                     else if String.eqb c "Circle" then Some (plain_model "Circle" "circle" [("fill", SAttr "fill" false); ("r", SAttr "r" false)] ["r"])
                     else if String.eqb c "Square" then Some (square m)
                     else if String.eqb c "Shapes" then Some (plain_model "Shapes" "shapes"
                       [("version", SAttr "version" false);
                        ("shapes", SHomo "Shapes" false (SUnionModel "Shapes" false [sub "Circle" "circle" m; sub "Square" "square" m] false) false);
                        ("note", SWrap ["meta"] None m false (SElem "note" None m false false));
                        ("author", SWrap ["meta"] None m false (SElem "author" None m false true));
                        ("legend", SHomo "Shapes" false (SProxy (sub "Legend" "legend" m)) false);
                        ("extra", SRaw "extra" m false)] ["shapes"])
                     else if String.eqb c "Legend" then Some (plain_model "Legend" "legend" [("note", SElem "note" None m false false)] [])
                     else None).

Definition added (cls f : string) : bool :=
  String.eqb f "color" || String.eqb f "label" || String.eqb f "fill" || String.eqb f "version" || String.eqb f "legend".
Definition added_tags (t : string) : bool := String.eqb t "label" || String.eqb t "legend".
Definition wrappers (t : string) : bool := String.eqb t "meta".

Ltac lib_class E := unfold lib in E; simpl in E;
  repeat match goal with
         | X : (if String.eqb ?x ?y then _ else _) = Some _ |- _ => destruct (String.eqb_spec x y); [subst; injection X as <-|]
         | X : None = Some _ |- _ => discriminate X
         end.

Lemma lib_holds : forall b mo cls m name s p, en_model (lib b mo) cls = Some m -> In (name, s) (md_fields m) -> holds p s ->
  In p [sub "Node" "node" mo; sub "Circle" "circle" mo; sub "Square" "square" mo].
Proof.
  intros b mo cls m name s p E I H. lib_class E; simpl in I;
    repeat match type of I with _ \/ _ => destruct I as [I|I] | False => contradiction end; injection I as <- <-;
    repeat match goal with H : holds _ _ |- _ => inversion H; subst; clear H end; simpl in *; intuition.
Qed.

Lemma lib_elements : forall b mo cls t, element_of (lib b mo) cls t ->
  cls = "Node" /\ t = "node" \/ cls = "Circle" /\ t = "circle" \/ cls = "Square" /\ t = "square" \/ cls = "Shapes" /\ t = "shapes".
Proof.
  intros b mo cls t H; inversion H as [m E|c m name s p E I Hp Px]; subst.
  - lib_class E; auto 9.
  - pose proof (@lib_holds _ _ _ _ _ _ _ E I Hp) as K. simpl in K. destruct K as [<-|[<-|[<-|[]]]]; simpl; auto.
Qed.

Lemma lib_apart : forall b mo, names_apart wrappers raw_tags (lib b mo).
Proof.
  intros b mo. split.
  - intros cls t H. destruct (lib_elements H) as [[-> ->]|[[-> ->]|[[-> ->]|[-> ->]]]]; reflexivity.
  - intros cls m name s E I. split.
    + intros p Hp. pose proof (@lib_holds _ _ _ _ _ _ _ E I Hp) as K. simpl in K. destruct K as [<-|[<-|[<-|[]]]]; reflexivity.
    + intros t St. rewrite (@lib_steps _ _ _ _ _ _ _ E I St). split; reflexivity.
Qed.

Lemma lib_asks_added : forall m, env_asks added_tags raw_tags m (lib Lxml m).
Proof. intros m cls md E. lib_class E; repeat constructor. Qed.

Lemma lib_grows : forall mo, evolved added_tags read_attributes added (lib Lxml mo) (grown mo).
Proof.
  intros mo. split; [reflexivity|]. intros cls m E.
  assert (K : forall f, added cls f = false -> In f [] <-> In f ([] : list string)) by (intros; tauto).
  lib_class E; (eexists; split; [reflexivity|]); constructor; try reflexivity; try (simpl; discriminate); try exact K;
    try (split; [reflexivity|discriminate]); try (intros X; discriminate X).
  - exists (String.eqb "color"). split.
    + repeat first [apply ef_nil|apply ef_old; [reflexivity|]|apply ef_attr; [reflexivity|reflexivity|]
        |apply ef_child; [reflexivity|constructor; reflexivity|simpl; intros f t I St; intuition (subst; repeat (match goal with X : step_of _ _ |- _ => inversion X; subst; clear X end))|]].
    + intros k t Hk H. apply String.eqb_eq in Hk; subst k. destruct (lib_elements H) as [[? ->]|[[? ->]|[[? ->]|[? ->]]]]; reflexivity.
  - exists (String.eqb "fill"). split.
    + repeat first [apply ef_nil|apply ef_old; [reflexivity|]|apply ef_attr; [reflexivity|reflexivity|]].
    + intros k t Hk H. apply String.eqb_eq in Hk; subst k. destruct (lib_elements H) as [[? ->]|[[? ->]|[[? ->]|[? ->]]]]; reflexivity.
  - exists (fun _ => false). split; [|discriminate].
    repeat first [apply ef_nil|apply ef_old; [reflexivity|]].
  - exists (String.eqb "version"). split.
    + repeat first [apply ef_nil|apply ef_old; [reflexivity|]|apply ef_attr; [reflexivity|reflexivity|]
        |apply ef_child; [reflexivity|repeat constructor|simpl; intros f t I St; intuition (subst; repeat (match goal with X : step_of _ _ |- _ => inversion X; subst; clear X end))|]].
    + intros k t Hk H. apply String.eqb_eq in Hk; subst k. destruct (lib_elements H) as [[? ->]|[[? ->]|[[? ->]|[? ->]]]]; reflexivity.
Qed.

Definition old_shapes (a : val) : val :=
  VModel "Shapes" [("shapes", VList [VModel "Circle" [("r", VStr "1")] ["r"]; VModel "Square" [("a", VStr "2")] ["a"]]);
                   ("note", VStr "n"); ("author", a); ("extra", VRaw (el "extra" [] "raw" [el "x" [] "" []]))]
         ["shapes"; "note"; "author"; "extra"].
Definition new_shapes (a : val) : val :=
  VModel "Shapes" [("version", VStr "2");
                   ("shapes", VList [VModel "Circle" [("fill", VStr "red"); ("r", VStr "1")] ["fill"; "r"]; VModel "Square" [("a", VStr "2")] ["a"]]);
                   ("note", VStr "n"); ("author", a); ("legend", VList [VModel "Legend" [("note", VStr "m")] ["note"]]);
                   ("extra", VRaw (el "extra" [] "raw" [el "x" [] "" []]))]
         ["version"; "shapes"; "note"; "author"; "legend"; "extra"].

Ltac a_field := eapply tf_same; [reflexivity|reflexivity|reflexivity|reflexivity|].

Lemma shapes_trimmed : forall a, trimmed_instance (lib Lxml Ordered) added_tags "Shapes"
  (old_shapes (VStr a)) (enc_of (old_shapes (VStr a))) (new_shapes (VStr a)) (enc_of (new_shapes (VStr a))).
Proof.
  intros a. eapply ti_fields; [reflexivity|reflexivity|]. simpl. intros name s I.
  destruct I as [I|[I|[I|[I|[]]]]]; injection I as <- <-; (split; [a_field|simpl; tauto]).
  - apply (@tm_list _ _ _ _ _ _
      [(VModel "Circle" [("r", VStr "1")] ["r"], VDict [("r", VStr "1")]); (VModel "Square" [("a", VStr "2")] ["a"], VDict [("a", VStr "2")])]
      [(VModel "Circle" [("fill", VStr "red"); ("r", VStr "1")] ["fill"; "r"], VDict [("fill", VStr "red"); ("r", VStr "1")]);
       (VModel "Square" [("a", VStr "2")] ["a"], VDict [("a", VStr "2")])]).
    apply Forall2_cons; [|apply Forall2_cons; [|apply Forall2_nil]]; simpl; apply tm_union; (eapply ti_fields; [reflexivity|reflexivity|]); simpl; intros name s [I|[]]; injection I as <- <-;
      (split; [a_field; apply tm_atom; exact I|simpl; intuition discriminate]).
  - apply tm_wrap. apply tm_atom; exact I.
  - apply tm_wrap. apply tm_atom; exact I.
  - apply tm_raw. intros t E; injection E as <-; reflexivity.
Qed.

Lemma lib_root_attrs : forall mo k, takes_attr (shapes mo) k -> read_attributes (md_elem_name (shapes mo)) k = true.
Proof.
  intros mo k H. unfold takes_attr in H; simpl in H.
  repeat match goal with X : Exists _ _ |- _ => inversion X; subst; clear X end; simpl in *;
    repeat match goal with X : own_attr _ _ |- _ => inversion X; subst; clear X end.
Qed.

Lemma grown_no_customs : no_customs (grown Ordered).
Proof.
  intros c md name E. unfold grown in E; simpl in E.
  repeat match type of E with context [if ?x then _ else _] => destruct x end; try discriminate; injection E as <-; reflexivity.
Qed.

Lemma grown_steps : forall cls m name s tag, en_model (grown Ordered) cls = Some m -> In (name, s) (md_fields m) -> step_of tag s -> tag = "meta".
Proof.
  intros cls m name s tag E I St. unfold grown in E; simpl in E.
  repeat match type of E with context [if ?x then _ else _] => destruct x end; try discriminate; injection E as <-; simpl in I;
    repeat match type of I with _ \/ _ => destruct I as [I|I] | False => contradiction end; injection I as <- <-;
    repeat match goal with H : step_of _ _ |- _ => inversion H; subst; clear H | H : In _ _ |- _ => simpl in H; destruct H as [H|H]; try contradiction end; auto.
Qed.

Lemma new_shapes_raw : forall a n, raw_in n (new_shapes (VStr a)) -> n = el "extra" [] "raw" [el "x" [] "" []].
Proof.
  intros a n H. unfold new_shapes in H. repeat match goal with
    | X : In _ _ |- _ => progress simpl in X
    | X : _ \/ _ |- _ => destruct X as [X|X]
    | X : (_, _) = (_, _) |- _ => injection X as <- <-
    | X : VModel _ _ _ = ?x |- _ => subst x
    | X : False |- _ => contradiction
    | X : raw_in _ _ |- _ => inversion X; subst; clear X
    end; reflexivity.
Qed.

Lemma new_shapes_raws : forall a, raws_apart (grown Ordered) (new_shapes (VStr a)).
Proof.
  intros a n H. apply new_shapes_raw in H. subst n. split; [exact I|].
  intros cls m name s tag E In_ St. rewrite (@grown_steps _ _ _ _ _ E In_ St). discriminate.
Qed.

(** the new document for any author, and what the old program makes of it *)
Example C85_ex : forall a, exists doc doc' N,
  to_xml_tree 9 (grown Ordered) enc_of (new_shapes (VStr a)) plain_flags = Ok doc' /\ doc <> doc' /\
  (forall n, N <= n -> to_xml_tree n (lib Lxml Ordered) enc_of (old_shapes (VStr a)) plain_flags = Ok doc) /\
  forall n n', from_xml_tree n (lib Lxml Ordered) "Shapes" doc false <> Fuel -> from_xml_tree n' (lib Lxml Ordered) "Shapes" doc' false <> Fuel ->
    same_result (from_xml_tree n (lib Lxml Ordered) "Shapes" doc false) (from_xml_tree n' (lib Lxml Ordered) "Shapes" doc' false).
Proof.
  intros a.
  assert (X : exists doc', to_xml_tree 9 (grown Ordered) enc_of (new_shapes (VStr a)) plain_flags = Ok doc' /\
                dget "version" (match doc' with NElem _ _ _ _ attrs _ _ => attrs | _ => [] end) = Some "2").
  { eexists. split; [vm_compute; reflexivity|reflexivity]. }
  destruct X as (doc' & W1 & V).
  assert (Pv : forall n, raw_in n (new_shapes (VStr a)) -> no_pi n) by (intros n R; apply new_shapes_raw in R; subst n; elements_only).
  destruct (@C85_old_classes_read_new_documents added_tags read_attributes wrappers raw_tags added (lib Lxml Ordered) (grown Ordered) false
    (lib_grows Ordered) (lib_apart Lxml Ordered) (@lib_asks_added Ordered) (lib_attrs Ordered) (lib_wf Ordered) (@lib_forbids_nothing Ordered)
    (lib_lists false Lxml Ordered) (@lib_no_customs Lxml Ordered) grown_no_customs "Shapes" (shapes Ordered) _ _ (old_shapes (VStr a)) enc_of enc_of
    plain_flags 9 doc' eq_refl (lib_root_attrs (mo := Ordered)) eq_refl (shapes_trimmed a) (@new_shapes_raws a) Pv W1) as (doc & (N & W0) & R).
  exists doc, doc', N. split; [auto|split; [|split; auto]].
  intros <-. specialize (W0 (Nat.max N 9) ltac:(lia)).
  assert (Y : to_xml_tree 9 (lib Lxml Ordered) enc_of (old_shapes (VStr a)) plain_flags <> Fuel) by (vm_compute; discriminate).
  rewrite (@to_xml_stable _ _ 9 (Nat.max N 9) _ _) in W0; [|lia|exact Y].
  vm_compute in W0. injection W0 as <-. vm_compute in V. discriminate.
Qed.

(** with an author the old program reads the value without the new fields *)
Example C85_ex_read : exists doc', to_xml_tree 9 (grown Ordered) enc_of (new_shapes (VStr "me")) plain_flags = Ok doc' /\
  exists attrs set, from_xml_tree 9 (lib Lxml Ordered) "Shapes" doc' false = Ok (VModel "Shapes" attrs set) /\
    dget "shapes" attrs = Some (VList [VModel "Circle" [("r", VStr "1")] ["r"]; VModel "Square" [("a", VStr "2")] ["a"]]) /\
    dget "note" attrs = Some (VStr "n") /\ dget "author" attrs = Some (VStr "me") /\ dget "version" attrs = None /\ dget "legend" attrs = None.
Proof. eexists. split; [vm_compute; reflexivity|]. eexists _, _. split; [vm_compute; reflexivity|]. repeat split; reflexivity. Qed.

(** ---- non-vacuity: trees of any depth ---- *)

(** the trees of C20 (extra data ignored), and those with a new attribute and a new element *)
Definition old_tree_m : mdef :=
  filling_model "Tree" "tree" false
    [("id", SAttr "id" false); ("label", SElem "label" None Ordered false false);
     ("kids", SHomo "Tree" false (SProxy (sub "Tree" "tree" Ordered)) false)]
    [("id", VNone); ("label", VNone); ("kids", VList [])].
Definition new_tree_m : mdef :=
  filling_model "Tree" "tree" false
    [("id", SAttr "id" false); ("label", SElem "label" None Ordered false false); ("mark", SElem "mark" None Ordered false false);
     ("color", SAttr "color" false); ("kids", SHomo "Tree" false (SProxy (sub "Tree" "tree" Ordered)) false)]
    [("id", VNone); ("label", VNone); ("mark", VNone); ("color", VNone); ("kids", VList [])].
Definition old_forest (b : backend) : env := Env b (fun c => if String.eqb c "Tree" then Some old_tree_m else None).
Definition new_forest (b : backend) : env := Env b (fun c => if String.eqb c "Tree" then Some new_tree_m else None).
Definition new_tree (id label mark color : string) (kids : list val) : val :=
  VModel "Tree" [("id", VStr id); ("label", VStr label); ("mark", VStr mark); ("color", VStr color); ("kids", VList kids)]
         ["id"; "label"; "mark"; "color"; "kids"].

(** a tree and the same tree with marks and colours *)
Inductive marked : val -> val -> Prop :=
| marked_intro : forall id label mark color kids kids', label <> "" -> Forall2 marked kids kids' ->
    marked (tree id label kids) (new_tree id label mark color kids').
Fixpoint marked_ind' (P : val -> val -> Prop)
    (H : forall id label mark color kids kids', label <> "" -> Forall2 marked kids kids' -> Forall2 P kids kids' ->
         P (tree id label kids) (new_tree id label mark color kids'))
    (v v' : val) (t : marked v v') : P v v' :=
  match t in marked v v' return P v v' with
  | marked_intro id mark color N F =>
      H id _ mark color _ _ N F ((fix all l l' (f : Forall2 marked l l') : Forall2 P l l' :=
         match f in Forall2 _ l l' return Forall2 P l l' with
         | Forall2_nil _ => Forall2_nil P
         | Forall2_cons x y hx hl => Forall2_cons x y (@marked_ind' P H x y hx) (all _ _ hl)
         end) _ _ F)
  end.

Definition tree_names (t k : string) : bool := String.eqb k xsi_nil || String.eqb k "id".
Definition mark_tag (t : string) : bool := String.eqb t "mark".
Definition tree_added (cls f : string) : bool := String.eqb f "mark" || String.eqb f "color".
Definition nothing (t : string) : bool := false.

Ltac a_tree E := simpl in E; match type of E with (if String.eqb ?x ?y then _ else _) = _ => destruct (String.eqb_spec x y); [subst; injection E as <-|discriminate E] end.

Lemma tree_takes : forall k, takes_attr old_tree_m k -> tree_names (md_elem_name old_tree_m) k = true.
Proof.
  intros k H. unfold takes_attr in H; simpl in H.
  repeat match goal with X : Exists _ _ |- _ => inversion X; subst; clear X end; simpl in *;
    repeat match goal with X : own_attr _ _ |- _ => inversion X; subst; clear X end; reflexivity.
Qed.

Lemma tree_env : forall b, env_asks mark_tag nothing Ordered (old_forest b) /\ env_attrs tree_names nothing (old_forest b) /\
  wf_env named_tag (fun _ => False) (old_forest b) /\ forbids_nothing (old_forest b) /\ env_lists_ok false (old_forest b) /\
  no_customs (old_forest b) /\ no_customs (new_forest b) /\ names_apart nothing nothing (old_forest b).
Proof.
  intros b. split; [|split; [|split; [|split; [|split; [|split; [|split; [|split]]]]]]].
  - intros cls m E. a_tree E. repeat constructor.
  - intros cls m E. a_tree E. repeat first [apply Forall_nil|apply Forall_cons]; simpl; constructor; try discriminate.
    constructor. split; [reflexivity|]. intros m k E. injection E as <-. apply tree_takes.
  - intros cls m E. a_tree E. repeat constructor; simpl; try discriminate. intros i what H. destruct i as [[]|]; discriminate.
  - intros cls m E. a_tree E. reflexivity.
  - intros cls m E. a_tree E. repeat constructor; simpl; discriminate.
  - intros cls m name E. a_tree E. reflexivity.
  - intros cls m name E. a_tree E. reflexivity.
  - reflexivity.
  - intros cls m name s E I. a_tree E. split; [reflexivity|]. intros t St. simpl in I.
    repeat match type of I with _ \/ _ => destruct I as [I|I] | False => contradiction end; injection I as <- <-;
      repeat match goal with X : step_of _ _ |- _ => inversion X; subst; clear X end.
Qed.

Lemma forest_grows : forall b, evolved mark_tag tree_names tree_added (old_forest b) (new_forest b).
Proof.
  intros b. split; [reflexivity|]. intros cls m E. a_tree E. exists new_tree_m. split; [reflexivity|].
  constructor; try reflexivity; try (split; [reflexivity|discriminate]); try discriminate.
  exists (String.eqb "color"). split.
  - repeat first [apply ef_nil|apply ef_old; [reflexivity|]|apply ef_attr; [reflexivity|reflexivity|]
        |apply ef_child; [reflexivity|constructor; reflexivity|simpl; intros f t I St; intuition (subst; repeat (match goal with X : step_of _ _ |- _ => inversion X; subst; clear X end))|]].
  - intros k t Hk H. apply String.eqb_eq in Hk; subst k. reflexivity.
Qed.

Lemma marked_trimmed : forall b v v', marked v v' -> trimmed_instance (old_forest b) mark_tag "Tree" v (jsonable v) v' (jsonable v').
Proof.
  intros b v v' M. induction M as [id label mark color kids kids' N F IH] using marked_ind'.
  unfold tree, new_tree. eapply ti_fields; [reflexivity|reflexivity|]. simpl. intros name s I.
  destruct I as [I|[I|[I|[]]]]; injection I as <- <-; (split; [a_field|simpl; intuition discriminate]).
  - apply tm_atom; exact I.
  - apply tm_atom; exact I.
  - pose proof (@tm_list (old_forest b) mark_tag "Tree" false (SProxy (sub "Tree" "tree" Ordered)) false
      (map (fun k => (k, jsonable k)) kids) (map (fun k => (k, jsonable k)) kids')) as P.
    rewrite !map_map in P. simpl in P. rewrite !map_id in P. apply P. clear P.
    clear -F IH. induction IH as [|k k' kids kids' T1 F1 IHf]; simpl; [constructor|]. inversion F; subst. constructor; auto. simpl.
    match goal with X : marked k k' |- _ => inversion X; subst end. apply tm_model. exact T1.
Qed.

Lemma marked_kept : forall b v v', marked v v' ->
  exists rs, kept_model (old_forest b) false plain_flags old_tree_m v (jsonable v) rs v.
Proof.
  intros b v v' M. induction M as [id label mark color kids kids' N F IH] using marked_ind'. eexists. unfold tree. simpl.
  eapply kept_plain with (rs := [("id", VStr id); ("label", VStr label); ("kids", list_back kids)]); auto.
  - eapply kept_field; [split; auto; discriminate|reflexivity|reflexivity|eapply kept_attr; reflexivity|right; auto|].
    eapply kept_field; [split; auto; discriminate|reflexivity|reflexivity|eapply kept_elem; try reflexivity; discriminate|right; split; auto|].
    { simpl. unfold text_back. destruct (String.eqb_spec label ""); auto. congruence. }
    eapply kept_field with (r := list_back kids); [split; auto; discriminate|reflexivity|reflexivity| |right; auto|apply kept_no_fields].
    apply kept_list. clear N. revert IH. induction F as [|k k' kids kids' Tk F IHk]; simpl; intros IH; [constructor|].
    inversion IH as [|? ? ? ? (rs & Kk) IH']; subst.
    assert (Nk : exists a s, k = VModel "Tree" a s) by (inversion Tk; unfold tree; eauto). destruct Nk as (a & s & Ek).
    constructor; auto; try (rewrite Ek; discriminate); [rewrite Ek; auto|].
    apply kept_submodel with (m := old_tree_m) (rs := rs); auto; try discriminate.
  - unfold read_data. simpl. destruct kids; reflexivity.
Qed.

Lemma marked_raws : forall v v', marked v v' -> forall n, ~ raw_in n v'.
Proof.
  intros v v' M. induction M as [id label mark color kids kids' N F IH] using marked_ind'. intros n H. unfold new_tree in H.
  inversion H as [| |cls attrs set name x I R]; subst. simpl in I.
  repeat match type of I with _ \/ _ => destruct I as [I|I] | False => contradiction end; injection I as <- <-; inversion R as [|l x I' R'|]; subst.
  clear -IH I' R'. induction IH as [|k k' kids kids' T1 F1 IHf]; simpl in I'; [contradiction|]. destruct I' as [->|I']; auto. eapply T1; eauto.
Qed.

Lemma old_forest_apart : forall b, keeps_apart (old_forest b) false.
Proof.
  intros b cls md E. a_tree E. split; [|repeat constructor]. simpl.
  apply apart_direct; [constructor; discriminate| | | | | | |]; simpl; auto; try discriminate; try tauto.
  apply apart_direct; [apply df_one; constructor| | | | | | |]; simpl; auto; try discriminate; try tauto.
  2:{ intros t [<-|[]] [E|[]]; discriminate. }
  apply apart_direct; [apply df_list; constructor; discriminate| | | | | | |]; simpl; auto; try discriminate; try tauto. constructor.
Qed.

(** whatever the marks and colours, and however deep the tree, the old program reads the tree *)
Example C85_trees : forall b v v', marked v v' -> forall k doc', to_xml_tree k (new_forest b) jsonable v' plain_flags = Ok doc' ->
  exists N, forall n, N <= n -> from_xml_tree n (old_forest b) "Tree" doc' false = Ok v.
Proof.
  intros b v v' M k doc' Wr. destruct (tree_env b) as (H1 & H2 & H3 & H4 & H5 & H6 & H7 & H8). destruct (marked_kept b M) as [rs K].
  pose proof (marked_trimmed b M) as Tr. pose proof (marked_raws M) as Nr.
  assert (X : exists a s a' s', v = VModel "Tree" a s /\ v' = VModel "Tree" a' s') by (inversion M; unfold tree, new_tree; eauto 6).
  destruct X as (a & s & a' & s' & -> & ->).
  eapply (@C85_old_fields_recovered mark_tag tree_names nothing nothing tree_added (old_forest b) (new_forest b) false (forest_grows b) H8 H1 H2 H3 H4 H5 H6 H7
    (old_forest_apart b) "Tree" old_tree_m a' s' a s jsonable jsonable plain_flags k doc' rs); auto using tree_takes.
  - intros n R. destruct (Nr n R).
  - intros n R. destruct (Nr n R).
Qed.

(** ---- the limits ---- *)

Definition read_as (n : nat) (ev : env) (cls : string) (doc : out native) : out val :=
  match doc with Ok d => from_xml_tree n ev cls d false | Raise x => Raise x | Fuel => Fuel end.

Definition one (cls : string) (m : mdef) (others : string -> option mdef) : env :=
  Env Lxml (fun c => if String.eqb c cls then Some m else others c).

(** A new element between two fields under the same wrapper: the wrapper is written twice, and the old classes do not
    find the second field. *)
Theorem C85_new_field_inside_wrapper_refuted : exists cls m m' v v' t,
  md_fields m = [("a", SWrap ["meta"] None Ordered false (SElem "a" None Ordered false false));
                 ("b", SWrap ["meta"] None Ordered false (SElem "b" None Ordered false false))] /\
  md_fields m' = [("a", SWrap ["meta"] None Ordered false (SElem "a" None Ordered false false));
                  ("new", SElem "new" None Ordered false false);
                  ("b", SWrap ["meta"] None Ordered false (SElem "b" None Ordered false false))] /\
  v = VModel cls [("a", VStr "1"); ("b", VStr "2")] ["a"; "b"] /\
  v' = VModel cls [("a", VStr "1"); ("new", VStr t); ("b", VStr "2")] ["a"; "new"; "b"] /\
  let old := one cls m (fun _ => None) in
  read_as 9 old cls (to_xml_tree 9 old enc_of v plain_flags) = Ok v /\
  read_as 9 old cls (to_xml_tree 9 (one cls m' (fun _ => None)) enc_of v' plain_flags) = Ok (VModel cls [("a", VStr "1")] ["a"]).
Proof.
  exists "M", (plain_model "M" "m" [("a", SWrap ["meta"] None Ordered false (SElem "a" None Ordered false false));
                 ("b", SWrap ["meta"] None Ordered false (SElem "b" None Ordered false false))] []),
    (plain_model "M" "m" [("a", SWrap ["meta"] None Ordered false (SElem "a" None Ordered false false));
                  ("new", SElem "new" None Ordered false false);
                  ("b", SWrap ["meta"] None Ordered false (SElem "b" None Ordered false false))] []). eexists _, _, "3".
  split; [reflexivity|]. split; [reflexivity|]. split; [reflexivity|]. split; [reflexivity|]. split; vm_compute; reflexivity.
Qed.

(** With skip_empty the element of a sub-model may be there because of a new attribute only. *)
Theorem C85_skip_empty_refuted : exists cls m part part' v v',
  md_fields m = [("part", SProxy (sub "Part" "part" Ordered))] /\
  md_fields part = [("a", SAttr "a" false)] /\ md_fields part' = [("a", SAttr "a" false); ("new", SAttr "new" false)] /\
  v = VModel cls [("part", VModel "Part" [("a", VNone)] ["a"])] ["part"] /\
  v' = VModel cls [("part", VModel "Part" [("a", VNone); ("new", VStr "1")] ["a"; "new"])] ["part"] /\
  let with_ p := one cls m (fun c => if String.eqb c "Part" then Some p else None) in
  read_as 9 (with_ part) cls (to_xml_tree 9 (with_ part) enc_of v (Flags true false false)) = Ok (VModel cls [] []) /\
  read_as 9 (with_ part) cls (to_xml_tree 9 (with_ part') enc_of v' (Flags true false false)) =
    Ok (VModel cls [("part", VModel "Part" [] [])] ["part"]).
Proof.
  exists "M", (plain_model "M" "m" [("part", SProxy (sub "Part" "part" Ordered))] []), (plain_model "Part" "part" [("a", SAttr "a" false)] []),
    (plain_model "Part" "part" [("a", SAttr "a" false); ("new", SAttr "new" false)] []). eexists _, _.
  split; [reflexivity|]. split; [reflexivity|]. split; [reflexivity|]. split; [reflexivity|]. split; [reflexivity|]. split; vm_compute; reflexivity.
Qed.

(** In strict mode, the default, a new element hides the old ones that follow it; with extra='forbid' it is an error. *)
Theorem C85_strict_or_forbidden_refuted : exists cls old new forbidding v v' err,
  (forall mo, md_fields (old mo) = [("a", SElem "a" None mo false false)]) /\ md_fields forbidding = md_fields (old Ordered) /\
  (forall mo, md_fields (new mo) = [("new", SElem "new" None mo false false); ("a", SElem "a" None mo false false)]) /\
  v = VModel cls [("a", VStr "1")] ["a"] /\ v' = VModel cls [("new", VStr "2"); ("a", VStr "1")] ["new"; "a"] /\
  (forall mo, read_as 9 (one cls (old mo) (fun _ => None)) cls (to_xml_tree 9 (one cls (old mo) (fun _ => None)) enc_of v plain_flags) = Ok v) /\
  read_as 9 (one cls (old Ordered) (fun _ => None)) cls (to_xml_tree 9 (one cls (new Ordered) (fun _ => None)) enc_of v' plain_flags) = Ok v /\
  read_as 9 (one cls (old Strict) (fun _ => None)) cls (to_xml_tree 9 (one cls (new Strict) (fun _ => None)) enc_of v' plain_flags) = Ok (VModel cls [] []) /\
  read_as 9 (one cls forbidding (fun _ => None)) cls (to_xml_tree 9 (one cls (new Ordered) (fun _ => None)) enc_of v' plain_flags) = Raise (XValidation err).
Proof.
  exists "M", (fun mo => plain_model "M" "m" [("a", SElem "a" None mo false false)] []),
    (fun mo => plain_model "M" "m" [("new", SElem "new" None mo false false); ("a", SElem "a" None mo false false)] []),
    (MDef "M" false "m" None [("a", SElem "a" None Ordered false false)] [] [] false true None (fun _ => None) (fun _ => None) (accepts "M" [])).
  eexists _, _, _. split; [reflexivity|]. split; [reflexivity|]. split; [reflexivity|]. split; [reflexivity|]. split; [reflexivity|].
  split; [intros []; vm_compute; reflexivity|]. split; [vm_compute; reflexivity|]. split; vm_compute; reflexivity.
Qed.
Print Assumptions C85_new_field_inside_wrapper_refuted.
Print Assumptions C85_skip_empty_refuted.
Print Assumptions C85_strict_or_forbidden_refuted.
