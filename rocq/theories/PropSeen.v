(** PropSeen.v -- C88: only what the declared fields hold gets into a document. *)

From Verif Require Import Base Elem Native Errs Names Ser Write Read Api SpecElem SpecRead SpecSeen PfSeen Samples PropWrite PropRound.

(** C88.  Two instances of a class that look the same through its fields ([seen_inst]) are written as the same document,
    or raise the same exception.  Whatever else they hold does not matter: attributes no field is bound to, excluded
    fields, with exclude_unset also unset ones, the order of the attributes, the Python type of a value with the same
    encoding, and, where a field is declared with a class, the class of the instance it holds. *)
Theorem C88_only_fields_matter : forall ev cls v v' encode encode' fl,
  model_type v = Some cls -> model_type v' = Some cls -> seen_inst ev (fl_exclude_unset fl) cls v (encode v) v' (encode' v') ->
  forall n, to_xml_tree n ev encode v fl = to_xml_tree n ev encode' v' fl.
Proof. intros ev cls v v' encode encode' fl T T' H n. eapply to_xml_seen; eauto. Qed.
Print Assumptions C88_only_fields_matter.

(** the part of a dict under given names *)
Definition only {A} (names : list string) (d : dict A) : dict A := filter (fun kv => str_in (fst kv) names) d.

Lemma dget_only : forall A names k (d : dict A), str_in k names = true -> dget k (only names d) = dget k d.
Proof.
  intros A names k d H. induction d as [|[a x] d IH]; simpl; auto. destruct (str_in a names) eqn:E; simpl.
  - destruct (String.eqb k a); auto.
  - destruct (String.eqb_spec k a) as [->|N]; auto. congruence.
Qed.

Lemma str_in_field : forall A name (s : A) fs, In (name, s) fs -> str_in name (map fst fs) = true.
Proof.
  intros A name s fs H. unfold str_in. apply existsb_exists. exists name. split; [apply (in_map fst) in H; exact H|apply String.eqb_refl].
Qed.

(** C88, the declared part.  Where a field is declared with class [k], an instance of any class looks like the instance of
    [k] that has the attributes named by the fields of [k] and no others: what a subclass adds is not written. *)
Theorem C88_declared_part : forall ev u k m c attrs set d, en_model ev k = Some m -> md_root m = false ->
  (forall name, md_cser m name = None) ->
  let names := map fst (md_fields m) in
  seen_inst ev u k (VModel c attrs set) (VDict d) (VModel k (only names attrs) (filter (fun n => str_in n names) set)) (VDict (only names d)).
Proof.
  intros ev u k m c attrs set d Em Rt Cs names. eapply si_fields; eauto. intros name s I _.
  assert (N : str_in name names = true) by (eapply str_in_field; eauto). rewrite !dget_only by auto. split.
  - intros _. clear -N. induction set as [|a set IH]; simpl; auto. destruct (str_in a names) eqn:E; simpl; [rewrite IH; auto|].
    destruct (String.eqb_spec name a) as [->|Q]; [congruence|]. simpl. auto.
  - intros _. split; [tauto|]. split; [intros f x x' Q; rewrite Cs in Q; discriminate|]. intros _. split; [tauto|].
    intros x x' y y' -> E -> E'. injection E as <-. injection E' as <-. apply sa_same.
Qed.
Print Assumptions C88_declared_part.

(** C88, for a document: two instances of a class without field serializers that agree on the attributes, encodings and
    set flags of its fields are written alike *)
Theorem C88_unbound_attributes : forall ev cls m attrs set attrs' set' d d' encode encode' fl, en_model ev cls = Some m -> md_root m = false ->
  (forall name, md_cser m name = None) ->
  encode (VModel cls attrs set) = VDict d -> encode' (VModel cls attrs' set') = VDict d' ->
  (forall name, In name (map fst (md_fields m)) -> str_in name (md_sexclude m) = false ->
     dget name attrs = dget name attrs' /\ dget name d = dget name d' /\ str_in name set = str_in name set') ->
  forall n, to_xml_tree n ev encode (VModel cls attrs set) fl = to_xml_tree n ev encode' (VModel cls attrs' set') fl.
Proof.
  intros ev cls m attrs set attrs' set' d d' encode encode' fl Em Rt Cs E E' H. eapply C88_only_fields_matter; try reflexivity. rewrite E, E'.
  eapply si_fields; eauto. intros name s I X. destruct (H name (in_map fst _ _ I) X) as (A & B & C). simpl in A, B, C.
  split; auto. intros _. rewrite A, B. split; [tauto|]. split; [intros f x x' Q; rewrite Cs in Q; discriminate|]. intros _. split; [tauto|].
  intros x x' y y' G G' K K'. assert (x' = x) by congruence. assert (y' = y) by congruence. subst. apply sa_same.
Qed.
Print Assumptions C88_unbound_attributes.

(** ---- non-vacuity: trees whose nodes are of any classes and hold any further attributes ---- *)

Inductive clothed : val -> val -> Prop :=
| clothed_intro : forall id label kids kids' c extra set, Forall2 clothed kids kids' ->
    clothed (tree id label kids) (VModel c ([("kids", VList kids'); ("id", VStr id); ("label", VStr label)] ++ extra) set).

Fixpoint clothed_ind' (P : val -> val -> Prop)
    (H : forall id label kids kids' c extra set, Forall2 clothed kids kids' -> Forall2 P kids kids' ->
       P (tree id label kids) (VModel c ([("kids", VList kids'); ("id", VStr id); ("label", VStr label)] ++ extra) set))
    (v w : val) (t : clothed v w) : P v w :=
  match t in clothed v w return P v w with
  | clothed_intro id label c extra set F =>
      H id label _ _ c extra set F ((fix all l l' (f : Forall2 clothed l l') : Forall2 P l l' :=
         match f in Forall2 _ l l' return Forall2 P l l' with
         | Forall2_nil _ => Forall2_nil P
         | Forall2_cons x y hx hl => Forall2_cons x y (@clothed_ind' P H x y hx) (all _ _ hl)
         end) _ _ F)
  end.

Lemma clothed_seen : forall b m v w, clothed v w -> seen_inst (forest b m) false "Tree" v (jsonable v) w (jsonable w).
Proof.
  intros b m v w H. induction H as [id label kids kids' c extra set F IH] using clothed_ind'. unfold tree. simpl.
  eapply si_fields; [reflexivity|reflexivity|]. intros name s I _. split; [discriminate|]. intros _.
  simpl in I. destruct I as [I|[I|[I|[]]]]; injection I as <- <-; simpl;
    (split; [split; discriminate|split; [discriminate|]]); intros _; (split; [split; discriminate|]);
    intros x x' y y' X X' Y Y'; injection X as <-; injection X' as <-; injection Y as <-; injection Y' as <-; try apply sa_same.
  set (p := fun v => (v, jsonable v)).
  replace kids with (map fst (map p kids)) at 1 by (rewrite map_map; simpl; apply map_id).
  replace (map jsonable kids) with (map snd (map p kids)) by (rewrite map_map; reflexivity).
  replace kids' with (map fst (map p kids')) at 1 by (rewrite map_map; simpl; apply map_id).
  replace (map jsonable kids') with (map snd (map p kids')) by (rewrite map_map; reflexivity).
  apply sa_list. clear -IH. induction IH as [|a b' l l' Ha Hl IH]; simpl; constructor; auto. apply sa_proxy. exact Ha.
Qed.

(** of any depth and width, in all modes, with both back ends *)
Example C88_trees : forall b m n v w skip none, clothed v w -> model_type w = Some "Tree" ->
  to_xml_tree n (forest b m) jsonable v (Flags skip none false) = to_xml_tree n (forest b m) jsonable w (Flags skip none false).
Proof.
  intros b m n v w skip none H T. apply (@C88_only_fields_matter (forest b m) "Tree" v w jsonable jsonable (Flags skip none false)); auto.
  - inversion H; reflexivity.
  - apply clothed_seen; auto.
Qed.

(** class Oak(Tree): age: str = attr() inside a Tree, and a private attribute *)
Example C88_ex : clothed (tree "1" "a" [tree "2" "b" []])
    (VModel "Tree" [("kids", VList [VModel "Oak" [("kids", VList []); ("id", VStr "2"); ("label", VStr "b"); ("age", VStr "100")] ["id"; "age"]]);
                    ("id", VStr "1"); ("label", VStr "a"); ("_cache", VInt 3)] []) /\
  to_xml_tree 9 (forest Lxml Strict) jsonable
    (VModel "Tree" [("kids", VList [VModel "Oak" [("kids", VList []); ("id", VStr "2"); ("label", VStr "b"); ("age", VStr "100")] ["id"; "age"]]);
                    ("id", VStr "1"); ("label", VStr "a"); ("_cache", VInt 3)] []) (Flags false false false) =
  Ok (NElem "tree" [] None None [("id", "1")]
       [NElem "label" [] (Some "a") None [] [] None;
        NElem "tree" [] None None [("id", "2")] [NElem "label" [] (Some "b") None [] [] None] None] None).
Proof.
  split; [|vm_compute; reflexivity].
  apply (@clothed_intro "1" "a" _ _ "Tree" [("_cache", VInt 3)] []). constructor; [|constructor].
  apply (@clothed_intro "2" "b" _ _ "Oak" [("age", VStr "100")] ["id"; "age"]). constructor.
Qed.

(** ---- limits ---- *)

(** in a union of models the class of the instance counts: an instance of a subclass of a variant is not written at all,
    and no exception is raised *)
Theorem C88_union_refuted : exists ev cls v v' doc doc',
  (exists m p, en_model ev cls = Some m /\ md_fields m = [("shape", SUnionModel cls false [p] false)] /\
     exists a, v = VModel cls [("shape", VModel (px_model p) a ["r"])] ["shape"] /\ v' = VModel cls [("shape", VModel "Wheel" a ["r"])] ["shape"]) /\
  to_xml_tree 9 ev jsonable v (Flags false false false) = Ok doc /\ to_xml_tree 9 ev jsonable v' (Flags false false false) = Ok doc' /\
  doc = NElem "box" [] None None [] [NElem "circle" [] None None [("r", "1")] [] None] None /\ doc' = NElem "box" [] None None [] [] None.
Proof.
  exists (classes Lxml [plain_model "Box" "box" [("shape", SUnionModel "Box" false [sub "Circle" "circle" Strict] false)] []; circle Strict]), "Box",
    (VModel "Box" [("shape", VModel "Circle" [("r", VStr "1")] ["r"])] ["shape"]), (VModel "Box" [("shape", VModel "Wheel" [("r", VStr "1")] ["r"])] ["shape"]).
  do 2 eexists. split; [|split; [vm_compute; reflexivity|split; [vm_compute; reflexivity|split; reflexivity]]].
  do 2 eexists. split; [reflexivity|]. split; [reflexivity|]. eexists. split; reflexivity.
Qed.
Print Assumptions C88_union_refuted.
