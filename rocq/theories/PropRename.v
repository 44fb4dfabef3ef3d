(** PropRename.v -- C87: the Python names of classes and fields do not matter. *)

From Verif Require Import Base Elem Native Errs Names Fields Ser Build Write Read Api SpecElem SpecRead SpecSim SpecRename
  PfRename PfRename2 PfRename3 Samples PropWrite PropRead2 PropRound.

(** C87.  The same classes under other Python names ([renamed_env]: classes and fields renamed one to one, XML names,
    validation and user functions the same up to renaming).  Reading a document with the renamed classes gives the
    renamed value, or the same exception with renamed locations. *)
Theorem C87_reading : forall R ev ev', one_to_one R -> renamed_env R ev ev' ->
  forall n cls root eas, renamed_out R (from_xml_tree n ev cls root eas) (from_xml_tree n ev' (rn_cls R cls) root eas).
Proof. intros R ev ev' HR HE n cls root eas. apply from_xml_like; auto. Qed.
Print Assumptions C87_reading.

(** C87.  Writing the renamed value ([renamed_inst]: with its encoding renamed alike) gives the same document, or the
    same exception. *)
Theorem C87_writing : forall R ev ev', one_to_one R -> renamed_env R ev ev' ->
  forall n cls v v' encode encode' fl, model_type v = Some cls -> renamed_inst R ev cls v (encode v) v' (encode' v') ->
  to_xml_tree n ev encode v fl = to_xml_tree n ev' encode' v' fl.
Proof. intros R ev ev' HR HE n cls v v' encode encode' fl M I. eapply to_xml_like; eauto. Qed.
Print Assumptions C87_writing.

(** C87, both: a value that comes back as [w] from its document comes back, renamed, as [w] renamed. *)
Theorem C87_round_trip : forall R ev ev', one_to_one R -> renamed_env R ev ev' ->
  forall n cls v v' encode encode' fl eas doc w, model_type v = Some cls -> renamed_inst R ev cls v (encode v) v' (encode' v') ->
  to_xml_tree n ev encode v fl = Ok doc -> from_xml_tree n ev cls doc eas = Ok w ->
  to_xml_tree n ev' encode' v' fl = Ok doc /\ exists w', from_xml_tree n ev' (rn_cls R cls) doc eas = Ok w' /\ renamed R w w'.
Proof.
  intros R ev ev' HR HE n cls v v' encode encode' fl eas doc w M I W Rd. split.
  - rewrite <- (@C87_writing R ev ev' HR HE n cls v v' encode encode' fl M I). exact W.
  - assert (H := @C87_reading R ev ev' HR HE n cls doc eas). rewrite Rd in H.
    destruct (from_xml_tree n ev' (rn_cls R cls) doc eas) as [w'|x|]; simpl in H; try contradiction. eauto.
Qed.
Print Assumptions C87_round_trip.

(** C87, the declarations.  Two sets of declarations that differ in Python names only: classes with the same parameters
    ([renamed_infos]; a class gets another name only if it has a tag) and core schemas with renamed classes and fields
    ([renamed_top]; a field gets another name only if its XML name does not come from it, [name_free]).  What is built
    of a class is the renamed one, or the same exception is raised. *)
Theorem C87_declarations : forall R P cl cl' ev ev', one_to_one R -> (forall a b, P a = P b -> a = b) ->
  renamed_infos R cl cl' -> renamed_env R ev ev' ->
  forall n c i i' s s', cl c = Some i -> renamed_info R c i i' -> renamed_top R P cl s s' ->
  rn_out (fun b b' => exists k, renamed_bmodel R k b b') (build_class cl ev n i s) (build_class cl' ev' n i' s').
Proof. intros R P cl cl' ev ev' HR HP HC HE n c i i' s s' Hi HI Hs. eapply build_class_like; eauto. Qed.
Print Assumptions C87_declarations.

(** and what is built of renamed declarations, with user functions and validation that are the same up to renaming, are
    renamed classes as the other theorems ask for *)
Theorem C87_classes : forall R c b b' name forbid skip cser cser' cval cval' validate validate' G,
  renamed_bmodel R c b b' ->
  (forall f, match cser f, cser' (rn_field R c f) with
    | Some g, Some g' => forall v v' x x' e, renamed R v v' -> renamed R x x' -> g v e x = g' v' e x'
    | None, None => True | _, _ => False end) ->
  (forall f, match cval f, cval' (rn_field R c f) with
    | Some g, Some g' => forall e, renamed_out R (fst (g e)) (fst (g' e)) /\ snd (g e) = snd (g' e)
    | None, None => True | _, _ => False end) ->
  (forall x y : string, G x = G y -> x = y) ->
  (forall f, In f (map fst (bm_fields b)) -> match dget f (bm_valias b) with Some a => G a = a | None => G f = rn_field R c f end) ->
  (bm_root b = false -> forall d d', Forall2 (fun a b => fst b = G (fst a) /\ renamed R (snd a) (snd b)) d d' ->
     renamed_verdict R (validate (Some (VDict d))) (validate' (Some (VDict d')))) ->
  (bm_root b = true -> renamed_verdict R (validate None) (validate' None) /\
     forall v v', renamed R v v' -> renamed_verdict R (validate (Some v)) (validate' (Some v'))) ->
  renamed_class R c (mdef_of b name forbid skip cser cval validate) (mdef_of b' (rn_cls R name) forbid skip cser' cval' validate').
Proof.
  intros R c b b' name forbid skip cser cser' cval cval' validate validate' G H S V I K D T. destruct H.
  constructor; simpl; auto. exists G. split; [exact I|]. split; [|split; auto].
  intros f Hf. unfold data_key. simpl. rewrite rb_valias. specialize (K f Hf). destruct (dget f (bm_valias b)); auto.
Qed.
Print Assumptions C87_classes.

(** ---- renamings for the examples: exchange names ---- *)

Definition exchange (a b s : string) : string := if String.eqb s a then b else if String.eqb s b then a else s.

Lemma exchange_twice : forall a b s, exchange a b (exchange a b s) = s.
Proof.
  intros a b s. unfold exchange. destruct (String.eqb_spec s a) as [->|N1].
  - destruct (String.eqb_spec b a) as [->|N]; auto. rewrite String.eqb_refl. auto.
  - destruct (String.eqb_spec s b) as [->|N2].
    + rewrite String.eqb_refl. auto.
    + destruct (String.eqb_spec s a); try contradiction. destruct (String.eqb_spec s b); try contradiction. auto.
Qed.

Fixpoint exchanges (l : list (string * string)) (s : string) : string :=
  match l with [] => s | (a, b) :: rest => exchanges rest (exchange a b s) end.

Lemma exchanges_one : forall l s t, exchanges l s = exchanges l t -> s = t.
Proof.
  induction l as [|[a b] l IH]; simpl; intros s t E; auto. apply IH in E.
  rewrite <- (exchange_twice a b s), E. apply exchange_twice.
Qed.

Definition by_exchange (classes_ : list (string * string)) (fields : string -> list (string * string)) : renaming :=
  Renaming (exchanges classes_) (fun c => exchanges (fields c)).

Lemma by_exchange_one : forall k f, one_to_one (by_exchange k f).
Proof. intros k f. split; simpl; intros; eapply exchanges_one; eauto. Qed.

(** classes validated by [accepts] or [fills] are renamed with their fields *)
Lemma dget_renamed : forall R (f : string -> string), (forall a b, f a = f b -> a = b) -> forall d d' k,
  Forall2 (fun a b => fst b = f (fst a) /\ renamed R (snd a) (snd b)) d d' ->
  match dget k d, dget (f k) d' with Some x, Some y => renamed R x y | None, None => True | _, _ => False end.
Proof.
  intros R f I d d' k H. induction H as [|[a x] [b y] d d' [E Hx] H IH]; simpl in *; auto. subst b.
  destruct (String.eqb_spec k a) as [->|N]; [rewrite String.eqb_refl; auto|].
  destruct (String.eqb_spec (f k) (f a)) as [Q|_]; auto. apply I in Q. contradiction.
Qed.

Lemma dkeys_renamed : forall R (f : string -> string) d d', Forall2 (fun a b => fst b = f (fst a) /\ renamed R (snd a) (snd b)) d d' ->
  dkeys d' = map f (dkeys d).
Proof. intros R f d d' H. induction H as [|[a x] [b y] d d' [E Hx] H IH]; simpl in *; auto. unfold dkeys in *. simpl. congruence. Qed.

Lemma accepts_renamed : forall R c required d d', one_to_one R ->
  Forall2 (fun a b => fst b = rn_field R c (fst a) /\ renamed R (snd a) (snd b)) d d' ->
  renamed_verdict R (accepts c required (Some (VDict d))) (accepts (rn_cls R c) (map (rn_field R c) required) (Some (VDict d'))).
Proof.
  intros R c required d d' HR H. simpl.
  assert (M : forall k, dmem (rn_field R c k) d' = dmem k d).
  { intros k. unfold dmem. generalize (@dget_renamed R _ (proj2 HR c) d d' k H). destruct (dget k d), (dget (rn_field R c k) d'); tauto. }
  replace (filter (fun k => negb (dmem k d')) (map (rn_field R c) required)) with (map (rn_field R c) (filter (fun k => negb (dmem k d)) required)).
  2:{ induction required as [|k required IH]; simpl; auto. rewrite M, <- IH. destruct (dmem k d); auto. }
  destruct (filter (fun k => negb (dmem k d)) required) as [|m ms]; simpl.
  - rewrite (@dkeys_renamed R _ d d' H). constructor; auto.
  - split; auto. simpl. constructor; [|induction ms; simpl; constructor; auto];
      (split; [reflexivity|split; [constructor|constructor; [simpl; eauto|constructor]]]).
Qed.

Lemma plain_renamed : forall R c tag fs fs' required, one_to_one R ->
  Forall2 (fun a b => fst b = rn_field R c (fst a) /\ renamed_ser R (snd a) (snd b)) fs fs' ->
  renamed_class R c (plain_model c tag fs required) (plain_model (rn_cls R c) tag fs' (map (rn_field R c) required)).
Proof.
  intros R c tag fs fs' required HR H. constructor; simpl; auto. exists (rn_field R c). split; [apply HR|]. split; [auto|]. split; [|discriminate].
  intros _ d d' Hd. apply accepts_renamed; auto.
Qed.

Lemma fills_renamed : forall R c tag forbid fs fs' defaults defaults', one_to_one R ->
  Forall2 (fun a b => fst b = rn_field R c (fst a) /\ renamed_ser R (snd a) (snd b)) fs fs' ->
  Forall2 (fun a b => fst b = rn_field R c (fst a) /\ renamed R (snd a) (snd b)) defaults defaults' ->
  renamed_class R c (filling_model c tag forbid fs defaults) (filling_model (rn_cls R c) tag forbid fs' defaults').
Proof.
  intros R c tag forbid fs fs' defaults defaults' HR H HD. constructor; simpl; auto. exists (rn_field R c). split; [apply HR|]. split; [auto|]. split; [|discriminate].
  intros _ d d' Hd. simpl.
  replace (map fst defaults') with (map (rn_field R c) (map fst defaults)).
  2:{ clear -HD. induction HD as [|a b l l' [E _] F IH]; simpl; congruence. }
  constructor. induction HD as [|[a x] [b y] l l' [E Hx] F IH]; simpl in *; constructor; auto. subst b. split; auto. simpl.
  generalize (@dget_renamed R _ (proj2 HR c) d d' a Hd). destruct (dget a d), (dget (rn_field R c a) d'); tauto.
Qed.

(** ---- non-vacuity: the recursive Tree, its fields and its class renamed ---- *)

(** class Plant(tag='tree', extra='forbid'): key: str = attr('id'); title: str = element('label');
    branches: List['Plant'] = element('tree') *)
Definition to_plants : renaming := by_exchange [("Tree", "Plant")] (fun _ => [("id", "key"); ("label", "title"); ("kids", "branches")]).

Definition plants (b : backend) (m : smode) : env :=
  Env b (fun c => if String.eqb c "Plant" then Some (filling_model "Plant" "tree" true
    [("key", SAttr "id" false); ("title", SElem "label" None m false false);
     ("branches", SHomo "Plant" false (SProxy (sub "Plant" "tree" m)) false)]
    [("key", VNone); ("title", VNone); ("branches", VList [])]) else None).

Definition plant (key title : string) (branches : list val) : val :=
  VModel "Plant" [("key", VStr key); ("title", VStr title); ("branches", VList branches)] ["key"; "title"; "branches"].

Lemma forest_renamed : forall b m, renamed_env to_plants (forest b m) (plants b m).
Proof.
  intros b m. split; [reflexivity|]. intros c. unfold forest, plants. cbn [en_model].
  destruct (String.eqb_spec c "Tree") as [->|N].
  - change (rn_cls to_plants "Tree") with "Plant". cbn [String.eqb Ascii.eqb Bool.eqb].
    apply (@fills_renamed to_plants "Tree"); [apply by_exchange_one| |].
    + repeat (apply Forall2_cons || apply Forall2_nil); (split; [reflexivity|]); simpl; try constructor.
      constructor. repeat split.
    + repeat (apply Forall2_cons || apply Forall2_nil); (split; [reflexivity|]); simpl; try (apply rn_same; discriminate).
      apply rn_list. constructor.
  - replace (String.eqb (rn_cls to_plants c) "Plant") with false; auto.
    symmetry. apply String.eqb_neq. intros E. apply N.
    apply (proj1 (by_exchange_one [("Tree", "Plant")] (fun _ => [("id", "key"); ("label", "title"); ("kids", "branches")]))). exact E.
Qed.

(** the tree [v] as a plant *)
Inductive as_plant : val -> val -> Prop :=
| as_plant_intro : forall id label kids kids', Forall2 as_plant kids kids' -> as_plant (tree id label kids) (plant id label kids').

Fixpoint as_plant_ind' (P : val -> val -> Prop)
    (H : forall id label kids kids', Forall2 as_plant kids kids' -> Forall2 P kids kids' -> P (tree id label kids) (plant id label kids'))
    (v w : val) (t : as_plant v w) : P v w :=
  match t in as_plant v w return P v w with
  | as_plant_intro id label F =>
      H id label _ _ F ((fix all l l' (f : Forall2 as_plant l l') : Forall2 P l l' :=
         match f in Forall2 _ l l' return Forall2 P l l' with
         | Forall2_nil _ => Forall2_nil P
         | Forall2_cons x y hx hl => Forall2_cons x y (@as_plant_ind' P H x y hx) (all _ _ hl)
         end) _ _ F)
  end.

Lemma as_plant_renamed : forall v w, as_plant v w -> renamed to_plants v w.
Proof.
  intros v w H. induction H as [id label kids kids' F IH] using as_plant_ind'. unfold tree, plant.
  apply (@rn_model to_plants "Tree"). repeat (apply Forall2_cons || apply Forall2_nil); (split; [reflexivity|]); simpl;
    try (apply rn_same; discriminate). apply rn_list. exact IH.
Qed.

Lemma as_plant_inst : forall b m v w, as_plant v w -> renamed_inst to_plants (forest b m) "Tree" v (jsonable v) w (jsonable w).
Proof.
  intros b m v w H. induction H as [id label kids kids' F IH] using as_plant_ind'.
  assert (V := as_plant_renamed (as_plant_intro id label F)). unfold tree, plant in *. simpl.
  apply (@ri_fields to_plants (forest b m) "Tree" (tree_m m) "Tree" _ _ ["id"; "label"; "kids"]); auto.
  intros name s x x' y y' I X X' Y Y'. { simpl in I. destruct I as [I|[I|[I|[]]]]; injection I as <- <-; simpl in *;
      injection X as <-; injection X' as <-; injection Y as <-; injection Y' as <-; try (apply ra_leaf; exact Logic.I).
    set (p := fun v => (v, jsonable v)).
    replace kids with (map fst (map p kids)) at 1 by (rewrite map_map; simpl; apply map_id).
    replace (map jsonable kids) with (map snd (map p kids)) by (rewrite map_map; reflexivity).
    replace kids' with (map fst (map p kids')) at 1 by (rewrite map_map; simpl; apply map_id).
    replace (map jsonable kids') with (map snd (map p kids')) by (rewrite map_map; reflexivity).
    apply ra_list. clear -IH. induction IH as [|u v l l' Hu Hl IH]; simpl; constructor; auto. apply ra_proxy. exact Hu. }
Qed.

(** every tree, of any depth and width, gives the same document under either name *)
Example C87_trees : forall b m n fl v w, as_plant v w -> to_xml_tree n (forest b m) jsonable v fl = to_xml_tree n (plants b m) jsonable w fl.
Proof.
  intros b m n fl v w H. apply (@C87_writing to_plants (forest b m) (plants b m) (by_exchange_one _ _) (forest_renamed b m) n "Tree").
  - inversion H; reflexivity.
  - apply as_plant_inst; auto.
Qed.

Example C87_trees_read : forall b m n eas doc v, from_xml_tree n (forest b m) "Tree" doc eas = Ok v ->
  exists w, from_xml_tree n (plants b m) "Plant" doc eas = Ok w /\ renamed to_plants v w.
Proof.
  intros b m n eas doc v E. assert (H := @C87_reading to_plants _ _ (by_exchange_one _ _) (forest_renamed b m) n "Tree" doc eas).
  rewrite E in H. change (rn_cls to_plants "Tree") with "Plant" in H. destruct (from_xml_tree n (plants b m) "Plant" doc eas); simpl in H; try contradiction. eauto.
Qed.

Example C87_ex : forall b m,
  to_xml_tree 12 (plants b m) jsonable (plant "1" "a" [plant "2" "b" []; plant "3" "c" [plant "4" "d" []]]) (Flags false false false) =
  to_xml_tree 12 (forest b m) jsonable (tree "1" "a" [tree "2" "b" []; tree "3" "c" [tree "4" "d" []]]) (Flags false false false) /\
  from_xml_tree 12 (plants b m) "Plant" (el "tree" [("id", "1")] "" [el "label" [] "a" []; el "tree" [("id", "2")] "" [el "label" [] "b" []]]) false =
  Ok (plant "1" "a" [plant "2" "b" []]).
Proof. intros b m. split; destruct b, m; vm_compute; reflexivity. Qed.

(** a union, a wrapped field, a raw field, an error *)
Definition to_figures : renaming := by_exchange [("Shapes", "Figures"); ("Circle", "Disc"); ("Node", "Knot")]
  (fun c => if String.eqb c "Shapes" then [("shapes", "figures"); ("note", "remark"); ("extra", "rest")]
            else if String.eqb c "Circle" then [("r", "radius")] else if String.eqb c "Node" then [("value", "amount"); ("children", "knots")] else []).

Definition figures (b : backend) (m : smode) : env :=
  Env b (fun c => if String.eqb c "Knot" then Some (plain_model "Knot" "node"
                    [("id", SAttr "id" false); ("amount", SElem "value" None m false false);
                     ("knots", SHomo "Knot" false (SProxy (sub "Knot" "node" m)) false)] ["amount"])
                  else if String.eqb c "Disc" then Some (plain_model "Disc" "circle" [("radius", SAttr "r" false)] ["radius"])
                  else if String.eqb c "Square" then Some (square m)
                  else if String.eqb c "Figures" then Some (plain_model "Figures" "shapes"
                    [("figures", SHomo "Figures" false
                        (SUnionModel "Figures" false [sub "Disc" "circle" m; sub "Square" "square" m] false) false);
                     ("remark", SWrap ["meta"] None m false (SElem "note" None m false false));
                     ("author", SWrap ["meta"] None m false (SElem "author" None m false true));
                     ("rest", SRaw "extra" m false)] ["figures"])
                  else None).

Lemma figures_renamed : forall b m, renamed_env to_figures (lib b m) (figures b m).
Proof.
  intros b m. split; [reflexivity|]. intros c.
  assert (HR : one_to_one to_figures) by apply by_exchange_one.
  unfold lib, figures. cbn [en_model].
  destruct (String.eqb_spec c "Node") as [->|N1]; [|destruct (String.eqb_spec c "Circle") as [->|N2]; [|destruct (String.eqb_spec c "Square") as [->|N3];
    [|destruct (String.eqb_spec c "Shapes") as [->|N4]]]].
  1: change (rn_cls to_figures "Node") with "Knot".
  2: change (rn_cls to_figures "Circle") with "Disc".
  3: change (rn_cls to_figures "Square") with "Square".
  4: change (rn_cls to_figures "Shapes") with "Figures".
  1: apply (@plain_renamed to_figures "Node"); auto.
  2: apply (@plain_renamed to_figures "Circle"); auto.
  3: apply (@plain_renamed to_figures "Square"); auto.
  4: apply (@plain_renamed to_figures "Shapes"); auto.
  1-4: repeat (apply Forall2_cons || apply Forall2_nil); (split; [reflexivity|]); simpl; repeat constructor.
  { assert (X : forall a, rn_cls to_figures c = rn_cls to_figures a -> c = a) by apply HR.
    destruct (String.eqb_spec (rn_cls to_figures c) "Knot") as [E|_]; [exfalso; apply N1, X; exact E|].
    destruct (String.eqb_spec (rn_cls to_figures c) "Disc") as [E|_]; [exfalso; apply N2, X; exact E|].
    destruct (String.eqb_spec (rn_cls to_figures c) "Square") as [E|_]; [exfalso; apply N3, X; exact E|].
    destruct (String.eqb_spec (rn_cls to_figures c) "Figures") as [E|_]; [exfalso; apply N4, X; exact E|]. exact I. }
Qed.

Example C87_ex_shapes : forall b m n eas doc,
  renamed_out to_figures (from_xml_tree n (lib b m) "Shapes" doc eas) (from_xml_tree n (figures b m) "Figures" doc eas).
Proof. intros b m n eas doc. apply (@C87_reading to_figures _ _ (by_exchange_one _ _) (figures_renamed b m) n "Shapes" doc eas). Qed.

Example C87_ex_error : forall b m, exists e e',
  from_xml_tree 9 (lib b m) "Node" bad_node_doc false = Raise (XValidation e) /\ from_xml_tree 9 (figures b m) "Knot" bad_node_doc false = Raise (XValidation e') /\
  map le_loc (ve_lines e) = [[LKey "children"; LIdx 0; LKey "value"]] /\ map le_loc (ve_lines e') = [[LKey "knots"; LIdx 0; LKey "amount"]].
Proof. intros b m. destruct b, m; do 2 eexists; (split; [vm_compute; reflexivity|]); (split; [vm_compute; reflexivity|]); split; reflexivity. Qed.

(** ---- declarations ---- *)

(** class Pet(tag='pet'): name: str
    class Person(tag='person'): id: int = attr('id'); city: str = wrapped('home', element('city')); pets: List[Pet];
        boss: Optional['Person'] = element('boss'); mail: str = element(alias='email') *)
Definition person_decl : cls_info := ClsInfo "Person" (CParams (Some "person") None None false None Strict)
  (fun f => if String.eqb f "id" then attr (Some "id") None else if String.eqb f "city" then wrapped "home" (Some (element (Some "city") None None None)) None None
            else if String.eqb f "boss" then element (Some "boss") None None None else if String.eqb f "mail" then element None None None None else [])
  (fun _ => None) None.
Definition pet_decl : cls_info := ClsInfo "Pet" (CParams (Some "pet") None None false None Strict) (fun _ => []) (fun _ => None) None.
Definition person_schema : cschema :=
  CDefinitions [("Person:1", CModel "Person" false (CFields
    [("id", CField false None None (CType "int")); ("city", CField false None None (CType "str"));
     ("pets", CField false None None (CList (CModel "Pet" false (CFields [("name", CField false None None (CType "str"))] []))));
     ("boss", CField true None None (CMeta MDefault (CMeta MNullable (CRef "Person:1"))));
     ("mail", CField false (Some "email") (Some "email") (CType "str"))] []))]
    (CRef "Person:1").
Definition pets_decls : Build.classes := fun c => if String.eqb c "Person" then Some person_decl else if String.eqb c "Pet" then Some pet_decl else None.

(** class Human(tag='person'): key: int = attr('id'); town: str = wrapped('home', element('city')); animals: List[Animal];
        chief: Optional['Human'] = element('boss'); address: str = element(alias='email') *)
Definition to_humans : renaming := by_exchange [("Person", "Human"); ("Pet", "Animal")]
  (fun c => if String.eqb c "Person" then [("id", "key"); ("city", "town"); ("pets", "animals"); ("boss", "chief"); ("mail", "address")] else []).
Definition human_decl : cls_info := ClsInfo "Human" (CParams (Some "person") None None false None Strict)
  (fun f => if String.eqb f "key" then attr (Some "id") None else if String.eqb f "town" then wrapped "home" (Some (element (Some "city") None None None)) None None
            else if String.eqb f "chief" then element (Some "boss") None None None else if String.eqb f "address" then element None None None None else [])
  (fun _ => None) None.
Definition animal_decl : cls_info := ClsInfo "Animal" (CParams (Some "pet") None None false None Strict) (fun _ => []) (fun _ => None) None.
Definition human_schema : cschema :=
  CDefinitions [("Human:9", CModel "Human" false (CFields
    [("key", CField false None None (CType "int")); ("town", CField false None None (CType "str"));
     ("animals", CField false None None (CList (CModel "Animal" false (CFields [("name", CField false None None (CType "str"))] []))));
     ("chief", CField true None None (CMeta MDefault (CMeta MNullable (CRef "Human:9"))));
     ("address", CField false (Some "email") (Some "email") (CType "str"))] []))]
    (CRef "Human:9").
Definition humans_decls : Build.classes := fun c => if String.eqb c "Human" then Some human_decl else if String.eqb c "Animal" then Some animal_decl else None.

Definition no_models : env := Env Lxml (fun _ => None).

Lemma person_renamed : renamed_info to_humans "Person" person_decl human_decl.
Proof.
  constructor; try reflexivity; try (right; reflexivity).
  intros f.
  assert (E : ci_meta human_decl (rn_field to_humans "Person" f) = ci_meta person_decl f); [|rewrite E; auto].
  destruct (in_dec string_dec f ["id"; "key"; "city"; "town"; "pets"; "animals"; "boss"; "chief"; "mail"; "address"]) as [J|J].
  - simpl in J. repeat (destruct J as [<-|J]; [reflexivity|]). contradiction.
  - assert (F : rn_field to_humans "Person" f = f).
    { change (rn_field to_humans "Person" f) with (exchange "mail" "address" (exchange "boss" "chief" (exchange "pets" "animals" (exchange "city" "town" (exchange "id" "key" f))))).
      unfold exchange.
      repeat match goal with |- context [String.eqb f ?x] => destruct (String.eqb_spec f x) as [->|]; [exfalso; apply J; simpl; tauto|] end. reflexivity. }
    rewrite F. unfold human_decl, person_decl. cbn [ci_meta].
    repeat match goal with |- context [String.eqb f ?x] => destruct (String.eqb_spec f x) as [->|]; [exfalso; apply J; simpl; tauto|] end. reflexivity.
Qed.

Lemma decls_renamed : renamed_infos to_humans pets_decls humans_decls.
Proof.
  intros c. unfold pets_decls, humans_decls.
  assert (X : forall a, rn_cls to_humans c = rn_cls to_humans a -> c = a) by apply by_exchange_one.
  destruct (String.eqb_spec c "Person") as [->|N1]; [apply person_renamed|].
  destruct (String.eqb_spec c "Pet") as [->|N2].
  - change (rn_cls to_humans "Pet") with "Animal". constructor; try reflexivity; try (right; reflexivity). intros f. split; reflexivity.
  - destruct (String.eqb_spec (rn_cls to_humans c) "Human") as [E|_]; [exfalso; apply N1, X; exact E|].
    destruct (String.eqb_spec (rn_cls to_humans c) "Animal") as [E|_]; [exfalso; apply N2, X; exact E|]. exact I.
Qed.

Lemma person_top : renamed_top to_humans (exchange "Person:1" "Human:9") pets_decls person_schema human_schema.
Proof.
  apply rt_defs; [|apply (@rt_ref to_humans (exchange "Person:1" "Human:9") pets_decls "Person:1")].
  constructor; [|constructor]. split; [reflexivity|]. simpl. apply (@rt_model to_humans _ pets_decls "Person" person_decl); [reflexivity|].
  apply rb_fields; [|constructor].
  assert (Q : forall r s, r = s -> renamed_schema to_humans (exchange "Person:1" "Human:9") (CType r) (CType s)) by (intros r s ->; constructor).
  repeat (apply Forall2_cons || apply Forall2_nil); (split; [reflexivity|]); simpl; do 3 (split; [reflexivity|]);
    (split; [try (apply Q; reflexivity)|right]); unfold name_free.
  - right; left. eexists. split; reflexivity.
  - right; left. eexists. split; reflexivity.
  - constructor. apply (@sc_model to_humans _ "Pet").
  - right; right. constructor. eapply ot_model; reflexivity.
  - constructor. constructor. apply (@sc_ref to_humans (exchange "Person:1" "Human:9") "Person:1").
  - right; left. eexists. split; reflexivity.
  - left. reflexivity.
Qed.

Example C87_ex_declarations :
  (forall n, rn_out (fun b b' => exists k, renamed_bmodel to_humans k b b')
    (build_class pets_decls no_models n person_decl person_schema) (build_class humans_decls no_models n human_decl human_schema)) /\
  match build_class pets_decls no_models 9 person_decl person_schema, build_class humans_decls no_models 9 human_decl human_schema with
  | Ok b, Ok b' => bm_cls b' = "Human" /\
      bm_fields b = [("id", SAttr "id" false); ("city", SWrap ["home"] (Some []) Strict false (SElem "city" (Some []) Strict false false));
         ("pets", SHomo "Person" false (SProxy (Proxy "Pet" "pet" (Some []) Strict false false)) false);
         ("boss", SProxy (Proxy "Person" "boss" (Some []) Strict false false)); ("mail", SElem "email" (Some []) Strict false false)] /\
      bm_fields b' = [("key", SAttr "id" false); ("town", SWrap ["home"] (Some []) Strict false (SElem "city" (Some []) Strict false false));
         ("animals", SHomo "Human" false (SProxy (Proxy "Animal" "pet" (Some []) Strict false false)) false);
         ("chief", SProxy (Proxy "Human" "boss" (Some []) Strict false false)); ("address", SElem "email" (Some []) Strict false false)] /\
      bm_valias b' = [("address", "email")] /\ bm_sexclude b' = ["chief"]
  | _, _ => False
  end.
Proof.
  split; [|vm_compute; repeat split; reflexivity]. intros n. eapply (@C87_declarations to_humans (exchange "Person:1" "Human:9")).
  - apply by_exchange_one.
  - intros a b E. rewrite <- (exchange_twice "Person:1" "Human:9" a), E. apply exchange_twice.
  - apply decls_renamed.
  - split; [reflexivity|]. intros c. exact I.
  - instantiate (1 := "Person"). reflexivity.
  - apply person_renamed.
  - apply person_top.
Qed.

(** a field whose XML name is its Python name: renaming it changes the document *)
Theorem C87_unnamed_refuted : exists (metas : list meta) s b b',
  let i := fun c => ClsInfo c (CParams (Some "m") None None false None Strict) (fun _ => metas) (fun _ => None) None in
  build_class (fun _ => Some (i "M")) no_models 5 (i "M") (CModel "M" false (CFields [("x", CField false None None s)] [])) = Ok b /\
  build_class (fun _ => Some (i "M")) no_models 5 (i "M") (CModel "M" false (CFields [("y", CField false None None s)] [])) = Ok b' /\
  map snd (bm_fields b) = [SElem "x" (Some []) Strict false false] /\ map snd (bm_fields b') = [SElem "y" (Some []) Strict false false].
Proof. exists (element None None None None), (CType "int"). do 2 eexists. do 2 (split; [vm_compute; reflexivity|]). split; reflexivity. Qed.
Print Assumptions C87_unnamed_refuted.

(** ---- the limit: line numbers ---- *)

(** class Inner: y: int = element('x') instead of x: int = element() *)
Definition only_inner : renaming := by_exchange [] (fun c => if String.eqb c "Inner" then [("x", "y")] else []).
Definition nested' : env := Env Lxml (fun c =>
  if String.eqb c "Outer" then Some (checked_model "Outer" "outer"
    [("x", SElem "x" None Strict false false); ("inner", SProxy (sub "Inner" "inner" Strict))] "x" [LKey "x"])
  else if String.eqb c "Inner" then Some (plain_model "Inner" "inner" [("y", SElem "x" None Strict false false)] [])
  else None).

Lemma nested_renamed : renamed_env only_inner nested nested'.
Proof.
  split; [reflexivity|]. intros c. unfold nested, nested'. cbn [en_model]. change (rn_cls only_inner c) with c.
  assert (HR : one_to_one only_inner) by apply by_exchange_one.
  destruct (String.eqb_spec c "Outer") as [->|N1]; [|destruct (String.eqb_spec c "Inner") as [->|N2]; [|exact I]].
  - constructor; simpl; auto.
    + repeat constructor.
    + exists (fun s => s). split; auto. split; [auto|]. split; [|discriminate]. intros _ d d' Hd. simpl.
      generalize (@dget_renamed only_inner (fun s => s) ltac:(auto) d d' "x" Hd).
      assert (V : renamed only_inner (VModel "Outer" d (dkeys d)) (VModel "Outer" d' (dkeys d'))).
      { rewrite (@dkeys_renamed only_inner (fun s => s) d d' Hd). apply (@rn_model only_inner "Outer"). exact Hd. }
      destruct (dget "x" d) as [x|], (dget "x" d') as [x'|]; try contradiction; auto. intros Hx.
      inversion Hx; subst; auto.
      destruct x'; auto. destruct s as [|[[] [] [] [] [] [] [] []] s]; auto.
      all: repeat match goal with |- renamed_verdict _ (match ?s with EmptyString => _ | _ => _ end) _ => destruct s as [|[[] [] [] [] [] [] [] []] s]; auto end.
      split; [reflexivity|]. repeat constructor.
  - apply (@plain_renamed only_inner "Inner"); auto. repeat constructor.
Qed.

(** renaming a field of an inner class changes the line an error of an outer field names: with both called x, the line of
    Inner.x is reported for Outer.x *)
Theorem C87_lines_refuted : exists R ev ev' doc e e', one_to_one R /\ renamed_env R ev ev' /\
  from_xml_tree 9 ev "Outer" doc false = Raise (XValidation e) /\ from_xml_tree 9 ev' "Outer" doc false = Raise (XValidation e') /\
  map le_msg (ve_lines e) = [MLine 4 (MText "bad")] /\ map le_msg (ve_lines e') = [MLine 2 (MText "bad")].
Proof.
  exists only_inner, nested, nested', (el_at 1 "outer" "" [el_at 2 "x" "bad" []; el_at 3 "inner" "" [el_at 4 "x" "1" []]]).
  do 2 eexists. split; [apply by_exchange_one|]. split; [apply nested_renamed|]. split; [vm_compute; reflexivity|]. split; [vm_compute; reflexivity|].
  split; reflexivity.
Qed.
Print Assumptions C87_lines_refuted.
