(** PropRound.v -- C20, C21: the round trip from_xml_tree (to_xml_tree value), and its limits. *)

From Verif Require Import Base Elem Native Errs Names Ser Write Read Api SpecElem SpecRead SpecNames SpecSim SpecRound
  Samples PfRound7 PfRound8.

(** C20.  If every class of the library keeps its fields apart ([keeps_apart]: distinct element and
    attribute names, wrapped fields sharing a path next to each other, no user-written field
    serializers) then what to_xml_tree writes for a value is read back, field by field, as the
    relation [kept_model] of SpecRound.v says: every text that is not empty, every attribute, every
    list, tuple, mapping, raw element and sub-model comes back.  It holds for any nesting depth,
    search mode, back end and any skip_empty / exclude_none / exclude_unset, and for reading with or without
    empty_as_string ([eas]; with it, an empty text comes back too).
    Extra data may be forbidden if no class has computed fields. *)
Theorem C20_round_trip : forall ev eas encode cls m v fl rs w,
  keeps_apart ev eas -> forbids_nothing ev \/ computes_nothing ev ->
  model_type v = Some cls -> en_model ev cls = Some m ->
  kept_model ev eas fl m v (encode v) rs w ->
  exists n0, forall n, n0 <= n -> exists doc,
    to_xml_tree n ev encode v fl = Ok doc /\ from_xml_tree n ev cls doc eas = Ok w.
Proof. exact round_trip. Qed.

(** in particular a value whose data pydantic validates back to the value itself is recovered *)
Theorem C20_round_trip_identity : forall ev eas encode cls m v fl rs,
  keeps_apart ev eas -> forbids_nothing ev \/ computes_nothing ev ->
  model_type v = Some cls -> en_model ev cls = Some m ->
  kept_model ev eas fl m v (encode v) rs v ->
  exists n0, forall n, n0 <= n -> exists doc,
    to_xml_tree n ev encode v fl = Ok doc /\ from_xml_tree n ev cls doc eas = Ok v.
Proof. intros. eapply C20_round_trip; eauto. Qed.

Print Assumptions C20_round_trip.
Print Assumptions C20_round_trip_identity.

(** ---- non-vacuity ---- *)

(** pydantic with defaults: every field of the class gets the value read for it or its default *)
Definition fills (cls : string) (fields : list (string * val)) (i : option val) : verdict :=
  match i with
  | Some (VDict d) =>
      Valid (VModel cls (map (fun kd => (fst kd, match dget (fst kd) d with Some x => x | None => snd kd end)) fields) (map fst fields))
  | _ => Invalid (VErr cls [LErr "missing" (MText "Field required") [] VNone] false)
  end.
Definition filling_model (cls tag : string) (forbid : bool) (fields : list (string * ser)) (defaults : list (string * val)) : mdef :=
  MDef cls false tag None fields [] [] false forbid None (fun _ => None) (fun _ => None) (fills cls defaults).
Fixpoint jsonable (v : val) : val :=
  match v with
  | VModel _ a _ => VDict (map (fun kv : string * val => let (k, x) := kv in (k, jsonable x)) a)
  | VList l => VList (map jsonable l)
  | _ => v
  end.

(** a recursive class: class Tree(tag='tree', extra='forbid'): id: str = attr(); label: str = element();
    kids: List[Tree] = [] *)
Definition tree_m (m : smode) : mdef :=
  filling_model "Tree" "tree" true
    [("id", SAttr "id" false); ("label", SElem "label" None m false false);
     ("kids", SHomo "Tree" false (SProxy (sub "Tree" "tree" m)) false)]
    [("id", VNone); ("label", VNone); ("kids", VList [])].
Definition forest (b : backend) (m : smode) : env :=
  Env b (fun c => if String.eqb c "Tree" then Some (tree_m m) else None).
Definition tree (id label : string) (kids : list val) : val :=
  VModel "Tree" [("id", VStr id); ("label", VStr label); ("kids", VList kids)] ["id"; "label"; "kids"].
(** empty labels are kept only by a reader that asks for empty strings *)
Inductive is_tree (eas : bool) : val -> Prop :=
| is_tree_intro : forall id label kids, label <> "" \/ eas = true -> Forall (is_tree eas) kids -> is_tree eas (tree id label kids).
Fixpoint is_tree_ind' (eas : bool) (P : val -> Prop)
    (H : forall id label kids, label <> "" \/ eas = true -> Forall (is_tree eas) kids -> Forall P kids -> P (tree id label kids))
    (v : val) (t : is_tree eas v) : P v :=
  match t in is_tree _ v return P v with
  | is_tree_intro id N F =>
      H id _ _ N F ((fix all l (f : Forall (is_tree eas) l) : Forall P l :=
         match f in Forall _ l return Forall P l with
         | Forall_nil _ => Forall_nil P
         | Forall_cons x hx hl => Forall_cons x (@is_tree_ind' eas P H x hx) (all _ hl)
         end) _ F)
  end.

Lemma forest_ok : forall b m eas, keeps_apart (forest b m) eas /\ computes_nothing (forest b m).
Proof.
  intros b m eas. split; intros cls md; simpl; destruct (String.eqb cls "Tree"); try discriminate; intros E; injection E as <-.
  - split; [|repeat constructor]. simpl.
    apply apart_direct; [constructor; discriminate| | | | | | |]; simpl; auto; try discriminate; try tauto.
    apply apart_direct; [apply df_one; constructor| | | | | | |]; simpl; auto; try discriminate; try tauto.
    2:{ intros t [<-|[]] [E|[]]; discriminate. }
    apply apart_direct; [apply df_list; constructor; discriminate| | | | | | |]; simpl; auto; try discriminate; try tauto. constructor.
  - repeat constructor; simpl; intros C; inversion C.
Qed.

Lemma tree_kept : forall b m eas v, is_tree eas v ->
  exists rs, kept_model (forest b m) eas (Flags false false false) (tree_m m) v (jsonable v) rs v.
Proof.
  intros b m eas v Tv.
  induction Tv as [id label kids N F IH] using is_tree_ind'. eexists. unfold tree. simpl.
    eapply kept_plain with (rs := [("id", VStr id); ("label", VStr label); ("kids", list_back kids)]); auto.
    - eapply kept_field; [split; auto; discriminate|reflexivity|reflexivity|eapply kept_attr; reflexivity|right; auto|].
      eapply kept_field; [split; auto; discriminate|reflexivity|reflexivity|eapply kept_elem; try reflexivity; discriminate|right; split; auto|].
      { simpl. unfold text_back. destruct (String.eqb_spec label ""); auto. destruct N as [N| ->]; congruence. }
      eapply kept_field with (r := list_back kids); [split; auto; discriminate|reflexivity|reflexivity| |right; auto|apply kept_no_fields].
      apply kept_list. clear N. induction F as [|k kids Tk F IHk]; simpl; [constructor|]. inversion IH as [|? ? (rs & Kk) IH']; subst.
      assert (Nk : exists a s, k = VModel "Tree" a s) by (inversion Tk; unfold tree; eauto). destruct Nk as (a & s & Ek).
      constructor; auto; try (rewrite Ek; discriminate); [rewrite Ek; auto|].
      apply kept_submodel with (m := tree_m m) (rs := rs); auto; try discriminate.
    - unfold read_data. simpl. destruct kids; reflexivity.
Qed.

(** every tree, of any depth and width, survives in all three modes and with both back ends *)
Example C20_trees : forall b m eas v, is_tree eas v -> exists n0, forall n, n0 <= n -> exists doc,
  to_xml_tree n (forest b m) jsonable v (Flags false false false) = Ok doc /\ from_xml_tree n (forest b m) "Tree" doc eas = Ok v.
Proof.
  intros b m eas v Tv. destruct (forest_ok b m eas) as [Ka Cn].
  destruct (tree_kept b m Tv) as (rs & K).
  assert (Ht : model_type v = Some "Tree") by (inversion Tv; reflexivity).
  exact (@C20_round_trip_identity (forest b m) eas jsonable "Tree" (tree_m m) v (Flags false false false) rs Ka (or_intror Cn) Ht eq_refl K).
Qed.

(** class Order(tag='order'): id: str = attr(); note: str = wrapped('meta', element());
    author: Optional[str] = wrapped('meta/who', element(nillable=True)); dims: Tuple[str, str] = element('dim');
    props: Dict[str, str] = element(); shape: Union[Circle, Square]; lines: List[Line];
    attached: raw element; total: computed element *)
Definition no_attrs : attrs_ser := AttrsSer None None false false.
Definition order_m (m : smode) : mdef :=
  filling_model "Order" "order" false
    [("id", SAttr "id" false);
     ("note", SWrap ["meta"] None m false (SElem "note" None m false false));
     ("author", SWrap ["meta"; "who"] None m false (SElem "author" None m false true));
     ("dims", SHetero "Order" false [SElem "dim" None m false false; SElem "dim" None m false false] false);
     ("props", SMapElem "props" m no_attrs);
     ("shape", SUnionModel "Order" false [sub "Circle" "circle" m; sub "Square" "square" m] false);
     ("lines", SHomo "Order" false (SProxy (sub "Line" "line" m)) false);
     ("attached", SRaw "attached" m false);
     ("total", SElem "total" None m true false)]
    [("id", VNone); ("note", VNone); ("author", VNone); ("dims", VNone); ("props", VNone); ("shape", VNone); ("lines", VList []);
     ("attached", VNone); ("total", VStr "30")].
Definition line_m : mdef := filling_model "Line" "line" false [("sku", SAttr "sku" false); ("text", SText false false)] [("sku", VNone); ("text", VNone)].
Definition circle_m : mdef := filling_model "Circle" "circle" false [("r", SAttr "r" false)] [("r", VNone)].
Definition square_m (m : smode) : mdef := filling_model "Square" "square" false [("a", SElem "a" None m false false)] [("a", VNone)].
Definition shop (b : backend) (m : smode) : env :=
  Env b (fun c => if String.eqb c "Order" then Some (order_m m) else if String.eqb c "Line" then Some line_m
                  else if String.eqb c "Circle" then Some circle_m else if String.eqb c "Square" then Some (square_m m) else None).
Definition an_order : val :=
  VModel "Order"
    [("id", VStr "7"); ("note", VStr "fragile"); ("author", VStr "Ann"); ("dims", VList [VStr "3"; VStr "4"]);
     ("props", VDict [("colour", VStr "red"); ("size", VStr "XL")]); ("shape", VModel "Square" [("a", VStr "2")] ["a"]);
     ("lines", VList [VModel "Line" [("sku", VStr "a"); ("text", VStr "apples")] ["sku"; "text"];
                      VModel "Line" [("sku", VStr ""); ("text", VStr "pears")] ["sku"; "text"]]);
     ("attached", VRaw (NElem "attached" [] (Some "x") None [("k", "v")] [] None)); ("total", VStr "30")]
    ["id"; "note"; "author"; "dims"; "props"; "shape"; "lines"; "attached"; "total"].

Ltac apart_step := apply apart_direct; [| | | | | | |]; simpl; auto; try discriminate; try tauto; try (left; split; [constructor|constructor]);
  try match goal with |- _ -> Forall _ _ => intros _; repeat constructor end.

Lemma shop_ok : forall b m eas, keeps_apart (shop b m) eas /\ forbids_nothing (shop b m).
Proof.
  intros b m eas. split; intros cls md; simpl; repeat (destruct (String.eqb _ _)); try discriminate; intros E; injection E as <-; auto;
    (split; [|simpl; repeat constructor]); simpl.
  - apart_step; [apply df_attr; discriminate|].
    apply (@apart_wrapped (shop b m) eas "meta" [Wrapped [] None m false (SElem "note" None m false false);
                                             Wrapped ["who"] None m false (SElem "author" None m false true)]); simpl.
    + apart_step; [apply df_one; constructor| |intros t [<-|[]] [E|[]]; discriminate].
      apply (@apart_wrapped (shop b m) eas "who" [Wrapped [] None m false (SElem "author" None m false true)] []); simpl.
      * apart_step; [apply df_one; constructor|constructor].
      * constructor.
      * tauto.
      * intros w [<-|[]]; discriminate.
      * intros w [<-|[]]; discriminate.
      * repeat constructor.
      * constructor.
    + apart_step; [apply df_one; constructor; repeat constructor| |intros t [<-|[<-|[]]]; intuition discriminate].
      apart_step; [apply df_one; constructor| |intros t [<-|[]]; intuition discriminate].
      apart_step; [apply df_union; repeat constructor; simpl; try discriminate; try apply accepts_quiet; intuition discriminate| |intros t [<-|[<-|[]]]; intuition discriminate].
      apart_step; [apply df_list; constructor; discriminate| |intros t [<-|[]]; intuition discriminate].
      apart_step; [apply df_one; constructor| |intros t [<-|[]]; intuition discriminate].
      apart_step; [apply df_one; constructor|constructor].
    + intuition discriminate.
    + intros w [<-|[<-|[]]]; discriminate.
    + intros w [<-|[<-|[]]]; discriminate.
    + repeat constructor.
    + intros F; inversion F; discriminate.
  - apart_step; [apply df_attr; discriminate|]. apart_step; [constructor|constructor].
  - apart_step; [apply df_attr; discriminate|constructor].
  - apart_step; [apply df_one; constructor|constructor].
Qed.

Ltac take_field := eapply kept_field; [split; [reflexivity|intros _; reflexivity]|reflexivity|reflexivity| |right; split; [reflexivity|reflexivity]|].

Lemma order_kept : forall b m eas skip none,
  exists rs, kept_model (shop b m) eas (Flags skip none true) (order_m m) an_order (jsonable an_order) rs an_order.
Proof.
  intros b m eas skip none.
  eexists. unfold an_order. simpl. eapply kept_plain; [reflexivity|reflexivity| |].
    - take_field; [eapply kept_attr; reflexivity|].
      take_field; [eapply kept_wrap; [reflexivity|destruct skip; reflexivity|eapply kept_elem; try reflexivity; discriminate]|].
      take_field; [eapply kept_wrap; [reflexivity|destruct skip; reflexivity|eapply kept_elem; try reflexivity; discriminate]|].
      take_field.
      { eapply kept_tuple. repeat (eapply kept_member; [eapply kept_elem; try reflexivity; discriminate|destruct skip; discriminate|]). constructor. }
      take_field.
      { eapply (@kept_map (shop b m) eas _ "props" m no_attrs (VDict [("colour", VStr "red"); ("size", VStr "XL")])
                 [("colour", VStr "red"); ("size", VStr "XL")] ["red"; "XL"]); [reflexivity| |].
        - split; [repeat constructor; simpl; intuition discriminate|]. split; [repeat constructor|]. split; [simpl; intuition discriminate|discriminate].
        - intros _. split; [discriminate|]. exists 1. reflexivity. }
      take_field.
      { eapply (@kept_union (shop b m) eas _ "Order" false [sub "Circle" "circle" m] (sub "Square" "square" m) []); [reflexivity|reflexivity| | |].
        - repeat constructor. simpl. discriminate.
        - eapply kept_submodel; [reflexivity| |].
          + eapply kept_plain; [reflexivity|reflexivity| |].
            * take_field; [eapply kept_elem; try reflexivity; discriminate|]. constructor.
            * destruct skip; reflexivity.
          + intros _. constructor. unfold substantial; destruct skip; simpl; intuition discriminate.
        - discriminate. }
      take_field.
      { eapply kept_list. eapply kept_item; [reflexivity| | |eapply kept_item; [reflexivity| | |apply kept_no_items]].
        - eapply kept_submodel; [reflexivity| |].
          + eapply kept_plain; [reflexivity|reflexivity| |].
            * take_field; [eapply kept_attr; reflexivity|]. take_field; [eapply kept_text; try reflexivity; auto|]. constructor.
            * destruct skip; reflexivity.
          + intros _. constructor. unfold substantial; destruct skip; simpl; intuition discriminate.
        - discriminate.
        - eapply kept_submodel; [reflexivity| |].
          + eapply kept_plain; [reflexivity|reflexivity| |].
            * take_field; [eapply kept_attr; reflexivity|]. take_field; [eapply kept_text; try reflexivity; auto|]. constructor.
            * destruct skip; reflexivity.
          + intros _. apply Exists_cons_tl. constructor. unfold substantial; destruct skip; simpl; intuition discriminate.
        - discriminate. }
      take_field.
      { eapply kept_raw; [reflexivity|repeat constructor| |].
        - repeat constructor.
        - intros _. reflexivity. }
      eapply kept_field; [split; [reflexivity|intros _; reflexivity]|reflexivity|reflexivity| |left; split; [constructor|reflexivity]|constructor].
      eapply kept_elem; try reflexivity. discriminate.
    - destruct skip; reflexivity.
Qed.

Example C20_order : forall b m eas skip none, exists n0, forall n, n0 <= n -> exists doc,
  to_xml_tree n (shop b m) jsonable an_order (Flags skip none true) = Ok doc /\ from_xml_tree n (shop b m) "Order" doc eas = Ok an_order.
Proof.
  intros b m eas skip none. destruct (shop_ok b m eas) as [Ka Fb].
  destruct (order_kept b m eas skip none) as (rs & K).
  exact (@C20_round_trip_identity (shop b m) eas jsonable "Order" (order_m m) an_order (Flags skip none true) rs Ka (or_introl Fb) eq_refl eq_refl K).
Qed.

(** ---- C21: what does not survive ---- *)

(** C21, lists.  A list of texts is read back only up to the first item that is read as None: an item
    that is None or empty and is sent, or, for a reader with empty_as_string, one sent as xsi:nil; with skip_empty or exclude_none the unsent items are missing from the middle.  Stated for a class with
    one such field, for every list, search mode, back end, nillable or not. *)
Theorem C21_list_is_cut : forall eas b cls tag f title name ns m ni hide validate encode vs fl w,
  let ev := one_field b cls tag f (SHomo title false (SElem name ns m false ni) hide) validate in
  Forall maybe_text vs -> encode (instance cls f (VList vs)) = VDict [(f, VList vs)] ->
  validate (Some (data_of f (list_back (cut (seen eas ni fl vs))))) = Valid w ->
  comes_back ev eas encode cls (instance cls f (VList vs)) fl w.
Proof. exact list_of_texts. Qed.

(** C21, tuples.  The items of a tuple whose members have the same name are read back one after
    another, so a None that is not sent moves the later items to the front; the end is filled up with None. *)
Theorem C21_tuple_shifts : forall eas b cls tag f title name ns m ni hide validate encode vs fl w,
  let ev := one_field b cls tag f (SHetero title false (repeat (SElem name ns m false ni) (length vs)) hide) validate in
  Forall maybe_text vs -> encode (instance cls f (VList vs)) = VDict [(f, VList vs)] ->
  validate (Some (data_of f (if forallb is_none (seen eas ni fl vs) then VNone
                             else VList (padded (length vs) (seen eas ni fl vs))))) = Valid w ->
  comes_back ev eas encode cls (instance cls f (VList vs)) fl w.
Proof. exact tuple_of_texts. Qed.

(** C21, empty texts: an element whose value is written as an empty text gives no data at all *)
Theorem C21_empty_text_is_lost : forall b cls tag f name ns m ni validate encode x xe fl w,
  let ev := one_field b cls tag f (SElem name ns m false ni) validate in
  encode (instance cls f x) = VDict [(f, xe)] -> encode_primitive xe = Ok "" -> (is_none x = true -> xe = VNone) ->
  validate (Some (VDict [])) = Valid w -> comes_back ev false encode cls (instance cls f x) fl w.
Proof.
  intros b cls tag f name ns m ni validate encode x xe fl w ev Ee Et Hx Va.
  apply one_kept with (xe := xe) (r := VNone); auto; [apply df_one; constructor|].
  destruct (drops fl x) eqn:Dr; [apply (@kept_dropped ev false fl (SElem name ns m false ni)); simpl; auto|].
  replace VNone with (if ni && is_none x || fl_skip_empty fl && String.eqb "" "" then VNone else text_back false "")
    by (destruct (_ || _); reflexivity).
  apply kept_elem; auto.
Qed.

(** with empty_as_string it comes back as the empty string, unless it is not written at all or is
    written as xsi:nil; a None that is written as an empty text also becomes the empty string *)
Theorem C21_empty_text_as_string : forall b cls tag f name ns m ni validate encode x xe fl w,
  let ev := one_field b cls tag f (SElem name ns m false ni) validate in
  encode (instance cls f x) = VDict [(f, xe)] -> encode_primitive xe = Ok "" -> (is_none x = true -> xe = VNone) ->
  fl_skip_empty fl = false -> (is_none x = true -> ni = false /\ fl_exclude_none fl = false) ->
  validate (Some (VDict [(f, VStr "")])) = Valid w -> comes_back ev true encode cls (instance cls f x) fl w.
Proof.
  intros b cls tag f name ns m ni validate encode x xe fl w ev Ee Et Hx Sk Nx Va.
  apply one_kept with (xe := xe) (r := VStr ""); auto; [apply df_one; constructor|].
  replace (VStr "") with (if ni && is_none x || fl_skip_empty fl && String.eqb "" "" then VNone else text_back true "").
  - apply kept_elem; auto. unfold drops. rewrite Sk. destruct (is_none x); auto. destruct (Nx eq_refl) as [_ ->]. auto.
  - rewrite Sk. destruct (is_none x); [destruct (Nx eq_refl) as [-> _]|rewrite andb_false_r]; reflexivity.
Qed.

(** an empty list gives no data, in every mode and with all flags *)
Theorem C21_empty_list_is_lost : forall eas b cls tag f title s hide validate encode fl w,
  let ev := one_field b cls tag f (SHomo title false s hide) validate in
  repeatable ev s -> live s = true -> encode (instance cls f (VList [])) = VDict [(f, VList [])] ->
  validate (Some (VDict [])) = Valid w -> comes_back ev eas encode cls (instance cls f (VList [])) fl w.
Proof.
  intros eas b cls tag f title s hide validate encode fl w ev Rp Lv Ee Va.
  apply one_kept with (xe := VList []) (r := VNone); auto; [apply df_list; auto|].
  change VNone with (list_back []). apply kept_list. constructor.
Qed.

(** None in an attribute is read back as an empty string unless it is excluded *)
Theorem C21_none_attribute_is_empty : forall eas b cls tag f name validate encode fl w,
  let ev := one_field b cls tag f (SAttr name false) validate in
  name <> xsi_nil -> encode (instance cls f VNone) = VDict [(f, VNone)] ->
  fl_skip_empty fl = false -> fl_exclude_none fl = false ->
  validate (Some (VDict [(f, VStr "")])) = Valid w -> comes_back ev eas encode cls (instance cls f VNone) fl w.
Proof.
  intros eas b cls tag f name validate encode fl w ev Nx Ee Sk En Va.
  apply one_kept with (xe := VNone) (r := VStr ""); auto; [constructor; auto|].
  apply kept_attr; auto. unfold drops. rewrite Sk, En. auto.
Qed.

(** None in a mapping with its own element is read back as an empty mapping *)
Theorem C21_none_mapping_is_empty : forall eas b cls tag f name m a validate encode fl w,
  let ev := one_field b cls tag f (SMapElem name m a) validate in
  as_computed a = false -> encode (instance cls f VNone) = VDict [(f, VNone)] -> fl_skip_empty fl = false ->
  validate (Some (VDict [(f, VDict [])])) = Valid w -> comes_back ev eas encode cls (instance cls f VNone) fl w.
Proof.
  intros eas b cls tag f name m a validate encode fl w ev Ca Ee Sk Va.
  apply one_kept with (xe := VNone) (r := VDict []); auto; [apply df_one; constructor|simpl; rewrite Ca; auto|].
  apply kept_map_none; auto.
Qed.

Print Assumptions C21_list_is_cut.
Print Assumptions C21_tuple_shifts.
Print Assumptions C21_empty_text_is_lost.
Print Assumptions C21_empty_text_as_string.
Print Assumptions C21_empty_list_is_lost.
Print Assumptions C21_none_attribute_is_empty.
Print Assumptions C21_none_mapping_is_empty.

Ltac texts := repeat apply Forall_cons; try apply Forall_nil; first [left; reflexivity | right; eexists; reflexivity].

(** ['a', None, 'b'] comes back as ['a'], and as ['a', 'b'] with exclude_none *)
Example C21_list_ex : forall b m,
  let ev := one_field b "L" "l" "xs" (SHomo "L" false (SElem "x" None m false false) false) (fills "L" [("xs", VList [])]) in
  let v := instance "L" "xs" (VList [VStr "a"; VNone; VStr "b"]) in
  comes_back ev false jsonable "L" v (Flags false false false) (instance "L" "xs" (VList [VStr "a"])) /\
  comes_back ev false jsonable "L" v (Flags false true false) (instance "L" "xs" (VList [VStr "a"; VStr "b"])).
Proof.
  intros b m ev v. split; apply C21_list_is_cut; try reflexivity; texts.
Qed.

(** ('a', None, 'b') comes back as ('a', 'b', None) with exclude_none *)
Example C21_tuple_ex : forall b m,
  let ev := one_field b "T" "t" "xs" (SHetero "T" false (repeat (SElem "x" None m false false) 3) false) (fills "T" [("xs", VNone)]) in
  let v := instance "T" "xs" (VList [VStr "a"; VNone; VStr "b"]) in
  comes_back ev false jsonable "T" v (Flags false false false) v /\
  comes_back ev false jsonable "T" v (Flags false true false) (instance "T" "xs" (VList [VStr "a"; VStr "b"; VNone])).
Proof.
  intros b m ev v.
  split; apply (@C21_tuple_shifts false b "T" "t" "xs" "T" "x" None m false false _ jsonable [VStr "a"; VNone; VStr "b"]); try reflexivity; texts.
Qed.

(** with empty_as_string ['a', '', 'b'] comes back whole, and ['a', None, 'b'] as ['a', '', 'b'] or, if the
    items are nillable, as ['a'] *)
Example C21_empty_ex : forall b m ni,
  let ev := one_field b "L" "l" "xs" (SHomo "L" false (SElem "x" None m false ni) false) (fills "L" [("xs", VList [])]) in
  let v := instance "L" "xs" (VList [VStr "a"; VStr ""; VStr "b"]) in
  let v' := instance "L" "xs" (VList [VStr "a"; VNone; VStr "b"]) in
  comes_back ev true jsonable "L" v (Flags false false false) v /\
  comes_back ev false jsonable "L" v (Flags false false false) (instance "L" "xs" (VList [VStr "a"])) /\
  comes_back ev true jsonable "L" v' (Flags false false false) (if ni then instance "L" "xs" (VList [VStr "a"]) else v).
Proof.
  intros b m ni ev v v'. repeat split; apply C21_list_is_cut; try (destruct ni; reflexivity); texts.
Qed.
Example C21_empty_elem_ex : forall b m ni,
  let ev := one_field b "E" "e" "x" (SElem "x" None m false ni) (fills "E" [("x", VStr "default")]) in
  comes_back ev true jsonable "E" (instance "E" "x" (VStr "")) (Flags false true false) (instance "E" "x" (VStr "")) /\
  comes_back ev true jsonable "E" (instance "E" "x" (VStr "")) (Flags true true false) (instance "E" "x" (VStr "default")).
Proof.
  intros b m ni ev. split; [apply C21_empty_text_as_string with (xe := VStr ""); try reflexivity; discriminate|].
  unfold ev. apply one_kept with (xe := VStr "") (r := VNone); try reflexivity; [apply df_one; constructor|].
  replace VNone with (if ni && is_none (VStr "") || fl_skip_empty (Flags true true false) && String.eqb "" "" then VNone else text_back true "")
    by (rewrite andb_false_r; reflexivity).
  apply kept_elem; try reflexivity. discriminate.
Qed.

Example C21_small_ex : forall b m,
  comes_back (one_field b "E" "e" "x" (SElem "x" None m false true) (fills "E" [("x", VStr "default")])) false jsonable "E"
    (instance "E" "x" (VStr "")) (Flags false false false) (instance "E" "x" (VStr "default")) /\
  comes_back (one_field b "E" "e" "x" (SHomo "E" false (SElem "x" None m false true) false) (fills "E" [("x", VNone)])) false jsonable "E"
    (instance "E" "x" (VList [])) (Flags false false false) (instance "E" "x" VNone) /\
  comes_back (one_field b "E" "e" "x" (SAttr "x" false) (fills "E" [("x", VNone)])) false jsonable "E"
    (instance "E" "x" VNone) (Flags false false false) (instance "E" "x" (VStr "")) /\
  comes_back (one_field b "E" "e" "x" (SMapElem "x" m no_attrs) (fills "E" [("x", VNone)])) false jsonable "E"
    (instance "E" "x" VNone) (Flags false false false) (instance "E" "x" (VDict [])).
Proof.
  intros b m. split; [|split; [|split]].
  - apply C21_empty_text_is_lost with (xe := VStr ""); try reflexivity. discriminate.
  - apply C21_empty_list_is_lost; try reflexivity. constructor.
  - apply C21_none_attribute_is_empty; try reflexivity. discriminate.
  - apply C21_none_mapping_is_empty; reflexivity.
Qed.

(** ---- C21: every hypothesis of C20 is needed.  Each of these values has no empty text, None item
    or empty list in it, and yet does not come back. ---- *)

(** a tree is written for [v] and is read with the outcome [r] *)
Definition outcome (ev : env) (cls : string) (v : val) : option (out val) :=
  match to_xml_tree 10 ev jsonable v (Flags false false false) with
  | Ok doc => Some (from_xml_tree 10 ev cls doc false)
  | _ => None
  end.
Definition trip (ev : env) (cls : string) (v : val) (r : out val) : Prop := outcome ev cls v = Some r.
Definition classes (b : backend) (l : list mdef) : env :=
  Env b (fun c => List.find (fun m => String.eqb (md_name m) c) l).
Ltac trip := vm_compute; reflexivity.

(** a computed field in a class that forbids extra data: its own output is rejected *)
Definition invoice_m : mdef :=
  filling_model "Invoice" "invoice" true [("net", SElem "net" None Strict false false); ("gross", SElem "gross" None Strict true false)]
    [("net", VNone); ("gross", VStr "12")].
Definition an_invoice : val := VModel "Invoice" [("net", VStr "10"); ("gross", VStr "12")] ["net"].
Theorem C21_computed_and_forbid_refuted : forall b, exists e,
  trip (classes b [invoice_m]) "Invoice" an_invoice (Raise (XValidation e)).
Proof.
  intros b. assert (X : match outcome (classes b [invoice_m]) "Invoice" an_invoice with Some (Raise (XValidation _)) => true | _ => false end = true)
    by (destruct b; vm_compute; reflexivity).
  unfold trip. destruct (outcome _ _ _) as [[|[]|]|]; try discriminate; eauto.
Qed.

(** a wrapped text that is None, next to another field in the same wrapper: with empty_as_string it is
    read as an empty string, without as None *)
Definition boxed_m : mdef :=
  filling_model "Boxed" "boxed" false
    [("t", SWrap ["box"] None Strict false (SText false false)); ("x", SWrap ["box"] None Strict false (SElem "x" None Strict false false))]
    [("t", VNone); ("x", VNone)].
Definition a_boxed (t : val) : val := VModel "Boxed" [("t", t); ("x", VStr "1")] ["t"; "x"].
Theorem C21_wrapped_text_becomes_empty_refuted : forall b, exists doc,
  to_xml_tree 10 (classes b [boxed_m]) jsonable (a_boxed VNone) (Flags false false false) = Ok doc /\
  from_xml_tree 10 (classes b [boxed_m]) "Boxed" doc true = Ok (a_boxed (VStr "")) /\
  from_xml_tree 10 (classes b [boxed_m]) "Boxed" doc false = Ok (a_boxed VNone).
Proof.
  intros b. exists (NElem "boxed" [] None None [] [NElem "box" [] None None [] [NElem "x" [] (Some "1") None [] [] None] None] None).
  destruct b; vm_compute; auto.
Qed.
Print Assumptions C21_wrapped_text_becomes_empty_refuted.

(** a nillable text that is None makes the whole sub-model None *)
Definition leaf_m : mdef := filling_model "Leaf" "leaf" false [("unit", SAttr "unit" false); ("text", SText false true)] [("unit", VNone); ("text", VNone)].
Definition holder_m : mdef := filling_model "Holder" "holder" false [("leaf", SProxy (sub "Leaf" "leaf" Strict))] [("leaf", VNone)].
Theorem C21_nil_text_of_submodel_refuted : forall b,
  trip (classes b [holder_m; leaf_m]) "Holder"
    (VModel "Holder" [("leaf", VModel "Leaf" [("unit", VStr "kg"); ("text", VNone)] ["unit"; "text"])] ["leaf"])
    (Ok (VModel "Holder" [("leaf", VNone)] ["leaf"])).
Proof. intros b. destruct b; trip. Qed.

(** two wrapped fields with the same path and another field between them, in ordered mode: the field between is lost *)
Definition split_m (m : smode) : mdef :=
  filling_model "Split" "split" false
    [("x", SWrap ["a"] None m false (SElem "x" None m false false)); ("y", SElem "y" None m false false);
     ("z", SWrap ["a"] None m false (SElem "z" None m false false))] [("x", VNone); ("y", VNone); ("z", VNone)].
Theorem C21_split_wrapper_refuted : forall b,
  trip (classes b [split_m Ordered]) "Split"
    (VModel "Split" [("x", VNone); ("y", VStr "1"); ("z", VStr "2")] ["x"; "y"; "z"])
    (Ok (VModel "Split" [("x", VNone); ("y", VNone); ("z", VStr "2")] ["x"; "y"; "z"])).
Proof. intros b. destruct b; trip. Qed.

(** two fields with the same element name: what one of them did not write is read from the other *)
Definition twice_m (m : smode) : mdef :=
  filling_model "Twice" "twice" false
    [("a", SHomo "Twice" false (SElem "x" None m false false) false); ("b", SElem "x" None m false false)] [("a", VList []); ("b", VNone)].
Theorem C21_same_name_refuted : forall b m,
  trip (classes b [twice_m m]) "Twice"
    (VModel "Twice" [("a", VList [VStr "1"]); ("b", VStr "2")] ["a"; "b"])
    (Ok (VModel "Twice" [("a", VList [VStr "1"; VStr "2"]); ("b", VNone)] ["a"; "b"])).
Proof. intros b m. destruct b, m; trip. Qed.

(** a list of a union of models, not in strict mode: ordered search drops items, unordered search reorders them *)
Definition album_m (m : smode) : mdef :=
  filling_model "Album" "album" false
    [("shapes", SHomo "Album" false (SUnionModel "Album" false [sub "Circle" "circle" m; sub "Square" "square" m] false) false)]
    [("shapes", VList [])].
Definition a_circle : val := VModel "Circle" [("r", VStr "1")] ["r"].
Definition a_square : val := VModel "Square" [("a", VStr "2")] ["a"].
Definition album (l : list val) : val := VModel "Album" [("shapes", VList l)] ["shapes"].
Definition album_env b m := classes b [album_m m; circle_m; square_m m].
Theorem C21_list_of_union_refuted : forall b,
  trip (album_env b Ordered) "Album" (album [a_square; a_circle]) (Ok (album [a_circle])) /\
  trip (album_env b Unordered) "Album" (album [a_square; a_circle]) (Ok (album [a_circle; a_square])) /\
  trip (album_env b Strict) "Album" (album [a_square; a_circle]) (Ok (album [a_square; a_circle])).
Proof. intros b. destruct b; repeat split; trip. Qed.

(** the attribute xsi:nil is not an ordinary attribute *)
Definition nilled_m : mdef :=
  filling_model "Nilled" "nilled" false [("text", SText false true); ("nil", SAttr xsi_nil false)] [("text", VNone); ("nil", VNone)].
Theorem C21_nil_attribute_refuted : forall b,
  trip (classes b [nilled_m]) "Nilled" (VModel "Nilled" [("text", VStr "t"); ("nil", VStr "true")] ["text"; "nil"])
    (Ok (VModel "Nilled" [("text", VNone); ("nil", VNone)] ["text"; "nil"])).
Proof. intros b. destruct b; trip. Qed.

(** the values of a mapping are read back as strings: None and booleans become 'None' and 'True' *)
Definition props_m : mdef := filling_model "Props" "props" false [("m", SAttrs no_attrs)] [("m", VNone)].
Theorem C21_mapping_values_refuted : forall b,
  trip (classes b [props_m]) "Props" (VModel "Props" [("m", VDict [("a", VNone); ("b", VBool true)])] ["m"])
    (Ok (VModel "Props" [("m", VDict [("a", VStr "None"); ("b", VStr "True")])] ["m"])).
Proof. intros b. destruct b; trip. Qed.

Print Assumptions C21_computed_and_forbid_refuted.
Print Assumptions C21_nil_text_of_submodel_refuted.
Print Assumptions C21_split_wrapper_refuted.
Print Assumptions C21_same_name_refuted.
Print Assumptions C21_list_of_union_refuted.
Print Assumptions C21_nil_attribute_refuted.
Print Assumptions C21_mapping_values_refuted.
