(** PropModes.v -- C65: what strict mode accepts, every search mode reads the same way. *)

From Verif Require Import Base Elem Native Errs Names Ser Read Api SpecElem SpecRead SpecStray SpecRound SpecModes Samples.
From Verif Require Import PfModes3.

(** For classes that forbid extra data, have no validators of their own and whose fields ask for
    elements in turn ([orderly_env]), and for documents without empty elements: a document accepted
    when every field is searched for strictly is accepted, with the same value, in whatever mode each
    field is searched for. *)
Theorem C65_modes_agree : forall ev, orderly_env ev -> forbids_everything ev ->
  forall n cls root eas v, no_bare_elements root ->
  from_xml_tree n (strict_env ev) cls root eas = Ok v -> from_xml_tree n ev cls root eas = Ok v.
Proof. exact modes_agree. Qed.

(** ---- a case ---- *)
Definition forbidding (m : mdef) : mdef :=
  MDef (md_name m) (md_root m) (md_elem_name m) (md_nsmap m) (md_fields m) (md_valias m) (md_sexclude m) (md_hide m) true
       (md_skip_empty m) (md_cser m) (md_cval m) (md_validate m).

(** class Item(tag='item', search_mode=m): name: str = element(); parts: List['Item'] = element('item')
    class Card(tag='card'): no: str = attr();  class Cash(tag='cash'): sum: str = element()
    class Order(tag='order', search_mode=m): id: str = attr(); items: List[Item];
        pay: Union[Card, Cash]; size: Tuple[str, str] = element('side');
        note: str = wrapped('meta/info', element()); by: str = wrapped('meta/info', element());
        when: str = wrapped('meta', element()) *)
Definition item (m : smode) : mdef := forbidding (plain_model "Item" "item"
  [("name", SElem "name" None m false false); ("parts", SHomo "Item" false (SProxy (sub "Item" "item" m)) false)] ["name"]).
Definition card (m : smode) : mdef := forbidding (plain_model "Card" "card" [("no", SAttr "no" false)] ["no"]).
Definition cash (m : smode) : mdef := forbidding (plain_model "Cash" "cash" [("sum", SElem "sum" None m false false)] ["sum"]).
Definition order (m : smode) : mdef := forbidding (plain_model "Order" "order"
  [("id", SAttr "id" false);
   ("items", SHomo "Order" false (SProxy (sub "Item" "item" m)) false);
   ("pay", SUnionModel "Order" false [sub "Card" "card" m; sub "Cash" "cash" m] false);
   ("size", SHetero "Order" false [SElem "side" None m false false; SElem "side" None m false false] false);
   ("note", SWrap ["meta"; "info"] None m false (SElem "note" None m false false));
   ("by", SWrap ["meta"; "info"] None m false (SElem "by" None m false false));
   ("when", SWrap ["meta"] None m false (SElem "when" None m false false))] ["id"]).
Definition shop (m : smode) : env :=
  Env Lxml (fun c => if String.eqb c "Item" then Some (item m)
                     else if String.eqb c "Card" then Some (card m)
                     else if String.eqb c "Cash" then Some (cash m)
                     else if String.eqb c "Order" then Some (order m)
                     else None).

Definition order_doc : native :=
  el "order" [("id", "7")] ""
    [el "item" [] "" [el "name" [] "a" []; el "item" [] "" [el "name" [] "b" []]; el "item" [] "" [el "name" [] "c" []]];
     el "item" [] "" [el "name" [] "d" []];
     NComment (Some "paid") None;
     el "cash" [] "" [el "sum" [] "10" []];
     el "side" [] "3" []; el "side" [] "4" [];
     el "meta" [] "" [el "info" [] "" [el "note" [] "n" []; el "by" [] "me" []]; el "when" [] "now" []]].

(** the classes in strict mode are the classes with search_mode='strict' *)
Example C65_ex_strict : forall m cls, en_model (strict_env (shop m)) cls = en_model (shop Strict) cls.
Proof.
  intros m cls. unfold shop, strict_env. simpl. destruct (String.eqb cls "Item"); [reflexivity|].
  destruct (String.eqb cls "Card"); [reflexivity|]. destruct (String.eqb cls "Cash"); [reflexivity|].
  destruct (String.eqb cls "Order"); reflexivity.
Qed.

Ltac turn := first [apply it_nil | apply it_again; turn
  | apply it_new; [let t := fresh in let A := fresh in let B := fresh in simpl; intros t A B; intuition congruence | turn]].

Lemma shop_orderly : forall m, orderly_env (shop m).
Proof.
  assert (One : forall s, plain_field s -> in_turn (places s) -> (forall p, inside_one p s = []) -> orderly [s]).
  { intros s F T I. constructor; auto.
    - simpl. rewrite app_nil_r; auto.
    - intros p. unfold inside; simpl. rewrite I. simpl. congruence. }
  intros m cls md. unfold shop; simpl.
  destruct (String.eqb cls "Item"); [intros E; injection E as <-|].
  { split; [|split; [discriminate|reflexivity]]. simpl. constructor.
    - constructor; [apply pf_lone; constructor|]. constructor; [|constructor].
      apply pf_list; [constructor|left; exists "item"; repeat constructor].
    - simpl. turn.
    - intros p H. exfalso; apply H; reflexivity. }
  destruct (String.eqb cls "Card"); [intros E; injection E as <-|].
  { split; [|split; [discriminate|reflexivity]]. simpl. apply One; [apply pf_still; constructor|simpl; turn|reflexivity]. }
  destruct (String.eqb cls "Cash"); [intros E; injection E as <-|].
  { split; [|split; [discriminate|reflexivity]]. simpl. apply One; [apply pf_lone; constructor|simpl; turn|reflexivity]. }
  destruct (String.eqb cls "Order"); [intros E; injection E as <-|discriminate].
  split; [|split; [discriminate|reflexivity]]. simpl. constructor.
  - repeat (apply Forall_cons); try apply Forall_nil.
    + apply pf_still; constructor.
    + apply pf_list; [constructor|left; exists "item"; repeat constructor].
    + apply pf_lone. constructor. simpl. constructor; [simpl; intuition congruence|]. constructor; [simpl; tauto|constructor].
    + apply pf_tuple. repeat constructor.
    + apply pf_wrap.
    + apply pf_wrap.
    + apply pf_wrap.
  - simpl. turn.
  - intros p. unfold inside. cbn [flat_map inside_one app]. destruct (String.eqb "meta" p); [|intros H; exfalso; apply H; reflexivity].
    intros _. cbn [app]. constructor.
    + repeat (apply Forall_cons); try apply Forall_nil; [apply pf_wrap|apply pf_wrap|apply pf_lone; constructor].
    + simpl. turn.
    + intros q. unfold inside. cbn [flat_map inside_one app]. destruct (String.eqb "info" q); [|intros H; exfalso; apply H; reflexivity].
      intros _. cbn [app]. constructor.
      * repeat (apply Forall_cons); try apply Forall_nil; apply pf_lone; constructor.
      * simpl. turn.
      * intros r H. exfalso; apply H; reflexivity.
Qed.

Lemma shop_forbids : forall m, forbids_everything (shop m).
Proof.
  intros m cls md. unfold shop; simpl. destruct (String.eqb cls "Item"); [intros E; injection E as <-; reflexivity|].
  destruct (String.eqb cls "Card"); [intros E; injection E as <-; reflexivity|].
  destruct (String.eqb cls "Cash"); [intros E; injection E as <-; reflexivity|].
  destruct (String.eqb cls "Order"); [intros E; injection E as <-; reflexivity|discriminate].
Qed.

Lemma not_blank : forall c s, white c = false -> ~ blank (String c s).
Proof. intros c s W B. inversion B; congruence. Qed.

Ltac not_bare := let B := fresh in intros B; repeat match goal with
  | H : bare (NElem _ _ _ _ _ _ _) |- _ => inversion H; subst; clear H
  | H : Forall bare (_ :: _) |- _ => inversion H; subst; clear H
  | H : oblank (Some (String ?c ?s)) |- _ => exfalso; apply (@not_blank c s eq_refl); apply H; reflexivity
  | H : _ :: _ = [] |- _ => discriminate
  end; fail.

Ltac doc := constructor; simpl; intros ? I ?; repeat (destruct I as [<-|I]); try (destruct I; fail); try discriminate;
  first [solve [not_bare] | unfold el; doc | idtac].

Lemma order_doc_full : no_bare_elements order_doc.
Proof. unfold order_doc, el. doc. Qed.

Example C65_ex : forall m, exists v,
  from_xml_tree 9 (strict_env (shop m)) "Order" order_doc false = Ok v /\ from_xml_tree 9 (shop m) "Order" order_doc false = Ok v /\
  exists fs set, v = VModel "Order" fs set /\ length fs = 7.
Proof.
  intros m. eexists. split; [destruct m; vm_compute; reflexivity|]. split.
  - apply C65_modes_agree; [apply shop_orderly|apply shop_forbids|apply order_doc_full|destruct m; vm_compute; reflexivity].
  - eexists _, _. split; reflexivity.
Qed.

(** ---- the limits ---- *)
Definition one (m : mdef) : env := Env Lxml (fun c => if String.eqb c "M" then Some m else None).

Definition pair_model (m : smode) (names : string * string) : mdef :=
  plain_model "M" "m" [("x", SElem (fst names) None m false false); ("y", SElem (snd names) None m false false)] [].

(** classes that ignore extra data: what strict mode leaves unread, another mode reads *)
Theorem C65_without_forbid_refuted : exists ev root, orderly_env ev /\ no_bare_elements root /\
  from_xml_tree 9 (strict_env ev) "M" root false = Ok (VModel "M" [("y", VStr "2")] ["y"]) /\
  from_xml_tree 9 ev "M" root false = Ok (VModel "M" [("x", VStr "1"); ("y", VStr "2")] ["x"; "y"]).
Proof.
  exists (one (pair_model Unordered ("a", "b"))), (el "m" [] "" [el "b" [] "2" []; el "a" [] "1" []]). split; [|split].
  - intros cls m. unfold one; simpl. destruct (String.eqb cls "M"); [intros E; injection E as <-|discriminate].
    split; [|split; [discriminate|reflexivity]]. simpl. constructor.
    + repeat (apply Forall_cons); try apply Forall_nil; apply pf_lone; constructor.
    + simpl. turn.
    + intros p H. exfalso; apply H; reflexivity.
  - unfold el. doc.
  - split; vm_compute; reflexivity.
Qed.

(** class M: x: Optional[str] = element('a'); y: Optional[str] = element('b'); z: Optional[str] = element('a'):
    the fields do not ask for the elements in turn *)
Theorem C65_out_of_turn_refuted : exists ev root, forbids_everything ev /\ no_bare_elements root /\
  (exists n1 n2, n1 <> n2 /\ forall m, en_model ev "M" = Some m -> flat_map places (map snd (md_fields m)) = [[n1]; [n2]; [n1]]) /\
  from_xml_tree 9 (strict_env ev) "M" root false = Ok (VModel "M" [("y", VStr "2"); ("z", VStr "1")] ["y"; "z"]) /\
  from_xml_tree 9 ev "M" root false = Ok (VModel "M" [("x", VStr "1"); ("y", VStr "2")] ["x"; "y"]).
Proof.
  exists (one (forbidding (plain_model "M" "m" [("x", SElem "a" None Unordered false false); ("y", SElem "b" None Unordered false false);
            ("z", SElem "a" None Unordered false false)] []))), (el "m" [] "" [el "b" [] "2" []; el "a" [] "1" []]). split; [|split; [|split]].
  - intros cls m. unfold one; simpl. destruct (String.eqb cls "M"); [intros E; injection E as <-; reflexivity|discriminate].
  - unfold el. doc.
  - exists "a", "b". split; [discriminate|]. intros m E. injection E as <-. reflexivity.
  - split; vm_compute; reflexivity.
Qed.

(** class M: x: List[Tuple[str, str]] = element('a'), element('b'): the items of a list ask for elements of two names *)
Theorem C65_list_of_tuples_refuted : exists ev root, forbids_everything ev /\ no_bare_elements root /\
  (forall m, en_model ev "M" = Some m -> in_turn (flat_map places (map snd (md_fields m)))) /\
  from_xml_tree 9 (strict_env ev) "M" root false =
    Ok (VModel "M" [("x", VList [VList [VStr "1"; VStr "2"]; VList [VNone; VStr "3"]; VList [VStr "4"; VNone]])] ["x"]) /\
  from_xml_tree 9 ev "M" root false = Ok (VModel "M" [("x", VList [VList [VStr "1"; VStr "2"]; VList [VStr "4"; VStr "3"]])] ["x"]).
Proof.
  exists (one (forbidding (plain_model "M" "m" [("x", SHomo "M" false (SHetero "M" false [SElem "a" None Unordered false false;
            SElem "b" None Unordered false false] false) false)] []))),
    (el "m" [] "" [el "a" [] "1" []; el "b" [] "2" []; el "b" [] "3" []; el "a" [] "4" []]). split; [|split; [|split]].
  - intros cls m. unfold one; simpl. destruct (String.eqb cls "M"); [intros E; injection E as <-; reflexivity|discriminate].
  - unfold el. doc.
  - intros m E. injection E as <-. simpl. turn.
  - split; vm_compute; reflexivity.
Qed.

(** class M: x: List[Union[A, B]]: the same for a union of models.  Strict mode keeps the order of the
    document, another mode collects the elements of the first model first. *)
Theorem C65_list_of_unions_refuted : exists ev root, forbids_everything ev /\ no_bare_elements root /\
  (forall m, en_model ev "M" = Some m -> in_turn (flat_map places (map snd (md_fields m)))) /\
  exists a b, a <> b /\
  from_xml_tree 9 (strict_env ev) "M" root false = Ok (VModel "M" [("x", VList [b; a])] ["x"]) /\
  from_xml_tree 9 ev "M" root false = Ok (VModel "M" [("x", VList [a; b])] ["x"]).
Proof.
  exists (Env Lxml (fun c => if String.eqb c "M" then Some (forbidding (plain_model "M" "m" [("x", SHomo "M" false
              (SUnionModel "M" false [sub "Card" "card" Unordered; sub "Cash" "cash" Unordered] false) false)] []))
            else en_model (shop Unordered) c)),
    (el "m" [] "" [el "cash" [] "" [el "sum" [] "10" []]; el "card" [("no", "1")] "" []]). split; [|split; [|split]].
  - intros cls m. cbn [en_model]. destruct (String.eqb cls "M"); [intros E; injection E as <-; reflexivity|apply shop_forbids].
  - unfold el. doc.
  - intros m E. injection E as <-. simpl. turn.
  - eexists _, _. split; [|split; vm_compute; reflexivity]. discriminate.
Qed.

(** an empty element: strict mode stops at the unknown element and misses nothing but an empty one *)
Theorem C65_bare_elements_refuted : exists ev root, orderly_env ev /\ forbids_everything ev /\
  from_xml_tree 9 (strict_env ev) "M" root true = Ok (VModel "M" [] []) /\
  from_xml_tree 9 ev "M" root true = Ok (VModel "M" [("x", VStr "")] ["x"]).
Proof.
  exists (one (forbidding (pair_model Ordered ("a", "b")))), (el "m" [] "" [el "u" [] "" []; el "a" [] "" []]). split; [|split].
  - intros cls m. unfold one; simpl. destruct (String.eqb cls "M"); [intros E; injection E as <-|discriminate].
    split; [|split; [discriminate|reflexivity]]. simpl. constructor.
    + repeat (apply Forall_cons); try apply Forall_nil; apply pf_lone; constructor.
    + simpl. turn.
    + intros p H. exfalso; apply H; reflexivity.
  - intros cls m. unfold one; simpl. destruct (String.eqb cls "M"); [intros E; injection E as <-; reflexivity|discriminate].
  - split; vm_compute; reflexivity.
Qed.

Print Assumptions C65_modes_agree.
Print Assumptions C65_without_forbid_refuted.
Print Assumptions C65_out_of_turn_refuted.
Print Assumptions C65_list_of_tuples_refuted.
Print Assumptions C65_list_of_unions_refuted.
Print Assumptions C65_bare_elements_refuted.
