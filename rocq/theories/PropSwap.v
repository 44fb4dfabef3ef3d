(** PropSwap.v -- C91: in unordered mode the order in which fields are declared does not matter. *)

From Verif Require Import Base Elem Native Errs Names Ser Read Api SpecElem SpecRead SpecSim SpecOut SpecSub SpecPage SpecMoved SpecSwap
  PfPage PfPage4 PfSwap PfSwap2 PfSwap3 Samples PropMoved.

(** C91.  Let the classes [cls] and [cls'] have the same fields in different orders.  Let the fields be in unordered mode,
    no two of them bound to the same attribute, text or element name, and let no element name that a field looks for occur
    more than once in the root element.  Then one class reads the document if and only if the other does, and they read the
    same value, up to the order of the attributes of the instance.  Extra data may be forbidden or not. *)
Theorem C91_declaration_order : forall ev, plain_classes ev -> forall cls cls' m m', en_model ev cls = Some m -> en_model ev cls' = Some m' ->
  redeclared m m' -> apart (md_fields m) -> Forall (fun f => any_order (snd f)) (md_fields m) -> forall root eas,
  (forall name s tag, In (name, s) (md_fields m) -> takes s (OwnKids tag) -> at_most_once tag root) ->
  (forall v, (exists n, from_xml_tree n ev cls root eas = Ok v) -> exists v', (exists n, from_xml_tree n ev cls' root eas = Ok v') /\ moved_val v v') /\
  (forall v', (exists n, from_xml_tree n ev cls' root eas = Ok v') -> exists v, (exists n, from_xml_tree n ev cls root eas = Ok v) /\ moved_val v v').
Proof. exact redeclared_documents. Qed.
Print Assumptions C91_declaration_order.

(** ---- an example: attribute, wrapped element, union of sub-models, list and element, extra data forbidden ---- *)
Definition u := Unordered.
Definition parcel_fields : list (string * ser) :=
  [("id", SAttr "id" false);
   ("note", SWrap ["meta"; "note"] None u false (SText false false));
   ("shape", SUnionModel "Parcel" false [sub "Circle" "circle" u; sub "Square" "square" u] false);
   ("tags", SHomo "Parcel" false (SElem "tag" None Unordered false false) false);
   ("name", SElem "name" None Unordered false true)].
Definition parcel (fs : list (string * ser)) : mdef :=
  MDef "Parcel" false "parcel" None fs [] [] false true None (fun _ => None) (fun _ => None) (accepts "Parcel" ["id"; "note"; "shape"; "name"]).
Definition parcels : env :=
  Env Lxml (fun c => if String.eqb c "Parcel" then Some (parcel parcel_fields)
                     else if String.eqb c "Parcel2" then Some (parcel (rev parcel_fields))
                     else if String.eqb c "Circle" then Some (circle u)
                     else if String.eqb c "Square" then Some (square u)
                     else None).

Lemma parcels_plain : plain_classes parcels.
Proof.
  intros cls m. unfold parcels; cbn [en_model].
  destruct (String.eqb cls "Parcel"); [intros E; injection E as <-|].
  { split; auto. simpl. intros name s [E|[E|[E|[E|[E|[]]]]]]; injection E as <- <-; simpl; auto. split; [discriminate|auto]. }
  destruct (String.eqb cls "Parcel2"); [intros E; injection E as <-|].
  { split; auto. simpl. intros name s [E|[E|[E|[E|[E|[]]]]]]; injection E as <- <-; simpl; auto. split; [discriminate|auto]. }
  destruct (String.eqb cls "Circle"); [intros E; injection E as <-|].
  { split; auto. simpl. intros name s [E|[]]; injection E as <- <-; simpl; auto. }
  destruct (String.eqb cls "Square"); [intros E; injection E as <-|discriminate].
  split; auto. simpl. intros name s [E|[]]; injection E as <- <-; simpl; auto.
Qed.

Lemma perm_data : forall d d' : list (string * val), Permutation d d' -> moved_data d d'.
Proof.
  intros d d' P. exists d'. split; auto. clear P. induction d'; constructor; auto. split; auto. apply mv_same.
Qed.

Lemma parcels_redeclared : redeclared (parcel parcel_fields) (parcel (rev parcel_fields)).
Proof.
  constructor; auto.
  - apply Permutation_rev.
  - repeat constructor; simpl; intuition discriminate.
  - intros d d' P. apply accepts_moved, perm_data, P.
Qed.

(** <parcel id="1"><name>n</name><square><a>2</a></square><meta><note>hi</note></meta><tag>t</tag></parcel> *)
Definition parcel_doc : native :=
  el "parcel" [("id", "1")] ""
    [el "name" [] "n" []; el "square" [] "" [el "a" [] "2" []]; el "meta" [] "" [el "note" [] "hi" []]; el "tag" [] "t" []].

Lemma parcels_apart : apart parcel_fields.
Proof.
  simpl. repeat split; intros r T E;
    repeat match goal with
           | X : Exists _ [] |- _ => inversion X
           | X : Exists _ (_ :: _) |- _ => inversion X; clear X; subst
           | X : _ \/ _ |- _ => destruct X
           | X : _ /\ _ |- _ => destruct X
           | X : _ = _ |- _ => progress (simpl in X)
           end; simpl in *; subst; try discriminate;
    repeat match goal with
           | X : Exists _ [] |- _ => inversion X
           | X : Exists _ (_ :: _) |- _ => inversion X; clear X; subst
           end; simpl in *; try discriminate; congruence.
Qed.

Example C91_ex : exists v v', from_xml_tree 9 parcels "Parcel" parcel_doc false = Ok v /\ from_xml_tree 9 parcels "Parcel2" parcel_doc false = Ok v' /\
  moved_val v v' /\ v <> v'.
Proof.
  assert (H : exists v, from_xml_tree 9 parcels "Parcel" parcel_doc false = Ok v) by (eexists; vm_compute; reflexivity).
  assert (H' : exists v, from_xml_tree 9 parcels "Parcel2" parcel_doc false = Ok v) by (eexists; vm_compute; reflexivity).
  destruct H as [v H]. destruct H' as [v' H']. exists v, v'. split; auto. split; auto.
  assert (Am : forall name s tag, In (name, s) (md_fields (parcel parcel_fields)) -> takes s (OwnKids tag) -> at_most_once tag parcel_doc).
  { intros name s tag _ _. unfold at_most_once, parcel_doc, el. cbn [own_children no_comments].
    destruct (String.eqb_spec "name" tag) as [<-|N1]; [vm_compute; auto|]. destruct (String.eqb_spec "square" tag) as [<-|N2]; [vm_compute; auto|].
    destruct (String.eqb_spec "meta" tag) as [<-|N3]; [vm_compute; auto|]. apply String.eqb_neq in N1, N2, N3.
    cbn -[String.eqb]. rewrite N1, N2, N3. destruct (String.eqb "tag" tag); simpl; auto. }
  destruct (@C91_declaration_order parcels parcels_plain "Parcel" "Parcel2" _ _ eq_refl eq_refl parcels_redeclared parcels_apart
    ltac:(repeat constructor) parcel_doc false Am) as [A _].
  destruct (A v (ex_intro _ 9 H)) as (w & [n W] & Mv). split.
  - assert (w = v'); [|congruence]. destruct (Nat.le_ge_cases n 9) as [L|L].
    + rewrite (@PfFuel.from_xml_stable parcels n 9) in H' by (first [lia|congruence]). congruence.
    + rewrite (@PfFuel.from_xml_stable parcels 9 n) in W by (first [lia|congruence]). congruence.
  - vm_compute in H, H'. congruence.
Qed.

(** ---- limits ---- *)

(** A name may not occur twice: the field read first moves an element of the list behind another one. *)
Definition basket (cls : string) (fs : list (string * ser)) : mdef := plain_model cls "basket" fs [].
Definition items : string * ser := ("items", SHomo "Basket" false (SElem "item" None Unordered false false) false).
Definition owner : string * ser := ("owner", SElem "owner" None Unordered false false).
Definition baskets : env :=
  Env Std (fun c => if String.eqb c "A" then Some (basket "Basket" [items; owner]) else if String.eqb c "B" then Some (basket "Basket" [owner; items]) else None).

Theorem C91_lists_refuted : exists doc v v', redeclared (basket "Basket" [items; owner]) (basket "Basket" [owner; items]) /\
  apart [items; owner] /\ Forall (fun f => any_order (snd f)) [items; owner] /\
  doc = el "basket" [] "" [el "item" [] "1" []; el "item" [] "2" []; el "owner" [] "me" []] /\
  from_xml_tree 9 baskets "A" doc false = Ok v /\ from_xml_tree 9 baskets "B" doc false = Ok v' /\
  v = VModel "Basket" [("items", VList [VStr "1"; VStr "2"]); ("owner", VStr "me")] ["items"; "owner"] /\
  v' = VModel "Basket" [("owner", VStr "me"); ("items", VList [VStr "2"; VStr "1"])] ["owner"; "items"].
Proof.
  do 3 eexists. split; [|split; [|split; [|split; [reflexivity|split; [vm_compute; reflexivity|split; [vm_compute; reflexivity|split; reflexivity]]]]]].
  - constructor; auto; [apply perm_swap|repeat constructor; simpl; intuition discriminate|].
    intros d d' P. apply accepts_moved, perm_data, P.
  - simpl. repeat split; intros r T E; inversion E as [? ? X|? ? X]; subst; try inversion X; simpl in *; congruence.
  - repeat constructor.
Qed.
Print Assumptions C91_lists_refuted.

(** In the other modes the order matters even if every name occurs once. *)
Theorem C91_other_modes_refuted : forall mode, mode <> Unordered -> exists f g doc v,
  f = ("a", SElem "a" None mode false false) /\ g = ("b", SElem "b" None mode false false) /\
  doc = el "basket" [] "" [el "a" [] "1" []; el "b" [] "2" []] /\
  from_xml_tree 9 (Env Std (fun _ => Some (plain_model "Basket" "basket" [f; g] ["a"; "b"]))) "Basket" doc false = Ok v /\
  forall w, from_xml_tree 9 (Env Std (fun _ => Some (plain_model "Basket" "basket" [g; f] ["a"; "b"]))) "Basket" doc false <> Ok w.
Proof.
  intros mode Nm. do 4 eexists. do 3 (split; [reflexivity|]). destruct mode; try congruence;
    (split; [vm_compute; reflexivity|intros w; vm_compute; discriminate]).
Qed.
Print Assumptions C91_other_modes_refuted.
