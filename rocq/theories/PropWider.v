(** PropWider.v -- C94: a union may get more members. *)

From Verif Require Import Base Elem Native Errs Names Ser Read Write Api SpecElem SpecRead SpecWrite SpecSim SpecOut SpecSub SpecPage SpecMany SpecWider
  PfPage PfPage4 PfWider PfWider2 Samples PropRound.

(** C94.  Take two programs with the same classes, but for members of unions, discriminated or not, at any place in their
    fields: the ones have members, anywhere among the others, that the other ones do not have, and the elements of these
    are called by names of [N].  For every document without elements of these names from_xml gives the same for both: the
    same value, the same errors in the same order, or the same exception of user code.  This holds in every search mode. *)
Theorem C94_reading : forall N ev ev', rewidened_env N ev ev' -> plain_classes ev -> plain_classes ev' -> forall cls root eas a,
  en_model ev cls <> None -> Forall (not_called N) (own_children root) -> from_xml_gives ev cls root eas a <-> from_xml_gives ev' cls root eas a.
Proof. exact wider_documents. Qed.
Print Assumptions C94_reading.

(** Writing: members of unions of models whose classes have no instance anywhere in the value may be there or not.
    [encode] stands for pydantic's to_jsonable_python. *)
Theorem C94_writing : forall C ev ev' encode, no_customs ev -> no_customs ev' -> rewidened_env_out C ev ev' -> forall v fl doc,
  no_instance C v -> raws_apart ev v ->
  (exists n, to_xml_tree n ev encode v fl = Ok doc) <-> (exists n, to_xml_tree n ev' encode v fl = Ok doc).
Proof. exact wider_written. Qed.
Print Assumptions C94_writing.

(** ---- an example: a list of a union, a discriminated union in a wrapper ---- *)
Definition beast (cls tag : string) : mdef := plain_model cls tag [("kind", SAttr "kind" false)] ["kind"].
Definition board (mode : smode) (ms : list proxy) (ts : list (string * proxy)) : mdef :=
  plain_model "Board" "board"
    [("shapes", SHomo "Board" false (SUnionModel "Board" false ms false) false);
     ("pet", SWrap ["home"] None mode false (STagged false "kind" "kind" ts mode))] ["shapes"].
Definition boards (mode : smode) (ms : list proxy) (ts : list (string * proxy)) : env :=
  Env Lxml (fun c => if String.eqb c "Board" then Some (board mode ms ts)
                     else if String.eqb c "Circle" then Some (circle mode)
                     else if String.eqb c "Square" then Some (square mode)
                     else if String.eqb c "Cat" then Some (beast "Cat" "cat")
                     else if String.eqb c "Dog" then Some (beast "Dog" "dog")
                     else None).
Definition old_boards (mode : smode) : env := boards mode [sub "Circle" "circle" mode] [("cat", sub "Cat" "cat" mode)].
Definition new_boards (mode : smode) : env :=
  boards mode [sub "Square" "square" mode; sub "Circle" "circle" mode] [("dog", sub "Dog" "dog" mode); ("cat", sub "Cat" "cat" mode)].

Lemma boards_plain : forall mode ms ts, plain_classes (boards mode ms ts).
Proof.
  intros mode ms ts cls m. unfold boards; cbn [en_model].
  destruct (String.eqb cls "Board"); [intros E; injection E as <-|].
  { split; auto. simpl. intros name s [E|[E|[]]]; injection E as <- <-; simpl; auto. split; [discriminate|auto]. }
  do 3 (destruct (String.eqb cls _); [intros E; injection E as <-; split; auto; simpl; intros name s [E|[]]; injection E as <- <-; simpl; auto|]).
  destruct (String.eqb cls _); [intros E; injection E as <-; split; auto; simpl; intros name s [E|[]]; injection E as <- <-; simpl; auto|discriminate].
Qed.

Lemma class_same : forall K N m, rewidened_class K N m m.
Proof. intros K N []. constructor. induction md_fields; constructor; auto. split; auto. apply wd_same. Qed.

Lemma boards_wider : forall mode, rewidened_env ["square"; "dog"] (old_boards mode) (new_boards mode).
Proof.
  intros mode. constructor; auto.
  - intros cls. unfold old_boards, new_boards, boards; cbn [en_model]. destruct (String.eqb cls "Board"); [split; discriminate|]. tauto.
  - intros cls m m'. unfold old_boards at 1, new_boards, boards at 1 2; cbn [en_model]. destruct (String.eqb cls "Board").
    + intros E E'. injection E as <-. injection E' as <-. constructor. repeat (apply Forall2_cons || apply Forall2_nil); simpl; split; auto.
      * apply wd_list. apply wd_union; [reflexivity| |]; repeat constructor; discriminate.
      * apply wd_wrap. apply wd_tagged. reflexivity.
    + intros E E'. assert (m' = m) by congruence. subst. apply class_same.
Qed.

(** <board><circle r="1"/><circle r="2"/><home><cat kind="cat"/></home></board>, and the same with no r in the second *)
Definition board_doc (r : dict string) : native :=
  el "board" [] "" [el "circle" [("r", "1")] "" []; el "circle" r "" []; el "home" [] "" [el "cat" [("kind", "cat")] "" []]].

Example C94_ex_meets : forall r, Forall (not_called ["square"; "dog"]) (own_children (board_doc r)).
Proof.
  intros r. assert (L : forall tag attrs cs, ~ In tag ["square"; "dog"] -> Forall (not_called ["square"; "dog"]) (no_comments cs) ->
    not_called ["square"; "dog"] (el tag attrs "" cs)).
  { intros tag attrs cs Nt F. constructor; auto. intros t I E. simpl in E. subst. contradiction. }
  assert (D : forall tag, String.eqb "square" tag = false -> String.eqb "dog" tag = false -> ~ In tag ["square"; "dog"]).
  { intros tag A B [E|[E|[]]]; subst; discriminate. }
  unfold board_doc. cbn [own_children el no_comments filter].
  apply Forall_cons; [apply L; [apply D; reflexivity|constructor]|]. apply Forall_cons; [apply L; [apply D; reflexivity|constructor]|].
  apply Forall_cons; [|constructor]. apply L; [apply D; reflexivity|]. apply Forall_cons; [|constructor]. apply L; [apply D; reflexivity|constructor].
Qed.

Example C94_ex : forall mode ev, ev = old_boards mode \/ ev = new_boards mode ->
  from_xml_gives ev "Board" (board_doc [("r", "2")]) false
    (Got (VModel "Board" [("shapes", VList [VModel "Circle" [("r", VStr "1")] ["r"]; VModel "Circle" [("r", VStr "2")] ["r"]]);
                          ("pet", VModel "Cat" [("kind", VStr "cat")] ["kind"])] ["shapes"; "pet"])) /\
  from_xml_gives ev "Board" (board_doc []) false
    (Refused "Board" [Remark [LKey "shapes"; LIdx 1; LKey "Circle"; LKey "r"] "missing" "Field required" (VDict [])]).
Proof.
  intros mode ev [-> | ->]; destruct mode; (split; simpl from_xml_gives; [exists 9; reflexivity|]);
    exists 9; eexists; (split; [vm_compute; reflexivity|split; vm_compute; reflexivity]).
Qed.

(** writing: the same discriminated union, more members of the other *)
Definition more_boards (mode : smode) : env :=
  boards mode [sub "Square" "square" mode; sub "Circle" "circle" mode] [("cat", sub "Cat" "cat" mode)].
Definition board_value : val :=
  VModel "Board" [("shapes", VList [VModel "Circle" [("r", VStr "1")] ["r"]; VModel "Circle" [("r", VStr "2")] ["r"]]);
                  ("pet", VModel "Cat" [("kind", VStr "cat")] ["kind"])] ["shapes"; "pet"].

Lemma boards_customs : forall mode ms ts, no_customs (boards mode ms ts).
Proof.
  intros mode ms ts cls m name. unfold boards; cbn [en_model]. do 4 (destruct (String.eqb cls _); [intros E; injection E as <-; auto|]).
  destruct (String.eqb cls _); [intros E; injection E as <-; auto|discriminate].
Qed.

Lemma boards_more : forall mode, rewidened_env_out ["Square"] (old_boards mode) (more_boards mode).
Proof.
  intros mode. constructor; auto.
  - intros cls. unfold old_boards, more_boards, boards; cbn [en_model]. destruct (String.eqb cls "Board"); [split; discriminate|]. tauto.
  - intros cls m m'. unfold old_boards, more_boards, boards; cbn [en_model]. destruct (String.eqb cls "Board").
    + intros E E'. injection E as <-. injection E' as <-. constructor. repeat (apply Forall2_cons || apply Forall2_nil); simpl; split; auto.
      * apply wo_list. apply wo_union. reflexivity.
      * apply wo_same.
    + intros E E'. assert (m' = m) by congruence. subst. clear. destruct m. constructor. induction md_fields; constructor; auto. split; auto. apply wo_same.
Qed.

Local Ltac look := repeat match goal with
  | X : _ (VStr _) |- _ => solve [inversion X]
  | X : raw_in _ (VModel _ _ _) |- _ => inversion X; clear X; subst
  | X : raw_in _ (VList _) |- _ => inversion X; clear X; subst
  | X : instance_in _ (VModel _ _ _) |- _ => inversion X; clear X; subst
  | X : instance_in _ (VList _) |- _ => inversion X; clear X; subst
  | X : In _ _ |- _ => simpl in X
  | X : _ \/ _ |- _ => destruct X
  | X : (_, _) = (_, _) |- _ => injection X as <- <-
  | X : VModel _ _ _ = _ |- _ => subst
  | X : False |- _ => destruct X
  end.

Example C94_writing_ex : forall mode fl, no_instance ["Square"] board_value /\ raws_apart (old_boards mode) board_value /\ exists doc,
  to_xml_tree 9 (old_boards mode) jsonable board_value fl = Ok doc /\ to_xml_tree 9 (more_boards mode) jsonable board_value fl = Ok doc.
Proof.
  intros mode fl. split; [|split].
  - intros cls [<-|[]] X. unfold board_value in X. look.
  - intros n X. exfalso. unfold board_value in X. look.
  - destruct fl as [a b c]. destruct mode, a, b, c; (eexists; split; [vm_compute; reflexivity|vm_compute; reflexivity]).
Qed.

(** ---- limits ---- *)

(** A document with such an element is another matter. *)
Theorem C94_called_refuted : exists doc v v', doc = el "board" [] "" [el "circle" [("r", "1")] "" []; el "square" [] "" [el "a" [] "2" []]] /\
  from_xml_tree 9 (old_boards Strict) "Board" doc false = Ok v /\ from_xml_tree 9 (new_boards Strict) "Board" doc false = Ok v' /\
  v = VModel "Board" [("shapes", VList [VModel "Circle" [("r", VStr "1")] ["r"]])] ["shapes"] /\
  v' = VModel "Board" [("shapes", VList [VModel "Circle" [("r", VStr "1")] ["r"]; VModel "Square" [("a", VStr "2")] ["a"]])] ["shapes"].
Proof. do 3 eexists. split; [reflexivity|]. split; [vm_compute; reflexivity|split; [vm_compute; reflexivity|split; reflexivity]]. Qed.
Print Assumptions C94_called_refuted.
