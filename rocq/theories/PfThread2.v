(** PfThread2.v -- the methods, serializers and calls make the same accesses wherever their objects are. *)

From Verif Require Import Base Elem Native Errs Names Ser Read Write Api Heap HeapRead HeapRead2 HeapWrite SpecHeap3 PfHeap10
  Prog ProgRead ProgWrite SpecThread.

Section Local.
  Variable shared : ref -> Prop.

  Notation own := own.
  Notation readable := (readable shared).
  Notation node_rel := (node_rel shared).
  Notation obj_rel := (obj_rel shared).
  Notation in_step := (in_step shared).

  Lemma own_up : forall w w' r r', incl w w' -> own w r r' -> own w' r r'.
  Proof. intros w w' r r' I H. apply I. exact H. Qed.
  Lemma readable_up : forall w w' r r', incl w w' -> readable w r r' -> readable w' r r'.
  Proof. intros w w' r r' I [H|H]; [left; apply I; exact H|right; exact H]. Qed.
  Lemma maybe_up : forall A (R : pairs -> A -> A -> Prop) w w' o o',
    (forall x x', R w x x' -> R w' x x') -> maybe_rel R w o o' -> maybe_rel R w' o o'.
  Proof. intros A R w w' [x|] [x'|] H K; simpl in *; auto. Qed.
  Lemma list_up : forall A (R : pairs -> A -> A -> Prop) w w' l l',
    (forall x x', R w x x' -> R w' x x') -> list_rel R w l l' -> list_rel R w' l l'.
  Proof. intros A R w w' l l' H K; induction K; constructor; auto. Qed.
  Lemma owns_up : forall w w' l l', incl w w' -> list_rel own w l l' -> list_rel own w' l l'.
  Proof. intros w w' l l' I. apply list_up. intros x x'. apply own_up; auto. Qed.
  Lemma oown_up : forall w w' o o', incl w w' -> maybe_rel own w o o' -> maybe_rel own w' o o'.
  Proof. intros w w' o o' I. apply maybe_up. intros x x'. apply own_up; auto. Qed.
  Lemma oread_up : forall w w' o o', incl w w' -> maybe_rel readable w o o' -> maybe_rel readable w' o o'.
  Proof. intros w w' o o' I. apply maybe_up. intros x x'. apply readable_up; auto. Qed.

  Ltac up I :=
    repeat match type of I with
    | incl ?w ?w' =>
        match goal with
        | H : own w _ _ |- _ => apply (@own_up _ _ _ _ I) in H
        | H : readable w _ _ |- _ => apply (@readable_up _ _ _ _ I) in H
        | H : Forall2 (own w) _ _ |- _ => apply (@owns_up _ _ _ _ I) in H
        | H : list_rel own w _ _ |- _ => apply (@owns_up _ _ _ _ I) in H
        | H : maybe_rel own w _ _ |- _ => apply (@oown_up _ _ _ _ I) in H
        | H : maybe_rel readable w _ _ |- _ => apply (@oread_up _ _ _ _ I) in H
        end
    end.

  Lemma step_andthen : forall A B (R : pairs -> A -> A -> Prop) (S' : pairs -> B -> B -> Prop) w p p' f f',
    in_step R w p p' ->
    (forall w' x x', incl w w' -> R w' x x' -> in_step S' w' (f x) (f' x')) ->
    in_step S' w (andthen p f) (andthen p' f').
  Proof.
    intros A B R S' w p p' f f' H; induction H as [w x x' H|w p'|w o o' k k' Ho Hk IH|w r r' k k' Hr Hk IH|w r r' o o' k k' Hr Ho Hk IH|w k k' Hk IH];
      intros K; simpl.
    - apply K; auto. apply incl_refl.
    - apply StepStop.
    - apply StepAlloc; auto. intros w' r r' I O. apply IH; auto. intros w2 x x' I2. apply K. eapply incl_tran; eauto.
    - apply StepLoad; auto. intros w' o o' I O. apply IH; auto. intros w2 x x' I2. apply K. eapply incl_tran; eauto.
    - apply StepStore; auto. intros w' I. apply IH; auto. intros w2 x x' I2. apply K. eapply incl_tran; eauto.
    - apply StepSize; auto. intros w' n n' I L. apply IH; auto. intros w2 x x' I2. apply K. eapply incl_tran; eauto.
  Qed.

  Lemma step_weaken : forall A (R R' : pairs -> A -> A -> Prop) w p p',
    (forall w' x x', R w' x x' -> R' w' x x') -> in_step R w p p' -> in_step R' w p p'.
  Proof.
    intros A R R' w p p' K H; induction H as [w x x' H|w p'|w o o' k k' Ho Hk IH|w r r' k k' Hr Hk IH|w r r' o o' k k' Hr Ho Hk IH|w k k' Hk IH].
    - apply StepRet; auto.
    - apply StepStop.
    - apply StepAlloc; auto.
    - apply StepLoad; auto.
    - apply StepStore; auto.
    - apply StepSize; auto.
  Qed.

  (** a method *)
  Definition meth {A} (R : pairs -> A -> A -> Prop) (w : pairs) (p p' : pp A) : Prop := in_step (maybe_rel R) w p p'.

  Lemma meth_ret : forall A (R : pairs -> A -> A -> Prop) w x x', R w x x' -> meth R w (pret x) (pret x').
  Proof. intros. apply StepRet. exact H. Qed.
  Lemma meth_raise : forall A (R : pairs -> A -> A -> Prop) w, meth R w praise praise.
  Proof. intros. apply StepRet. exact I. Qed.
  Lemma meth_bind : forall A B (R : pairs -> A -> A -> Prop) (S' : pairs -> B -> B -> Prop) w p p' f f',
    meth R w p p' -> (forall w' x x', incl w w' -> R w' x x' -> meth S' w' (f x) (f' x')) ->
    meth S' w (pbind p f) (pbind p' f').
  Proof.
    intros A B R S' w p p' f f' H K. eapply step_andthen; [exact H|].
    intros w' [x|] [x'|] I Hx; simpl in Hx; try contradiction; [apply K; auto|apply StepRet; exact Logic.I].
  Qed.

  Lemma meth_alloc : forall w o o', obj_rel w o o' -> meth own w (p_alloc o) (p_alloc o').
  Proof. intros w o o' H. apply StepAlloc; auto. intros w' r r' I O. apply StepRet. exact O. Qed.
  Lemma meth_store : forall w r r' o o', own w r r' -> obj_rel w o o' -> meth same_as w (p_store r o) (p_store r' o').
  Proof. intros w r r' o o' H K. apply StepStore; auto. intros w' I. apply StepRet. reflexivity. Qed.

  (** loading *)
  Lemma meth_load_node : forall w r r', own w r r' -> meth node_rel w (p_load_node r) (p_load_node r').
  Proof.
    intros w r r' H. apply StepLoad; [left; exact H|]. intros w' o o' I O. simpl.
    destruct O; simpl; apply StepRet; simpl; auto.
  Qed.
  Lemma meth_load_dict : forall w r r', readable w r r' -> meth same_as w (p_load_dict r) (p_load_dict r').
  Proof.
    intros w r r' H. apply StepLoad; [exact H|]. intros w' o o' I O. simpl.
    destruct O; simpl; apply StepRet; simpl; auto. reflexivity.
  Qed.
  Lemma meth_load_list : forall w r r', own w r r' -> meth (list_rel own) w (p_load_list r) (p_load_list r').
  Proof.
    intros w r r' H. apply StepLoad; [left; exact H|]. intros w' o o' I O. simpl.
    destruct O; simpl; apply StepRet; simpl; auto.
  Qed.
  Lemma meth_load_odict : forall w r r', maybe_rel readable w r r' -> meth same_as w (p_load_odict r) (p_load_odict r').
  Proof.
    intros w [r|] [r'|] H; simpl in H; try contradiction; simpl.
    - eapply meth_bind; [apply meth_load_dict; exact H|]. intros w' d d' I ->. apply meth_ret. reflexivity.
    - apply meth_ret. reflexivity.
  Qed.
  Lemma own_readable : forall w r r', own w r r' -> readable w r r'.
  Proof. intros; left; auto. Qed.
  Lemma oown_oread : forall w r r', maybe_rel own w r r' -> maybe_rel readable w r r'.
  Proof. intros w [r|] [r'|] H; simpl in *; auto. left; auto. Qed.
  Lemma meth_alloc_odict : forall w d, meth (maybe_rel own) w (p_alloc_odict d) (p_alloc_odict d).
  Proof.
    intros w [d|]; simpl; [|apply meth_ret; exact I].
    eapply meth_bind; [apply meth_alloc; constructor|]. intros w' r r' I H. apply meth_ret. exact H.
  Qed.

  Create HintDb step.
  Local Hint Resolve own_readable oown_oread meth_load_node meth_load_dict meth_load_list meth_load_odict meth_alloc_odict
    meth_alloc meth_store : step.
  Local Hint Constructors Verif.SpecThread.obj_rel Verif.SpecThread.node_rel : step.
  Local Hint Extern 0 (same_as _ _ _) => reflexivity : step.
  Local Hint Extern 0 (maybe_rel _ _ None None) => exact Logic.I : step.
  Local Hint Extern 1 (maybe_rel _ _ (Some _) (Some _)) => simpl : step.
  Local Hint Extern 1 (list_rel _ _ [] []) => constructor : step.
  Local Hint Extern 1 (list_rel _ _ (_ :: _) (_ :: _)) => constructor : step.
  Local Hint Extern 1 (meth _ _ (pret _) (pret _)) => apply meth_ret : step.
  Local Hint Extern 1 (meth _ _ praise praise) => apply meth_raise : step.

  (** after a bind: lift what is known, take results apart *)
  Ltac got :=
    let w' := fresh "w" in let x := fresh "x" in let x' := fresh "y" in let I := fresh "I" in let H := fresh "H" in
    intros w' x x' I H; up I;
    lazymatch type of H with
    | same_as _ _ _ => unfold same_as in H; subst
    | node_rel _ _ _ => destruct H; simpl
    | maybe_rel _ _ _ _ => idtac
    | _ => idtac
    end.
  Ltac opt :=
    match goal with
    | H : maybe_rel _ _ ?o ?o' |- meth _ _ (match ?o with _ => _ end) _ => destruct o, o'; simpl in H; try contradiction
    end.
  Ltac stepm :=
    match goal with
    | |- meth _ _ (pbind _ _) (pbind _ _) => eapply meth_bind; [solve [eauto 6 with step]|got]
    | |- meth _ _ (if ?b then _ else _) (if ?b then _ else _) => destruct b
    | |- meth _ _ (pret (if ?b then _ else _)) _ => destruct b
    | |- meth _ _ (match ?x with _ => _ end) (match ?x with _ => _ end) => destruct x
    | _ => opt
    | _ => solve [eauto 6 with step]
    end.
  Ltac go_meth := intros; simpl; repeat stepm.

  Lemma meth_new : forall w tag text tail at_ es es' ns ns' line, list_rel own w es es' -> maybe_rel readable w ns ns' ->
    meth own w (p_new tag text tail at_ es ns line) (p_new tag text tail at_ es' ns' line).
  Proof. intros. unfold p_new. go_meth. Qed.
  Local Hint Resolve meth_new : step.

  Lemma meth_map : forall A B (R : pairs -> A -> A -> Prop) (S' : pairs -> B -> B -> Prop) f f',
    (forall w w' x x', incl w w' -> R w x x' -> R w' x x') -> (forall w w' x x', incl w w' -> S' w x x' -> S' w' x x') ->
    forall l l' w, list_rel R w l l' ->
    (forall w' x x', incl w w' -> R w' x x' -> meth S' w' (f x) (f' x')) ->
    meth (list_rel S') w (p_map f l) (p_map f' l').
  Proof.
    intros A B R S' f f' UR US l. induction l as [|x l IH]; intros l' w H K; inversion H; subst; simpl.
    - apply meth_ret. constructor.
    - eapply meth_bind; [apply K; [apply incl_refl|assumption]|]. intros w1 b b' I1 Hb.
      eapply meth_bind.
      + apply IH; [eapply list_up; [|eassumption]; intros; eapply UR; eauto|].
        intros w2 x0 x0' I2. apply K. eapply incl_tran; eauto.
      + intros w2 bs bs' I2 Hbs. apply meth_ret. constructor; auto. eapply US; eauto.
  Qed.

  Lemma meth_map_own : forall B (S' : pairs -> B -> B -> Prop) f f' l l' w,
    (forall w w' x x', incl w w' -> S' w x x' -> S' w' x x') -> list_rel own w l l' ->
    (forall w' x x', incl w w' -> own w' x x' -> meth S' w' (f x) (f' x')) ->
    meth (list_rel S') w (p_map f l) (p_map f' l').
  Proof. intros. eapply meth_map; eauto. intros; eapply own_up; eauto. Qed.

  Lemma meth_create_snapshot : forall fuel fuel' w x x', fuel <= fuel' -> own w x x' ->
    meth own w (p_create_snapshot fuel x) (p_create_snapshot fuel' x').
  Proof.
    induction fuel as [|fuel IH]; intros fuel' w x x' L H; [apply StepStop|].
    destruct fuel' as [|fuel']; [lia|]. simpl.
    do 3 stepm. eapply meth_bind.
    - apply meth_map_own with (S' := own); [intros; eapply own_up; eauto|eassumption|]. intros. apply IH; auto; lia.
    - got. go_meth.
  Qed.

  Lemma meth_apply_snapshot : forall w x x' y y', own w x x' -> own w y y' -> meth same_as w (p_apply_snapshot x y) (p_apply_snapshot x' y').
  Proof. intros. unfold p_apply_snapshot. go_meth. Qed.
  Lemma meth_step_forward : forall w x x', own w x x' -> meth same_as w (p_step_forward x) (p_step_forward x').
  Proof. intros. unfold p_step_forward. go_meth. Qed.

  Lemma list_rel_length : forall A (R : pairs -> A -> A -> Prop) w l l', list_rel R w l l' -> length l = length l'.
  Proof. intros A R w l l' H; induction H; simpl; auto. Qed.
  Lemma list_rel_app : forall A (R : pairs -> A -> A -> Prop) w l1 l1' l2 l2', list_rel R w l1 l1' -> list_rel R w l2 l2' ->
    list_rel R w (l1 ++ l2) (l1' ++ l2').
  Proof. intros. apply Forall2_app; auto. Qed.
  Lemma list_rel_nth : forall A (R : pairs -> A -> A -> Prop) w l l' i, list_rel R w l l' -> maybe_rel R w (nth_error l i) (nth_error l' i).
  Proof. intros A R w l l' i H; revert i; induction H; intros [|i]; simpl; auto. Qed.
  Lemma list_rel_skipn : forall A (R : pairs -> A -> A -> Prop) w l l' i, list_rel R w l l' -> list_rel R w (skipn i l) (skipn i l').
  Proof. intros A R w l l' i H; revert i; induction H; intros [|i]; simpl; try constructor; auto; apply IHForall2. Qed.
  Lemma list_rel_upd : forall A (R : pairs -> A -> A -> Prop) w l l' i x x', list_rel R w l l' -> R w x x' ->
    list_rel R w (list_upd i x l) (list_upd i x' l').
  Proof. intros A R w l l' i x x' H K; revert i; induction H; intros [|i]; simpl; try constructor; auto; apply IHForall2. Qed.
  Lemma list_rel_last : forall A (R : pairs -> A -> A -> Prop) w l l' d d', list_rel R w l l' -> R w d d' -> R w (last l d) (last l' d').
  Proof. intros A R w l l' d d' H K; induction H as [|x x' l l' Hx Hl IH]; simpl; auto. destruct Hl; auto. Qed.
  Lemma list_rel_swap : forall A (R : pairs -> A -> A -> Prop) w l l' i j, list_rel R w l l' ->
    list_rel R w (list_swap i j l) (list_swap i j l').
  Proof.
    intros A R w l l' i j H. unfold list_swap.
    pose proof (list_rel_nth i H) as K1. pose proof (list_rel_nth j H) as K2.
    destruct (nth_error l i), (nth_error l' i); simpl in K1; try contradiction; auto;
    destruct (nth_error l j), (nth_error l' j); simpl in K2; try contradiction; auto.
    apply list_rel_upd; auto. apply list_rel_upd; auto.
  Qed.
  Lemma own_last : forall w l l' d d', list_rel own w l l' -> own w d d' -> own w (last l d) (last l' d').
  Proof. intros. apply (@list_rel_last _ own); auto. Qed.
  Local Hint Resolve list_rel_app list_rel_nth list_rel_skipn own_last list_rel_swap : step.

  Lemma meth_is_empty : forall w x x', own w x x' -> meth same_as w (p_is_empty x) (p_is_empty x').
  Proof.
    intros. unfold p_is_empty. do 3 stepm. apply meth_ret.
    match goal with H : list_rel _ _ _ _ |- _ => rewrite (list_rel_length H) end. reflexivity.
  Qed.
  Lemma meth_set_text : forall w x x' t, own w x x' -> meth same_as w (p_set_text x t) (p_set_text x' t).
  Proof. intros. unfold p_set_text. go_meth. Qed.
  Lemma meth_set_attribute : forall w x x' k v, own w x x' -> meth same_as w (p_set_attribute x k v) (p_set_attribute x' k v).
  Proof.
    intros. unfold p_set_attribute. stepm. eapply meth_bind with (R := own).
    - opt; go_meth.
    - got. go_meth.
  Qed.
  Lemma meth_set_attributes : forall w x x' d, own w x x' -> meth same_as w (p_set_attributes x d) (p_set_attributes x' d).
  Proof. intros. unfold p_set_attributes. go_meth. Qed.
  Lemma meth_append : forall w x x' y y', own w x x' -> own w y y' -> meth same_as w (p_append_element x y) (p_append_element x' y').
  Proof. intros. unfold p_append_element. go_meth. Qed.
  Lemma meth_get_attrib : forall w x x' k, own w x x' -> meth same_as w (p_get_attrib x k) (p_get_attrib x' k).
  Proof. intros. unfold p_get_attrib. go_meth. Qed.
  Lemma meth_pop_text : forall w x x', own w x x' -> meth same_as w (p_pop_text x) (p_pop_text x').
  Proof. intros. unfold p_pop_text. go_meth. Qed.
  Lemma meth_pop_tail : forall w x x', own w x x' -> meth same_as w (p_pop_tail x) (p_pop_tail x').
  Proof. intros. unfold p_pop_tail. go_meth. Qed.
  Lemma meth_pop_attrib : forall w x x' k, own w x x' -> meth same_as w (p_pop_attrib x k) (p_pop_attrib x' k).
  Proof. intros. unfold p_pop_attrib. go_meth. Qed.
  Lemma meth_pop_attributes : forall w x x', own w x x' -> meth (maybe_rel own) w (p_pop_attributes x) (p_pop_attributes x').
  Proof. intros. unfold p_pop_attributes. go_meth. Qed.
  Lemma meth_pop_elements : forall w x x', own w x x' -> meth (list_rel own) w (p_pop_elements x) (p_pop_elements x').
  Proof. intros. unfold p_pop_elements. go_meth. Qed.
  Lemma meth_tag_is : forall w x x' t, own w x x' -> meth same_as w (p_tag_is t x) (p_tag_is t x').
  Proof. intros. unfold p_tag_is. go_meth. Qed.
  Local Hint Resolve meth_is_empty meth_set_text meth_set_attribute meth_set_attributes meth_append meth_get_attrib meth_pop_text
    meth_pop_tail meth_pop_attrib meth_pop_attributes meth_pop_elements meth_tag_is meth_step_forward meth_apply_snapshot : step.

  Ltac nth_of :=
    match goal with
    | H : list_rel own ?w ?l ?l' |- meth _ ?w (match nth_error ?l ?i with _ => _ end) _ =>
        let K := fresh "K" in
        pose proof (list_rel_nth i H) as K; destruct (nth_error l i), (nth_error l' i); simpl in K; try contradiction
    end.

  Lemma meth_look_behind : forall w x x' t, own w x x' -> meth (maybe_rel own) w (p_look_behind x t) (p_look_behind x' t).
  Proof. intros. unfold p_look_behind. stepm. destruct next; [go_meth|]. stepm. nth_of; go_meth. Qed.
  Definition found (w : pairs) (a b : nat * ref) : Prop := fst a = fst b /\ own w (snd a) (snd b).
  Lemma meth_find_from : forall t l l' w i, list_rel own w l l' -> meth (maybe_rel found) w (p_find_from i l t) (p_find_from i l' t).
  Proof.
    intros t l; induction l as [|c l IH]; intros l' w i H; inversion H; subst; simpl; [go_meth|].
    eapply meth_bind; [eauto with step|]. intros w1 b b' I1 Hb. up I1. rewrite Hb. destruct b'.
    - apply meth_ret. split; auto.
    - apply IH; auto.
  Qed.
  Lemma meth_step_if : forall w x x' n n' (s : bool), own w x x' -> node_rel w n n' ->
    meth same_as w (if s then p_store x (ONode n) else pret tt) (if s then p_store x' (ONode n') else pret tt).
  Proof. intros w x x' n n' [|] H K; go_meth. Qed.
  Local Hint Resolve meth_look_behind meth_find_from meth_step_if : step.
  Lemma meth_strict : forall w x x' t s, own w x x' -> meth (maybe_rel own) w (p_strict_forward x t s) (p_strict_forward x' t s).
  Proof. intros. unfold p_strict_forward. do 2 stepm. nth_of; go_meth. Qed.
  Lemma meth_ordered : forall w x x' t s, own w x x' -> meth (maybe_rel own) w (p_ordered_forward x t s) (p_ordered_forward x' t s).
  Proof.
    intros. unfold p_ordered_forward. do 3 stepm. opt; [|go_meth].
    match goal with H : found _ ?a ?b |- _ => destruct a as [i c], b as [i' c']; destruct H as [E O]; simpl in E, O; subst i' end.
    stepm. go_meth.
  Qed.
  Lemma meth_unordered : forall w x x' t s, own w x x' -> meth (maybe_rel own) w (p_unordered_forward x t s) (p_unordered_forward x' t s).
  Proof.
    intros. unfold p_unordered_forward. do 3 stepm. opt; [|go_meth].
    match goal with H : found _ ?a ?b |- _ => destruct a as [i c], b as [i' c']; destruct H as [E O]; simpl in E, O; subst i' end.
    stepm. stepm. go_meth.
  Qed.
  Lemma meth_find_element : forall w x x' t m b s, own w x x' -> meth (maybe_rel own) w (p_find_element x t m b s) (p_find_element x' t m b s).
  Proof.
    intros w x x' t m b s H.
    assert (F : forall w, own w x x' -> meth (maybe_rel own) w (p_forward m x t s) (p_forward m x' t s)).
    { intros w1 H1. destruct m; simpl; [apply meth_strict|apply meth_ordered|apply meth_unordered]; auto. }
    unfold p_find_element. destruct b; [|auto]. stepm. opt; [go_meth|auto].
  Qed.
  Local Hint Resolve meth_find_element : step.
  Lemma meth_extract : forall w x x', own w x x' -> meth own w (p_extract x) (p_extract x').
  Proof. intros. unfold p_extract. go_meth. Qed.
  Local Hint Resolve meth_extract : step.
  Lemma meth_pop_element : forall w x x' t m r, own w x x' -> meth (maybe_rel own) w (p_pop_element x t m r) (p_pop_element x' t m r).
  Proof. intros. unfold p_pop_element. stepm. opt; [|go_meth]. destruct r; go_meth. Qed.
  Lemma meth_find_sub : forall path w x x' m, own w x x' -> meth (list_rel own) w (p_find_sub_element x path m) (p_find_sub_element x' path m).
  Proof.
    induction path as [|t path IH]; intros w x x' m H; cbn [p_find_sub_element]; [apply meth_raise|].
    stepm. opt; [|go_meth]. destruct path; [go_meth|].
    eapply meth_bind; [apply IH; eassumption|]. got. go_meth.
  Qed.
  Lemma meth_make_element : forall w b t ns ns', maybe_rel readable w ns ns' -> meth own w (p_make_element b t ns) (p_make_element b t ns').
  Proof. intros w b t ns ns' H. unfold p_make_element. apply meth_new; [constructor|]. destruct b; simpl; auto. Qed.
  Local Hint Resolve meth_pop_element meth_find_sub meth_make_element : step.
  Lemma meth_find_or_create : forall w b x x' t m ns ns', own w x x' -> maybe_rel readable w ns ns' ->
    meth own w (p_find_element_or_create b x t m ns) (p_find_element_or_create b x' t m ns').
  Proof. intros. unfold p_find_element_or_create. stepm. opt; [go_meth|]. go_meth. Qed.
  Lemma meth_is_nill : forall w x x', own w x x' -> meth same_as w (p_is_element_nill x) (p_is_element_nill x').
  Proof. intros. unfold p_is_element_nill. go_meth. Qed.
  Lemma meth_make_nill : forall w x x', own w x x' -> meth same_as w (p_make_element_nill x) (p_make_element_nill x').
  Proof. intros. unfold p_make_element_nill. go_meth. Qed.
  Lemma meth_sourceline : forall w x x', own w x x' -> meth same_as w (p_get_sourceline x) (p_get_sourceline x').
  Proof. intros. unfold p_get_sourceline. go_meth. Qed.
  Local Hint Resolve meth_find_or_create meth_is_nill meth_make_nill meth_sourceline : step.

  Ltac list_cases :=
    match goal with
    | H : list_rel _ _ ?l ?l' |- _ => idtac
    end.

  Lemma meth_to_native : forall fuel fuel' b w x x', fuel <= fuel' -> own w x x' ->
    meth same_as w (p_to_native fuel b x) (p_to_native fuel' b x').
  Proof.
    induction fuel as [|fuel IH]; intros fuel' b w x x' L H; [apply StepStop|].
    destruct fuel' as [|fuel']; [lia|]. cbn [p_to_native].
    do 3 stepm. cbv zeta. destruct tag as [t|]; [|go_meth].
    stepm. eapply meth_bind.
    - apply meth_map_own with (S' := @same_as (option native)); [intros; assumption|eassumption|]. intros. apply IH; auto; lia.
    - intros w4 l l' I4 Hl.
      assert (E : l = l'). { clear - Hl. induction Hl as [|a b l l' Hab Hl IH]; [reflexivity|]. unfold same_as in Hab. congruence. }
      subst. apply meth_ret. reflexivity.
  Qed.

  Definition unb_rel (w : pairs) (u u' : list ref * option string * string) : Prop :=
    list_rel own w (fst (fst u)) (fst (fst u')) /\ snd (fst u) = snd (fst u') /\ snd u = snd u'.
  Lemma unb_up : forall w w' u u', incl w w' -> unb_rel w u u' -> unb_rel w' u u'.
  Proof. intros w w' u u' I (H & E). split; auto. eapply owns_up; eauto. Qed.
  Lemma list_rel_map : forall A B (R : pairs -> B -> B -> Prop) w (f f' : A -> B) l, (forall x, R w (f x) (f' x)) -> list_rel R w (map f l) (map f' l).
  Proof. intros A B R w f f' l H; induction l; constructor; auto. Qed.
  Lemma list_rel_concat : forall A (R : pairs -> A -> A -> Prop) w l l', list_rel (list_rel R) w l l' -> list_rel R w (concat l) (concat l').
  Proof. intros A R w l l' H; induction H; simpl; [constructor|]. apply list_rel_app; auto. Qed.

  Lemma meth_get_unbound : forall fuel fuel' w path path' x x', fuel <= fuel' -> list_rel own w path path' -> own w x x' ->
    meth (list_rel unb_rel) w (p_get_unbound fuel path x) (p_get_unbound fuel' path' x').
  Proof.
    induction fuel as [|fuel IH]; intros fuel' w path path' x x' L P H; [apply StepStop|].
    destruct fuel' as [|fuel']; [lia|]. cbn [p_get_unbound].
    do 3 stepm. eapply meth_bind.
    - apply meth_map_own with (S' := list_rel unb_rel).
      + intros. eapply list_up; [|eassumption]. intros; eapply unb_up; eauto.
      + eassumption.
      + intros w4 c c' I4 Hc. up I4. apply IH; [lia| |exact Hc]. apply list_rel_app; [assumption|]. constructor; [exact Hc|constructor].
    - intros w4 l l' I4 Hl. up I4. apply meth_ret.
      repeat apply list_rel_app.
      + apply list_rel_map. intros t. split; auto.
      + apply list_rel_map. intros t. split; auto.
      + apply list_rel_map. intros t. split; auto.
      + apply list_rel_concat; auto.
  Qed.

  Lemma node_up : forall w w' n n', incl w w' -> node_rel w n n' -> node_rel w' n n'.
  Proof. intros w w' n n' I H. destruct H. up I. constructor; auto. Qed.

  Lemma meth_extra_error : forall w x x' u u', own w x x' -> unb_rel w u u' -> meth same_as w (p_extra_error x u) (p_extra_error x' u').
  Proof.
    intros w x x' [[path at_] v] [[path' at_'] v'] H (P & E1 & E2). simpl in *. subst. unfold p_extra_error.
    stepm. eapply meth_bind.
    - apply meth_map_own with (S' := node_rel); [intros; eapply node_up; eauto|eassumption|]. intros. apply meth_load_node; auto.
    - intros w2 l l' I2 Hl. apply meth_ret.
      assert (E : map n_tag l = map n_tag l').
      { clear - Hl. induction Hl as [|a b l l' Hab Hl IH]; [reflexivity|]. simpl. rewrite IH. destruct Hab; reflexivity. }
      rewrite E. reflexivity.
  Qed.

  Lemma meth_check_extra : forall w title x x' hide, own w x x' -> meth same_as w (p_check_extra title x hide) (p_check_extra title x' hide).
  Proof.
    intros w title x x' hide H. apply StepSize. intros w1 n n' I1 L. up I1.
    eapply meth_bind; [apply meth_get_unbound; [exact L|constructor|exact H]|].
    intros w2 us us' I2 Hu. up I2. eapply meth_bind.
    - eapply meth_map with (R := unb_rel) (S' := @same_as lerr); [intros; eapply unb_up; eauto|intros; assumption|exact Hu|].
      intros w3 u u' I3 Hu'. up I3. apply meth_extra_error; auto.
    - intros w3 l l' I3 Hl. apply meth_ret.
      assert (E : l = l'). { clear - Hl. induction Hl as [|a b l l' Hab Hl IH]; [reflexivity|]. unfold same_as in Hab. congruence. }
      subst. reflexivity.
  Qed.

  Lemma meth_from_native : forall b n w, meth own w (p_from_native b n) (p_from_native b n).
  Proof.
    intros b n; induction n as [tag nsm text tail attrib children line IH|text tail|text tail] using native_ind'; intros w; simpl.
    - eapply meth_bind with (R := list_rel own).
      + revert w. induction IH as [|c l Hc Hl IHl]; intros w; [apply meth_ret; constructor|].
        destruct (is_xml_comment c); [apply IHl|].
        eapply meth_bind; [apply Hc|]. intros w1 r r' I1 Hr. eapply meth_bind; [apply IHl|]. intros w2 rs rs' I2 Hrs. up I2.
        apply meth_ret. constructor; auto.
      + intros w1 es es' I1 He. apply meth_new; [exact He|exact I].
    - apply meth_new; [constructor|exact I].
    - apply meth_new; [constructor|exact I].
  Qed.
  Local Hint Resolve meth_from_native : step.

  (** ---- readers ---- *)

  Definition out_rel {A} (R : pairs -> A -> A -> Prop) (w : pairs) (o o' : out A) : Prop :=
    match o, o' with
    | Ok x, Ok x' => R w x x'
    | Raise e, Raise e' => e = e'
    | Fuel, Fuel => True
    | _, _ => False
    end.
  Definition res_rel {A} (R : pairs -> A -> A -> Prop) (w : pairs) (a b : out A * smap) : Prop :=
    out_rel R w (fst a) (fst b) /\ snd a = snd b.
  Definition rdm {A} (R : pairs -> A -> A -> Prop) (w : pairs) (p p' : pm A) : Prop :=
    forall sm, in_step (res_rel R) w (p sm) (p' sm).

  Lemma rdm_ret : forall A (R : pairs -> A -> A -> Prop) w x x', R w x x' -> rdm R w (pmret x) (pmret x').
  Proof. intros A R w x x' H sm. apply StepRet. split; auto. Qed.
  Lemma rdm_raise : forall A (R : pairs -> A -> A -> Prop) w e, rdm R w (pmraise e) (pmraise e).
  Proof. intros A R w e sm. apply StepRet. split; simpl; auto. Qed.
  Lemma rdm_fuel : forall A (R : pairs -> A -> A -> Prop) w, rdm R w pmfuel pmfuel.
  Proof. intros A R w sm. apply StepRet. split; simpl; auto. Qed.
  Lemma rdm_bind : forall A B (R : pairs -> A -> A -> Prop) (S' : pairs -> B -> B -> Prop) w p p' f f',
    rdm R w p p' -> (forall w' x x', incl w w' -> R w' x x' -> rdm S' w' (f x) (f' x')) ->
    rdm S' w (pmbind p f) (pmbind p' f').
  Proof.
    intros A B R S' w p p' f f' H K sm. eapply step_andthen; [apply H|].
    intros w' [o sm1] [o' sm2] I [Ho E]; simpl in *; subst.
    destruct o, o'; simpl in Ho; try contradiction; try (apply StepRet; split; simpl; auto; fail). apply K; auto.
  Qed.
  Lemma rdm_try : forall A w (p p' : pm A), rdm same_as w p p' -> rdm same_as w (pmtry p) (pmtry p').
  Proof.
    intros A w p p' H sm. eapply step_andthen; [apply H|].
    intros w' [o sm1] [o' sm2] I [Ho E]; simpl in *; subst.
    destruct o, o'; simpl in Ho; try contradiction; unfold same_as in Ho; subst; try (apply StepRet; split; simpl; auto; reflexivity).
    destruct x0; apply StepRet; split; simpl; auto; reflexivity.
  Qed.
  Lemma rdm_lift : forall A (R : pairs -> A -> A -> Prop) w p p', meth R w p p' -> rdm R w (plift p) (plift p').
  Proof.
    intros A R w p p' H sm. eapply step_andthen; [exact H|].
    intros w' [x|] [x'|] I Hx; simpl in Hx; try contradiction; apply StepRet; split; simpl; auto.
  Qed.
  Lemma rdm_walk : forall A (R : pairs -> A -> A -> Prop) w p p', meth R w p p' -> rdm R w (plift_walk p) (plift_walk p').
  Proof.
    intros A R w p p' H sm. eapply step_andthen; [exact H|].
    intros w' [x|] [x'|] I Hx; simpl in Hx; try contradiction; [apply StepRet; split; simpl; auto|apply StepStop].
  Qed.
  Lemma rdm_note_line : forall w loc x x', own w x x' -> rdm same_as w (p_note_line loc x) (p_note_line loc x').
  Proof.
    intros w loc x x' H. eapply rdm_bind; [apply rdm_lift; apply meth_sourceline; exact H|].
    intros w' l l' I -> sm. apply StepRet. split; reflexivity.
  Qed.
  Local Hint Resolve rdm_note_line rdm_lift rdm_walk rdm_fuel rdm_raise meth_check_extra : step.
  Local Hint Extern 1 (rdm _ _ (pmret _) (pmret _)) => apply rdm_ret : step.

  Ltac optm :=
    match goal with
    | H : maybe_rel _ _ ?o ?o' |- rdm _ _ (match ?o with _ => _ end) _ => destruct o, o'; simpl in H; try contradiction
    end.
  Ltac rstep :=
    match goal with
    | |- rdm _ _ (pmbind _ _) (pmbind _ _) => eapply rdm_bind; [solve [eauto 7 with step]|got]
    | |- rdm _ _ (@pmbind ?A _ _ _) (pmbind _ _) => eapply rdm_bind with (R := @same_as A); [solve [eauto 7 with step]|got]
    | |- rdm _ _ (if ?b then _ else _) (if ?b then _ else _) => destruct b
    | |- rdm _ _ (match ?x with _ => _ end) (match ?x with _ => _ end) => destruct x
    | _ => optm
    | _ => solve [eauto 7 with step]
    end.
  Ltac go_rd := intros; repeat rstep.

  Definition rself (r : preader) : Prop := forall eas loc w x x', own w x x' -> rdm same_as w (r eas loc x) (r eas loc x').

  Lemma rself_text : forall c n, rself (p_read_text c n).
  Proof.
    intros c n eas loc w x x' H. unfold p_read_text. destruct c; [go_rd|]. destruct n; go_rd.
  Qed.
  Lemma rself_attr : forall n c, rself (p_read_attr n c).
  Proof. intros n c eas loc w x x' H. unfold p_read_attr. go_rd. Qed.
  Local Hint Resolve rself_text rself_attr : step.
  Lemma rself_elem : forall n m c ni, rself (p_read_elem n m c ni).
  Proof. intros n m c ni eas loc w x x' H. unfold p_read_elem. go_rd. apply rself_text; auto. Qed.
  Lemma rself_attrs : forall a, rself (p_read_attrs a).
  Proof.
    intros a eas loc w x x' H. unfold p_read_attrs. destruct (as_computed a); [go_rd|].
    eapply rdm_bind with (R := same_as).
    - apply rdm_lift. eapply meth_bind; [apply meth_pop_attributes; exact H|].
      intros w1 o o' I1 Ho. apply meth_load_odict. apply oown_oread; auto.
    - got. go_rd.
  Qed.
  Lemma rself_map_elem : forall n m a, rself (p_read_map_elem n m a).
  Proof. intros n m a eas loc w x x' H. unfold p_read_map_elem. go_rd. apply rself_attrs; auto. Qed.

  Lemma rdm_items : forall r, rself r -> forall k title hide eas loc idx result errors w x x', own w x x' ->
    rdm same_as w (p_read_items k r title hide eas loc idx result errors x) (p_read_items k r title hide eas loc idx result errors x').
  Proof.
    intros r Hr. induction k as [|k IH]; intros; simpl; [apply rdm_fuel|].
    eapply rdm_bind; [apply rdm_try; apply Hr; eassumption|]. got. destruct y as [[]|]; try (apply IH; auto).
    destruct errors; go_rd.
  Qed.
  Lemma rself_homo : forall k title c r hide, rself r -> rself (p_read_homo k title c r hide).
  Proof. intros k title c r hide H eas loc w x x' O. unfold p_read_homo. destruct c; [go_rd|]. apply rdm_items; auto. Qed.
  Lemma rdm_tuple : forall title hide rs, Forall rself rs -> forall eas loc idx result errors w x x', own w x x' ->
    rdm same_as w (p_read_tuple rs title hide eas loc idx result errors x) (p_read_tuple rs title hide eas loc idx result errors x').
  Proof.
    intros title hide rs H; induction H as [|r rs Hr Hrs IH]; intros; simpl; [destruct errors; go_rd|].
    eapply rdm_bind; [apply rdm_try; apply Hr; eassumption|]. got. destruct y; apply IH; auto.
  Qed.
  Lemma rself_hetero : forall title c rs hide, Forall rself rs -> rself (p_read_hetero title c rs hide).
  Proof. intros title c rs hide H eas loc w x x' O. unfold p_read_hetero. destruct c; [go_rd|]. apply rdm_tuple; auto. Qed.
  Lemma rself_union_prim : forall c r, rself r -> rself (p_read_union_prim c r).
  Proof. intros c r H eas loc w x x' O. unfold p_read_union_prim. destruct c; [go_rd|]. apply H; auto. Qed.

  Lemma rdm_variants : forall title hide eas loc rs, Forall rself rs -> forall errors w x x', own w x x' ->
    rdm same_as w (p_read_variants rs title hide eas loc errors x) (p_read_variants rs title hide eas loc errors x').
  Proof.
    intros title hide eas loc rs H; induction H as [|r rs Hr Hrs IH]; intros errors w x x' O sm; cbn [p_read_variants].
    - destruct errors; [apply StepRet; split; reflexivity|].
      eapply step_andthen; [apply meth_step_forward; exact O|].
      intros w1 [u|] [u'|] I1 Hu; simpl in Hu; try contradiction; apply StepRet; split; reflexivity.
    - eapply step_andthen with (R := maybe_rel own).
      + apply StepSize. intros w1 n n' I1 L. up I1. apply meth_create_snapshot; auto.
      + intros w1 [s|] [s'|] I1 Hs; simpl in Hs; try contradiction; [|apply StepStop]. up I1.
        eapply step_andthen; [apply Hr; exact Hs|].
        intros w2 [o sm1] [o' sm2] I2 [Ho E]; simpl in *; subst. up I2.
        destruct o as [v|e|], o' as [v'|e'|]; simpl in Ho; try contradiction; unfold same_as in Ho; subst.
        * assert (K : in_step (res_rel same_as) w2
            (andthen (p_apply_snapshot x s) (fun o => match o with Some _ => Ret (Ok v', sm2) | None => Ret (Fuel, sm2) end))
            (andthen (p_apply_snapshot x' s') (fun o => match o with Some _ => Ret (Ok v', sm2) | None => Ret (Fuel, sm2) end))).
          { eapply step_andthen; [apply meth_apply_snapshot; eassumption|].
            intros w3 [u|] [u'|] I3 Hu; simpl in Hu; try contradiction; apply StepRet; split; reflexivity. }
          destruct v'; try exact K. apply IH; auto.
        * destruct e'; try (apply StepRet; split; reflexivity). apply IH; auto.
        * apply StepRet; split; reflexivity.
  Qed.
  Lemma rself_union_model : forall title c rs hide, Forall rself rs -> rself (p_read_union_model title c rs hide).
  Proof. intros title c rs hide H eas loc w x x' O. unfold p_read_union_model. destruct c; [go_rd|]. apply rdm_variants; auto. Qed.

  Lemma rdm_tagged : forall rp, (forall p, rself (rp p)) -> forall a m vs eas loc w x x', own w x x' ->
    rdm same_as w (p_read_tagged rp a m vs eas loc x) (p_read_tagged rp a m vs eas loc x').
  Proof.
    intros rp H a m vs; induction vs as [|[tag p] vs IH]; intros eas loc w x x' O; cbn [p_read_tagged]; [go_rd|].
    rstep. optm; [|apply IH; auto]. rstep.
    match goal with |- rdm _ _ (if ?b then _ else _) _ => destruct b end; [|apply IH; auto]. rstep. apply H; auto.
  Qed.

  Lemma list_rel_len : forall w l l', list_rel own w l l' -> length l = length l'.
  Proof. intros w l l' H; induction H; simpl; auto. Qed.
  Lemma rself_wrap : forall path m c r, rself r -> rself (p_read_wrap path m c r).
  Proof.
    intros path m c r H eas loc w x x' O. unfold p_read_wrap. destruct c; [go_rd|]. destruct path; [go_rd|].
    rstep. match goal with H : list_rel _ _ _ _ |- _ => rewrite (list_rel_len H) end.
    match goal with |- rdm _ _ (if ?b then _ else _) _ => destruct b end; [|go_rd].
    eapply rdm_bind; [apply rdm_note_line; apply own_last; auto|]. got. apply H. apply own_last; auto.
  Qed.

  Lemma rself_raw : forall b n m c, rself (p_read_raw b n m c).
  Proof.
    intros b n m c eas loc w x x' O. unfold p_read_raw. destruct c; [go_rd|]. rstep. optm; [|go_rd]. rstep.
    eapply rdm_bind with (R := same_as).
    - apply rdm_walk. apply StepSize. intros w4 k k' I4 L. up I4. apply meth_to_native; auto.
    - got. go_rd.
  Qed.

  Lemma rdm_validate : forall m input w x x', own w x x' -> rdm same_as w (p_validate_result m input x) (p_validate_result m input x').
  Proof.
    intros m input w x x' O. unfold p_validate_result. eapply rdm_bind with (R := same_as).
    - destruct (md_forbid m); go_rd.
    - got. destruct y; [go_rd|]. intros sm. destruct (md_validate m input); apply StepRet; split; reflexivity.
  Qed.

  Lemma rdm_custom : forall f, local shared f -> forall w x x', own w x x' -> rdm same_as w (p_run_custom f x) (p_run_custom f x').
  Proof.
    intros f H w x x' O sm. eapply step_andthen; [apply H; exact O|].
    intros w1 o o' I1 ->. apply StepRet. split; [|reflexivity]. simpl. destruct o'; simpl; auto. reflexivity.
  Qed.

  Lemma rdm_fields : forall r hc m, (forall s, rself (r s)) -> (forall name f, hc name = Some f -> local shared f) ->
    forall fs eas result errors w x x', own w x x' ->
    rdm same_as w (p_read_fields r hc m fs eas result errors x) (p_read_fields r hc m fs eas result errors x').
  Proof.
    intros r hc m H HC fs; induction fs as [|[name s] fs IH]; intros eas result errors w x x' O; cbn [p_read_fields]; [go_rd|].
    rstep. eapply rdm_bind with (R := same_as).
    - apply rdm_try. destruct (hc name) as [f|] eqn:E; [apply rdm_custom; eauto|apply H; auto].
    - got. destruct y0 as [[]|]; apply IH; auto.
  Qed.

  Lemma rself_model : forall r hc m, (forall s, rself (r s)) -> (forall name f, hc name = Some f -> local shared f) ->
    rself (p_read_model r hc m).
  Proof.
    intros r hc m H HC eas loc w x x' O. unfold p_read_model. destruct (md_root m).
    - unfold p_read_root_model. destruct (md_fields m) as [|[nm s] fs]; [go_rd|].
      eapply rdm_bind; [apply rdm_try; apply H; exact O|]. got. destruct y; [apply rdm_validate; auto|go_rd].
    - unfold p_read_plain_model. eapply rdm_bind; [apply rdm_fields; eassumption|]. got.
      destruct (snd y); [apply rdm_validate; auto|go_rd].
  Qed.

  Lemma rself_proxy : forall ev hc r p, (forall s, rself (r s)) -> local_vals shared hc -> rself (p_read_proxy ev hc r p).
  Proof.
    intros ev hc r p H HC eas loc w x x' O. unfold p_read_proxy. destruct (en_model ev (px_model p)) as [m|]; [|go_rd].
    destruct (px_computed p); [go_rd|]. rstep. optm; [|go_rd]. rstep. rstep.
    match goal with |- rdm _ _ (if ?b then _ else _) _ => destruct b end; [go_rd|]. apply rself_model; auto. intros name f. apply HC.
  Qed.

  Lemma rself_read : forall ev hc, local_vals shared hc -> forall n s, rself (p_read n ev hc s).
  Proof.
    intros ev hc HC; induction n as [|n IH]; intros s; simpl; [intros eas loc w x x' O; apply rdm_fuel|].
    destruct s; simpl.
    - apply rself_text.
    - apply rself_attr.
    - apply rself_elem.
    - apply rself_attrs.
    - apply rself_map_elem.
    - apply rself_homo; auto.
    - apply rself_hetero. induction inners; simpl; constructor; auto.
    - apply rself_union_prim; auto.
    - apply rself_union_model. induction variants; simpl; constructor; auto. apply rself_proxy; auto.
    - intros eas loc w x x' O. destruct computed; [go_rd|]. apply rdm_tagged; auto. intros p. apply rself_proxy; auto.
    - apply rself_wrap; auto.
    - apply rself_raw.
    - apply rself_proxy; auto.
  Qed.

  Lemma from_xml_tree_step : forall n ev hc cls root eas w, local_vals shared hc ->
    in_step same_as w (p_from_xml_tree n ev hc cls root eas) (p_from_xml_tree n ev hc cls root eas).
  Proof.
    intros n ev hc cls root eas w HC. unfold p_from_xml_tree.
    destruct (en_model ev cls) as [m|]; [|apply StepRet; reflexivity].
    destruct (tag_is (native_tag root) (md_elem_name m)); [|apply StepRet; reflexivity].
    eapply step_andthen; [apply meth_from_native|].
    intros w1 [x|] [x'|] I1 Hx; simpl in Hx; try contradiction; [|apply StepRet; reflexivity].
    eapply step_andthen; [apply rself_model; [intros s; apply rself_read; exact HC|intros name f; apply HC|exact Hx]|].
    intros w2 [o sm1] [o' sm2] I2 [Ho E]; simpl in *; subst. apply StepRet.
    destruct o, o'; simpl in Ho; try contradiction; unfold same_as in *; congruence.
  Qed.

  (** ---- writers ---- *)

  Definition wrm {A} (R : pairs -> A -> A -> Prop) (w : pairs) (p p' : pw A) : Prop := in_step (out_rel R) w p p'.
  Lemma wrm_ret : forall A (R : pairs -> A -> A -> Prop) w x x', R w x x' -> wrm R w (pwret x) (pwret x').
  Proof. intros. apply StepRet. exact H. Qed.
  Lemma wrm_raise : forall A (R : pairs -> A -> A -> Prop) w e, wrm R w (pwraise e) (pwraise e).
  Proof. intros. apply StepRet. reflexivity. Qed.
  Lemma wrm_pure : forall A w (o : out A), wrm same_as w (pwpure o) (pwpure o).
  Proof. intros. apply StepRet. destruct o; simpl; auto. reflexivity. Qed.
  Lemma wrm_bind : forall A B (R : pairs -> A -> A -> Prop) (S' : pairs -> B -> B -> Prop) w p p' f f',
    wrm R w p p' -> (forall w' x x', incl w w' -> R w' x x' -> wrm S' w' (f x) (f' x')) ->
    wrm S' w (pwbind p f) (pwbind p' f').
  Proof.
    intros A B R S' w p p' f f' H K. eapply step_andthen; [exact H|].
    intros w' o o' I Ho. destruct o, o'; simpl in Ho; try contradiction; [apply K; auto| |]; apply StepRet; simpl; auto.
  Qed.
  Lemma wrm_lift : forall A (R : pairs -> A -> A -> Prop) w p p', meth R w p p' -> wrm R w (pwlift p) (pwlift p').
  Proof.
    intros A R w p p' H. eapply step_andthen; [exact H|].
    intros w' [x|] [x'|] I Hx; simpl in Hx; try contradiction; apply StepRet; simpl; auto.
  Qed.
  Lemma wrm_walk : forall A (R : pairs -> A -> A -> Prop) w p p', meth R w p p' -> wrm R w (pwlift_walk p) (pwlift_walk p').
  Proof.
    intros A R w p p' H. eapply step_andthen; [exact H|].
    intros w' [x|] [x'|] I Hx; simpl in Hx; try contradiction; [apply StepRet; simpl; auto|apply StepStop].
  Qed.
  Local Hint Resolve wrm_raise wrm_pure wrm_lift wrm_walk : step.
  Local Hint Extern 1 (wrm _ _ (pwret _) (pwret _)) => apply wrm_ret : step.

  Ltac wstep :=
    match goal with
    | |- wrm _ _ (pwbind _ _) (pwbind _ _) => eapply wrm_bind; [solve [eauto 7 with step]|got]
    | |- wrm _ _ (@pwbind ?A _ _ _) (pwbind _ _) => eapply wrm_bind with (R := @same_as A); [solve [eauto 7 with step]|got]
    | |- wrm _ _ (if ?b then _ else _) (if ?b then _ else _) => destruct b
    | |- wrm _ _ (match ?x with _ => _ end) (match ?x with _ => _ end) => destruct x
    | _ => solve [eauto 7 with step]
    end.
  Ltac go_wr := intros; repeat wstep.

  Variable nsr : nsmap -> ref.
  Variable maps : list nsmap.
  Hypothesis Maps : forall m, In m maps -> shared (nsr m).

  Definition wself (wr : pwriter) : Prop := forall fl v enc w x x', own w x x' -> wrm same_as w (wr fl x v enc) (wr fl x' v enc).

  Lemma wself_text : forall n, wself (p_write_text n).
  Proof.
    intros n fl v enc w x x' H. unfold p_write_text. wstep; [go_wr|]. eapply wrm_bind with (R := same_as).
    - destruct (n && is_none v); go_wr.
    - got. go_wr.
  Qed.
  Lemma wself_attr : forall n, wself (p_write_attr n).
  Proof. intros n fl v enc w x x' H. unfold p_write_attr. go_wr. Qed.
  Lemma wrm_make_sub : forall w b n nsm, incl (opt_list nsm) maps -> wrm own w (p_make_sub nsr b n nsm) (p_make_sub nsr b n nsm).
  Proof.
    intros w b n nsm H. apply wrm_lift. apply meth_make_element. destruct nsm as [m|]; simpl; [|exact I].
    right. split; [reflexivity|]. apply Maps. apply H. left; reflexivity.
  Qed.
  Lemma wrm_append : forall w fl x x' y y', own w x x' -> own w y y' ->
    wrm same_as w (p_append_unless_empty fl x y) (p_append_unless_empty fl x' y').
  Proof. intros. unfold p_append_unless_empty. go_wr. Qed.
  Local Hint Resolve wrm_make_sub wrm_append : step.
  Lemma wself_elem : forall b n nsm ni, incl (opt_list nsm) maps -> wself (p_write_elem nsr b n nsm ni).
  Proof.
    intros b n nsm ni M fl v enc w x x' H. unfold p_write_elem. wstep; [go_wr|]. wstep.
    eapply wrm_bind; [apply wself_text; eassumption|]. got. go_wr.
  Qed.
  Lemma wself_attrs : forall a, wself (p_write_attrs a).
  Proof. intros a fl v enc w x x' H. unfold p_write_attrs. go_wr. Qed.
  Lemma wself_map_elem : forall b n a, incl (opt_list (as_nsmap a)) maps -> wself (p_write_map_elem nsr b n a).
  Proof.
    intros b n a M fl v enc w x x' H. unfold p_write_map_elem.
    assert (K : wrm same_as w (sub <-| p_make_sub nsr b n (as_nsmap a) ;; _ <-| p_write_attrs a fl sub v enc ;; p_append_unless_empty fl sub x)
                              (sub <-| p_make_sub nsr b n (as_nsmap a) ;; _ <-| p_write_attrs a fl sub v enc ;; p_append_unless_empty fl sub x')).
    { wstep. eapply wrm_bind; [apply wself_attrs; eassumption|]. got. go_wr. }
    cbv zeta. destruct (fl_skip_empty fl); [|exact K]. destruct (py_len v) as [[|k]|]; [go_wr|exact K|go_wr].
  Qed.
  Lemma wrm_items : forall wr, wself wr -> forall vs encs fl w x x', own w x x' ->
    wrm same_as w (p_write_items wr fl x vs encs) (p_write_items wr fl x' vs encs).
  Proof.
    intros wr H vs; induction vs as [|v vs IH]; intros [|e encs] fl w x x' O; cbn [p_write_items]; try solve [go_wr].
    all: destruct (fl_skip_empty fl && is_none v); [apply IH; auto|]; eapply wrm_bind; [apply H; eassumption|]; got; apply IH; auto.
  Qed.
  Lemma wself_homo : forall wr, wself wr -> wself (p_write_homo wr).
  Proof. intros wr H fl v enc w x x' O. unfold p_write_homo. go_wr; apply wrm_items; auto. Qed.
  Lemma wrm_tuple : forall ws, Forall wself ws -> forall vs encs fl w x x', own w x x' ->
    wrm same_as w (p_write_tuple ws fl x vs encs) (p_write_tuple ws fl x' vs encs).
  Proof.
    intros ws H; induction H as [|wr ws Hw Hws IH]; intros [|v vs] [|e encs] fl w x x' O; cbn [p_write_tuple]; try solve [go_wr].
    all: eapply wrm_bind; [apply Hw; eassumption|]; got; apply IH; auto.
  Qed.
  Lemma wself_hetero : forall ws, Forall wself ws -> wself (p_write_hetero ws).
  Proof. intros ws H fl v enc w x x' O. unfold p_write_hetero. go_wr; apply wrm_tuple; auto. Qed.
  Lemma wrm_union : forall wp vs, (forall p, In p vs -> wself (wp p)) -> forall fl v enc w x x', own w x x' ->
    wrm same_as w (p_write_union wp vs fl x v enc) (p_write_union wp vs fl x' v enc).
  Proof.
    intros wp vs; induction vs as [|p vs IH]; intros H fl v enc w x x' O; cbn [p_write_union]; [go_wr|].
    match goal with |- wrm _ _ (if ?b then _ else _) _ => destruct b end; [apply H; simpl; auto|apply IH; auto].
    intros q Hq. apply H. right; auto.
  Qed.
  Lemma wself_tagged : forall wp d vs, (forall t p, In (t, p) vs -> wself (wp p)) -> wself (p_write_tagged wp d vs).
  Proof.
    intros wp d vs H fl v enc w x x' O. unfold p_write_tagged. destruct enc; try solve [go_wr].
    destruct (dget d d0) as [t|]; [|go_wr]. destruct (py_truthy t); [|go_wr]. destruct t; try solve [go_wr].
    destruct (dget s vs) as [p|] eqn:E; [|go_wr]. apply (H s p); auto. apply dget_in; auto.
  Qed.
  Lemma wrm_path : forall b m nsm path k, incl (opt_list nsm) maps -> (forall w x x', own w x x' -> wrm same_as w (k x) (k x')) -> forall w x x', own w x x' ->
    wrm same_as w (p_write_path nsr b m nsm path k x) (p_write_path nsr b m nsm path k x').
  Proof.
    intros b m nsm path k M H; induction path as [|t path IH]; intros w x x' O; cbn [p_write_path]; [auto|].
    eapply wrm_bind.
    - apply wrm_lift. apply meth_find_or_create; [exact O|]. destruct nsm as [mm|]; simpl; [|exact I].
      right. split; [reflexivity|]. apply Maps. apply M. left; reflexivity.
    - got. apply IH; auto.
  Qed.
  Lemma wself_wrap : forall b path nsm m wr, incl (opt_list nsm) maps -> wself wr -> wself (p_write_wrap nsr b path nsm m wr).
  Proof.
    intros b path nsm m wr M H fl v enc w x x' O. unfold p_write_wrap. go_wr; apply wrm_path; auto.
  Qed.
  Lemma wself_raw : forall b, wself (p_write_raw b).
  Proof. intros b fl v enc w x x' O. unfold p_write_raw. go_wr. Qed.

  Lemma wrm_fields : forall wr hc m fs, (forall name s, In (name, s) fs -> wself (wr s)) ->
    (forall name f, hc name = Some f -> forall v y, local shared (fun self => f v self y)) -> forall fl v enc w x x', own w x x' ->
    wrm same_as w (p_write_fields wr hc m fs fl x v enc) (p_write_fields wr hc m fs fl x' v enc).
  Proof.
    intros wr hc m fs H HC; induction fs as [|[name s] fs IH]; intros fl v enc w x x' O; cbn [p_write_fields]; [go_wr|].
    assert (IH' := IH (fun nm s' Hi => H nm s' (or_intror Hi))). clear IH.
    destruct (str_in name (md_sexclude m)); [apply IH'; auto|].
    wstep. destruct y; [apply IH'; auto|]. wstep.
    eapply wrm_bind with (R := same_as).
    - destruct (hc name) as [f|] eqn:E.
      + eapply step_weaken; [|eapply (HC _ _ E); eassumption]. intros w3 o o' ->. destruct o'; simpl; auto. reflexivity.
      + wstep. apply (H name s); [left; reflexivity|auto].
    - got. apply IH'; auto.
  Qed.
  Lemma wself_model : forall wr hc m, (forall name s, In (name, s) (md_fields m) -> wself (wr s)) ->
    (forall name f, hc name = Some f -> forall v y, local shared (fun self => f v self y)) -> wself (p_write_model wr hc m).
  Proof.
    intros wr hc m H HC fl v enc w x x' O. unfold p_write_model. wstep; [go_wr|]. destruct (md_root m); [|apply wrm_fields; auto].
    wstep. wstep; [go_wr|]. destruct (md_fields m) as [|[nm s] fs] eqn:E; [go_wr|]. wstep. apply (H nm s); [left; reflexivity|auto].
  Qed.

  Lemma wself_proxy : forall ev hc wr p, covers maps ev -> incl (opt_list (px_nsmap p)) maps ->
    (forall s, incl (ser_maps s) maps -> wself (wr s)) -> local_sers shared hc -> wself (p_write_proxy nsr ev hc wr p).
  Proof.
    intros ev hc wr p Cov M H HC fl v enc w x x' O. unfold p_write_proxy. destruct (en_model ev (px_model p)) as [m|] eqn:E; [|go_wr].
    destruct (fl_exclude_none fl && is_none v); [go_wr|]. destruct (px_nillable p && is_none v).
    - go_wr.
    - destruct (is_none v); [go_wr|]. wstep. eapply wrm_bind.
      + apply wself_model; [|intros name f Hf; apply (HC _ _ _ Hf)|eassumption].
        intros name s Hi. apply H. intros q Hq. apply (Cov _ _ E). unfold model_maps. apply in_or_app; right.
        apply in_flat_map. exists (name, s). auto.
      + got. go_wr.
  Qed.

  Lemma wself_write : forall ev hc, covers maps ev -> local_sers shared hc -> forall n s, incl (ser_maps s) maps -> wself (p_write nsr n ev hc s).
  Proof.
    intros ev hc Cov HC; induction n as [|n IH]; intros s M; simpl; [intros fl v enc w x x' O; apply StepRet; exact I|].
    destruct s; simpl in *.
    - apply wself_text.
    - apply wself_attr.
    - apply wself_elem; auto.
    - apply wself_attrs.
    - apply wself_map_elem; auto.
    - apply wself_homo; auto.
    - apply wself_hetero. apply Forall_forall. intros wr Hw. apply in_map_iff in Hw as (s & <- & Hs). apply IH.
      intros q Hq. apply M. apply in_flat_map. eauto.
    - apply IH; auto.
    - intros fl v enc w x x' O. apply wrm_union; auto. intros p Hp. apply wself_proxy; auto.
      intros q Hq. apply M. apply in_flat_map. eauto.
    - apply wself_tagged. intros t p Hp. apply wself_proxy; auto. intros q Hq. apply M. apply in_flat_map. exists (t, p). auto.
    - apply wself_wrap; [intros q Hq; apply M; apply in_or_app; auto|]. apply IH. intros q Hq; apply M; apply in_or_app; auto.
    - apply wself_raw.
    - apply wself_proxy; auto.
  Qed.

  Lemma to_xml_tree_step : forall n ev hc encode v fl w, covers maps ev -> local_sers shared hc ->
    in_step same_as w (p_to_xml_tree nsr n ev hc encode v fl) (p_to_xml_tree nsr n ev hc encode v fl).
  Proof.
    intros n ev hc encode v fl w Cov HC. eapply step_weaken with (R := out_rel same_as).
    { intros w1 o o' H. destruct o, o'; simpl in H; try contradiction; unfold same_as in *; congruence. }
    unfold p_to_xml_tree. destruct (model_type v) as [cls|]; [|apply wrm_raise]. destruct (en_model ev cls) as [m|] eqn:E; [|apply wrm_raise].
    eapply wrm_bind.
    - apply wrm_lift. apply meth_new; [constructor|]. destruct (md_nsmap m) as [q|] eqn:Q; simpl; [|exact I].
      right. split; [reflexivity|]. apply Maps. apply (Cov _ _ E). unfold model_maps. rewrite Q. left; reflexivity.
    - got. eapply wrm_bind.
      + apply wself_model; [|intros name f Hf; apply (HC _ _ _ Hf)|eassumption].
        intros name s Hi. apply wself_write; auto. intros q Hq. apply (Cov _ _ E). unfold model_maps. apply in_or_app; right.
        apply in_flat_map. exists (name, s). auto.
      + got. eapply wrm_bind with (R := same_as).
        * apply wrm_walk. apply StepSize. intros w4 k k' I4 L. up I4. apply meth_to_native; auto.
        * got. go_wr.
  Qed.
End Local.
