(** PfMypy.v -- the type checker plugin. *)

From Verif Require Import Base Names Mypy SpecMypy PfWrite2.

Local Ltac inv H := inversion H; subst; clear H.

Lemma known_call : forall e f args names, calls e f args names -> In f entities -> e <> XTemp /\ entity_call e = Some (combine args names).
Proof. intros e f args names [[->| ->] L] I; (split; [discriminate|]); cbn [entity_call]; (rewrite (proj2 (str_in_spec f entities) I); auto). Qed.

Lemma unknown_call : forall e, (forall f args names, e = XCall (XName f) args names \/ e = XCall (XMember f) args names -> ~ In f entities) -> entity_call e = None.
Proof.
  intros e H. destruct e as [| | | | |c args names|]; auto. cbn [entity_call]. destruct c; auto;
    (destruct (str_in fullname entities) eqn:E; auto; apply str_in_spec in E; exfalso; eapply H; eauto).
Qed.

(** the first argument with a name that satisfies [p] decides *)
Lemma combine_nth : forall A B (l : list A) (l' : list B) i, nth_error (combine l l') i =
  match nth_error l i, nth_error l' i with Some x, Some y => Some (x, y) | _, _ => None end.
Proof. intros A B l; induction l as [|x l IH]; intros [|y l'] [|i]; simpl; auto. destruct (nth_error l i); auto. Qed.

Lemma keyword_in : forall args names n a, keyword args names n a -> In (a, Some n) (combine args names).
Proof. intros args names n a (i & H1 & H2). apply nth_error_In with i. rewrite combine_nth, H1, H2; auto. Qed.

Lemma in_keyword : forall args names n a, In (a, Some n) (combine args names) -> keyword args names n a.
Proof.
  intros args names n a H. apply In_nth_error in H as (i & H). rewrite combine_nth in H. exists i.
  destruct (nth_error args i), (nth_error names i); try discriminate. injection H as -> ->; auto.
Qed.

Lemma keyword_fun : forall args names n a a', written_once names -> keyword args names n a -> keyword args names n a' -> a = a'.
Proof. intros args names n a a' W (i & H1 & H2) (j & H3 & H4). assert (i = j) by (eapply W; eauto). subst. congruence. Qed.

Lemma missing_none : forall args names n a, missing names n -> ~ keyword args names n a.
Proof. intros args names n a M (i & H & _). apply M. eapply nth_error_In; eauto. Qed.

Lemma keyword_some : forall args names n, length args = length names -> In (Some n) names -> exists a, keyword args names n a.
Proof.
  intros args names n L H. apply In_nth_error in H as (i & H). destruct (nth_error args i) as [a|] eqn:E; [exists a, i; auto|].
  apply nth_error_None in E. assert (i < length names) by (apply nth_error_Some; congruence). lia.
Qed.

(** one loop for all *)
Section Loop.
  Variable R : Type.
  Variable name : string.
  Variable ans : expr -> R.
  Fixpoint first (l : list (expr * option string)) : option R :=
    match l with [] => None | (a, n) :: l' => if is_name n name then Some (ans a) else first l' end.

  Lemma first_in : forall l r, first l = Some r -> exists a, In (a, Some name) l /\ r = ans a.
  Proof.
    intros l; induction l as [|[a [n|]] l IH]; simpl; intros r H; try discriminate.
    - destruct (String.eqb_spec n name) as [->|]; [injection H as <-; eauto|]. destruct (IH r H) as (b & I & E); eauto.
    - destruct (IH r H) as (b & I & E); eauto.
  Qed.

  Lemma first_none : forall l, first l = None -> forall a, ~ In (a, Some name) l.
  Proof.
    intros l; induction l as [|[a [n|]] l IH]; simpl; intros H b; auto.
    - destruct (String.eqb_spec n name); [discriminate|]. intros [E|I]; [congruence|]. eapply IH; eauto.
    - intros [E|I]; [congruence|]. eapply IH; eauto.
  Qed.

  Lemma first_keyword : forall args names a, written_once names -> keyword args names name a -> first (combine args names) = Some (ans a).
  Proof.
    intros args names a W K. destruct (first (combine args names)) as [r|] eqn:E.
    - destruct (first_in _ E) as (b & I & ->). f_equal. f_equal. eapply keyword_fun; eauto. apply in_keyword; auto.
    - exfalso. eapply first_none; eauto. apply keyword_in; eauto.
  Qed.

  Lemma first_missing : forall args names, missing names name -> first (combine args names) = None.
  Proof.
    intros args names M. destruct (first (combine args names)) as [r|] eqn:E; auto.
    destruct (first_in _ E) as (b & I & ->). exfalso. eapply missing_none; eauto. apply in_keyword; eauto.
  Qed.
End Loop.

Lemma alias_first : forall l, alias_among l = first "alias" (fun a => match a with XStr v => (Some v, false) | _ => (None, true) end) l.
Proof. intros l; induction l as [|[a n] l IH]; [reflexivity|cbn; rewrite IH; reflexivity]. Qed.

Lemma strict_first : forall l, strict_among l = first "strict" (fun a => if names_builtin a "builtins.True" then Some true
              else if names_builtin a "builtins.False" then Some false else None) l.
Proof. intros l; induction l as [|[a n] l IH]; [reflexivity|cbn; rewrite IH; reflexivity]. Qed.

Lemma frozen_first : forall l, frozen_among l = first "frozen" (fun a => names_builtin a "builtins.True") l.
Proof. intros l; induction l as [|[a n] l IH]; [reflexivity|cbn; rewrite IH; reflexivity]. Qed.

(** the default: only one of the two arguments is there *)
Lemma default_first : forall l, (forall a, ~ In (a, Some "default") l) \/ (forall a, ~ In (a, Some "default_factory") l) ->
  default_among l = match first "default" not_ellipsis l with
                    | Some r => r
                    | None => match first "default_factory" (fun a => negb (names_builtin a "builtins.None")) l with Some r => r | None => false end
                    end.
Proof.
  intros l; induction l as [|[a n] l IH]; intros H; cbn [default_among first]; auto.
  assert (H' : (forall a, ~ In (a, Some "default") l) \/ (forall a, ~ In (a, Some "default_factory") l)).
  { destruct H as [H|H]; [left|right]; intros b I; apply (H b); right; auto. }
  specialize (IH H'). destruct n as [n|]; cbn [is_name]; auto.
  destruct (String.eqb_spec n "default") as [->|N1]; auto.
  destruct (String.eqb_spec n "default_factory") as [->|N2]; auto.
  destruct (first "default" not_ellipsis l) as [r|] eqn:E; auto. exfalso. destruct (first_in _ _ _ E) as (b & I & _).
  destruct H as [H|H]; [apply (H b); right; auto|apply (H a); left; auto].
Qed.

Lemma names_builtin_iff : forall a s, names_builtin a s = true <-> a = XName s.
Proof. intros a s; destruct a; simpl; split; intros H; try discriminate; [apply String.eqb_eq in H; congruence|injection H as ->; apply String.eqb_refl]. Qed.

Lemma has_default : forall sup e f args names, calls e f args names -> In f entities -> written_once names ->
  missing names "default" \/ missing names "default_factory" ->
  get_has_default sup e = true <->
  (exists a, keyword args names "default" a /\ a <> XEllipsis) \/ (exists a, keyword args names "default_factory" a /\ a <> XName "builtins.None").
Proof.
  intros sup e f args names C I W M. destruct (known_call C I) as [T E]. unfold get_has_default. rewrite E.
  replace (match e with XTemp => false | _ => default_among (combine args names) end) with (default_among (combine args names)) by (destruct e; congruence).
  rewrite default_first.
  2: { destruct M as [M|M]; [left|right]; intros a Ia; apply in_keyword in Ia; eapply missing_none; eauto. }
  assert (Q : forall a, not_ellipsis a = true <-> a <> XEllipsis) by (intros a; destruct a; simpl; split; congruence).
  assert (B : forall a, negb (names_builtin a "builtins.None") = true <-> a <> XName "builtins.None").
  { intros a. rewrite negb_true_iff. split; intros H.
    - intros ->. simpl in H. discriminate.
    - destruct (names_builtin a "builtins.None") eqn:N; auto. apply names_builtin_iff in N. contradiction. }
  destruct (first "default" not_ellipsis (combine args names)) as [r|] eqn:F1.
  - destruct (first_in _ _ _ F1) as (a & Ia & ->). apply in_keyword in Ia. rewrite Q. split.
    + left; eauto.
    + intros [(b & K & N)|(b & K & N)]; [rewrite (keyword_fun W Ia K); auto|].
      exfalso. destruct M as [M|M]; eapply missing_none; eauto.
  - destruct (first "default_factory" _ (combine args names)) as [r|] eqn:F2.
    + destruct (first_in _ _ _ F2) as (a & Ia & ->). apply in_keyword in Ia. rewrite B. split.
      * right; eauto.
      * intros [(b & K & N)|(b & K & N)]; [|rewrite (keyword_fun W Ia K); auto].
        exfalso. destruct M as [M|M]; eapply missing_none; eauto.
    + split; [discriminate|]. intros [(b & K & N)|(b & K & N)]; exfalso.
      * eapply (first_none _ _ _ F1). apply keyword_in; eauto.
      * eapply (first_none _ _ _ F2). apply keyword_in; eauto.
Qed.
