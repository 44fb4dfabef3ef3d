(** Base.v -- the Python data the model is written over: exceptions as values,
    strings, insertion-ordered dicts.  Nothing here is specific to pydantic-xml.

    Strings.  A Python [str] is modelled by Coq's [string]; each [ascii] is read as the
    code point of the same number (Latin-1).  No definition of the model depends on the
    alphabet except [py_strip], [py_lower] and the two regular expressions of utils.py,
    which are modelled on exactly these 256 code points. *)

From Coq Require Export String Ascii Arith ZArith Lia Bool List Permutation.
Export ListNotations.
Open Scope string_scope.
Open Scope list_scope.
Open Scope nat_scope.

#[export] Set Implicit Arguments.

(** Python dicts with [str] keys: association lists in insertion order. *)
Definition dict (A : Type) := list (string * A).

Section Dict.
  Variable A : Type.

  (** [d.get(k)] *)
  Fixpoint dget (k : string) (d : dict A) : option A :=
    match d with
    | [] => None
    | (k', v) :: d' => if String.eqb k k' then Some v else dget k d'
    end.

  (** [d[k] = v]: overwrite in place, or append. *)
  Fixpoint dset (k : string) (v : A) (d : dict A) : dict A :=
    match d with
    | [] => [(k, v)]
    | (k', v') :: d' =>
        if String.eqb k k' then (k', v) :: d' else (k', v') :: dset k v d'
    end.

  (** [d.pop(k, None)]: the remaining dict. *)
  Fixpoint ddel (k : string) (d : dict A) : dict A :=
    match d with
    | [] => []
    | (k', v') :: d' => if String.eqb k k' then d' else (k', v') :: ddel k d'
    end.

  Definition dkeys (d : dict A) : list string := map fst d.

  (** a dict comprehension / [dict(pairs)]: later pairs win, first position is kept. *)
  Definition dict_of (l : list (string * A)) : dict A :=
    fold_left (fun d kv => dset (fst kv) (snd kv) d) l [].

  (** [d | m], [{**d, **m}], [dict(d, **m)] *)
  Definition dupdate (d m : dict A) : dict A :=
    fold_left (fun d kv => dset (fst kv) (snd kv) d) m d.

  Definition dmem (k : string) (d : dict A) : bool :=
    match dget k d with Some _ => true | None => false end.
End Dict.

Arguments dget {A} k d.
Arguments dset {A} k v d.
Arguments ddel {A} k d.
Arguments dkeys {A} d.
Arguments dict_of {A} l.
Arguments dupdate {A} d m.
Arguments dmem {A} k d.

(** Python truthiness of an [Optional[str]] *)
Definition str_truthy (o : option string) : bool :=
  match o with
  | None => false
  | Some s => negb (String.eqb s "")
  end.

(** Python truthiness of an [Optional[dict]] *)
Definition dict_truthy {A} (o : option (dict A)) : bool :=
  match o with
  | None => false
  | Some [] => false
  | Some (_ :: _) => true
  end.

(** [x or y] on optional strings *)
Definition str_or (a b : option string) : option string :=
  if str_truthy a then a else b.

(** ---- str.strip(), on the code points 0..255 ---- *)
Definition is_space (c : ascii) : bool :=
  let n := N_of_ascii c in
  (((9 <=? n) && (n <=? 13)) || ((28 <=? n) && (n <=? 32)) || (n =? 133) || (n =? 160))%N.

Fixpoint lstrip (s : string) : string :=
  match s with
  | EmptyString => EmptyString
  | String c s' => if is_space c then lstrip s' else s
  end.

Fixpoint all_space (s : string) : bool :=
  match s with
  | EmptyString => true
  | String c s' => is_space c && all_space s'
  end.

Fixpoint rstrip (s : string) : string :=
  match s with
  | EmptyString => EmptyString
  | String c s' => if all_space s then EmptyString else String c (rstrip s')
  end.

Definition py_strip (s : string) : string := rstrip (lstrip s).

(** ---- str.lower() on ASCII letters ---- *)
Definition lower_ascii (c : ascii) : ascii :=
  let n := N_of_ascii c in
  if ((65 <=? n) && (n <=? 90))%N then ascii_of_N (n + 32)%N else c.

Fixpoint py_lower (s : string) : string :=
  match s with
  | EmptyString => EmptyString
  | String c s' => String (lower_ascii c) (py_lower s')
  end.

(** ---- str.split(sep) for a one-character separator ---- *)
Fixpoint py_split (sep : ascii) (s : string) : list string :=
  match s with
  | EmptyString => [EmptyString]
  | String c s' =>
      if Ascii.eqb c sep then EmptyString :: py_split sep s'
      else match py_split sep s' with
           | [] => [String c EmptyString]
           | p :: ps => String c p :: ps
           end
  end.

(** [l[i] = x] for an index inside the list *)
Fixpoint list_upd {A} (i : nat) (x : A) (l : list A) : list A :=
  match l, i with
  | [], _ => []
  | _ :: l', O => x :: l'
  | y :: l', S i' => y :: list_upd i' x l'
  end.

(** ================= lemmas about the Python data ================= *)

Lemma dget_dset_same : forall A k (v : A) d, dget k (dset k v d) = Some v.
Proof.
  intros A k v d; induction d as [|[k' v'] d IH]; simpl.
  - rewrite String.eqb_refl; reflexivity.
  - destruct (String.eqb k k') eqn:E; simpl; rewrite E; auto.
Qed.

Lemma dget_dset_other : forall A k k' (v : A) d, k <> k' -> dget k' (dset k v d) = dget k' d.
Proof.
  intros A k k' v d Hne; induction d as [|[k0 v0] d IH]; simpl.
  - destruct (String.eqb_spec k' k); congruence.
  - destruct (String.eqb_spec k k0); simpl.
    + subst. destruct (String.eqb_spec k' k0); congruence.
    + destruct (String.eqb k' k0); auto.
Qed.

Lemma dget_ddel_other : forall A k k' (d : dict A), k <> k' -> dget k' (ddel k d) = dget k' d.
Proof.
  intros A k k' d Hne; induction d as [|[k0 v0] d IH]; simpl; auto.
  destruct (String.eqb_spec k k0); simpl.
  - subst. destruct (String.eqb_spec k' k0); congruence.
  - destruct (String.eqb k' k0); auto.
Qed.

Lemma dget_None_notin : forall A k (d : dict A), dget k d = None <-> ~ In k (dkeys d).
Proof.
  intros A k d; induction d as [|[k0 v0] d IH]; simpl; [tauto|].
  destruct (String.eqb_spec k k0) as [->|Hne].
  - split; [discriminate | intros H; exfalso; apply H; auto].
  - rewrite IH; split; intros H; [intros [->|H']; auto | intros H'; apply H; auto].
Qed.

Lemma dget_Some_in : forall A k (v : A) d, dget k d = Some v -> In (k, v) d.
Proof.
  intros A k v d; induction d as [|[k0 v0] d IH]; simpl; [discriminate|].
  destruct (String.eqb_spec k k0) as [->|Hne]; intros H; [injection H as ->; auto | auto].
Qed.

Lemma dget_in_keys : forall A k (v : A) d, dget k d = Some v -> In k (dkeys d).
Proof. intros A k v d H; apply dget_Some_in in H; apply (in_map fst) in H; exact H. Qed.

Lemma dget_nodup_in : forall A k (v : A) d, NoDup (dkeys d) -> In (k, v) d -> dget k d = Some v.
Proof.
  intros A k v d; induction d as [|[k0 v0] d IH]; simpl; intros Hnd Hin; [tauto|].
  inversion Hnd as [|x xs Hx Hnd']; subst.
  destruct Hin as [Heq|Hin].
  - injection Heq as -> ->. rewrite String.eqb_refl; reflexivity.
  - destruct (String.eqb_spec k k0) as [->|]; [|auto].
    exfalso; apply Hx. apply (in_map fst) in Hin; exact Hin.
Qed.

Lemma dkeys_dset : forall A k (v : A) d,
  dkeys (dset k v d) = if dmem k d then dkeys d else dkeys d ++ [k].
Proof.
  intros A k v d; unfold dmem; induction d as [|[k0 v0] d IH]; simpl; auto.
  destruct (String.eqb k k0); simpl; [reflexivity|].
  rewrite IH; destruct (dget k d); reflexivity.
Qed.

Lemma dset_fresh : forall A k (v : A) d, ~ In k (dkeys d) -> dset k v d = d ++ [(k, v)].
Proof.
  intros A k v d; induction d as [|[k0 v0] d IH]; simpl; intros H; auto.
  destruct (String.eqb_spec k k0) as [->|]; [exfalso; apply H; auto|].
  rewrite IH; auto.
Qed.

Lemma nodup_app_snoc : forall A (l : list A) x, NoDup l -> ~ In x l -> NoDup (l ++ [x]).
Proof.
  intros A l x Hnd Hx; induction Hnd as [|y l Hy Hnd IH]; simpl.
  - constructor; [intros []|constructor].
  - constructor.
    + rewrite in_app_iff; simpl; intros [H|[H|[]]]; [auto|]. subst; apply Hx; simpl; auto.
    + apply IH; intros H; apply Hx; simpl; auto.
Qed.

Lemma nodup_dset : forall A k (v : A) d, NoDup (dkeys d) -> NoDup (dkeys (dset k v d)).
Proof.
  intros A k v d H; rewrite dkeys_dset; unfold dmem.
  destruct (dget k d) eqn:E; auto.
  apply nodup_app_snoc; auto. apply dget_None_notin; auto.
Qed.

Lemma ddel_incl : forall A k (d : dict A) x, In x (dkeys (ddel k d)) -> In x (dkeys d).
Proof.
  intros A k d x; induction d as [|[k0 v0] d IH]; simpl; auto.
  destruct (String.eqb k k0); simpl; tauto.
Qed.

Lemma nodup_ddel : forall A k (d : dict A), NoDup (dkeys d) -> NoDup (dkeys (ddel k d)).
Proof.
  intros A k d; induction d as [|[k0 v0] d IH]; simpl; intros H; auto.
  inversion H; subst. destruct (String.eqb k k0); auto; simpl; constructor; auto.
  intros Hin; apply ddel_incl in Hin; auto.
Qed.

Lemma dget_ddel_same : forall A k (d : dict A), NoDup (dkeys d) -> dget k (ddel k d) = None.
Proof.
  intros A k d; induction d as [|[k0 v0] d IH]; simpl; intros H; auto.
  inversion H; subst. destruct (String.eqb_spec k k0) as [->|Hne]; simpl.
  - apply dget_None_notin; auto.
  - destruct (String.eqb_spec k k0); [congruence|auto].
Qed.

Lemma nodup_dupdate : forall A (m d : dict A), NoDup (dkeys d) -> NoDup (dkeys (dupdate d m)).
Proof.
  intros A m; unfold dupdate; induction m as [|[k v] m IH]; simpl; intros d H; auto.
  apply IH, nodup_dset; auto.
Qed.

Lemma nodup_dict_of : forall A (l : list (string * A)), NoDup (dkeys (dict_of l)).
Proof. intros A l; apply (@nodup_dupdate A l []); constructor. Qed.

Lemma dupdate_fresh : forall A (m d : dict A),
  NoDup (dkeys d ++ dkeys m) -> dupdate d m = d ++ m.
Proof.
  intros A m; unfold dupdate; induction m as [|[k v] m IH]; simpl; intros d H.
  - rewrite app_nil_r; auto.
  - rewrite dset_fresh.
    + rewrite IH; [rewrite <- app_assoc; reflexivity|].
      unfold dkeys in *; rewrite map_app, <- app_assoc; simpl; auto.
    + apply NoDup_remove_2 in H. rewrite in_app_iff in H; tauto.
Qed.

Lemma dict_of_nodup : forall A (l : list (string * A)), NoDup (dkeys l) -> dict_of l = l.
Proof. intros A l H; apply (@dupdate_fresh A l []); auto. Qed.

(** the last binding of a key in [m] wins over [d] *)
Lemma dget_dupdate : forall A k (m d : dict A),
  NoDup (dkeys m) ->
  dget k (dupdate d m) = match dget k m with Some v => Some v | None => dget k d end.
Proof.
  intros A k m; unfold dupdate; induction m as [|[k0 v0] m IH]; simpl; intros d Hnd; auto.
  inversion Hnd as [|x xs Hx Hnd']; subst.
  rewrite IH; auto. 
  destruct (String.eqb_spec k k0) as [->|Hne].
  - destruct (dget k0 m) eqn:E.
    + exfalso; apply Hx. eapply dget_in_keys; eauto.
    + apply dget_dset_same.
  - destruct (dget k m); auto. apply dget_dset_other; auto.
Qed.

Lemma list_upd_length : forall A i (x : A) l, length (list_upd i x l) = length l.
Proof. intros A i x l; revert i; induction l as [|y l IH]; intros [|i]; simpl; auto. Qed.

Lemma nth_error_list_upd_same : forall A i (x : A) l,
  i < length l -> nth_error (list_upd i x l) i = Some x.
Proof.
  intros A i x l; revert i; induction l as [|y l IH]; intros [|i]; simpl; intros H; try lia; auto.
  apply IH; lia.
Qed.

Lemma nth_error_list_upd_other : forall A i j (x : A) l,
  i <> j -> nth_error (list_upd i x l) j = nth_error l j.
Proof.
  intros A i j x l; revert i j; induction l as [|y l IH]; intros [|i] [|j] H; simpl; auto; try lia.
Qed.

Lemma list_upd_same : forall A i (x : A) l, nth_error l i = Some x -> list_upd i x l = l.
Proof.
  intros A i x l; revert i; induction l as [|y l IH]; intros [|i]; simpl; intros H; try discriminate.
  - injection H as ->; auto.
  - f_equal; auto.
Qed.

Lemma list_upd_app_r : forall A (l1 l2 : list A) i x,
  list_upd (length l1 + i) x (l1 ++ l2) = l1 ++ list_upd i x l2.
Proof. intros A l1; induction l1 as [|y l1 IH]; simpl; intros l2 i x; [auto|f_equal; auto]. Qed.

Lemma list_upd_split : forall A (l1 l2 : list A) x y,
  list_upd (length l1) x (l1 ++ y :: l2) = l1 ++ x :: l2.
Proof. intros A l1; induction l1 as [|z l1 IH]; simpl; intros l2 x y; [auto|f_equal; auto]. Qed.

Lemma list_upd_map : forall A B (f : A -> B) i x l,
  map f (list_upd i x l) = list_upd i (f x) (map f l).
Proof. intros A B f i x l; revert i; induction l as [|y l IH]; intros [|i]; simpl; auto; f_equal; auto. Qed.
