(** PfDecl.v -- proofs about field declarations, wrapped paths and source lines (C17, C27, C42, C51, C53) *)

From Verif Require Import Base Elem Native Errs Names Fields SpecNames SpecDecl Ser Write Read Api SpecElem SpecRead SpecRead2 PfNames.

Lemma is_last_last : forall A B (f : A -> option B) l o b, is_last f l o -> last_of f l b -> o = Some b.
Proof.
  intros A B f l o b H L. destruct o as [b'|]; simpl in H.
  - f_equal. revert b' H. induction L as [a l b E F|a l b L IH]; intros b0 H; inversion H as [? ? ? E' F'|? ? ? L']; subst; auto; try congruence.
    + exfalso. clear -F L'. induction L'; inversion F; subst; [congruence|auto].
    + exfalso. clear -L F'. induction L; inversion F'; subst; [congruence|auto].
  - exfalso. induction L; inversion H; subst; [congruence|auto].
Qed.

Lemma is_last_none : forall A B (f : A -> option B) l o, is_last f l o -> Forall (fun x => f x = None) l -> o = None.
Proof.
  intros A B f l [b|] H F; auto. exfalso. simpl in H. induction H; inversion F; subst; [congruence|auto].
Qed.

(** ---- declarations ---- *)

Lemma infos_app : forall a b, infos_of (a ++ b) = infos_of a ++ infos_of b.
Proof. intros a b. unfold infos_of. apply flat_map_app. Qed.

Lemma infos_none : forall l, no_xml_info l <-> infos_of l = [].
Proof.
  induction l as [|x l IH]; split; intros H; auto.
  - intros i [].
  - destruct x as [i| |s]; simpl; [exfalso; apply (H i); left; auto| |]; apply IH; intros i I; apply (H i); right; auto.
  - intros i I. destruct x as [j| |s]; simpl in H; [discriminate| |]; (destruct I as [I|I]; [discriminate|]); revert i I; apply IH; auto.
Qed.

Lemma infos_others : forall l, no_xml_info (filter (fun x => match x with MetaInfo _ => false | _ => true end) l).
Proof. intros l i I. apply filter_In in I as (_ & I). discriminate. Qed.

Lemma one_info : forall a b i, no_xml_info a -> no_xml_info b -> good_map i ->
  exists i', extract_info (a ++ [MetaInfo i] ++ b) = Some i' /\ same_info i' i.
Proof.
  intros a b i A B G. apply infos_none in A, B. unfold extract_info. rewrite !infos_app, A, B. simpl.
  eexists. split; [reflexivity|]. apply merge_empty_l; auto.
Qed.

Lemma wrapped_says : forall path inner ns m, good_map (EInfo None None None m None None) ->
  exists i, extract_info (wrapped path (Some inner) ns m) = Some i /\
  same_info i (EInfo (Some LocWrapped) (Some path) ns m None (extract_info inner)).
Proof.
  intros path inner ns m G. unfold wrapped.
  apply (@one_info _ [] (EInfo (Some LocWrapped) (Some path) ns m None (extract_info inner))); [apply infos_others|intros ? []|exact G].
Qed.

Lemma extract_none : forall l, extract_info l = None <-> no_xml_info l.
Proof.
  intros l. rewrite infos_none. unfold extract_info. destruct (infos_of l); split; auto; discriminate.
Qed.

(** ---- paths ---- *)

Lemma split_nonempty : forall c s, py_split c s <> [].
Proof. intros c [|d s]; simpl; [discriminate|]. destruct (Ascii.eqb d c); [discriminate|]. destruct (py_split c s); discriminate. Qed.

Lemma split_parts : forall c s, parts_of c s (py_split c s).
Proof.
  intros c; induction s as [|d s IH]; simpl.
  - split; [discriminate|]. split; auto. constructor; simpl; auto.
  - destruct IH as (N & J & F). destruct (Ascii.eqb_spec d c) as [->|D].
    + split; [discriminate|]. split; [|constructor; simpl; auto].
      destruct (py_split c s) as [|p ps]; [congruence|]. cbn [joined] in *. simpl. f_equal; auto.
    + destruct (py_split c s) as [|p ps]; [congruence|]. inversion F as [|? ? F1 F2]; subst.
      split; [discriminate|]. split; [|constructor; simpl; auto].
      destruct ps; simpl; reflexivity.
Qed.

Lemma joined_inj : forall c l l', l <> [] -> l' <> [] -> Forall (without c) l -> Forall (without c) l' ->
  joined c l = joined c l' -> l = l'.
Proof.
  intros c.
  assert (Hd : forall p q r t, without c p -> without c q -> (p ++ String c r = q ++ String c t)%string -> p = q /\ r = t).
  { induction p as [|x p IH]; intros [|y q] r t Wp Wq E; simpl in *.
    - injection E as ->; auto.
    - injection E as <- _. exfalso; apply Wq; auto.
    - injection E as -> _. exfalso; apply Wp; auto.
    - injection E as <- E. destruct (IH q r t) as (-> & ->); tauto. }
  assert (No : forall p q r, without c p -> p <> (q ++ String c r)%string).
  { induction p as [|x p IH]; intros [|y q] r Wp E; simpl in *; try discriminate.
    - injection E as <- _. apply Wp; auto.
    - injection E as <- E. eapply IH; eauto. tauto. }
  induction l as [|p l IH]; intros [|q l'] N N' F F' E; try congruence.
  inversion F; subst. inversion F'; subst. destruct l as [|p2 l], l' as [|q2 l']; cbn [joined] in E.
  - congruence.
  - exfalso. eapply No; [|exact E]; auto.
  - exfalso. eapply No; [|symmetry; exact E]; auto.
  - apply Hd in E as (-> & E); auto. f_equal. apply IH; auto; discriminate.
Qed.

Lemma split_iff : forall c s l, py_split c s = l <-> parts_of c s l.
Proof.
  intros c s l; split; [intros <-; apply split_parts|]. intros (N & J & F).
  destruct (split_parts c s) as (N' & J' & F'). eapply joined_inj; eauto. congruence.
Qed.

(** ---- lines ---- *)

Lemma lines_from : forall b n z, is_xml_comment n = false ->
  (line_in (from_native b n) z <-> exists l, line_known n l /\ z = native_line b l).
Proof.
  intros b n; induction n as [tag ns text tail attrib children line IH| |] using native_ind'; intros z Nc; try discriminate.
  - rewrite Forall_forall in IH. split.
    + intros H. inversion H as [e|e c z' I L]; subst.
      * exists line. split; [constructor|reflexivity].
      * simpl in I. apply in_flat_map in I as (x & Ix & Jx).
        destruct (is_xml_comment x) eqn:C; [contradiction|]. destruct Jx as [<-|[]].
        apply (IH x Ix z C) in L as (l & K & ->). exists l. split; auto. eapply lk_below; eauto.
    + intros (l & K & ->). inversion K as [| |? ? ? ? ? ? ? c ? I K']; subst.
      * change (native_line b l) with (e_line (from_native b (NElem tag ns text tail attrib children l))). constructor.
      * assert (C : is_xml_comment c = false) by (destruct c; auto; inversion K').
        eapply li_below with (c := from_native b c).
        -- simpl. apply in_flat_map. exists c. rewrite C. split; simpl; auto.
        -- apply IH; auto. exists l; auto.
  - split.
    + intros H. inversion H as [e|e c z' I L]; subst; [|contradiction I]. eexists. split; [constructor|]. reflexivity.
    + intros (l & K & ->). inversion K; subst.
      match goal with |- line_in ?e (native_line b ?l) => change (native_line b l) with (e_line e) end. constructor.
Qed.
