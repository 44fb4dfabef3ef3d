(** PfRound1.v -- the round trip, part 1: writing and reading the fields of one element, with the
    serializers abstracted to functions ([item]). *)

From Verif Require Import Base Elem Native Errs Names Ser Write Read Api SpecElem SpecRead SpecNames SpecWrite SpecSim SpecRound.
From Verif Require Import PfElem PfWrite PfWSim.

(** ---- normal form: what is left of an element after export and import ---- *)
Definition attr_list (e : elem) : dict string := match e_attrib e with Some d => d | None => [] end.

Fixpoint norm (e : elem) : elem :=
  match e with
  | Elem tag _ text tail attrib elements _ _ =>
      Elem tag None text tail (Some (match attrib with Some d => d | None => [] end)) (map norm elements) 0 (-1)
  end.

Lemma norm_eq : forall e, norm e = Elem (e_tag e) None (e_text e) (e_tail e) (Some (attr_list e)) (map norm (e_elems e)) 0 (-1).
Proof. intros [tag ns text tail attrib l next line]; reflexivity. Qed.

Lemma norm_tag : forall e, e_tag (norm e) = e_tag e.
Proof. intros e; rewrite norm_eq; auto. Qed.

Lemma norm_named : forall e, named (norm e) -> named e.
Proof.
  intros e; induction e as [tag ns text tail attrib l next line IH] using elem_ind'; intros H.
  apply named_inv in H. simpl in H. destruct H as [T F]. constructor; simpl; auto.
  clear T. induction IH as [|c l Hc _ IHl]; [constructor|]. simpl in F. inv F. constructor; auto.
Qed.

Lemma norm_idem : forall e, norm (norm e) = norm e.
Proof.
  intros e; induction e as [tag ns text tail attrib l next line IH] using elem_ind'. simpl. f_equal.
  induction IH as [|c l Hc _ IHl]; simpl; auto. rewrite Hc, IHl; auto.
Qed.

Lemma export_import : forall b e, named e -> exists n, to_native b e = Some n /\ from_native b n = norm e.
Proof.
  intros b e; induction e as [tag ns text tail a l next line IH] using elem_ind'; intros H; apply named_inv in H. simpl in H.
  destruct H as [T F]. simpl. destruct tag as [t|]; [|congruence].
  assert (X : exists cs, map_opt (to_native b) l = Some cs /\
              flat_map (fun c => if is_xml_comment c then [] else [from_native b c]) cs = map norm l).
  { clear -IH F. induction l as [|c l IHl]; simpl; [exists []; simpl; auto|]. inv IH; inv F. destruct (IHl H2 H4) as (cs & E & G).
    destruct (H1 H3) as (c' & E' & G'). rewrite E', E. exists (c' :: cs). split; auto. simpl.
    assert (is_xml_comment c' = false) as ->; [|simpl; rewrite G', G; auto].
    destruct c as [[s|] ? ? ? ? ? ? ?]; simpl in E'; [|destruct b; inv E'; auto]. destruct (map_opt (to_native b) e_elems); inv E'; auto. }
  destruct X as (cs & -> & G). eexists; split; [reflexivity|]. simpl. unfold new_elem. rewrite G. destruct b; reflexivity.
Qed.

(** ---- contents ---- *)
Record content := Con { c_text : option string; c_attrs : dict string; c_elems : list elem }.
Definition nothing : content := Con None [] [].
Definition plus (c c' : content) : content :=
  Con (match c_text c with Some t => Some t | None => c_text c' end) (c_attrs c ++ c_attrs c') (c_elems c ++ c_elems c').

(** an element as read back: normal form, nothing read yet *)
Definition node (tag : string) (c : content) : elem :=
  Elem (TName tag) None (c_text c) None (Some (c_attrs c)) (c_elems c) 0 (-1).

Definition called_in (T : list string) (e : elem) : Prop := exists t, In t T /\ called t e.
Definition not_called (T : list string) (e : elem) : Prop := forall t, In t T -> ~ called t e.

Record grows (e : elem) (c : content) (e' : elem) : Prop := Grows {
  gr_tag : e_tag e' = e_tag e;
  gr_tail : e_tail e' = e_tail e;
  gr_attrs : attr_list e' = attr_list e ++ c_attrs c;
  gr_text : e_text e' = match c_text c with Some t => Some t | None => e_text e end;
  gr_elems : map norm (e_elems e') = map norm (e_elems e) ++ c_elems c;
  gr_next : e_next e' = length (e_elems e')
}.

Lemma grows_nothing : forall e, e_next e = length (e_elems e) -> grows e nothing e.
Proof. intros e H; constructor; simpl; auto; rewrite app_nil_r; auto. Qed.

Lemma grows_plus : forall e c e1 c' e2, grows e c e1 -> grows e1 c' e2 ->
  (c_text c = None \/ c_text c' = None) -> grows e (plus c c') e2.
Proof.
  intros e c e1 c' e2 [T1 L1 A1 X1 E1 N1] [T2 L2 A2 X2 E2 N2] D. constructor; simpl.
  - congruence.
  - congruence.
  - rewrite A2, A1, app_assoc; auto.
  - rewrite X2, X1. destruct (c_text c); destruct (c_text c'); auto. destruct D; discriminate.
  - rewrite E2, E1, app_assoc; auto.
  - auto.
Qed.

Lemma norm_grown : forall e c e' tag, grows e c e' -> e_tag e = TName tag -> e_tail e = None -> attr_list e = [] ->
  e_text e = None -> e_elems e = [] -> norm e' = node tag c.
Proof.
  intros e c e' tag [T1 L1 A1 X1 E1 N1] T L A X E. rewrite norm_eq. unfold node.
  rewrite T1, T, L1, L, A1, A, X1, X, E1, E. simpl. destruct (c_text c); auto.
Qed.

(** ---- items ---- *)
Record item := Item {
  it_w : elem -> out elem;
  it_r : location -> st -> rres val;
  it_res : val;
  it_comp : bool
}.

Fixpoint write_all (its : list item) (e : elem) : out elem :=
  match its with
  | [] => Ok e
  | it :: its' => obind (it_w it e) (write_all its')
  end.

Inductive reads : list item -> elem -> elem -> Prop :=
| reads_nil : forall e, reads [] e e
| reads_cons : forall it its e e1 e2,
    (forall loc sm, exists sm', it_r it loc (St e sm) = (Ok (it_res it), St e1 sm')) ->
    e_tag e1 = e_tag e -> reads its e1 e2 -> reads (it :: its) e e2.

Lemma reads_app : forall l1 e e1, reads l1 e e1 -> forall l2 e2, reads l2 e1 e2 -> reads (l1 ++ l2) e e2.
Proof. intros l1 e e1 H; induction H; intros l2 e3 H2; simpl; auto. econstructor; eauto. Qed.

Lemma reads_tag : forall l e e', reads l e e' -> e_tag e' = e_tag e.
Proof. intros l e e' H; induction H; congruence. Qed.

Lemma write_all_app : forall l1 l2 e, write_all (l1 ++ l2) e = obind (write_all l1 e) (write_all l2).
Proof.
  intros l1; induction l1 as [|it l1 IH]; intros l2 e; simpl; auto. destruct (it_w it e); simpl; auto.
Qed.

(** nothing is left in the element *)
Inductive cleaned : elem -> Prop :=
| cleaned_intro : forall e, nonblank (e_text e) = None -> nonblank (e_tail e) = None -> attr_list e = [] ->
    Forall cleaned (e_elems e) -> cleaned e.

Lemma cleaned_unbound : forall e, cleaned e -> forall path, get_unbound path e = [].
Proof.
  intros e; induction e as [tag ns text tail attrib l next line IH] using elem_ind'; intros C path. inv C. simpl in *.
  rewrite H, H0. assert (Z : (match attrib with Some d => d | None => [] end) = []) by exact H1.
  destruct attrib as [[|a d]|]; [|discriminate Z|]; simpl.
  all: clear -IH H2; revert path.
  all: induction IH as [|c l Hc _ IHl]; intros path; simpl; auto; inv H2; rewrite Hc, IHl; auto.
Qed.


Definition at_ (R : elem) (P U : list elem) : Prop := e_elems R = P ++ U /\ e_next R = length P.

Section Level.
(** no computed fields: then nothing is left after reading *)
Variable neat : bool.
(** reading with empty_as_string *)
Variable eas : bool.

Record ready (eag : bool) (R : elem) (P : list elem) (c : content) (rest : list elem) (more : dict string)
    (T A : list string) (M X : bool) : Prop := Ready {
  rd_at : at_ R P (c_elems c ++ rest);
  rd_clear : eag = false -> Forall (not_called T) rest;
  rd_attrs : attr_list R = c_attrs c ++ more;
  rd_apart : forall a, In a A -> ~ In a (dkeys more);
  rd_all : M = true -> more = [] /\ e_attrib R <> None;
  rd_nil : ~ In xsi_nil (dkeys (attr_list R));
  rd_text : X = true -> e_text R = c_text c
}.

Record after (R : elem) (P rest : list elem) (more : dict string) (T : list string) (M X : bool) (R' : elem) : Prop := After {
  af_tag : e_tag R' = e_tag R;
  af_line : e_line R' = e_line R;
  af_tail : e_tail R' = e_tail R;
  af_elems : exists Q, at_ R' (P ++ Q) rest /\ Forall (called_in T) Q /\ (neat = true -> Forall cleaned Q);
  af_attrs : attr_list R' = more;
  af_some : M = false -> e_attrib R <> None -> e_attrib R' <> None;
  af_text : e_text R' = if X then None else e_text R
}.

Definition nonvoid (c : content) : Prop := c_elems c <> [] \/ c_attrs c <> [] \/ str_truthy (c_text c) = true.

(** items keep the tag of the element they write to *)
Definition tag_keeper (it : item) : Prop := forall c c', it_w it c = Ok c' -> e_tag c' = e_tag c.

Record leaf (eag : bool) (it : item) (T A : list string) (M X : bool) (c : content) : Prop := Leaf {
  lf_tags : Forall (called_in T) (c_elems c);
  lf_named : Forall named (c_elems c);
  lf_keys : M = false -> forall k, In k (dkeys (c_attrs c)) -> In k A;
  lf_alone : M = true -> A = [];
  lf_nodup : NoDup (dkeys (c_attrs c));
  lf_nonil : ~ In xsi_nil (dkeys (c_attrs c));
  lf_text : X = false -> c_text c = None;
  lf_write : forall e, e_next e = length (e_elems e) -> (forall a, In a A -> ~ In a (dkeys (attr_list e))) ->
    (M = true -> attr_list e = []) -> exists e', it_w it e = Ok e' /\ grows e c e';
  lf_keeper : tag_keeper it;
  lf_comp : it_comp it = true -> it_res it = VNone /\ neat = false /\ forall loc s, it_r it loc s = (Ok VNone, s);
  lf_read : it_comp it = false -> forall R P rest more, ready eag R P c rest more T A M X ->
    exists R', (forall loc sm, exists sm', it_r it loc (St R sm) = (Ok (it_res it), St R' sm')) /\
               after R P rest more T M X R';
  lf_full : substantial eas (it_res it) -> nonvoid c
}.

(** [it] does what [i] does, inside the child element [p] *)
Definition enters (p : string) (it i : item) : Prop :=
  exists b m ns, forall e, it_w it e = write_path b m ns [p] (it_w i) e.
Definition stays_out (it : item) : Prop := forall e, it_w it e = Ok e.

Record wrapped_in (p : string) (it i : item) : Prop := WrappedIn {
  wr_comp : it_comp it = it_comp i;
  wr_res : it_res it = it_res i;
  wr_write : stays_out it /\ stays_out i \/ enters p it i;
  wr_none : it_comp it = true -> it_res it = VNone /\ neat = false /\ forall loc s, it_r it loc s = (Ok VNone, s);
  wr_read : it_comp it = false -> exists m (adj : location -> st -> st),
    (forall loc s, st_el (adj loc s) = st_el s) /\
    forall loc s, it_r it loc s = with_found (search m (st_el s) p true true) (fun c => it_r i loc (adj loc c)) s
}.

Record absent_in (p : string) (it : item) : Prop := AbsentIn {
  ab_res : it_res it = VNone;
  ab_write : stays_out it;
  ab_none : it_comp it = true -> neat = false /\ forall loc s, it_r it loc s = (Ok VNone, s);
  ab_read : it_comp it = false -> exists m (f : location -> st -> rres val),
    forall loc s, it_r it loc s = with_found (search m (st_el s) p true true) (f loc) s
}.

Definition computed_item (it : item) : Prop := it_comp it = true.

Inductive level : list item -> list string -> list string -> bool -> bool -> content -> Prop :=
| lv_nil : level [] [] [] false false nothing
| lv_leaf : forall it its T A M X c T' A' M' X' c', leaf false it T A M X c -> level its T' A' M' X' c' ->
    (forall t, In t T -> ~ In t T') -> (forall a, In a A -> ~ In a A') -> (X = true -> X' = false) ->
    (M = true -> A' = [] /\ M' = false) -> (A <> [] -> M' = false) ->
    (it_comp it = true -> Forall computed_item its) ->
    level (it :: its) (T ++ T') (A ++ A') (M || M') (X || X') (plus c c')
| lv_group : forall p gs its Ti Ai Mi Xi ci T' A' M' X' c',
    Forall (fun x => wrapped_in p (fst x) (snd x)) gs -> Exists (fun x => enters p (fst x) (snd x)) gs ->
    level (map snd gs) Ti Ai Mi Xi ci -> level its T' A' M' X' c' -> ~ In p T' ->
    (Forall (fun x => computed_item (fst x)) gs -> Forall computed_item its) ->
    level (map fst gs ++ its) (p :: T') A' M' X' (plus (Con None [] [node p ci]) c')
| lv_nogroup : forall p g its T' A' M' X' c',
    Forall (absent_in p) g -> level its T' A' M' X' c' -> ~ In p T' ->
    (Forall computed_item g -> Forall computed_item its) -> 
    level (g ++ its) (p :: T') A' M' X' c'.

(** ---- what a level contains ---- *)
Lemma called_in_app_l : forall T T' l, Forall (called_in T) l -> Forall (called_in (T ++ T')) l.
Proof. intros T T' l H; eapply Forall_impl; [|exact H]. intros e (t & I & C); exists t; rewrite in_app_iff; auto. Qed.
Lemma called_in_app_r : forall T T' l, Forall (called_in T') l -> Forall (called_in (T ++ T')) l.
Proof. intros T T' l H; eapply Forall_impl; [|exact H]. intros e (t & I & C); exists t; rewrite in_app_iff; auto. Qed.

Lemma keys_app : forall A (d d' : dict A), dkeys (d ++ d') = dkeys d ++ dkeys d'.
Proof. intros A d d'; unfold dkeys; apply map_app. Qed.

Lemma no_keys : forall A (d : dict A), (forall k, ~ In k (dkeys d)) -> d = [].
Proof. intros A [|[k v] d] H; auto. exfalso; apply (H k); simpl; auto. Qed.

Lemma nodup_join : forall A (l l' : list A), NoDup l -> NoDup l' -> (forall x, In x l -> ~ In x l') -> NoDup (l ++ l').
Proof.
  intros A l l' H H' D; induction H as [|x l Hx H IH]; simpl; auto. constructor.
  - rewrite in_app_iff; intros [I|I]; auto. apply (D x); simpl; auto.
  - apply IH. intros y Hy; apply D; simpl; auto.
Qed.

Record level_facts (T A : list string) (M X : bool) (c : content) : Prop := LevelFacts {
  lv_tags : Forall (called_in T) (c_elems c);
  lv_named : Forall named (c_elems c);
  lv_keys : M = false -> forall k, In k (dkeys (c_attrs c)) -> In k A;
  lv_alone : M = true -> A = [];
  lv_nodup : NoDup (dkeys (c_attrs c));
  lv_nonil : ~ In xsi_nil (dkeys (c_attrs c));
  lv_text : X = false -> c_text c = None
}.

Lemma node_named : forall p c, Forall named (c_elems c) -> named (node p c).
Proof. intros p c H; constructor; simpl; auto; discriminate. Qed.

Lemma level_has : forall its T A M X c, level its T A M X c -> level_facts T A M X c.
Proof.
  intros its T A M X c H; induction H as [|it its T A M X c T' A' M' X' c' L H IH DT DA DX DM DM' DC
    |p gs its Ti Ai Mi Xi ci T' A' M' X' c' W E Hi IHi H IH NP DC |p g its T' A' M' X' c' F H IH NP DC].
  - constructor; simpl; auto; constructor.
  - destruct L as [Lt Ln Lk La Lnd Lni Lx _ _ _ _ _].
    destruct IH as [It In_ Ik Ia Ind Ini Ix].
    constructor; simpl.
    + apply Forall_app; split; [apply called_in_app_l|apply called_in_app_r]; auto.
    + apply Forall_app; auto.
    + intros E k. apply orb_false_iff in E. destruct E as [-> ->]. rewrite keys_app, !in_app_iff. intros [I|I]; auto.
    + intros E. destruct M; [destruct (DM eq_refl) as [-> _]; rewrite (La eq_refl); auto|]. simpl in E. subst M'.
      rewrite (Ia eq_refl), app_nil_r. destruct A as [|a A]; auto. discriminate DM'; discriminate.
    + rewrite keys_app. apply nodup_join; auto. intros k I I'. destruct M.
      * destruct (DM eq_refl) as [-> ->]. apply (Ik eq_refl k) in I'. destruct I'.
      * apply (Lk eq_refl) in I. destruct M'.
        { assert (A <> []) by (intros ->; destruct I). apply DM' in H0. discriminate. }
        apply (Ik eq_refl) in I'. apply (DA k); auto.
    + rewrite keys_app, in_app_iff; tauto.
    + intros E. apply orb_false_iff in E. destruct E as [-> ->]. rewrite Lx, Ix; auto.
  - destruct IH as [It In_ Ik Ia Ind Ini Ix].
    constructor; simpl; auto.
    + constructor; [exists p; simpl; unfold called; auto|]. apply (@called_in_app_r [p] T'); auto.
    + constructor; auto. apply node_named. destruct IHi; auto.
  - destruct IH as [It In_ Ik Ia Ind Ini Ix]. constructor; simpl; auto.
    apply (@called_in_app_r [p] T'); auto.
Qed.

(** ---- writing a level ---- *)
Lemma called_norm : forall t e, called t (norm e) <-> called t e.
Proof. intros t e; unfold called; rewrite norm_tag; tauto. Qed.

Lemma not_called_norm : forall T l, Forall (not_called T) (map norm l) <-> Forall (not_called T) l.
Proof.
  intros T l; rewrite Forall_map. split; intros H; (eapply Forall_impl; [|exact H]); intros e He t Ht C.
  - apply (He t Ht). apply called_norm; auto.
  - apply (He t Ht). apply called_norm; auto.
Qed.

Lemma called_other : forall T T' l, (forall t, In t T -> ~ In t T') -> Forall (called_in T) l -> Forall (not_called T') l.
Proof.
  intros T T' l D H; eapply Forall_impl; [|exact H]. intros e (t & I & C) t' I' C'. unfold called in *.
  rewrite C in C'. injection C' as <-. apply (D t); auto.
Qed.

Lemma not_called_sub : forall T T' l, (forall t, In t T' -> In t T) -> Forall (not_called T) l -> Forall (not_called T') l.
Proof. intros T T' l S H; eapply Forall_impl; [|exact H]. intros e He t Ht; apply He; auto. Qed.

Lemma write_inside : forall p gs e E d d', Forall (fun x => wrapped_in p (fst x) (snd x)) gs ->
  e_elems e = E ++ [d] -> e_next e = S (length E) -> called p d ->
  (forall x, In x gs -> forall c c', it_w (snd x) c = Ok c' -> e_tag c' = e_tag c) ->
  write_all (map snd gs) d = Ok d' -> write_all (map fst gs) e = Ok (set_elems (E ++ [d']) e).
Proof.
  intros p gs; induction gs as [|[it i] gs IH]; intros e E d d' F He Hn Hc HT Hw; simpl in *.
  - injection Hw as <-. rewrite <- He. destruct e; reflexivity.
  - inv F. destruct (obind_ok _ _ Hw) as (d1 & Hd1 & Hw'). simpl in *.
    destruct (wr_write H1) as [[So Si]|(b & m & ns & En)].
    + rewrite Si in Hd1. injection Hd1 as <-. rewrite So. simpl. eapply IH; eauto.
    + rewrite En. simpl. unfold find_element_or_create, find_element, search, look_behind. rewrite Hn, He.
      rewrite (@last_index _ (E ++ [d]) E d eq_refl). apply tag_is_called in Hc. rewrite Hc. simpl.
      rewrite He. rewrite (@last_index _ (E ++ [d]) E d eq_refl). rewrite Hd1. simpl.
      rewrite (IH (put_child (length E) d1 e) E d1 d' H2); auto.
      * unfold put_child. simpl. rewrite He. apply list_upd_last.
      * unfold called. rewrite (HT (it, i) (or_introl eq_refl) _ _ Hd1). apply tag_is_called; auto.
      * intros x Hx; apply HT; auto.
Qed.

Lemma search_end : forall m e p, e_next e = length (e_elems e) -> Forall (not_called [p]) (e_elems e) ->
  search m e p true true = (NotFound, e).
Proof.
  intros m e p Hn F. unfold search. assert (L : look_behind e p = NotFound).
  { unfold look_behind. destruct (e_next e) as [|k] eqn:K; auto. destruct (nth_error (e_elems e) k) as [c|] eqn:N.
    - apply nth_error_In in N. rewrite Forall_forall in F. specialize (F c N p (or_introl eq_refl)).
      apply tag_is_not_called in F. rewrite F; auto.
    - apply nth_error_None in N. lia. }
  rewrite L. destruct m; simpl; unfold strict_forward, ordered_forward, unordered_forward; rewrite Hn.
  - assert (nth_error (e_elems e) (length (e_elems e)) = None) as -> by (apply nth_error_None; lia). auto.
  - rewrite skipn_all. auto.
  - rewrite skipn_all. auto.
Qed.

Lemma write_group : forall p gs e, Forall (fun x => wrapped_in p (fst x) (snd x)) gs ->
  Exists (fun x => enters p (fst x) (snd x)) gs ->
  e_next e = length (e_elems e) -> Forall (not_called [p]) (e_elems e) ->
  (forall x, In x gs -> forall c c', it_w (snd x) c = Ok c' -> e_tag c' = e_tag c) ->
  exists b ns, forall d', write_all (map snd gs) (make_element b p ns) = Ok d' ->
    write_all (map fst gs) e = Ok (append_element d' e).
Proof.
  intros p gs; induction gs as [|[it i] gs IH]; intros e F X Hn Hc HT; [inv X|]. inv F. simpl in *.
  assert (En : enters p it i \/ (stays_out it /\ stays_out i) /\ Exists (fun x => enters p (fst x) (snd x)) gs).
  { destruct (wr_write H1) as [S|E]; auto. inv X; auto. }
  destruct En as [(b & m & ns & En)|[[So Si] X']].
  - exists b, ns. intros d' Hw. destruct (obind_ok _ _ Hw) as (d1 & Hd1 & Hw').
    rewrite En. simpl. unfold find_element_or_create, find_element. rewrite (search_end m e Hn Hc).
    simpl. rewrite (@last_index _ (e_elems e ++ [make_element b p ns]) (e_elems e) _ eq_refl). rewrite Hd1. simpl.
    rewrite (@write_inside p gs _ (e_elems e) d1 d' H2); auto.
    + unfold put_child. simpl. apply list_upd_last.
    + unfold put_child. simpl. rewrite Hn; auto.
    + unfold called. rewrite (HT (it, i) (or_introl eq_refl) _ _ Hd1). reflexivity.
    + intros x Hx; apply HT; auto.
  - destruct (IH e H2 X' Hn Hc) as (b & ns & W). { intros x Hx; apply HT; auto. }
    exists b, ns. intros d' Hw. rewrite Si in Hw. rewrite So. simpl. apply W; auto.
Qed.

Lemma enters_keeper : forall p it i, enters p it i -> tag_keeper it.
Proof.
  intros p it i (b & m & ns & En) c c' H. rewrite En in H. simpl in H. unfold find_element_or_create, find_element in H.
  assert (K : e_tag (snd (search m c p true true)) = e_tag c).
  { unfold search. destruct (look_behind c p); auto. destruct m; simpl; unfold strict_forward, ordered_forward, unordered_forward.
    - destruct (nth_error (e_elems c) (e_next c)); auto. destruct (tag_is _ _); auto.
    - destruct (find_from _ _ _); auto.
    - destruct (find_from _ _ _); auto. }
  destruct (search m c p true true) as [[|k|] e1] eqn:S; simpl in *; try discriminate.
  - destruct (nth_error _ _); [|discriminate]. ok H. injection H as <-. simpl. auto.
  - destruct (nth_error _ _); [|discriminate]. ok H. injection H as <-. simpl. auto.
Qed.

Lemma level_keepers : forall its T A M X c, level its T A M X c -> Forall tag_keeper its.
Proof.
  intros its T A M X c H; induction H as [|it its T A M X c T' A' M' X' c' L H IH DT DA DX DM DM' DC
    |p gs its Ti Ai Mi Xi ci T' A' M' X' c' W E Hi IHi H IH NP DC |p g its T' A' M' X' c' F H IH NP DC]; auto.
  - constructor; auto. apply (lf_keeper L).
  - apply Forall_app; split; auto. rewrite Forall_map. eapply Forall_impl; [|exact W]. intros [it i] Wi; simpl in *.
    destruct (wr_write Wi) as [[So _]|En]; [|eapply enters_keeper; eauto].
    intros x x' Hx. rewrite So in Hx. injection Hx as <-; auto.
  - apply Forall_app; split; auto. eapply Forall_impl; [|exact F]. intros it Ai x x' Hx.
    rewrite (ab_write Ai) in Hx. injection Hx as <-; auto.
Qed.

Lemma write_out : forall p g e, Forall (absent_in p) g -> write_all g e = Ok e.
Proof. intros p g e F; induction F; simpl; auto. rewrite (ab_write H). simpl; auto. Qed.

Lemma level_write : forall its T A M X c, level its T A M X c -> forall e, e_next e = length (e_elems e) ->
  Forall (not_called T) (e_elems e) -> (forall a, In a A -> ~ In a (dkeys (attr_list e))) ->
  (M = true -> attr_list e = []) -> exists e', write_all its e = Ok e' /\ grows e c e'.
Proof.
  intros its T A M X c H; induction H as [|it its T A M X c T' A' M' X' c' L H IH DT DA DX DM DM' DC
    |p gs its Ti Ai Mi Xi ci T' A' M' X' c' W E Hi IHi H IH NP DC |p g its T' A' M' X' c' F H IH NP DC];
    intros e Hn HT HA HM.
  - exists e; split; auto. apply grows_nothing; auto.
  - destruct (lf_write L e Hn) as (e1 & E1 & G1).
    { intros a Ha; apply HA; apply in_app_iff; auto. } { intros ->; apply HM; auto. }
    destruct (IH e1) as (e2 & E2 & G2).
    + apply (gr_next G1).
    + apply not_called_norm. rewrite (gr_elems G1). apply Forall_app; split.
      * apply not_called_norm. apply (@not_called_sub (T ++ T')); auto. intros t Ht; apply in_app_iff; auto.
      * apply (@called_other T T'); auto. apply (lf_tags L).
    + intros a Ha. rewrite (gr_attrs G1), keys_app, in_app_iff. intros [I|I].
      * apply (HA a); auto. apply in_app_iff; auto.
      * destruct M; [destruct (DM eq_refl) as [-> _]; destruct Ha|]. apply (lf_keys L eq_refl) in I. apply (DA a); auto.
    + intros EM. rewrite (gr_attrs G1). destruct M; [destruct (DM eq_refl); congruence|].
      rewrite (HM EM). simpl. apply no_keys. intros k Hk. apply (lf_keys L eq_refl) in Hk.
      rewrite DM' in EM; [discriminate|intros ->; destruct Hk].
    + exists e2. simpl. rewrite E1. simpl. split; auto. apply (grows_plus G1 G2).
      destruct X; [right; apply (lv_text (level_has H)); auto|left; apply (lf_text L); auto].
  - assert (HK : forall x, In x gs -> forall c c', it_w (snd x) c = Ok c' -> e_tag c' = e_tag c).
    { pose proof (level_keepers Hi) as K. rewrite Forall_map in K. rewrite Forall_forall in K.
      intros x Hx; apply (K x Hx). }
    destruct (write_group e W E Hn) as (b & ns & Wr); auto.
    { apply (@not_called_sub (p :: T')); auto. intros t [<-|[]]; simpl; auto. }
    assert (Xi' : exists d', write_all (map snd gs) (make_element b p ns) = Ok d' /\ grows (make_element b p ns) ci d').
    { apply IHi; [reflexivity|constructor|intros a _ []|reflexivity]. }
    destruct Xi' as (d' & Ed & Gd).
    assert (Nd : norm d' = node p ci). { eapply norm_grown; eauto; reflexivity. }
    destruct (IH (append_element d' e)) as (e2 & E2 & G2).
    + unfold append_element; simpl. rewrite app_length; simpl; lia.
    + simpl. apply Forall_app; split.
      * apply (@not_called_sub (p :: T')); auto. intros t Ht; simpl; auto.
      * constructor; [|constructor]. intros t Ht C. apply called_norm in C. rewrite Nd in C. injection C as <-. auto.
    + intros a Ha. apply HA; auto.
    + intros EM. apply HM; auto.
    + exists e2. rewrite write_all_app, (Wr _ Ed). simpl. split; auto.
      apply (@grows_plus e (Con None [] [node p ci]) (append_element d' e) c' e2); auto.
      constructor; simpl; auto.
      * rewrite app_nil_r; auto.
      * rewrite map_app. simpl. rewrite Nd; auto.
      * rewrite app_length; simpl; lia.
  - destruct (IH e) as (e2 & E2 & G2); auto.
    { apply (@not_called_sub (p :: T')); auto. intros t Ht; simpl; auto. }
    exists e2. rewrite write_all_app, (write_out e F). simpl; auto.
Qed.

(** ---- reading a level ---- *)
Lemma search_here : forall m R P d U t, at_ R P (d :: U) -> called t d ->
  search m R t false true = (Found (length P), set_next (S (length P)) R).
Proof.
  intros m R P d U t [He Hn] C. apply tag_is_called in C.
  assert (N : nth_error (P ++ d :: U) (length P) = Some d) by (rewrite nth_error_app2, Nat.sub_diag; auto).
  destruct m; simpl; unfold strict_forward, ordered_forward, unordered_forward; rewrite Hn, He.
  - rewrite N, C. auto.
  - rewrite skipn_app_len by auto. simpl. rewrite C. auto.
  - rewrite skipn_app_len by auto. simpl. rewrite C, list_swap_same. rewrite <- He. destruct R; reflexivity.
Qed.

Lemma search_nowhere : forall m R P U t step, at_ R P U -> Forall (not_called [t]) U ->
  forward m R t step = (NotFound, R).
Proof.
  intros m R P U t step [He Hn] F.
  assert (FF : forall i, find_from i U t = None).
  { clear -F. induction F as [|d U H F IH]; intros i; simpl; auto.
    assert (tag_is (e_tag d) t = false) as -> by (apply tag_is_not_called, H; simpl; auto). auto. }
  destruct m; simpl; unfold strict_forward, ordered_forward, unordered_forward; rewrite Hn, He.
  - destruct U as [|d U]; [rewrite app_nil_r; assert (nth_error P (length P) = None) as -> by (apply nth_error_None; lia); auto|].
    rewrite nth_error_app2, Nat.sub_diag by auto. simpl. inv F.
    assert (tag_is (e_tag d) t = false) as -> by (apply tag_is_not_called, H1; simpl; auto). auto.
  - rewrite skipn_app_len by auto. rewrite FF; auto.
  - rewrite skipn_app_len by auto. rewrite FF; auto.
Qed.

Lemma look_behind_none : forall R P U t, at_ R P U -> Forall (not_called [t]) P -> look_behind R t = NotFound.
Proof.
  intros R P U t [He Hn] F. unfold look_behind. rewrite Hn. destruct (length P) as [|k] eqn:K; auto.
  rewrite He. rewrite nth_error_app1 by lia. destruct (nth_error P k) as [c|] eqn:N.
  - apply nth_error_In in N. rewrite Forall_forall in F. specialize (F c N t (or_introl eq_refl)).
    apply tag_is_not_called in F. rewrite F; auto.
  - apply nth_error_None in N. lia.
Qed.

Lemma look_behind_last : forall R P d U t, e_elems R = P ++ d :: U -> e_next R = S (length P) -> called t d ->
  look_behind R t = Found (length P).
Proof.
  intros R P d U t He Hn C. unfold look_behind. rewrite Hn, He, nth_error_app2, Nat.sub_diag by auto. simpl.
  apply tag_is_called in C. rewrite C; auto.
Qed.

Lemma computed_reads : forall its R, Forall (fun it => it_comp it = true /\ it_res it = VNone /\
    forall loc s, it_r it loc s = (Ok VNone, s)) its -> reads its R R.
Proof.
  intros its R F; induction F as [|it its (C & Er & Rd) F IH]; [constructor|].
  econstructor; eauto. intros loc sm. exists sm. rewrite Rd, Er; auto.
Qed.

Lemma level_computed : forall its T A M X c, level its T A M X c ->
  Forall (fun it => it_comp it = true -> it_res it = VNone /\ neat = false /\ forall loc s, it_r it loc s = (Ok VNone, s)) its.
Proof.
  intros its T A M X c H; induction H as [|it its T A M X c T' A' M' X' c' L H IH DT DA DX DM DM' DC
    |p gs its Ti Ai Mi Xi ci T' A' M' X' c' W E Hi IHi H IH NP DC |p g its T' A' M' X' c' F H IH NP DC]; auto.
  - constructor; auto. apply (lf_comp L).
  - apply Forall_app; split; auto. rewrite Forall_map. eapply Forall_impl; [|exact W]. intros [it i] Wi; simpl in *.
    apply (wr_none Wi).
  - apply Forall_app; split; auto. eapply Forall_impl; [|exact F]. intros it Ai C.
    destruct (ab_none Ai C). split; auto. apply (ab_res Ai).
Qed.

Lemma level_rest_computed : forall its T A M X c R, level its T A M X c -> Forall computed_item its -> reads its R R.
Proof.
  intros its T A M X c R H F. apply computed_reads. pose proof (level_computed H) as L.
  rewrite Forall_forall in *. intros it Hi. split; [apply F; auto|]. destruct (L it Hi (F it Hi)) as (a & b & d). auto.
Qed.

Definition trivial_if_computed (it : item) : Prop :=
  it_comp it = true -> it_res it = VNone /\ neat = false /\ forall loc s, it_r it loc s = (Ok VNone, s).

(** reading wrapped fields once their wrapper has been entered *)
Lemma reads_inside : forall p gs d d', reads (map snd gs) d d' -> Forall (fun x => wrapped_in p (fst x) (snd x)) gs ->
  Forall (fun x => trivial_if_computed (snd x)) gs ->
  called p d -> forall R P U, e_elems R = P ++ d :: U -> e_next R = S (length P) ->
  reads (map fst gs) R (set_elems (P ++ d' :: U) R).
Proof.
  intros p gs; induction gs as [|[it i] gs IH]; intros d d' H F G C R P U He Hn; simpl in *.
  - inv H. rewrite <- He. destruct R; constructor.
  - inversion H as [|? ? ? e1 ? Hst Htag Hrest]; subst; clear H. inversion F as [|? ? W F']; subst. inversion G as [|? ? Tr G']; subst. simpl in *. destruct (it_comp it) eqn:K.
    + destruct (wr_none W K) as (Er & _ & Rd).
      assert (e1 = d) as ->.
      { rewrite (wr_comp W) in K. destruct (Tr K) as (_ & _ & Ri). destruct (Hst [] []) as (sm' & Hr).
        rewrite Ri in Hr. congruence. }
      econstructor; [|reflexivity|eapply IH; eauto]. intros loc sm. exists sm. rewrite Rd, Er; auto.
    + destruct (wr_read W K) as (m & adj & Ha & Hr).
      apply reads_cons with (e1 := set_elems (P ++ e1 :: U) R); auto.
      * intros loc sm. rewrite Hr. simpl. unfold search. rewrite (@look_behind_last R P d U p He Hn C). simpl.
        unfold on_child. simpl. rewrite He, nth_error_app2, Nat.sub_diag by auto. simpl.
        set (s1 := adj loc (St d sm)). assert (S1 : s1 = St d (st_sm s1)). { destruct s1 as [x y] eqn:Es. simpl. f_equal. change x with (st_el (St x y)). rewrite <- Es. unfold s1. apply Ha. }
        rewrite S1. destruct (Hst loc (st_sm s1)) as (sm' & Hi). rewrite Hi. exists sm'. rewrite (wr_res W). simpl.
        unfold put_child. rewrite He, list_upd_split. reflexivity.
      * replace (set_elems (P ++ d' :: U) R) with (set_elems (P ++ d' :: U) (set_elems (P ++ e1 :: U) R)) by reflexivity.
        eapply IH; eauto. unfold called in *. congruence.
Qed.

(** ... and before; they may all be computed, and then the wrapper is not entered *)
Lemma reads_wrapped : forall p gs d d', reads (map snd gs) d d' -> Forall (fun x => wrapped_in p (fst x) (snd x)) gs ->
  Forall (fun x => trivial_if_computed (snd x)) gs ->
  called p d -> forall R P U, at_ R P (d :: U) -> Forall (not_called [p]) P ->
  (reads (map fst gs) R R /\ Forall (fun x => computed_item (fst x)) gs) \/
  reads (map fst gs) R (set_next (S (length P)) (set_elems (P ++ d' :: U) R)).
Proof.
  intros p gs; induction gs as [|[it i] gs IH]; intros d d' H F G C R P U A NP; simpl in *.
  - left; split; constructor.
  - inversion H as [|? ? ? e1 ? Hst Htag Hrest]; subst; clear H. inversion F as [|? ? W F']; subst. inversion G as [|? ? Tr G']; subst. simpl in *. destruct (it_comp it) eqn:K.
    + destruct (wr_none W K) as (Er & _ & Rd).
      assert (e1 = d) as ->.
      { rewrite (wr_comp W) in K. destruct (Tr K) as (_ & _ & Ri). destruct (Hst [] []) as (sm' & Hr).
        rewrite Ri in Hr. congruence. }
      assert (St1 : forall loc sm, exists sm', it_r it loc (St R sm) = (Ok (it_res it), St R sm')).
      { intros loc sm. exists sm. rewrite Rd, Er; auto. }
      destruct (IH d d' Hrest F' G' C R P U A NP) as [[B1 B2]|B].
      * left; split; [econstructor; eauto|constructor; auto].
      * right. econstructor; eauto.
    + right. destruct (wr_read W K) as (m & adj & Ha & Hr). destruct A as [He Hn].
      apply reads_cons with (e1 := set_next (S (length P)) (set_elems (P ++ e1 :: U) R)); auto.
      * intros loc sm. rewrite Hr. simpl. unfold search. rewrite (look_behind_none (conj He Hn) NP).
        change (forward m R p true) with (search m R p false true). rewrite (search_here m (conj He Hn) C). simpl.
        unfold on_child. simpl. rewrite He, nth_error_app2, Nat.sub_diag by auto. simpl.
        set (s1 := adj loc (St d sm)). assert (S1 : s1 = St d (st_sm s1)). { destruct s1 as [x y] eqn:Es. simpl. f_equal. change x with (st_el (St x y)). rewrite <- Es. unfold s1. apply Ha. }
        rewrite S1. destruct (Hst loc (st_sm s1)) as (sm' & Hi). rewrite Hi. exists sm'. rewrite (wr_res W). simpl.
        unfold put_child. simpl. rewrite He, list_upd_split. reflexivity.
      * replace (set_next (S (length P)) (set_elems (P ++ d' :: U) R))
          with (set_elems (P ++ d' :: U) (set_next (S (length P)) (set_elems (P ++ e1 :: U) R))) by reflexivity.
        eapply reads_inside; eauto. unfold called in *. congruence.
Qed.

Lemma reads_out : forall p g R P U, Forall (absent_in p) g -> at_ R P U -> Forall (not_called [p]) P ->
  Forall (not_called [p]) U -> reads g R R.
Proof.
  intros p g R P U F A NP NU; induction F as [|it g Ab F IH]; [constructor|].
  econstructor; [|reflexivity|auto]. intros loc sm. rewrite (ab_res Ab). destruct (it_comp it) eqn:K.
  - destruct (ab_none Ab K) as [_ Rd]. exists sm. rewrite Rd; auto.
  - destruct (ab_read Ab K) as (m & f & Hr). exists sm. rewrite Hr. simpl. unfold search.
    rewrite (look_behind_none A NP), (search_nowhere m true A NU). reflexivity.
Qed.

Lemma in_nil_keys : forall k, ~ In k (dkeys (@nil (string * string))).
Proof. intros k []. Qed.

Lemma level_read : forall its T A M X c, level its T A M X c -> forall R P rest more,
  ready false R P c rest more T A M X -> Forall (not_called T) P ->
  exists R', reads its R R' /\ (neat = true -> after R P rest more T M X R').
Proof.
  intros its T A M X c H; induction H as [|it its T A M X c T' A' M' X' c' L H IH DT DA DX DM DM' DC
    |p gs its Ti Ai Mi Xi ci T' A' M' X' c' W E Hi IHi H IH NP DC |p g its T' A' M' X' c' F H IH NP DC];
    intros R P rest more Rd HP.
  - exists R; split; [constructor|]. intros _. destruct Rd as [Ra Rc Rat Rap Ral Rn Rt]. simpl in *.
    constructor; auto. exists []. rewrite app_nil_r. repeat split; auto; try apply Ra; constructor.
  - pose proof (level_has H) as LH. destruct Rd as [Ra Rc Rat Rap Ral Rn Rt]. simpl in *. rewrite <- app_assoc in Ra.
    specialize (Rc eq_refl).
    destruct (it_comp it) eqn:K.
    { (* a computed field: the remaining ones are computed too *)
      destruct (lf_comp L K) as (Er & Nt & Tr). exists R. split; [|rewrite Nt; discriminate].
      econstructor; [|reflexivity|eapply level_rest_computed; eauto]. intros loc sm. exists sm. rewrite Tr, Er; auto. }
    assert (R1 : ready false R P c (c_elems c' ++ rest) (c_attrs c' ++ more) T A M X).
    { constructor; auto.
      - intros _. apply Forall_app; split.
        + apply (@called_other T' T); [|apply (lv_tags LH)]. intros t Ht Ht'; apply (DT t); auto.
        + apply (@not_called_sub (T ++ T')); auto. intros t Ht; apply in_app_iff; auto.
      - rewrite app_assoc; auto.
      - intros a Ha. rewrite keys_app, in_app_iff. intros [I|I].
        + destruct M'; [exfalso; discriminate (DM' ltac:(intros ->; destruct Ha))|].
          apply (lv_keys LH eq_refl) in I. apply (DA a); auto.
        + apply (Rap a); auto. apply in_app_iff; auto.
      - intros ->. destruct (DM eq_refl) as [-> ->]. destruct (Ral eq_refl) as [-> Ra2]. split; auto.
        rewrite app_nil_r. apply no_keys. intros k Hk. apply (lv_keys LH eq_refl) in Hk. destruct Hk.
      - intros ->. rewrite (Rt eq_refl). rewrite (lv_text LH (DX eq_refl)). destruct (c_text c); auto. }
    destruct (lf_read L K R1) as (Rx & Rr & Af).
    destruct Af as [At Al Ata (Q & Aat & Aq & Acl) Aattr As Atx].
    destruct (IH Rx (P ++ Q) rest more) as (R' & Rs & Post).
    + constructor; auto.
      * intros _. apply (@not_called_sub (T ++ T')); auto. intros t Ht; apply in_app_iff; auto.
      * intros a Ha. apply Rap; apply in_app_iff; auto.
      * intros ->. assert (M = false) as -> by (destruct M; auto; destruct (DM eq_refl); discriminate).
        destruct (Ral eq_refl) as [-> Rs]. split; auto.
      * rewrite Aattr. rewrite Rat in Rn. rewrite !keys_app, !in_app_iff in Rn. rewrite keys_app, in_app_iff. tauto.
      * intros ->. rewrite Atx. assert (X = false) as -> by (destruct X; auto; discriminate DX; auto).
        rewrite (Rt eq_refl). rewrite (lf_text L eq_refl). auto.
    + apply Forall_app; split.
      * apply (@not_called_sub (T ++ T')); auto. intros t Ht; apply in_app_iff; auto.
      * apply (@called_other T T'); auto.
    + exists R'. split; [econstructor; eauto|]. intros Nt. destruct (Post Nt) as [Bt Bl Bta (Q' & Bat & Bq & Bcl) Battr Bs Btx].
      constructor; try congruence.
      * exists (Q ++ Q'). rewrite app_assoc. split; auto. split.
        { apply Forall_app; split; [apply called_in_app_l|apply called_in_app_r]; auto. }
        intros _; apply Forall_app; auto.
      * intros EM. apply orb_false_iff in EM. destruct EM as [-> ->]. auto.
      * rewrite Btx, Atx. destruct X, X'; auto.
  - pose proof (level_has H) as LH. pose proof (level_has Hi) as LI. destruct Rd as [Ra Rc Rat Rap Ral Rn Rt]. simpl in *.
    specialize (Rc eq_refl).
    destruct (IHi (node p ci) [] [] []) as (d' & Rsi & Posti).
    { constructor; simpl; auto.
      - split; simpl; auto. rewrite app_nil_r; auto.
      - unfold attr_list; simpl. rewrite app_nil_r; auto.
      - intros _; split; auto; discriminate.
      - apply (lv_nonil LI). }
    { constructor. }
    assert (Gt : Forall (fun x => trivial_if_computed (snd x)) gs).
    { pose proof (level_computed Hi) as LC. rewrite Forall_map in LC. exact LC. }
    destruct (@reads_wrapped p gs _ _ Rsi W Gt eq_refl R P (c_elems c' ++ rest) Ra) as [[B1 B2]|B].
    { apply (@not_called_sub (p :: T')); auto. intros t [<-|[]]; simpl; auto. }
    + exists R. split; [eapply reads_app; eauto; eapply level_rest_computed; eauto|].
      intros Nt. exfalso. destruct gs as [|[it i] gs]; [inv E|]. inv B2. inv W. simpl in *.
      destruct (wr_none H4 H2) as (_ & Nf & _). congruence.
    + assert (Td : called p d') by (unfold called; rewrite (reads_tag Rsi); reflexivity).
      destruct (IH (set_next (S (length P)) (set_elems (P ++ d' :: c_elems c' ++ rest) R)) (P ++ [d']) rest more) as (R' & Rs & Post).
      * constructor; auto.
        { split; simpl; [rewrite <- app_assoc; auto|rewrite app_length; simpl; lia]. }
        intros _. apply (@not_called_sub (p :: T')); auto. intros t Ht; simpl; auto.
      * apply Forall_app; split.
        { apply (@not_called_sub (p :: T')); auto. intros t Ht; simpl; auto. }
        constructor; [|constructor]. intros t Ht C. unfold called in *. rewrite Td in C. injection C as <-. auto.
      * exists R'. split; [eapply reads_app; eauto|]. intros Nt. destruct (Post Nt) as [Bt Bl Bta (Q' & Bat & Bq & Bcl) Battr Bs Btx].
        constructor; auto.
        exists (d' :: Q'). rewrite <- app_assoc in Bat. split; auto. split.
        { constructor; [exists p; simpl; auto|]. apply (@called_in_app_r [p] T'); auto. }
        intros _. constructor; auto. destruct (Posti Nt) as [Dt Dl Dta (Q2 & Dat & Dq & Dcl) Dattr Ds Dtx].
        constructor; auto.
        { rewrite Dtx. destruct Xi; auto. simpl. rewrite (lv_text LI eq_refl). auto. }
        { rewrite Dta. auto. }
        destruct Dat as [De _]. rewrite De, app_nil_r. simpl. auto.
  - destruct Rd as [Ra Rc Rat Rap Ral Rn Rt]. specialize (Rc eq_refl). pose proof (level_has H) as LH.
    assert (B : reads g R R).
    { eapply reads_out; eauto.
      - apply (@not_called_sub (p :: T')); auto. intros t [<-|[]]; simpl; auto.
      - apply Forall_app; split.
        + apply (@called_other T' [p]); [|apply (lv_tags LH)]. intros t Ht [<-|[]]; auto.
        + apply (@not_called_sub (p :: T')); auto. intros t [<-|[]]; simpl; auto. }
    destruct (IH R P rest more) as (R' & Rs & Post).
    + constructor; auto. intros _. apply (@not_called_sub (p :: T')); auto. intros t Ht; simpl; auto.
    + apply (@not_called_sub (p :: T')); auto. intros t Ht; simpl; auto.
    + exists R'. split; [eapply reads_app; eauto|]. intros Nt. destruct (Post Nt) as [Bt Bl Bta (Q' & Bat & Bq & Bcl) Battr Bs Btx].
      constructor; auto. exists Q'. split; auto. split; auto. apply (@called_in_app_r [p] T'); auto.
Qed.

Lemma level_full : forall its T A M X c, level its T A M X c -> Exists (fun it => substantial eas (it_res it)) its -> nonvoid c.
Proof.
  intros its T A M X c H; induction H as [|it its T A M X c T' A' M' X' c' L H IH DT DA DX DM DM' DC
    |p gs its Ti Ai Mi Xi ci T' A' M' X' c' W E Hi IHi H IH NP DC |p g its T' A' M' X' c' F H IH NP DC]; intros Ex.
  - inv Ex.
  - assert (N : nonvoid c \/ nonvoid c') by (inv Ex; [left; apply (lf_full L); auto|right; auto]).
    destruct L as [_ _ _ _ _ _ Lx _ _ _ _ _]. pose proof (lv_text (level_has H)) as Ix.
    unfold nonvoid in *; simpl. destruct N as [[N|[N|N]]|[N|[N|N]]].
    + left; intros Z. apply app_eq_nil in Z. tauto.
    + right; left; intros Z. apply app_eq_nil in Z. tauto.
    + right; right. destruct (c_text c); auto. discriminate.
    + left; intros Z. apply app_eq_nil in Z. tauto.
    + right; left; intros Z. apply app_eq_nil in Z. tauto.
    + right; right. destruct (c_text c) as [t|] eqn:Et; auto. destruct X; [|discriminate (Lx eq_refl)].
      rewrite (Ix (DX eq_refl)) in N. discriminate.
  - left; simpl; discriminate.
  - apply Exists_app in Ex. destruct Ex as [Ex|Ex]; auto. exfalso. apply Exists_exists in Ex. destruct Ex as (it & Hi & [Sb _]).
    rewrite Forall_forall in F. apply Sb. apply (ab_res (F it Hi)).
Qed.

End Level.
