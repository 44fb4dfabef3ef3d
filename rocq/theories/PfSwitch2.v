(** PfSwitch2.v -- proofs for C79: what writing a field does to an element with room for it, and what
    further switches change. *)

From Verif Require Import Base Elem Native Errs Names Ser Write Api SpecElem SpecRead SpecWrite SpecRound SpecSwitch
  PfElem PfFuel PfTerm PfWrite PfWrite2 PfSwitch.

Local Ltac inv H := inversion H; subst; clear H.
Local Ltac conj := repeat match goal with |- _ /\ _ => split end.

(** ---- paths ---- *)

Lemma none_called_last : forall p e front c, none_called p (e_elems e) -> e_elems e = front ++ [c] -> ~ called p c.
Proof. intros p e front c N E. apply N. rewrite E. apply in_or_app; right; left; auto. Qed.

(** a new wrapper *)
Lemma path_new : forall b mode ns p rest k e, flat e -> none_called p (e_elems e) ->
  write_path b mode ns (p :: rest) k e =
  obind (write_path b mode ns rest k (make_element b p ns)) (fun c' => Ok (adds e [c'])).
Proof.
  intros b mode ns p rest k e F N. cbn [write_path].
  destruct (@find_or_create_cases b e p mode ns F) as [(front & c & Ee & Hc & _)|(_ & ->)].
  - exfalso. eapply none_called_last; eauto.
  - cbn [e_elems append_element set_next set_elems]. rewrite nth_error_app2, Nat.sub_diag by lia. cbn [nth_error].
    destruct (write_path b mode ns rest k (make_element b p ns)) as [c'|x|]; cbn [obind]; auto. f_equal.
    unfold put_child, append_element, set_next, set_elems, adds; cbn [e_tag e_nsmap e_text e_tail e_attrib e_elems e_next e_line].
    rewrite list_upd_split, Nat.add_1_r; auto.
Qed.

Definition with_last (e : elem) (front : list elem) (c : elem) : elem := set_elems (front ++ [c]) e.

(** the wrapper that is there already *)
Lemma path_open : forall b mode ns p rest k e front c, flat e -> e_elems e = front ++ [c] -> called p c ->
  write_path b mode ns (p :: rest) k e =
  obind (write_path b mode ns rest k c) (fun c' => Ok (with_last e front c')).
Proof.
  intros b mode ns p rest k e front c F E Hc. cbn [write_path].
  destruct (@find_or_create_cases b e p mode ns F) as [(front' & d & Ee & Hd & ->)|(N & _)].
  - rewrite E in Ee. apply app_inj_tail in Ee. destruct Ee as [<- <-]. rewrite (last_index _ _ E).
    destruct (write_path b mode ns rest k c) as [c'|x|]; cbn [obind]; auto. unfold put_child, with_last.
    rewrite E, list_upd_last; auto.
  - exfalso. eapply N; eauto.
Qed.

Lemma flat_last : forall e front c c', flat e -> e_elems e = front ++ [c] -> flat (with_last e front c').
Proof. unfold flat; intros e front c c' F E; simpl. rewrite F, E, !app_length; auto. Qed.

Lemma flat_last_inv : forall e front c c', flat (with_last e front c') -> e_elems e = front ++ [c] -> flat e.
Proof. unfold flat; intros e front c c' F E; simpl in F. rewrite F, E, !app_length; auto. Qed.

Lemma pr_last : forall e' e f' f d' d c' c, pr e' e -> e_elems e' = f' ++ [d'] -> e_elems e = f ++ [d] -> prs f' f -> pr c' c ->
  pr (with_last e' f' c') (with_last e f c).
Proof.
  intros e' e f' f d' d c' c H E' E P C. inv H. constructor; simpl; auto.
  - apply prs_app; auto. constructor; auto. constructor.
  - intros F. eapply flat_last; eauto. eauto using flat_last_inv.
Qed.

Lemma make_tag : forall b t ns, called t (make_element b t ns).
Proof. reflexivity. Qed.

Lemma make_flat : forall b t ns, flat (make_element b t ns).
Proof. reflexivity. Qed.

Definition inside_of (path : list string) (ns : option nsmap) (mode : smode) (c : bool) (inner : ser) : ser :=
  match path with [] => inner | _ => SWrap path ns mode c inner end.

Section Effect.
  Variables (M : Prop) (ev : env).
  Hypothesis Neat : neat_classes M ev.

  Definition effect (s : ser) (e r : elem) : Prop :=
    (forall k, In k (keys r) -> In k (keys e) \/ In k (sets_attrs s) \/ all_attrs s = true) /\
    (own_text s = false -> e_text r = e_text e) /\
    exists new, e_elems r = e_elems e ++ new /\
      (any_name s = false -> forall c, In c new -> exists t, In t (child_names s) /\ called t c).

  Definition appends (s : ser) (e r : elem) : Prop :=
    exists new, r = adds e new /\ (any_name s = false -> forall c, In c new -> exists t, In t (child_names s) /\ called t c).

  Lemma appends_nothing : forall s e, appends s e e.
  Proof. intros s e; exists []. rewrite adds_nil. split; auto. intros _ c []. Qed.

  Lemma appends_effect : forall s e r, appends s e r -> effect s e r.
  Proof. intros s e r (new & -> & N). unfold effect; conj; auto. exists new; auto. Qed.

  Lemma appends_trans : forall s a b c, appends s a b -> appends s b c -> appends s a c.
  Proof.
    intros s a b c (n1 & -> & N1) (n2 & -> & N2). exists (n1 ++ n2). rewrite adds_adds; split; auto.
    intros A x I. apply in_app_or in I; destruct I; auto.
  Qed.

  Lemma appends_weak : forall s s' e r, appends s e r -> (any_name s' = false -> any_name s = false) ->
    (forall t, In t (child_names s) -> In t (child_names s')) -> appends s' e r.
  Proof.
    intros s s' e r (new & -> & N) A C. exists new; split; auto. intros X c I. destruct (N (A X) c I) as (t & T & K); eauto.
  Qed.

  Lemma appends_one : forall s e c t, In t (child_names s) -> called t c -> appends s e (append_element c e).
  Proof. intros s e c t I C. exists [c]. rewrite append_adds; split; auto. intros _ x [<-|[]]; eauto. Qed.

  Lemma appends_unless : forall s fl e c t, In t (child_names s) -> called t c -> appends s e (append_unless_empty fl c e).
  Proof. intros s fl e c t I C. unfold append_unless_empty. destruct (_ && _); [apply appends_nothing|]. eapply appends_one; eauto. Qed.

  (** what remains clear for the fields after an unwrapped one *)
  Lemma effect_clear : forall s ss e r, neat M (s :: ss) -> unwrapped M s -> clear (s :: ss) e -> effect s e r -> clear ss r.
  Proof.
    intros s ss e r T U C (K & X & new & E & N). pose proof (clear_tail C) as (C1 & C2 & C3 & C4).
    destruct (neat_direct_inv T U) as (_ & A1 & A2 & A3 & A4 & A5 & A6). unfold clear; conj.
    - intros a I Ka. destruct (K a Ka) as [Ke|[Ks|Al]].
      + eapply C1; eauto.
      + eapply A3; eauto.
      + specialize (A5 Al). rewrite Forall_forall in A5. apply in_flat_map in I. destruct I as (s' & I & I').
        destruct (A5 s' I) as [Z _]. rewrite Z in I'. destruct I'.
    - intros O. destruct (own_text s) eqn:Os; [|rewrite X; auto]. specialize (A4 eq_refl). exfalso.
      apply existsb_exists in O. destruct O as (s' & I & O). rewrite Forall_forall in A4. rewrite (A4 _ I) in O. discriminate.
    - intros O. apply existsb_exists in O. destruct O as (s' & I & O). destruct (keys r) as [|k ks] eqn:Kr; auto. exfalso.
      destruct (K k) as [Ke|[Ks|Al]]; [left; auto| | |].
      + rewrite C3 in Ke; [destruct Ke|]. apply existsb_exists; eauto.
      + assert (Z : sets_attrs s <> []) by (intros Z; rewrite Z in Ks; destruct Ks). specialize (A6 Z). rewrite Forall_forall in A6.
        rewrite (A6 _ I) in O. discriminate.
      + specialize (A5 Al). rewrite Forall_forall in A5. destruct (A5 _ I) as [_ Z]. congruence.
    - intros p I. rewrite E. intros c Ic. apply in_app_or in Ic. destruct Ic as [Ic|Ic]; [apply (C4 p I c Ic)|].
      destruct (any_name s) eqn:An; [specialize (A2 eq_refl); rewrite A2 in I; destruct I|].
      destruct (N eq_refl c Ic) as (t & It & Ct). intros Cp. assert (t = p) by (unfold called in *; congruence). subst t.
      eapply A1; eauto.
  Qed.

  Definition sound (k : elem -> out elem) (s : ser) : Prop := forall e ss r, flat e -> rooms M (s :: ss) e -> k e = Ok r ->
    flat r /\ pr e r /\ rooms M ss r.

  Lemma direct_sound : forall k s, unwrapped M s -> (forall e r, room M s e -> k e = Ok r -> effect s e r /\ pr e r /\ (flat e -> flat r)) -> sound k s.
  Proof.
    intros k s U K e ss r F R H. destruct (K e r (rooms_room R eq_refl) H) as (Ef & P & Fr). conj; auto.
    destruct (rooms_unwrapped R U) as [T C]. apply rooms_closed.
    - apply (neat_direct_inv T U).
    - eapply effect_clear; eauto.
  Qed.

  Lemma path_sound : forall mode b ns c inner k, sound k inner -> forall path, sound (write_path b mode ns path k) (inside_of path ns mode c inner).
  Proof.
    intros mode b ns c inner k K path; induction path as [|p rest IH]; [exact K|].
    intros e ss r F R H. change (inside_of (p :: rest) ns mode c inner) with (from_outside p (Wrapped rest ns mode c inner)) in R.
    apply rooms_outside in R. destruct R as (ws & ss0 & -> & T0 & Np & C0 & R).
    assert (In' : from_inside (Wrapped rest ns mode c inner) = inside_of rest ns mode c inner) by (destruct rest; reflexivity).
    rewrite In' in R. destruct R as [[N T]|(front & d & E & Cd & N & Fd & R)].
    - rewrite path_new in H by auto. ok H. injection H as <-.
      destruct (IH (make_element b p ns) _ _ (make_flat _ _ _) (rooms_closed T (clear_blank _ (blank_make b p ns))) E) as (Fa & Pa & Ra).
      conj; [apply flat_adds; auto|apply pr_adds_right, pr_refl|].
      eapply rooms_open with (c := a); eauto.
      + reflexivity.
      + unfold called. rewrite <- (pr_tag Pa). reflexivity.
      + destruct C0 as (B1 & B2 & B3 & B4). unfold clear; conj; auto. intros q I. simpl. intros x Ix. apply in_app_or in Ix.
        destruct Ix as [Ix|[<-|[]]]; [apply (B4 q I x Ix)|]. unfold called. rewrite <- (pr_tag Pa). simpl. intros X. injection X as <-. auto.
    - rewrite (@path_open b mode ns p rest k e front d) in H by auto. ok H. injection H as <-.
      destruct (IH d _ _ Fd R E0) as (Fa & Pa & Ra). conj.
      + eapply flat_last; eauto.
      + assert (X : e = with_last e front d) by (destruct e; simpl in *; subst; reflexivity). rewrite X at 1.
        eapply pr_last; eauto using pr_refl, prs_refl.
      + assert (Ca : called p a) by (unfold called; rewrite <- (pr_tag Pa); auto). eapply rooms_open with (c := a); eauto.
        * reflexivity.
        * destruct C0 as (B1 & B2 & B3 & B4). unfold clear; conj; auto. intros q I. simpl. intros x Ix. apply in_app_or in Ix.
          destruct Ix as [Ix|[<-|[]]]; [apply (B4 q I x); rewrite E; apply in_or_app; auto|]. unfold called in *. rewrite Ca. intros X. injection X as <-. auto.
  Qed.

  (** ---- every writer ---- *)

  Definition all_sound (w : ser -> writer) : Prop := forall s fl v enc,
    sound (fun e => w s fl e v enc) s /\
    (adds_children M s -> forall e r, w s fl e v enc = Ok r -> appends s e r) /\
    (unwrapped M s -> forall e r, room M s e -> w s fl e v enc = Ok r -> effect s e r /\ pr e r /\ (flat e -> flat r)).

  Lemma fields_sound : forall w m, all_sound w -> (forall name, md_cser m name = None) -> forall fs fl v enc e r, flat e ->
    rooms M (map snd fs) e -> write_fields w m fs fl e v enc = Ok r -> flat r /\ pr e r.
  Proof.
    intros w m W Cs fs; induction fs as [|[name s] fs IH]; intros fl v enc e r F R H; cbn [write_fields map snd] in *.
    - injection H as <-. split; auto using pr_refl.
    - pose proof (rooms_tail R eq_refl) as R'. destruct (str_in name (md_sexclude m)); [eauto|].
      ok H. destruct a; [eauto|]. ok H. rewrite Cs in H. ok H. ok E1.
      destruct (proj1 (W s fl a a1) e _ _ F R E1) as (F1 & P1 & R1). destruct (IH _ _ _ _ _ F1 R1 H) as (F2 & P2).
      split; auto. eapply pr_trans; eauto.
  Qed.

  Lemma model_sound : forall w cls m, all_sound w -> en_model ev cls = Some m -> forall fl v enc e r, blank e ->
    write_model w m fl e v enc = Ok r -> flat r /\ pr e r.
  Proof.
    intros w cls m W Em fl v enc e r B H. destruct (Neat _ Em) as [T Cs]. assert (F : flat e) by (destruct B as (_ & _ & B1 & B2); unfold flat; rewrite B1, B2; auto).
    unfold write_model in H. destruct (is_none v); [injection H as <-; auto using pr_refl|]. destruct (md_root m).
    - ok H. destruct a; [injection H as <-; auto using pr_refl|]. destruct (md_fields m) as [|[name s] fs]; [discriminate|]. ok H.
      destruct (proj1 (W s (with_skip_empty m fl) a enc) e (map snd fs) r F) as (F1 & P1 & _); auto.
      apply rooms_closed; auto. apply clear_blank; auto.
    - eapply fields_sound; eauto. apply rooms_closed; auto. apply clear_blank; auto.
  Qed.

  Lemma proxy_appends : forall w p s, all_sound w -> In (px_name p) (child_names s) -> forall fl v enc e r,
    write_proxy ev w p fl e v enc = Ok r -> appends s e r.
  Proof.
    intros w p s W I fl v enc e r H. unfold write_proxy in H. destruct (en_model ev (px_model p)) as [m|] eqn:Em; [|discriminate].
    destruct (_ && _); [injection H as <-; apply appends_nothing|]. destruct (px_nillable p && is_none v).
    - injection H as <-. eapply appends_one; eauto. reflexivity.
    - destruct (is_none v); [injection H as <-; apply appends_nothing|]. ok H. injection H as <-.
      assert (P : pr (make_element (en_backend ev) (px_name p) (px_nsmap p)) a) by (eapply model_sound; eauto using blank_make). eapply appends_unless; eauto. unfold called. rewrite <- (pr_tag P). reflexivity.
  Qed.

  Lemma items_appends : forall w s' s, (forall fl v enc e r, w fl e v enc = Ok r -> appends s' e r) ->
    (any_name s = false -> any_name s' = false) -> (forall t, In t (child_names s') -> In t (child_names s)) ->
    forall fl vs encs e r, write_items w fl e vs encs = Ok r -> appends s e r.
  Proof.
    intros w s' s W A C fl vs; induction vs as [|v vs IH]; intros encs e r H; simpl in H; [injection H as <-; apply appends_nothing|].
    destruct encs as [|enc encs]; [injection H as <-; apply appends_nothing|]. destruct (_ && _); [eauto|]. ok H.
    eapply appends_trans; [|eauto]. eapply appends_weak; eauto.
  Qed.

  Lemma tuple_appends : forall (w : ser -> writer) s l, (forall s', In s' l -> forall fl v enc e r, w s' fl e v enc = Ok r -> appends s' e r) ->
    (any_name s = false -> forall s', In s' l -> any_name s' = false) -> (forall s' t, In s' l -> In t (child_names s') -> In t (child_names s)) ->
    forall fl vs encs e r, write_tuple (map w l) fl e vs encs = Ok r -> appends s e r.
  Proof.
    intros w s l; induction l as [|s' l IH]; intros W A C fl vs encs e r H; simpl in H; [injection H as <-; apply appends_nothing|].
    destruct vs as [|v vs]; [injection H as <-; apply appends_nothing|]. destruct encs as [|enc encs]; [injection H as <-; apply appends_nothing|].
    ok H. eapply appends_trans.
    - eapply appends_weak; [eapply W; [left; reflexivity|eauto]| |]; intros; eauto using in_eq.
    - eapply IH; [| | |exact H]; intros; eauto using in_cons.
  Qed.

  Lemma children_effect : forall s e r, adds_children M s -> appends s e r -> effect s e r /\ pr e r /\ (flat e -> flat r).
  Proof.
    intros s e r A H. split; [apply appends_effect; auto|]. destruct H as (new & -> & _).
    split; [apply pr_adds_right, pr_refl|apply flat_adds].
  Qed.

  Lemma dset_new : forall k (v : string) d, ~ In k (map fst d) -> dset k v d = d ++ [(k, v)].
  Proof.
    intros k v d; induction d as [|[k0 v0] d IH]; intros N; simpl in *; auto. destruct (String.eqb_spec k k0); [subst; tauto|]. rewrite IH; tauto.
  Qed.

  Lemma attribute_new : forall k v e, ~ In k (keys e) ->
    odict (e_attrib (set_attribute k v e)) = odict (e_attrib e) ++ [(k, v)].
  Proof. intros k v e N. unfold set_attribute; simpl. rewrite <- dset_new; auto. Qed.

  Lemma attribute_keys : forall k v e, ~ In k (keys e) -> keys (set_attribute k v e) = keys e ++ [k].
  Proof. intros k v e N. unfold keys. rewrite attribute_new, map_app; auto. Qed.

  Lemma pr_attribute : forall k v e' e, ~ In k (keys e) -> pr e' e -> pr (set_attribute k v e') (set_attribute k v e).
  Proof.
    intros k v e' e N H. assert (N' : ~ In k (keys e')) by (intros X; apply N; eapply pr_keys; eauto). inv H. constructor; auto.
    rewrite !attribute_new by auto. apply some_snoc; auto.
  Qed.

  Lemma pr_attribute_right : forall k v e' e, ~ In k (keys e) -> pr e' e -> pr e' (set_attribute k v e).
  Proof.
    intros k v e' e N H. inv H. constructor; auto. rewrite attribute_new by auto. eapply some_trans; [apply some_app|auto].
  Qed.

  Lemma pr_text : forall t e' e, pr e' e -> pr (set_text t e') (set_text t e).
  Proof. intros t e' e H; inv H; constructor; simpl; auto. left; auto. Qed.

  Lemma pr_text_right : forall t e' e, e_text e = None -> pr e' e -> pr e' (set_text t e).
  Proof. intros t e' e N H; inv H; constructor; simpl; auto. rewrite N in H1. destruct H1; right; auto. Qed.

  Lemma nothing_new : forall s e r, e_elems r = e_elems e -> exists new, e_elems r = e_elems e ++ new /\
    (any_name s = false -> forall c, In c new -> exists t, In t (child_names s) /\ called t c).
  Proof. intros s e r E. exists []. rewrite app_nil_r. split; auto. intros _ c []. Qed.

  Lemma text_effect : forall c ni fl e v enc r, room M (SText c ni) e -> write_text ni fl e v enc = Ok r ->
    effect (SText c ni) e r /\ pr e r /\ (flat e -> flat r).
  Proof.
    intros c ni fl e v enc r R H. inv R; [|inv H0].
    unfold write_text in H. destruct (_ && (_ || _)).
    - injection H as <-. conj; auto using pr_refl. unfold effect; conj; auto. apply nothing_new; auto.
    - ok H. injection H as <-. unfold effect. destruct (ni && is_none v) eqn:Ni.
      + apply andb_prop in Ni. destruct Ni as [-> _]. conj; auto.
        * intros k I. change (keys (set_text a (make_element_nill e))) with (keys (make_element_nill e)) in I.
          unfold make_element_nill in I. rewrite attribute_keys in I by auto. apply in_app_or in I. destruct I as [I|[<-|[]]]; auto. right; left; left; auto.
        * discriminate.
        * apply nothing_new; auto.
        * apply pr_text_right; auto. apply pr_attribute_right; auto using pr_refl.
      + conj; auto.
        * discriminate.
        * apply nothing_new; auto.
        * apply pr_text_right; auto using pr_refl.
  Qed.

  Lemma attr_effect : forall n c fl e v enc r, room M (SAttr n c) e -> write_attr n fl e v enc = Ok r ->
    effect (SAttr n c) e r /\ pr e r /\ (flat e -> flat r).
  Proof.
    intros n c fl e v enc r R H. inv R; [|inv H0]. unfold write_attr in H. destruct (_ && (_ || _)).
    - injection H as <-. conj; auto using pr_refl. unfold effect; conj; auto. apply nothing_new; auto.
    - ok H. injection H as <-. unfold effect. conj; auto.
      + intros k I. rewrite attribute_keys in I by auto. apply in_app_or in I. destruct I as [I|[<-|[]]]; auto. right; left; left; auto.
      + apply nothing_new; auto.
      + apply pr_attribute_right; auto using pr_refl.
  Qed.

  Lemma attrs_effect : forall a fl e v enc r, room M (SAttrs a) e -> write_attrs a fl e v enc = Ok r ->
    effect (SAttrs a) e r /\ pr e r /\ (flat e -> flat r).
  Proof.
    intros a fl e v enc r R H. inv R; [|inv H0]. unfold write_attrs in H. destruct (is_none v).
    - injection H as <-. conj; auto using pr_refl. unfold effect; conj; auto. apply nothing_new; auto.
    - destruct enc; try discriminate. ok H. injection H as <-. unfold effect. conj; auto.
      + apply nothing_new; auto.
      + constructor; simpl; auto using prs_refl; try (left; auto; fail). unfold keys in H1. destruct (odict (e_attrib e)); [apply some_nil|discriminate].
  Qed.

  Lemma neat_cases : forall s ss, neat M (s :: ss) -> unwrapped M s \/ exists p w, s = from_outside p w.
  Proof. intros s ss H; inv H; eauto. Qed.

  Lemma rooms_cases : forall s ss e, rooms M (s :: ss) e -> unwrapped M s \/ exists p w, s = from_outside p w.
  Proof.
    intros s ss e H; inv H; eauto using neat_cases. destruct ws as [|w ws]; simpl in *; [subst; eauto using neat_cases|].
    injection H0 as <- _. eauto.
  Qed.

  Lemma write_sound : forall n, all_sound (write n ev).
  Proof.
    induction n as [|n IH]; intros s fl v enc; [conj; [intros e ss r _ _ H; discriminate|intros _ e r H; discriminate|intros _ e r _ H; discriminate]|].
    assert (Ch : adds_children M s -> forall e r, write (S n) ev s fl e v enc = Ok r -> appends s e r).
    { intros A e r H. inv A; cbn [write write_step] in H.
      - unfold write_elem in H. destruct (_ && (_ || _)); [injection H as <-; apply appends_nothing|]. ok H. injection H as <-.
        pose proof (text_result _ _ _ _ _ E) as X. eapply appends_unless; [left; reflexivity|]. unfold called.
        unfold write_text in E. destruct (_ && (_ || _)); [injection E as <-; reflexivity|]. ok E. injection E as <-. destruct (ni && is_none v); reflexivity.
      - assert (X : forall r, obind (write_attrs a fl (make_element (en_backend ev) n0 (as_nsmap a)) v enc)
                     (fun sub => Ok (append_unless_empty fl sub e)) = Ok r -> appends (SMapElem n0 m a) e r).
        { clear r H. intros r H. ok H. injection H as <-. destruct (write_attrs_result _ _ _ _ _ E) as (_ & _ & X & _).
          eapply appends_unless; [left; reflexivity|]. unfold called. rewrite X. reflexivity. }
        unfold write_map_elem in H. destruct (fl_skip_empty fl); auto. destruct (py_len v) as [[|k]|]; [injection H as <-; apply appends_nothing| |discriminate]; auto.
      - unfold write_raw in H. destruct v; try discriminate; [injection H as <-; apply appends_nothing|]. injection H as <-.
        unfold append_unless_empty. destruct (_ && _); [apply appends_nothing|]. rewrite append_adds. eexists; split; [reflexivity|]. discriminate.
      - unfold write_homo in H. destruct (is_none v); [injection H as <-; apply appends_nothing|]. ok H.
        destruct (_ && _); [injection H as <-; apply appends_nothing|]. ok H. eapply items_appends with (s' := s0); eauto.
        intros fl0 v0 enc0 e0 r0 H1. eapply (proj1 (proj2 (IH s0 fl0 v0 enc0))); eauto.
      - unfold write_hetero in H. destruct (is_none v); [injection H as <-; apply appends_nothing|]. ok H.
        destruct (_ && _); [injection H as <-; apply appends_nothing|]. destruct (negb _); [discriminate|]. ok H. rewrite Forall_forall in H0.
        eapply tuple_appends; [| | |exact H].
        + intros s' I fl0 v0 enc0 e0 r0 H1. eapply (proj1 (proj2 (IH s' fl0 v0 enc0))); eauto.
        + intros A s' I. simpl in A. destruct (any_name s') eqn:X; auto. rewrite <- A. symmetry. apply existsb_exists; eauto.
        + intros s' t0 I I'. simpl. apply in_flat_map; eauto.
      - eapply appends_weak; [eapply (proj1 (proj2 (IH s0 fl v enc))); eauto| |]; auto.
      - assert (X : forall vs', (forall p, In p vs' -> In p vs) -> write_union (write_proxy ev (write n ev)) vs' fl e v enc = Ok r -> appends (SUnionModel t c vs h) e r).
        { clear H. intros vs'; induction vs' as [|p vs' IHv]; intros Sub H; simpl in H; [injection H as <-; apply appends_nothing|].
          destruct (match model_type v with Some _ => _ | None => _ end); [|apply IHv; auto; intros; apply Sub; right; auto].
          eapply proxy_appends; eauto. simpl. apply in_map, Sub. left; auto. }
        apply (X vs); auto.
      - unfold write_tagged in H. destruct enc; try discriminate. destruct (dget d d0) as [tag|]; [|injection H as <-; apply appends_nothing].
        destruct (py_truthy tag); [|injection H as <-; apply appends_nothing]. destruct tag; try discriminate.
        destruct (dget s vs) as [p|] eqn:D; [|discriminate]. eapply proxy_appends; eauto. simpl. apply in_map_iff. exists (s, p). split; auto.
        apply dget_Some_in; auto.
      - eapply proxy_appends; eauto. left; auto. }
    assert (Di : unwrapped M s -> forall e r, room M s e -> write (S n) ev s fl e v enc = Ok r -> effect s e r /\ pr e r /\ (flat e -> flat r)).
    { intros U e r R H. inv U.
      - eapply text_effect; eauto.
      - eapply attr_effect; eauto.
      - eapply attrs_effect with (fl := fl); eauto.
      - assert (R' : room M s0 e) by (inv R; auto; inv H2; apply room_children; auto).
        cbn [write write_step] in H. destruct (proj2 (proj2 (IH s0 fl v enc)) H1 e r R' H) as (X & P & F). conj; auto.
        destruct s0; simpl in H0; try contradiction; try discriminate; exact X.
      - apply children_effect; auto. }
    conj; auto.
    intros e ss r F R H. destruct (rooms_cases R) as [U|(p & w & ->)].
    - revert e ss r F R H. apply direct_sound; auto.
    - unfold from_outside in R. cbn [write write_step from_outside] in H. unfold write_wrap in H.
      assert (Sk : e = r -> flat r /\ pr e r /\ rooms M ss r).
      { intros ->. conj; auto using pr_refl. eapply rooms_tail; eauto. }
      destruct (is_none v); [injection H as ->; auto|]. destruct (_ && _); [injection H as ->; auto|].
      assert (K : sound (fun c => write n ev (wf_inner w) fl c v enc) (wf_inner w)) by apply IH.
      exact (path_sound (wf_mode w) (en_backend ev) (wf_nsmap w) (wf_computed w) K (p :: wf_rest w) F R H).
  Qed.
End Effect.

(** ---- two runs ---- *)

Lemma prs_front : forall p f c l', prs l' (f ++ [c]) -> none_called p l' -> called p c -> prs l' f.
Proof.
  intros p f c; induction f as [|x f IH]; intros l' H N C; simpl in H.
  - inv H.
    + exfalso. apply (N c'); [left; auto|]. eapply pr_called; eauto.
    + apply prs_nil_inv in H2; subst. constructor.
  - inv H.
    + constructor; auto. eapply IH; eauto. intros y Hy; apply N; right; auto.
    + constructor. eapply IH; eauto.
Qed.

Local Ltac ok' H := ok H; repeat match goal with E : ?x = Ok ?y |- context [obind ?x _] => rewrite E end; cbn [obind].

Section Mono.
  Variables (M : Prop) (ev : env).
  Hypothesis Neat : neat_classes M ev.

  Definition good (o : out elem) (r : elem) : Prop := (exists r', o = Ok r' /\ pr r' r) \/ (o = Raise XTypeError /\ M).

  Lemma good_ok : forall r' r, pr r' r -> good (Ok r') r.
  Proof. left; eauto. Qed.

  Lemma good_bind : forall o r k r2, good o r -> (forall r', pr r' r -> good (k r') r2) -> good (obind o k) r2.
  Proof. intros o r k r2 [(r' & -> & P)|[-> Hm]] K; simpl; auto. right; auto. Qed.

  Lemma append_good : forall fl fl' c' c e' e, more_switches fl fl' -> pr c' c -> pr e' e ->
    pr (append_unless_empty fl' c' e') (append_unless_empty fl c e).
  Proof.
    intros fl fl' c' c e' e (S1 & _) C E. unfold append_unless_empty. rewrite !append_adds. destruct (fl_skip_empty fl && is_empty c) eqn:X.
    - apply andb_prop in X. destruct X as [X Y]. rewrite (S1 X), (pr_empty C Y); auto.
    - destruct (fl_skip_empty fl' && is_empty c'); [apply pr_adds_right; auto|]. apply pr_adds; auto. constructor; auto. constructor.
  Qed.

  Lemma append_good' : forall fl c e' e, pr e' e -> pr e' (append_unless_empty fl c e).
  Proof. intros fl c e' e E. unfold append_unless_empty. rewrite append_adds. destruct (_ && _); auto. apply pr_adds_right; auto. Qed.

  Definition none_dropped (fl : flags) : bool := fl_skip_empty fl || fl_exclude_none fl.

  Lemma dropped_more : forall fl fl', more_switches fl fl' -> none_dropped fl = true -> none_dropped fl' = true.
  Proof. intros fl fl' (A & B & _) H. unfold none_dropped in *. apply orb_prop in H. destruct H as [H|H]; [rewrite (A H)|rewrite (B H), orb_true_r]; auto. Qed.

  Definition mono (k k' : elem -> out elem) (s : ser) : Prop := forall e e' ss r, flat e -> pr e' e -> rooms M (s :: ss) e -> k e = Ok r -> good (k' e') r.

  Lemma path_mono : forall mode b ns c inner k k', mono k k' inner -> forall path,
    mono (write_path b mode ns path k) (write_path b mode ns path k') (inside_of path ns mode c inner).
  Proof.
    intros mode b ns c inner k k' K path; induction path as [|p rest IH]; [exact K|].
    intros e e' ss r F P R H. change (inside_of (p :: rest) ns mode c inner) with (from_outside p (Wrapped rest ns mode c inner)) in R.
    apply rooms_outside in R. destruct R as (ws & ss0 & -> & T0 & Np & C0 & R).
    assert (In' : from_inside (Wrapped rest ns mode c inner) = inside_of rest ns mode c inner) by (destruct rest; reflexivity).
    rewrite In' in R. assert (F' : flat e') by (eapply pr_flat; eauto). assert (Pe : prs (e_elems e') (e_elems e)) by (inv P; auto).
    destruct R as [[N T]|(front & d & E & Cd & N & Fd & R)].
    - rewrite path_new in H by auto. ok' H. injection H as <-. rewrite path_new by eauto using prs_none_called.
      eapply good_bind.
      + eapply IH; [| | |exact E]; [apply make_flat|apply pr_refl|]. apply rooms_closed; [exact T|]. apply clear_blank, blank_make.
      + intros a' Pa. apply good_ok, pr_adds; auto. constructor; auto. constructor.
    - rewrite (@path_open b mode ns p rest k e front d) in H by auto. ok' H. injection H as <-. rewrite E in Pe.
      destruct (prs_last Pe N Cd) as [N'|(f' & d' & E' & Cd' & Pf & Pd)].
      + rewrite path_new by auto. eapply good_bind.
        * eapply IH; [exact Fd| |exact R|exact E0]. apply blank_pr; [apply blank_make|reflexivity|symmetry; exact Cd].
        * intros a' Pa. apply good_ok. assert (Pf : prs (e_elems e') front) by (eapply prs_front; eauto). inv P. constructor; auto.
          -- simpl. apply prs_app; auto. constructor; auto. constructor.
          -- intros _. apply flat_adds; auto.
      + rewrite (@path_open b mode ns p rest k' e' f' d') by auto. eapply good_bind.
        * eapply IH; [exact Fd|exact Pd|exact R|exact E0].
        * intros a' Pa. apply good_ok. eapply pr_last; eauto.
  Qed.

  Definition all_mono (w : ser -> writer) : Prop := forall s fl fl' v enc, more_switches fl fl' ->
    mono (fun e => w s fl e v enc) (fun e => w s fl' e v enc) s /\
    (unwrapped M s -> forall e e' r, pr e' e -> room M s e -> w s fl e v enc = Ok r -> good (w s fl' e' v enc) r).

  Lemma unset_model : forall v name x, py_getattr v name = Ok x -> exists b, is_unset v name = Ok b.
  Proof. intros v name x H. destruct v; try discriminate. simpl. eauto. Qed.

  Lemma fields_mono : forall w m, all_sound M w -> all_mono w -> (forall name, md_cser m name = None) ->
    forall fl fl' v enc, more_switches fl fl' -> forall fs e e' r, flat e -> pr e' e ->
    rooms M (map snd fs) e -> write_fields w m fs fl e v enc = Ok r -> good (write_fields w m fs fl' e' v enc) r.
  Proof.
    intros w m Ws W Cs fl fl' v enc Mo fs; induction fs as [|[name s] fs IH]; intros e e' r F P R H; cbn [write_fields map snd] in *.
    - injection H as <-. apply good_ok; auto.
    - pose proof (rooms_tail R eq_refl) as R'. destruct (str_in name (md_sexclude m)); [eauto|].
      rewrite Cs in *. destruct (fl_exclude_unset fl) eqn:Ex.
      + destruct Mo as (M1 & M2 & M3). rewrite (M3 Ex). ok' H.  cbn [obind]. destruct a; [eapply IH; eauto|].
        ok' H. cbn [obind]. ok' H. ok' E1. 
        assert (Mo : more_switches fl fl') by (unfold more_switches; auto).
        destruct (proj1 (Ws s fl a a1) e _ _ F R E1) as (F1 & P1 & R1).
        eapply good_bind; [exact (proj1 (W s fl fl' a a1 Mo) e e' _ _ F P R E1)|]. intros r' Pr. eapply IH; eauto.
      + cbn [obind] in H. ok' H. destruct (unset_model _ _ E) as [u U]. ok' H. ok' E0.
        destruct (proj1 (Ws s fl a a1) e _ _ F R E0) as (F1 & P1 & R1).
        assert (Y : good (obind (obind (py_getitem enc name) (fun xe => w s fl' e' a xe)) (fun e2 => write_fields w m fs fl' e2 v enc)) r).
        { rewrite E1. cbn [obind]. eapply good_bind; [exact (proj1 (W s fl fl' a a1 Mo) e e' _ _ F P R E0)|]. intros r' Pr. eapply IH; eauto. }
        rewrite E1 in Y. cbn [obind] in Y. destruct (fl_exclude_unset fl').
        * rewrite U. cbn [obind]. destruct u; auto. eapply IH; [exact F1| |exact R1|exact H]. eapply pr_trans; eauto.
        * cbn [obind]. auto.
  Qed.

  Lemma skip_more : forall m fl fl', more_switches fl fl' -> more_switches (with_skip_empty m fl) (with_skip_empty m fl').
  Proof. intros m fl fl' (A & B & C). unfold with_skip_empty, more_switches. destruct (md_skip_empty m); simpl; auto. Qed.

  Lemma model_mono : forall w cls m, all_sound M w -> all_mono w -> en_model ev cls = Some m ->
    forall fl fl' v enc, more_switches fl fl' -> forall e r, blank e ->
    write_model w m fl e v enc = Ok r -> good (write_model w m fl' e v enc) r.
  Proof.
    intros w cls m Ws W Em fl fl' v enc Mo e r B H. destruct (Neat _ Em) as [T Cs].
    assert (F : flat e) by (destruct B as (_ & _ & B1 & B2); unfold flat; rewrite B1, B2; auto).
    assert (R : rooms M (map snd (md_fields m)) e) by (apply rooms_closed; auto; apply clear_blank; auto).
    pose proof (skip_more m Mo) as Mo'. unfold write_model in *. destruct (is_none v); [injection H as <-; apply good_ok, pr_refl|].
    destruct (md_root m); [|eapply fields_mono; eauto using pr_refl].
    destruct (fl_exclude_unset fl) eqn:Ex.
    - assert (X : fl_exclude_unset fl' = true) by (destruct Mo as (_ & _ & M3); auto). rewrite X. ok' H. cbn [obind].
      destruct a; [injection H as <-; apply good_ok, pr_refl|]. destruct (md_fields m) as [|[name s] fs]; [discriminate|].
      ok' H. cbn [obind]. eapply (proj1 (W s _ _ a enc Mo')); eauto using pr_refl.
    - cbn [obind] in H. destruct (md_fields m) as [|[name s] fs]; [discriminate|]. ok' H.
      destruct (unset_model _ _ E) as [u U].
      assert (Y : good (w s (with_skip_empty m fl') e a enc) r) by (eapply (proj1 (W s _ _ a enc Mo')); eauto using pr_refl).
      destruct (fl_exclude_unset fl'); [|exact Y]. rewrite U. cbn [obind]. destruct u; [|exact Y].
      apply good_ok. eapply (proj1 (Ws s (with_skip_empty m fl) a enc)); eauto.
  Qed.

  Lemma proxy_mono : forall w p, all_sound M w -> all_mono w -> forall fl fl' v enc, more_switches fl fl' -> forall e e' r, pr e' e ->
    write_proxy ev w p fl e v enc = Ok r -> good (write_proxy ev w p fl' e' v enc) r.
  Proof.
    intros w p Ws W fl fl' v enc Mo e e' r P H. unfold write_proxy in *. destruct (en_model ev (px_model p)) as [m|] eqn:Em; [|discriminate].
    destruct Mo as (M1 & M2 & M3). destruct (is_none v) eqn:Nv.
    - rewrite !andb_true_r in *. destruct (fl_exclude_none fl) eqn:En; [rewrite (M2 eq_refl); injection H as <-; apply good_ok; auto|].
      destruct (px_nillable p).
      + injection H as <-. rewrite !append_adds. destruct (fl_exclude_none fl'); apply good_ok; [apply pr_adds_right; auto|].
        apply pr_adds; auto. apply prs_refl.
      + injection H as <-. destruct (fl_exclude_none fl'); apply good_ok; auto.
    - rewrite !andb_false_r in *. ok' H. injection H as <-. eapply good_bind.
      + eapply model_mono; eauto using blank_make. unfold more_switches; auto.
      + intros c' Pc. apply good_ok. apply append_good; auto. unfold more_switches; auto.
  Qed.

  Lemma items_mono : forall w s fl fl', more_switches fl fl' ->
    (forall v enc e r, w fl e v enc = Ok r -> appends s e r) ->
    (forall v enc e e' r, pr e' e -> w fl e v enc = Ok r -> good (w fl' e' v enc) r) ->
    forall vs encs e e' r, pr e' e -> write_items w fl e vs encs = Ok r -> good (write_items w fl' e' vs encs) r.
  Proof.
    intros w s fl fl' (M1 & _) A W vs; induction vs as [|v vs IH]; intros encs e e' r P H; simpl in *; [injection H as <-; apply good_ok; auto|].
    destruct encs as [|enc encs]; [injection H as <-; apply good_ok; auto|]. destruct (is_none v).
    - rewrite !andb_true_r in *. destruct (fl_skip_empty fl); [rewrite (M1 eq_refl); eauto|]. ok' H.
      destruct (fl_skip_empty fl').
      + eapply IH; [|exact H]. eapply pr_trans; [|exact P]. destruct (A _ _ _ _ E) as (new & -> & _). apply pr_adds_right, pr_refl.
      + eapply good_bind; eauto.
    - rewrite !andb_false_r in *. ok' H. eapply good_bind; eauto.
  Qed.

  Lemma tuple_mono : forall (w : ser -> writer) fl fl' l,
    (forall s, In s l -> forall v enc e e' r, pr e' e -> w s fl e v enc = Ok r -> good (w s fl' e' v enc) r) ->
    forall vs encs e e' r, pr e' e -> write_tuple (map w l) fl e vs encs = Ok r -> good (write_tuple (map w l) fl' e' vs encs) r.
  Proof.
    intros w fl fl' l; induction l as [|s l IH]; intros W vs encs e e' r P H; simpl in *; [injection H as <-; apply good_ok; auto|].
    destruct vs as [|v vs]; [injection H as <-; apply good_ok; auto|]. destruct encs as [|enc encs]; [injection H as <-; apply good_ok; auto|].
    ok' H. eapply good_bind; eauto.
  Qed.

  Lemma text_mono : forall c ni fl fl' v enc, more_switches fl fl' -> forall e e' r, pr e' e -> room M (SText c ni) e ->
    write_text ni fl e v enc = Ok r -> good (write_text ni fl' e' v enc) r.
  Proof.
    intros c ni fl fl' v enc Mo e e' r P R H. destruct (text_effect _ _ _ R H) as (_ & Pr & _). inv R; [|inv H0].
    unfold write_text in *. pose proof (dropped_more Mo) as D. unfold none_dropped in D. destruct (is_none v).
    - rewrite !andb_true_l in *. destruct (fl_skip_empty fl || fl_exclude_none fl); [rewrite D; auto; injection H as <-; apply good_ok; auto|].
      destruct (fl_skip_empty fl' || fl_exclude_none fl'); [apply good_ok; eapply pr_trans; eauto|].
      ok' H. injection H as <-. cbn [obind]. apply good_ok, pr_text. destruct ni; simpl; auto. apply pr_attribute; auto.
    - rewrite !andb_false_l, andb_false_r in *. ok' H. injection H as <-. cbn [obind]. apply good_ok, pr_text; auto.
  Qed.

  Lemma attr_mono : forall c n fl fl' v enc, more_switches fl fl' -> forall e e' r, pr e' e -> room M (SAttr n c) e ->
    write_attr n fl e v enc = Ok r -> good (write_attr n fl' e' v enc) r.
  Proof.
    intros c n fl fl' v enc Mo e e' r P R H. destruct (attr_effect _ _ _ R H) as (_ & Pr & _). inv R; [|inv H0].
    unfold write_attr in *. pose proof (dropped_more Mo) as D. unfold none_dropped in D. destruct (is_none v).
    - rewrite !andb_true_l in *. destruct (fl_skip_empty fl || fl_exclude_none fl); [rewrite D; auto; injection H as <-; apply good_ok; auto|].
      destruct (fl_skip_empty fl' || fl_exclude_none fl'); [apply good_ok; eapply pr_trans; eauto|].
      ok' H. injection H as <-. cbn [obind]. apply good_ok. apply pr_attribute; auto.
    - rewrite !andb_false_l in *. ok' H. injection H as <-. cbn [obind]. apply good_ok, pr_attribute; auto.
  Qed.

  Lemma attrs_mono : forall a fl fl' v enc e e' r, pr e' e -> keys e = [] ->
    write_attrs a fl e v enc = Ok r -> good (write_attrs a fl' e' v enc) r.
  Proof.
    intros a fl fl' v enc e e' r P K H. unfold write_attrs in *. destruct (is_none v); [injection H as <-; apply good_ok; auto|].
    destruct enc; try discriminate. ok' H. injection H as <-. cbn [obind]. apply good_ok. inv P. constructor; simpl; auto. apply some_refl.
  Qed.

  Lemma children_mono : forall n, all_mono (write n ev) -> forall s fl fl' v enc, more_switches fl fl' -> adds_children M s ->
    forall e e' r, pr e' e -> write (S n) ev s fl e v enc = Ok r -> good (write (S n) ev s fl' e' v enc) r.
  Proof.
    intros n W s fl fl' v enc Mo A e e' r P H. pose proof (write_sound Neat n) as Ws.
    assert (Di : forall s, adds_children M s -> forall v enc e e' r, pr e' e -> write n ev s fl e v enc = Ok r -> good (write n ev s fl' e' v enc) r).
    { clear - W Mo. intros s A v enc e e' r P H. eapply (proj2 (W s fl fl' v enc Mo)); eauto; [apply uw_children|apply room_children]; auto. }
    inv A; cbn [write write_step] in *.
    - unfold write_elem in *. pose proof (dropped_more Mo) as D. unfold none_dropped in D. destruct (is_none v) eqn:Nv.
      + rewrite !andb_true_l in *. destruct (fl_skip_empty fl || fl_exclude_none fl) eqn:X; [rewrite D; auto; injection H as <-; apply good_ok; auto|].
        ok' H. injection H as <-. destruct (fl_skip_empty fl' || fl_exclude_none fl') eqn:X'; [apply good_ok, append_good'; auto|].
        eapply good_bind.
        * eapply text_mono with (c := c) (fl := fl); eauto using pr_refl. constructor; [reflexivity|]. intros _ [].
        * intros c' Pc. apply good_ok, append_good; auto.
      + rewrite !andb_false_l in *. ok' H. injection H as <-. eapply good_bind.
        * eapply text_mono with (c := c) (fl := fl); eauto using pr_refl. constructor; [reflexivity|]. intros _ [].
        * intros c' Pc. apply good_ok, append_good; auto.
    - assert (X : forall r, obind (write_attrs a fl (make_element (en_backend ev) n0 (as_nsmap a)) v enc)
                     (fun sub => Ok (append_unless_empty fl sub e)) = Ok r ->
                  good (obind (write_attrs a fl' (make_element (en_backend ev) n0 (as_nsmap a)) v enc)
                     (fun sub => Ok (append_unless_empty fl' sub e'))) r /\ pr e' r).
      { clear r H. intros r H. ok' H. injection H as <-. split; [|apply append_good'; auto]. eapply good_bind.
        - eapply attrs_mono with (fl := fl); eauto using pr_refl.
        - intros c' Pc. apply good_ok, append_good; auto. }
      unfold write_map_elem in *. destruct Mo as (M1 & _). destruct (fl_skip_empty fl).
      + rewrite (M1 eq_refl). destruct (py_len v) as [[|k]|]; [injection H as <-; apply good_ok; auto|apply X; auto|discriminate].
      + destruct (X r H) as [X1 X2]. destruct (fl_skip_empty fl'); auto. destruct (py_len v) as [[|k]|]; auto; [apply good_ok; auto|]. right; auto.
    - unfold write_raw in *. destruct v; try discriminate; injection H as <-; apply good_ok; auto. apply append_good; auto. apply pr_refl.
    - unfold write_homo in *. destruct (is_none v); [injection H as <-; apply good_ok; auto|]. ok' H. cbn [obind].
      destruct (fl_skip_empty fl && _) eqn:X.
      + apply andb_prop in X. destruct X as [X Y]. destruct Mo as (M1 & _). rewrite (M1 X), Y. injection H as <-. apply good_ok; auto.
      + ok' H. cbn [obind].
        assert (Y : good (write_items (write n ev s0) fl' e' a a0) r).
        { eapply items_mono with (s := s0) (fl := fl); eauto. intros v0 enc0 e0 r0. apply (proj1 (proj2 (Ws s0 fl v0 enc0))); auto. }
        destruct (fl_skip_empty fl' && _) eqn:X'; auto. apply andb_prop in X'. destruct X' as [X1 X2]. apply Nat.eqb_eq in X2.
        destruct a; [|discriminate]. simpl in Y, H. injection H as <-. apply good_ok; auto.
    - unfold write_hetero in *. destruct (is_none v); [injection H as <-; apply good_ok; auto|]. ok' H. cbn [obind].
      destruct (fl_skip_empty fl && _) eqn:X.
      + apply andb_prop in X. destruct X as [X Y]. destruct Mo as (M1 & _). rewrite (M1 X), Y. injection H as <-. apply good_ok; auto.
      + destruct (negb _) eqn:Ng; [discriminate|]. ok' H. cbn [obind]. rewrite Forall_forall in H0.
        assert (Y : good (write_tuple (map (write n ev) l) fl' e' a a0) r).
        { eapply tuple_mono with (fl := fl); eauto. }
        destruct (fl_skip_empty fl' && _) eqn:X'; auto. apply andb_prop in X'. destruct X' as [X1 X2]. apply Nat.eqb_eq in X2.
        destruct a; [|discriminate]. destruct l; [|discriminate]. simpl in H. injection H as <-. apply good_ok; auto.
    - eauto.
    - clear Di. induction vs as [|p vs IHv]; simpl in *; [injection H as <-; apply good_ok; auto|].
      destruct (match model_type v with Some _ => _ | None => _ end); auto. eapply proxy_mono with (fl := fl); eauto.
    - unfold write_tagged in *. destruct enc; try discriminate. destruct (dget d d0) as [tag|]; [|injection H as <-; apply good_ok; auto].
      destruct (py_truthy tag); [|injection H as <-; apply good_ok; auto]. destruct tag; try discriminate.
      destruct (dget s vs) as [p|] eqn:D; [|discriminate]. eapply proxy_mono with (fl := fl); eauto.
    - eapply proxy_mono with (fl := fl); eauto.
  Qed.

  Lemma write_mono : forall n, all_mono (write n ev).
  Proof.
    induction n as [|n IH]; intros s fl fl' v enc Mo; [split; [intros e e' ss r _ _ _ H; discriminate|intros _ e e' r _ _ H; discriminate]|].
    assert (Di : unwrapped M s -> forall e e' r, pr e' e -> room M s e -> write (S n) ev s fl e v enc = Ok r -> good (write (S n) ev s fl' e' v enc) r).
    { intros U e e' r P R H. inv U.
      - eapply text_mono; eauto.
      - eapply attr_mono; eauto.
      - eapply attrs_mono with (fl := fl); eauto. inv R; auto. inv H0.
      - assert (R' : room M s0 e) by (inv R; auto; inv H2; apply room_children; auto).
        exact (proj2 (IH s0 fl fl' v enc Mo) H1 e e' r P R' H).
      - eapply children_mono; eauto. }
    split; auto. intros e e' ss r F P R H. destruct (rooms_cases R) as [U|(p & w & ->)].
    - eapply Di; eauto. eapply rooms_room; eauto.
    - pose proof (proj1 (write_sound Neat (S n) (from_outside p w) fl v enc) e ss r F R H) as (_ & Pr & _).
      cbn [write write_step from_outside] in H |- *. unfold write_wrap in *. destruct (is_none v); [injection H as <-; apply good_ok; auto|].
      destruct (fl_skip_empty fl && len_is_zero v) eqn:X.
      + apply andb_prop in X. destruct X as [X Y]. destruct Mo as (M1 & _). rewrite (M1 X), Y. injection H as <-. apply good_ok; auto.
      + destruct (fl_skip_empty fl' && len_is_zero v); [apply good_ok; eapply pr_trans; eauto|].
        assert (K : mono (fun c => write n ev (wf_inner w) fl c v enc) (fun c => write n ev (wf_inner w) fl' c v enc) (wf_inner w)) by (apply IH; auto).
        exact (path_mono (wf_mode w) (en_backend ev) (wf_nsmap w) (wf_computed w) K (p :: wf_rest w) F P R H).
  Qed.
End Mono.
