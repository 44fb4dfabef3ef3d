(** PfMeans2.v -- every declaration that has a meaning is accepted. *)

From Verif Require Import Base Elem Native Errs Names Fields Ser SpecNames SpecRead Build SpecBuild SpecMeans PfNames PfBuild PfMeans.

(** with enough fuel, [f] always ends with [r] *)
Definition finally {A} (f : nat -> out A) (r : A) : Prop := exists N, forall n, N <= n -> f n = Ok r.

Lemma fin_ok : forall A (r : A), finally (fun _ => Ok r) r.
Proof. intros A r. exists 0. auto. Qed.

Lemma fin_bind : forall A B (f : nat -> out A) (g : nat -> A -> out B) a b,
  finally f a -> finally (fun n => g n a) b -> finally (fun n => obind (f n) (g n)) b.
Proof.
  intros A B f g a b [N HN] [M HM]. exists (max N M). intros n L. rewrite HN by lia. simpl. apply HM. lia.
Qed.

Lemma fin_omap : forall A B (f : nat -> A -> out B) l bs, Forall2 (fun a b => finally (fun n => f n a) b) l bs ->
  finally (fun n => omap (f n) l) bs.
Proof.
  intros A B f l bs H. induction H as [|a b l bs H1 H2 IH]; simpl; [apply fin_ok|].
  eapply fin_bind; [exact H1|]. eapply fin_bind; [exact IH|]. apply fin_ok.
Qed.

Lemma fin_ext : forall A (f g : nat -> out A) r, (forall n, f n = g n) -> finally g r -> finally f r.
Proof. intros A f g r E [N H]. exists N. intros n L. rewrite E. auto. Qed.

Lemma fin_S : forall A (f : nat -> out A) r, finally (fun n => f (S n)) r -> finally f r.
Proof. intros A f r [N H]. exists (S N). intros [|n] L; [lia|]. apply H. lia. Qed.

(** ---- names ---- *)

Lemma uri_of_total : forall t ns (m : nsmap) a maps u,
  (forall p, is_first (says p) maps (dget p m)) -> resolves_in maps a ns u -> exists name, uri_of t ns m a = Ok name.
Proof.
  intros t ns m a maps u Hm R. unfold uri_of, from_alias.
  assert (D : forall p v, first_of (says p) maps v -> dget p m = Some v).
  { intros p v F. specialize (Hm p). change (is_first (says p) maps (Some v)) in F.
    exact (is_first_unique Hm F). }
  inversion R as [a' al v F|a' al F|o F|]; subst.
  - apply D in F. rewrite orb_true_r. destruct m as [|e m]; [discriminate|]. simpl nsmap_truthy. cbv iota. unfold nsmap_get. simpl in *.
    rewrite F. simpl. eauto.
  - rewrite orb_true_r. assert (m = []) as ->; [|simpl; eauto].
    destruct m as [|[k v] m]; auto. exfalso. specialize (Hm k). simpl in Hm. rewrite String.eqb_refl in Hm. simpl in Hm.
    clear - F Hm. induction F as [|x l Fx F IH]; [inversion Hm|].
    inversion Hm; subst; [|auto]. destruct Fx as [->| ->]; discriminate.
  - simpl. eauto.
  - simpl. eauto.
Qed.

Lemma entity_name_total : forall c t, own_name (amb c) (cx_info c) t -> exists t', entity_name c = Some t'.
Proof.
  intros c t (pre & post & E & Nt & F). simpl in E. change (says_path (cx_info c)) with (cx_path c) in E. unfold entity_name, str_or.
  assert (I : In (Some t) [cx_path c; cx_alias c; cx_field c]) by (rewrite E; apply in_or_app; right; left; auto).
  assert (T : str_truthy (Some t) = true). { simpl. rewrite (proj2 (String.eqb_neq t "") Nt). reflexivity. }
  destruct I as [I|[I|[I|[]]]].
  - rewrite I, T, T. eauto.
  - rewrite I. destruct (str_truthy (cx_path c)) eqn:X.
    + rewrite X. destruct (cx_path c); [eauto|discriminate].
    + rewrite T. eauto.
  - rewrite I. destruct (str_truthy (if str_truthy (cx_path c) then cx_path c else cx_alias c)) eqn:X; [|eauto].
    destruct (if str_truthy (cx_path c) then cx_path c else cx_alias c); [eauto|discriminate].
Qed.

Lemma element_total : forall c t name x, ctx_ok c -> element_name (scopes c) (cx_info c) t name ->
  exists name', uri_of x (entity_ns c) (entity_nsmap c) false = Ok name'.
Proof.
  intros c t name x Hc (ns & u & F & R & _). rewrite (is_first_unique F (entity_ns_first c)) in R.
  eapply uri_of_total; [|exact R]. apply entity_nsmap_says; auto.
Qed.

Lemma prim_total : forall c s, ctx_ok c -> string_at (amb c) (scopes c) (cx_info c) s -> exists r, build_prim c = Ok r.
Proof.
  intros c s Hc H. unfold build_prim. change (cx_location c) with (says_loc (cx_info c)).
  inversion H as [encl i L E|encl i t name L O A E|encl i t name m L O A M E]; subst; rewrite L.
  - unfold build_text. eauto.
  - unfold build_attr. cbv zeta. destruct A as (ns & u & F & N & R & _).
    assert (Ens : select_ns [cx_ns c; if cx_ns_attrs c then parent_ns c else None] = ns).
    { change (says_ns (cx_info c)) with (cx_ns c) in F. simpl in F.
      pose proof (parent_ns_scopes c) as P. eapply is_first_unique; [|exact F].
      destruct (cx_ns_attrs c).
      - pose proof (is_first_cons (fun o => o) (cx_ns c) P) as H1. simpl in *. destruct (cx_ns c); auto. destruct (parent_ns c); auto.
      - simpl. destruct (cx_ns c); simpl; [constructor; auto | repeat constructor]. }
    rewrite Ens. replace (match ns with Some s => (s =? "")%string | None => false end) with false.
    2: { destruct ns as [x|]; auto. symmetry. apply String.eqb_neq. congruence. }
    destruct (@entity_name_total c _ O) as (t' & ->).
    destruct (@uri_of_total t' ns (entity_nsmap c) true _ u (entity_nsmap_says Hc) R) as (nm & ->). simpl. eauto.
  - unfold build_elem. destruct (@entity_name_total c _ O) as (t' & ->). destruct (element_total t' Hc A) as (nm & ->). simpl. eauto.
Qed.

Lemma mapping_total : forall c s, ctx_ok c -> mapping_at (amb c) (scopes c) (cx_info c) s -> exists r, build_mapping_at c = Ok r.
Proof.
  intros c s Hc H. unfold build_mapping_at. change (cx_location c) with (says_loc (cx_info c)).
  inversion H as [encl i a L E|encl i t name a L O A M E]; subst; rewrite L; [eauto|].
  unfold build_map_elem. destruct (@entity_name_total c _ O) as (t' & ->). destruct (element_total t' Hc A) as (nm & ->). simpl. eauto.
Qed.

Lemma raw_total : forall c t name, ctx_ok c -> at_element_or_bare (cx_info c) -> own_name (amb c) (cx_info c) t ->
  element_name (scopes c) (cx_info c) t name -> exists r, build_raw c = Ok r.
Proof.
  intros c t name Hc L O A. unfold build_raw, build_raw_elem. change (cx_location c) with (says_loc (cx_info c)).
  destruct (@entity_name_total c _ O) as (t' & ->). destruct (element_total t' Hc A) as (nm & ->).
  destruct L as [-> | ->]; simpl; eauto.
Qed.

Lemma submodel_total : forall cl cls c p, classes_ok cl -> ctx_ok c -> model_at cl (amb c) (scopes c) (cx_info c) cls p ->
  exists q, build_submodel cl cls c = Ok (SProxy q).
Proof.
  intros cl cls c p Hcl Hc (L & Ep & k & t & ns & u & K & _ & F & R & _). rewrite Ep in K.
  assert (X : exists q, build_proxy cl cls c = Ok (SProxy q)).
  { unfold build_proxy. rewrite K. cbv zeta.
    match goal with |- exists q, obind (uri_of ?T ?N ?M false) _ = _ => set (t' := T); set (ns' := N); set (m := M) end.
    assert (En : ns' = ns).
    { eapply is_first_unique; [|exact F]. unfold ns'. change (says_ns (cx_info c)) with (cx_ns c).
      pose proof (is_first_cons (fun o => o) (cx_ns c)
        (is_first_cons (fun o => o) (c_ns (ci_params k)) (parent_ns_scopes c))) as P.
      simpl in *. destruct (cx_ns c); auto. destruct (c_ns (ci_params k)); auto. destruct (parent_ns c); auto. }
    assert (M : forall p, is_first (says p)
        (maps_of [says_nsmap (cx_info c); c_nsmap (ci_params k)] (scopes c)) (dget p m)).
    { intros q. unfold m. destruct Hc as (_ & Hi & Hp). destruct (@Hcl _ _ K) as [Hn Hm].
      change [cx_nsmap c; c_nsmap (ci_params k); parent_nsmap c]
        with ([cx_nsmap c; c_nsmap (ci_params k)] ++ [parent_nsmap c]).
      change (says_nsmap (cx_info c)) with (cx_nsmap c).
      apply merged_says; auto. repeat constructor; auto. apply info_dict_ok; auto. }
    rewrite <- En in R. destruct (@uri_of_total t' ns' m false _ u M R) as (nm & ->). simpl. eauto. }
  unfold build_submodel. change (cx_location c) with (says_loc (cx_info c)). destruct L as [-> | ->]; exact X.
Qed.

(** ---- stripping ---- *)

Lemma prep_total : forall defs s t, stands_for defs s t -> flat s -> (forall r t, dget r defs = Some t -> flat t) ->
  forall c, cx_defs c = defs -> exists d, finally (fun n => preprocess n s c) (t, d).
Proof.
  intros defs s t H. induction H as [defs s f Ff N|defs k s t H IH|defs s t H IH|defs s t H IH|defs ds s t H IH|defs r s t D H IH];
    intros Fs HD c Hc.
  - exists c. apply fin_S. exists 0. intros n _. cbn [preprocess].
    destruct s; try (rewrite Ff; reflexivity); cbn [family_of] in Ff; try (injection Ff as <-; exfalso; apply N; simpl; tauto).
  - inversion Fs; subst. destruct (IH H1 HD (match k with MDefault => replace_default c | MNullable => replace_optional c | _ => c end)) as (d & E).
    { destruct k; auto. }
    exists d. apply fin_S. exact E.
  - inversion Fs; subst. destruct (IH (H1 _ eq_refl) HD c eq_refl) as (d & E). exists d. apply fin_S. exact E.
  - inversion Fs; subst. destruct (IH H1 HD c eq_refl) as (d & E). exists d. apply fin_S. exact E.
  - inversion Fs.
  - subst defs. destruct (IH (HD _ _ D) HD c eq_refl) as (d & E). exists d. apply fin_S. cbn [preprocess].
    eapply fin_ext; [|exact E]. intros n. cbv beta. rewrite D. reflexivity.
Qed.

Section Complete.
  Variable cl : classes.
  Variable ev : env.
  Hypothesis Hcl : classes_ok cl.
  Variable defs : dict cschema.
  Hypothesis HD : forall r t, dget r defs = Some t -> flat t.

  Definition accepts_at (c : ctx) (t : cschema) : Prop := exists r, finally (fun n => select cl ev (parse cl ev n) n t c) r.
  Definition parses (c : ctx) (s : cschema) : Prop := exists r, finally (fun n => parse cl ev n s c) r.

  Lemma strip : forall s t c, cok defs c -> stands_for defs s t -> flat s ->
    exists d, finally (fun n => preprocess n s c) (t, d) /\ alike c d /\ cok defs d /\ flat t.
  Proof.
    intros s t c Hc St Fs. destruct (@prep_total _ _ _ St Fs HD c) as (d & E); [apply Hc|]. exists d.
    split; auto. destruct E as [N E]. specialize (E N (le_n _)). apply (prep HD) in E; auto.
    destruct E as (A & _ & Ft). split; auto. split; auto. eapply alike_cok; eauto.
  Qed.

  Lemma parses_from : forall s t c, cok defs c -> stands_for defs s t -> flat s ->
    (forall d, alike c d -> cok defs d -> flat t -> accepts_at d t) -> parses c s.
  Proof.
    intros s t c Hc St Fs H. destruct (strip Hc St Fs) as (d & E & A & Hd & Ft).
    destruct (H d A Hd Ft) as (r & R). exists r. apply fin_S. cbn [parse].
    eapply fin_bind; [exact E|]. exact R.
  Qed.

  Lemma alike_loc : forall c d, alike c d -> cx_location d = cx_location c.
  Proof. intros c d [L _]. unfold cx_location. rewrite (like_info L). auto. Qed.

  Lemma parsed_shape : forall c s r, cok defs c -> flat s -> finally (fun n => parse cl ev n s c) r -> mns cl ev defs c s r.
  Proof. intros c s r Hc Fs [N H]. eapply (@parse_means cl ev Hcl defs HD N); eauto. Qed.

  Lemma Forall2_of : forall A B (P : A -> B -> Prop) l, Forall (fun a => exists b, P a b) l -> exists l', Forall2 P l l'.
  Proof. intros A B P l H. induction H as [|a l (b & H1) H2 (l' & IH)]; [exists []; auto|exists (b :: l'); auto]. Qed.

  Lemma items_parse : forall l c, Forall (parses c) l -> exists rs, Forall2 (fun s r => finally (fun n => parse cl ev n s c) r) l rs /\
    finally (fun n => omap (fun s => parse cl ev n s c) l) rs.
  Proof.
    intros l c H. destruct (Forall2_of _ H) as (rs & F). exists rs. split; auto.
    apply (fin_omap (fun n s => parse cl ev n s c)). exact F.
  Qed.

  Lemma check_items_total : forall l ts, Forall2 (stands_for defs) l ts -> forall c, cok defs c -> Forall flat l -> Forall tuple_item ts ->
    (cx_location c = None -> Forall bare_tuple_item ts) ->
    exists d, finally (fun n => check_items n l c) d /\ alike c d.
  Proof.
    intros l ts H. induction H as [|s t l ts St H IH]; intros c Hc Fl It Bt.
    - exists c. split; [apply fin_ok|apply alike_refl].
    - inversion Fl; inversion It; subst. destruct (strip Hc St) as (d & E & A & Hd & Ft); auto.
      destruct (IH d) as (e & E' & A'); auto.
      { rewrite (alike_loc A). intros N. specialize (Bt N). inversion Bt; auto. }
      exists e. split; [|eapply alike_trans; eauto]. cbn [check_items]. eapply fin_bind; [exact E|]. cbv beta iota.
      destruct (tuple_item_ok St) as [I1 I2].
      rewrite (proj2 I1) by auto. cbn [negb].
      replace (negb (in_families t [FModel; FUnion]) && match cx_location d with None => true | Some _ => false end) with false.
      { exact E'. }
      symmetry. destruct (cx_location d) eqn:L; [apply andb_false_r|]. rewrite (alike_loc A) in L. specialize (Bt L).
      inversion Bt; subst. rewrite (proj2 I2); auto.
  Qed.

  Lemma all_prim_total : forall l ts, Forall2 (stands_for defs) l ts -> Forall scalar ts -> forall c, cok defs c -> Forall flat l ->
    finally (fun n => all_prim n l c) tt.
  Proof.
    intros l ts H Hs c Hc Fl. induction H as [|s t l ts St H IH]; [apply fin_ok|].
    inversion Fl; inversion Hs; subst. destruct (strip Hc St) as (d & E & A & Hd & Ft); auto.
    cbn [all_prim]. eapply fin_bind; [exact E|]. cbv beta iota. rewrite (proj2 (family_scalar t)) by auto. cbn [negb]. auto.
  Qed.

  Lemma choices_total : forall l ts, Forall2 (stands_for defs) l ts -> forall c, cok defs c -> Forall flat l ->
    Forall (fun t => exists f, family_of t = Some f /\ In f [FPrim; FIsInstance; FModel]) ts ->
    exists fs d, finally (fun n => choice_families n l c) (fs, d) /\ alike c d /\ Forall2 (fun t f => family_of t = Some f) ts fs.
  Proof.
    intros l ts H. induction H as [|s t l ts St H IH]; intros c Hc Fl Hf.
    - exists [], c. split; [apply fin_ok|]. split; auto using alike_refl.
    - inversion Fl as [|? ? Fl1 Fl2]; inversion Hf as [|? ? (f & Ef & If) Hf']; subst. destruct (strip Hc St) as (d & E & A & Hd & Ft); auto.
      destruct (IH d) as (fs & e & E' & A' & F'); auto. exists (f :: fs), e. split; [|split; [eapply alike_trans; eauto|auto]].
      cbn [choice_families]. eapply fin_bind; [exact E|]. cbv beta iota. rewrite Ef.
      assert (G : finally (fun n => obind (choice_families n l d) (fun '(fs, c0) => Ok (default FMeta (Some f) :: fs, c0))) (f :: fs, e)).
      { eapply fin_bind; [exact E'|]. apply fin_ok. }
      destruct If as [<-|[<-|[<-|[]]]]; exact G.
  Qed.

  Lemma string_kinds : forall am encl i s s', string_at am encl i s -> string_at am encl i s' -> kind s = kind s'.
  Proof. intros am encl i s s' H H'. destruct H; inversion H'; subst; auto; congruence. Qed.

  Lemma string_select : forall c t s, cok defs c -> stringlike t -> string_at (amb c) (scopes c) (cx_info c) s -> accepts_at c t.
  Proof.
    intros c t s Hc Ht H. destruct (prim_total (proj1 Hc) H) as (r & R). exists r. exists 0. intros n _. unfold select.
    assert (NW : cx_location c <> Some LocWrapped).
    { change (says_loc (cx_info c) <> Some LocWrapped). inversion H; congruence. }
    destruct Ht as [(ty & -> & I)| ->].
    - assert (Fm : is_family FPrim (CType ty) = true) by (apply family_scalar; exists ty; auto).
      unfold is_family in Fm. destruct (family_of (CType ty)); [|discriminate].
      destruct (cx_location c) as [[| |]|]; try congruence; exact R.
    - cbn [family_of]. destruct (cx_location c) as [[| |]|]; try congruence; exact R.
  Qed.

  Lemma model_select : forall c cls root body p, cok defs c -> model_at cl (amb c) (scopes c) (cx_info c) cls p ->
    accepts_at c (CModel cls root body).
  Proof.
    intros c cls root body p Hc M. destruct (submodel_total Hcl (proj1 Hc) M) as (q & R). exists (SProxy q). exists 0. intros n _.
    unfold select. cbn [family_of]. destruct M as (L & _). unfold at_element_or_bare in L. change (says_loc (cx_info c)) with (cx_location c) in L.
    destruct L as [L|L]; rewrite L; exact R.
  Qed.

  (** a parsed model is a model *)
  Lemma model_parsed : forall c s cls root body r, cok defs c -> flat s -> stands_for defs s (CModel cls root body) ->
    at_element_or_bare (cx_info c) -> finally (fun n => parse cl ev n s c) r ->
    exists p, r = SProxy p /\ px_model p = cls.
  Proof.
    intros c s cls root body r Hc Fs St L H. apply parsed_shape in H; auto. destruct H as (t & St' & Sh).
    rewrite (stands_for_unique St' St) in Sh. inversion Sh; subst.
    - exfalso. destruct L; congruence.
    - match goal with Q : stringlike _ |- _ => destruct Q as [(ty & Q & _)|Q]; discriminate end.
    - match goal with M : model_at _ _ _ _ _ _ |- _ => destruct M as (_ & E & _); eauto end.
  Qed.

  Definition like_of (am : ambient) (encl : list scope) (i : option einfo) (c : ctx) : Prop :=
    cok defs c /\ amb c = am /\ scopes c = encl /\ cx_info c = i.

  Lemma like_of_alike : forall am encl i c d, like_of am encl i c -> alike c d -> like_of am encl i d.
  Proof.
    intros am encl i c d (Hc & Ha & Hs & Hi) A. pose proof (alike_cok A Hc). destruct A as [L _].
    rewrite (like_amb L) in Ha. rewrite (like_scopes L) in Hs. rewrite (like_info L) in Hi. repeat split; auto; apply H.
  Qed.

  Lemma homo_total : forall c item t, cok defs c -> flat item -> at_element_or_bare (cx_info c) -> stands_for defs item t ->
    list_item t -> (says_loc (cx_info c) = None -> bare_list_item t) ->
    (forall d, alike c d -> cok defs d -> flat t -> accepts_at d t) ->
    exists r, finally (fun n => build_homo (parse cl ev n) n item c) r.
  Proof.
    intros c item t Hc Fs L St It Bt H. destruct (strip Hc St Fs) as (d & E & A & Hd & Ft).
    assert (P : parses d item). { eapply parses_from; eauto. intros e A' He _. apply H; auto. eapply alike_trans; eauto. }
    destruct P as (inner & P). eexists. unfold build_homo. eapply fin_bind; [exact E|]. cbv beta iota.
    destruct (list_item_ok St) as [I1 I2]. rewrite (proj2 I1) by auto. cbn [negb].
    replace (negb (in_families t [FModel; FUnion; FTagged; FTuple; FCall]) && match cx_location d with None => true | Some _ => false end) with false.
    2: { symmetry. destruct (cx_location d) eqn:Ld; [apply andb_false_r|]. rewrite (alike_loc A) in Ld. rewrite (proj2 I2); auto. }
    rewrite (alike_loc A). unfold at_element_or_bare in L. change (says_loc (cx_info c)) with (cx_location c) in L.
    destruct L as [-> | ->]; (eapply fin_bind; [exact P|apply fin_ok]).
  Qed.

  Lemma hetero_total : forall c items ts, cok defs c -> Forall flat items -> at_element_or_bare (cx_info c) ->
    Forall2 (stands_for defs) items ts -> Forall tuple_item ts -> (says_loc (cx_info c) = None -> Forall bare_tuple_item ts) ->
    Forall (fun t => forall d, alike c d -> cok defs d -> flat t -> accepts_at d t) ts ->
    exists r, finally (fun n => build_hetero (parse cl ev n) n items c) r.
  Proof.
    intros c items ts Hc Fs L St It Bt H. destruct (check_items_total St Hc Fs It Bt) as (d & E & A).
    pose proof (alike_cok A Hc) as Hd.
    assert (P : Forall (parses d) items).
    { clear E It Bt. induction St as [|s t l ts St Sts IH]; constructor; inversion Fs; inversion H; subst; auto.
      eapply parses_from; eauto. intros e A' He Ft. match goal with Q : forall d, alike c d -> _ |- _ => apply Q; auto end. eapply alike_trans; eauto. }
    apply items_parse in P. destruct P as (rs & _ & P). eexists. unfold build_hetero. eapply fin_bind; [exact E|]. cbv beta.
    rewrite (alike_loc A). unfold at_element_or_bare in L. change (says_loc (cx_info c)) with (cx_location c) in L.
    destruct L as [-> | ->]; (eapply fin_bind; [exact P|apply fin_ok]).
  Qed.

  Lemma has_false : forall f fs, ~ In f fs -> existsb (family_eqb f) fs = false.
  Proof. intros f fs N. destruct (existsb (family_eqb f) fs) eqn:E; auto. apply has_exists in E. contradiction. Qed.

  Lemma union_total : forall c choices ts s, cok defs c -> Forall flat choices -> Forall2 (stands_for defs) choices ts ->
    Forall stringlike ts -> Exists scalar ts -> string_at (amb c) (scopes c) (cx_info c) s ->
    exists r, finally (fun n => build_union (parse cl ev n) n choices c) r.
  Proof.
    intros c choices ts s Hc Fc St Sl Ex Sa.
    destruct (choices_total St Hc Fc) as (fs & d & E & A & F).
    { eapply Forall_impl; [|exact Sl]. intros t [T| ->].
      - apply family_scalar in T. unfold is_family in T. destruct (family_of t) as [f|]; [|discriminate]. exists f. split; auto.
        destruct f; try discriminate. simpl; auto.
      - exists FIsInstance. simpl; auto. }
    pose proof (alike_cok A Hc) as Hd.
    assert (Sd : string_at (amb d) (scopes d) (cx_info d) s).
    { destruct A as [L _]. rewrite <- (like_amb L), <- (like_scopes L), <- (like_info L). exact Sa. }
    assert (HP : existsb (family_eqb FPrim) fs = true).
    { apply has_exists. clear - Ex F. revert fs F. induction Ex as [t ts T|t ts Ex IH]; intros fs F; inversion F; subst.
      - apply family_scalar in T. unfold is_family in T. match goal with Q : family_of t = Some _ |- _ => rewrite Q in T end.
        left. destruct y; try discriminate; auto.
      - right. auto. }
    assert (HM : existsb (family_eqb FModel) fs = false).
    { apply has_false. clear - Sl F. induction F as [|t f ts fs Ef F IH]; [intros []|]. inversion Sl as [|? ? T Sl']; subst. intros [->|I].
      - destruct T as [T| ->]; [|discriminate]. apply family_scalar in T. unfold is_family in T. rewrite Ef in T. discriminate.
      - apply IH; auto. }
    assert (P : Forall (parses d) choices).
    { clear E F Ex HP. induction St as [|x t l ts St Sts IH]; constructor; inversion Fc; inversion Sl; subst; auto.
      eapply parses_from; eauto. intros e A' He Ft. apply string_select with (s := s); auto.
      destruct A' as [L _]. rewrite <- (like_amb L), <- (like_scopes L), <- (like_info L). exact Sd. }
    apply items_parse in P. destruct P as (rs & Fr & P).
    assert (SR : Forall (fun r => string_at (amb d) (scopes d) (cx_info d) r) rs).
    { clear - Fr St Sl Fc Hd Hcl HD Sd. revert rs Fr. induction St as [|x t l ts St Sts IH]; intros rs Fr; inversion Fr; subst; constructor;
        inversion Fc; inversion Sl; subst; auto.
      match goal with R : finally _ y |- _ => apply parsed_shape in R; auto; destruct R as (t' & St' & Sh) end.
      rewrite (stands_for_unique St' St) in Sh.
      assert (NW : says_loc (cx_info d) <> Some LocWrapped) by (inversion Sd; congruence).
      match goal with T : stringlike t |- _ => destruct T as [(ty & -> & _)| ->] end; inversion Sh; subst; auto; congruence. }
    assert (Nf : fs <> []) by (intros ->; discriminate HP).
    destruct rs as [|r0 rs].
    { exfalso. inversion Fr; subst. inversion St; subst. inversion F; subst. auto. }
    exists (SUnionPrim (cx_computed d) r0). unfold build_union. eapply fin_bind; [exact E|]. cbv beta iota zeta.
    destruct fs as [|f fs]; [congruence|].
    rewrite HM, HP, andb_false_r. unfold build_union_prim. eapply fin_bind; [exact P|]. cbv beta iota.
    replace (forallb (fun s0 => Nat.eqb (kind s0) (kind r0)) rs) with true; [apply fin_ok|].
    symmetry. apply forallb_forall. intros x Hx. apply Nat.eqb_eq. inversion SR; subst.
    eapply string_kinds; [|eassumption]. rewrite Forall_forall in *. auto.
  Qed.

  Lemma models_total : forall c choices vs, cok defs c -> Forall flat choices -> choices <> [] ->
    Forall2 (fun s p => exists cls root body, stands_for defs s (CModel cls root body) /\
       model_at cl (amb c) (scopes c) (cx_info c) cls p) choices vs ->
    exists r, finally (fun n => build_union (parse cl ev n) n choices c) r.
  Proof.
    intros c choices vs Hc Fc Nc H.
    assert (L : at_element_or_bare (cx_info c)).
    { destruct H as [|s p l vs (cls & root & body & _ & M) _]; [congruence|]. apply M. }
    assert (X : exists ts, Forall2 (stands_for defs) choices ts /\ Forall (fun t => exists cls root body, t = CModel cls root body) ts).
    { clear Fc Nc. induction H as [|s p l vs (cls & root & body & St & M) H (ts & F1 & F2)]; [exists []; auto|].
      exists (CModel cls root body :: ts). split; constructor; eauto. }
    destruct X as (ts & St & Tm).
    destruct (choices_total St Hc Fc) as (fs & d & E & A & F).
    { eapply Forall_impl; [|exact Tm]. intros t (cls & root & body & ->). exists FModel. simpl; auto. }
    pose proof (alike_cok A Hc) as Hd.
    assert (Ff : Forall (eq FModel) fs).
    { clear - Tm F. induction F as [|t f ts fs Ef F IH]; constructor; inversion Tm as [|? ? (cls & root & body & ->) Tm']; subst; auto.
      cbn [family_of] in Ef. congruence. }
    assert (P : Forall (fun s => exists p, finally (fun n => obind (parse cl ev n s d) as_proxy) p) choices).
    { clear - H A Hd Fc L Hcl HD. induction H as [|s p l vs (cls & root & body & St & M) H IH]; constructor; inversion Fc; subst; auto.
      assert (Q : parses d s).
      { eapply parses_from; eauto. intros e A' He _. pose proof (alike_trans A A') as [L' _].
        apply model_select with (p := p); auto. rewrite <- (like_amb L'), <- (like_scopes L'), <- (like_info L'). exact M. }
      destruct Q as (r & R). destruct (@model_parsed d s cls _ body r Hd H2 St) as (q & -> & _); auto.
      { destruct A as [L' _]. rewrite <- (like_info L'). exact L. }
      exists q. eapply fin_bind; [exact R|]. apply fin_ok. }
    destruct (Forall2_of _ P) as (ps & Fp). apply (fin_omap (fun n s => obind (parse cl ev n s d) as_proxy)) in Fp as Fo.
    destruct fs as [|f fs]. { exfalso. inversion F; subst. inversion St; subst. congruence. }
    destruct ps as [|p ps]. { exfalso. inversion Fp; subst. congruence. }
    exists (SUnionModel (cx_model d) (cx_computed d) (p :: ps) (cx_hide d)). unfold build_union. eapply fin_bind; [exact E|]. cbv beta iota zeta.
    assert (In0 : In FModel (f :: fs)) by (inversion Ff; left; auto).
    rewrite (proj2 (has_exists _ _) In0).
    rewrite !has_false by (intros I; rewrite Forall_forall in Ff; apply Ff in I; discriminate).
    cbn [orb andb]. unfold build_union_model. eapply fin_bind; [exact Fo|]. apply fin_ok.
  Qed.

  Lemma tagged_total : forall c dsc a choices vs, cok defs c -> Forall (fun kv => flat (snd kv)) choices -> choices <> [] ->
    Forall2 (variant_at cl ev defs (amb c) (scopes c) (cx_info c) dsc a) choices vs ->
    exists r, finally (fun n => build_tagged ev (parse cl ev n) n (Some dsc) choices c) r.
  Proof.
    intros c dsc a choices vs Hc Fc Nc H.
    assert (L : at_element_or_bare (cx_info c)).
    { destruct H as [|s p l vs (_ & cls & body & m & k & _ & M & _) _]; [congruence|]. apply M. }
    assert (X : forall c, cok defs c -> exists d, finally (fun n => check_tagged n choices c) d /\ alike c d).
    { clear - H Fc HD. induction H as [|[t s] p l vs (_ & cls & body & m & k & St & _) H IH]; intros c' Hc'.
      - exists c'. split; [apply fin_ok|apply alike_refl].
      - inversion Fc; subst. simpl in *. destruct (strip Hc' St) as (d & E & A & Hd & Ft); auto.
        destruct (IH H3 d Hd) as (e & E' & A'). exists e. split; [|eapply alike_trans; eauto].
        eapply fin_bind; [exact E|]. exact E'. }
    destruct (X c Hc) as (d & E & A). pose proof (alike_cok A Hc) as Hd. clear X.
    assert (V : forall a0 acc, (a0 = None \/ a0 = Some a) -> exists acc' a1,
      finally (fun n => build_variants ev (parse cl ev n) dsc choices d a0 acc) (a1, acc') /\ (choices <> [] -> a1 = Some a)).
    { clear E Nc. induction H as [|[t s] [t' p] l vs (Et & cls & body & m & k & St & M & Em & Rm & Dm) H IH]; intros a0 acc Ha.
      - exists acc, a0. split; [apply fin_ok|congruence].
      - inversion Fc; subst. simpl in *. subst t.
        assert (Q : parses d s).
        { eapply parses_from; eauto. intros e A' He _. pose proof (alike_trans A A') as [L' _].
          apply model_select with (p := p); auto. rewrite <- (like_amb L'), <- (like_scopes L'), <- (like_info L'). exact M. }
        destruct Q as (r & R). destruct (@model_parsed d s cls _ body r Hd H2 St) as (q & -> & Eq); auto.
        { destruct A as [L' _]. rewrite <- (like_info L'). exact L. }
        destruct (IH H3 (Some a) (dset t' q acc)) as (acc' & a1 & E' & N1); auto. exists acc', (Some a). split; auto.
        eapply fin_bind; [exact R|]. cbn [as_proxy obind]. rewrite Eq, Em, Rm, Dm.
        assert (E1 : a1 = Some a).
        { destruct l; [|apply N1; congruence]. simpl in E'. destruct E' as [N E']. specialize (E' N (le_n _)). congruence. }
        subst a1. destruct Ha as [-> | ->]; [exact E'|]. rewrite String.eqb_refl. exact E'. }
    destruct (V None []) as (acc & a1 & E' & N1); auto. rewrite (N1 Nc) in E'.
    eexists. unfold build_tagged. eapply fin_bind; [exact E|]. cbv beta iota. eapply fin_bind; [exact E'|]. apply fin_ok.
  Qed.

  Lemma select_not_wrapped : forall t c f, family_of t = Some f -> cx_location c <> Some LocWrapped ->
    forall n, select cl ev (parse cl ev n) n t c =
      match t with
      | CType _ => build_prim c
      | CModel cls _ _ => build_submodel cl cls c
      | CList item => build_homo (parse cl ev n) n item c
      | CTuple variadic items => build_tuple (parse cl ev n) n variadic items c
      | CDict keys values => build_mapping n keys values c
      | CTypedDict values => build_typed_mapping n values c
      | CUnion choices => build_union (parse cl ev n) n choices c
      | CTagged disc choices => build_tagged ev (parse cl ev n) n disc choices c
      | CIsInstance raw => build_is_instance raw c
      | CCall tuple_class args => build_call (parse cl ev n) n tuple_class args c
      | _ => Raise XAssertion
      end.
  Proof.
    intros t c f Ff N n. unfold select. rewrite Ff. destruct (cx_location c) as [[| |]|]; congruence.
  Qed.

  Lemma accepts_ext : forall c t f (g : nat -> out ser), family_of t = Some f -> cx_location c <> Some LocWrapped ->
    (exists r, finally g r) -> (forall n, select cl ev (parse cl ev n) n t c = g n) -> accepts_at c t.
  Proof. intros c t f g _ _ (r & H) E. exists r. eapply fin_ext; eauto. Qed.

  Lemma accepts_list : forall c item, cx_location c <> Some LocWrapped -> accepts_at c (CList item) ->
    exists r, finally (fun n => build_homo (parse cl ev n) n item c) r.
  Proof.
    intros c item N (r & H). exists r. eapply fin_ext; [|exact H]. intros n. symmetry.
    apply (@select_not_wrapped (CList item) c FHomo); auto.
  Qed.

  Lemma accepts_tuple : forall c items, cx_location c <> Some LocWrapped -> accepts_at c (CTuple None items) ->
    exists r, finally (fun n => build_hetero (parse cl ev n) n items c) r.
  Proof.
    intros c items N (r & H). exists r. eapply fin_ext; [|exact H]. intros n. symmetry.
    apply (@select_not_wrapped (CTuple None items) c FTuple); auto.
  Qed.

  Lemma shape_accepted : forall am encl i t s, shape cl ev defs am encl i t s ->
    forall c, like_of am encl i c -> flat t -> stands_for defs t t -> accepts_at c t.
  Proof.
    intros am encl i t s H. induction H using shape_ind'; intros c Hc Ft Stt.
    - (* a wrapper *)
      destruct (stands_fam Stt) as (f & Ff & _).
      destruct Hc as (Hc & <- & <- & <-).
      assert (Hw : like_of (amb c) (scope_of (cx_info c) :: scopes c) (says_wrapped (cx_info c)) (child_wrapped c)).
      { destruct Hc as [(Hf & Hi & Hp) Hd]. split; [|split; [reflexivity|split; reflexivity]]. split; [|exact Hd]. repeat split; simpl; auto.
        unfold cx_wrapped, of_info. destruct (cx_info c) as [[lo pa nsx mm ni [w|]]|]; simpl in *; tauto. }
      assert (P : parses (child_wrapped c) t).
      { eapply parses_from; [apply Hw|exact Stt|exact Ft|]. intros d A Hd Ft'. apply IHshape; auto. eapply like_of_alike; eauto. }
      destruct P as (inner & P).
      assert (U : Forall (fun part => exists name, finally (fun _ : nat => uri_of part (entity_ns c) (entity_nsmap c) false) name) (py_split "/"%char path)).
      { match goal with Q : Forall2 (element_name _ _) _ _ |- _ => clear - Q Hc; induction Q as [|x nm l l' Q1 Q2 IH]; constructor; auto end.
        destruct (element_total x (proj1 Hc) Q1) as (nm' & E). exists nm'. exists 0. auto. }
      destruct (Forall2_of _ U) as (names' & Fn). apply (fin_omap (fun _ part => uri_of part (entity_ns c) (entity_nsmap c) false)) in Fn.
      eexists. unfold select. rewrite Ff. change (cx_location c) with (says_loc (cx_info c)). rewrite H. unfold build_wrap.
      change (cx_path c) with (says_path (cx_info c)). rewrite H0. eapply fin_bind; [exact P|]. eapply fin_bind; [exact Fn|]. apply fin_ok.
    - destruct Hc as (Hc & <- & <- & <-). eapply string_select; eauto.
    - destruct Hc as (Hc & <- & <- & <-). destruct (raw_total (proj1 Hc) H H0 H1) as (r & R). exists r. exists 0. intros n _.
      erewrite select_not_wrapped; [exact R|reflexivity|]. change (says_loc (cx_info c) <> Some LocWrapped). destruct H; congruence.
    - destruct Hc as (Hc & <- & <- & <-). eapply model_select; eauto.
    - inversion Ft; subst. assert (HA : forall d, alike c d -> cok defs d -> flat t -> accepts_at d t).
      { intros d A Hd Ft'. apply IHshape; auto; [eapply like_of_alike; eauto|eapply stands_self; eauto]. }
      destruct Hc as (Hc & <- & <- & <-).
      destruct (homo_total Hc H5 H H0 H1 H2 HA) as (r & R). exists r. eapply fin_ext; [|exact R]. intros n.
      rewrite (@select_not_wrapped (CList item) c FHomo); auto. change (says_loc (cx_info c) <> Some LocWrapped). destruct H; congruence.
    - (* a variadic tuple *)
      inversion Ft as [| | | | | | | | |v l Fl| | | | |]; subst. inversion Fl; subst.
      assert (NW : cx_location c <> Some LocWrapped) by (destruct Hc as (_ & _ & _ & <-); exact H).
      destruct (@accepts_list c item NW) as (r & R).
      { apply IHshape; auto; [constructor; auto|]. apply (@sf_here _ _ FHomo); [reflexivity|simpl; intuition discriminate]. }
      exists r. eapply fin_ext; [|exact R]. intros n. apply (@select_not_wrapped (CTuple (Some 0) [item]) c FTuple); auto.
    - (* a tuple *)
      inversion Ft as [| | | | | | | | |v l' Fl| | | | |]; subst.
      assert (HA : Forall (fun t => forall d, alike c d -> cok defs d -> flat t -> accepts_at d t) ts).
      { match goal with Q : Forall2 (fun t s => forall c, _) ts l |- _ => clear - Q Hc H0; rename Q into IHs end.
        assert (St : Forall (fun t => stands_for defs t t) ts).
        { clear - H0. induction H0; constructor; eauto using stands_self. }
        clear H0.
        induction IHs as [|t s ts l Q1 Q2 IH]; constructor; inversion St; subst; auto.
        intros d A Hd Ft'. apply Q1; auto. eapply like_of_alike; eauto. }
      assert (L : at_element_or_bare i) by assumption.
      destruct Hc as (Hc & <- & <- & <-).
      destruct (hetero_total Hc Fl L H0 H1 H2 HA) as (r & R). exists r. eapply fin_ext; [|exact R]. intros n.
      apply (@select_not_wrapped (CTuple None items) c FTuple); auto. change (says_loc (cx_info c) <> Some LocWrapped). destruct L; congruence.
    - (* a named tuple *)
      inversion Ft; subst.
      assert (NW : cx_location c <> Some LocWrapped) by (destruct Hc as (_ & _ & _ & <-); exact H).
      destruct (@accepts_tuple c items NW) as (r & R).
      { apply IHshape; auto; [constructor; auto|]. apply (@sf_here _ _ FTuple); [reflexivity|simpl; intuition discriminate]. }
      exists r. eapply fin_ext; [|exact R]. intros n. apply (@select_not_wrapped (CCall true items) c FCall); auto.
    - (* a dict *)
      destruct Hc as (Hc & <- & <- & <-). inversion Ft; subst.
      destruct (strip Hc H) as (d1 & E1 & _); auto. destruct (strip Hc H1) as (d2 & E2 & _); auto.
      destruct (mapping_total (proj1 Hc) H3) as (r & R). exists r.
      eapply fin_ext; [intros n; apply (@select_not_wrapped (CDict k v) c FMapping); auto|].
      { change (says_loc (cx_info c) <> Some LocWrapped). inversion H3; congruence. }
      unfold build_mapping. eapply fin_bind; [exact E1|]. cbv beta iota. eapply fin_bind; [exact E2|]. cbv beta iota.
      rewrite !(proj2 (family_scalar _)) by auto. cbn [negb]. exists 0. auto.
    - (* a typed dict *)
      destruct Hc as (Hc & <- & <- & <-). inversion Ft; subst.
      destruct (mapping_total (proj1 Hc) H1) as (r & R). exists r.
      eapply fin_ext; [intros n; apply (@select_not_wrapped (CTypedDict vs) c FTyped); auto|].
      { change (says_loc (cx_info c) <> Some LocWrapped). inversion H1; congruence. }
      unfold build_typed_mapping. eapply fin_bind; [eapply all_prim_total; eauto|]. exists 0. auto.
    - (* a union of scalars *)
      destruct Hc as (Hc & <- & <- & <-). inversion Ft; subst.
      destruct (@union_total c choices ts s) as (r & R); auto. exists r.
      eapply fin_ext; [intros n; apply (@select_not_wrapped (CUnion choices) c FUnion); auto|exact R].
      change (says_loc (cx_info c) <> Some LocWrapped). inversion H2; congruence.
    - (* a union of models *)
      destruct Hc as (Hc & <- & <- & <-). inversion Ft; subst.
      destruct (@models_total c choices vs) as (r & R); auto. exists r.
      eapply fin_ext; [intros n; apply (@select_not_wrapped (CUnion choices) c FUnion); auto|exact R].
      change (says_loc (cx_info c) <> Some LocWrapped).
      destruct H0 as [|s p l vs (cls & root & body & _ & (L & _)) _]; [congruence|]. destruct L; congruence.
    - (* a tagged union *)
      destruct Hc as (Hc & <- & <- & <-). inversion Ft; subst.
      destruct (@tagged_total c d a choices vs) as (r & R); auto. exists r.
      eapply fin_ext; [intros n; apply (@select_not_wrapped (CTagged (Some d) choices) c FTagged); auto|exact R].
      change (says_loc (cx_info c) <> Some LocWrapped).
      destruct H0 as [|s p l vs (_ & cls & body & m & k & _ & (L & _) & _) _]; [congruence|]. destruct L; congruence.
  Qed.

  Lemma parse_total : forall c s r, cok defs c -> flat s -> mns cl ev defs c s r -> parses c s.
  Proof.
    intros c s r Hc Fs (t & St & Sh). eapply parses_from; eauto. intros d A Hd Ft.
    eapply shape_accepted; [exact Sh| |exact Ft|eapply stands_self; eauto].
    eapply like_of_alike; eauto. repeat split; auto; apply Hc.
  Qed.
End Complete.
