(** PfStable.v -- a value that was read survives being written and read again. *)

From Verif Require Import Base Elem Native Errs Names Ser Write Read Api SpecElem SpecRead SpecNames SpecSim SpecSub SpecRound SpecStable.
From Verif Require Import PfNames PfTerm PfSub PfSub2 PfWSim PfHeap10 PfRound2.

Local Ltac inv H := inversion H; subst; clear H.

(** ---- the size of a document ---- *)

Fixpoint size (d : native) : nat :=
  match d with
  | NElem _ _ _ _ _ children _ => S (fold_right (fun c n => size c + n) 0 children)
  | _ => 1
  end.

Lemma below_size : forall d k, below d k -> size k < size d.
Proof.
  intros [tag ns text tail a cs line|text tail|text tail a line] k H; simpl in H; try contradiction. destruct H as [H _]. simpl.
  induction cs as [|c cs IH]; [contradiction|]. simpl. destruct H as [<-|H]; [lia|]. specialize (IH H). lia.
Qed.

Lemma without_nil_size : forall k, size (without_nil k) = size k.
Proof. intros [tag ns text tail a cs line|text tail|text tail a line]; reflexivity. Qed.

Lemma reached_size : forall path d k, reached path d k -> size k <= size d.
Proof.
  induction path as [|t path IH]; intros d k H; simpl in H; [subst; auto|]. destruct H as (c & B & _ & R).
  apply below_size in B. apply IH in R. lia.
Qed.

Definition clean (d : native) : Prop := attribute_names proper_name d /\ no_pi d.

Lemma below_clean : forall d k, below d k -> clean d -> clean k.
Proof.
  intros [tag ns text tail a cs line|text tail|text tail a line] k H [A N]; simpl in H; try contradiction. destruct H as [H C]. split.
  - simpl in A. destruct A as [_ A]. induction cs as [|c cs IH]; [contradiction|]. simpl in A. destruct H as [<-|H]; [tauto|]. apply IH; try tauto.
    inv N. constructor. match goal with F : Forall _ (_ :: _) |- _ => inv F; auto end.
  - inv N. match goal with F : Forall _ cs |- _ => rewrite Forall_forall in F; destruct (F k H) as [X|X]; [congruence|auto] end.
Qed.

Lemma ddel_incl : forall (d : dict string) k x, In x (map fst (ddel k d)) -> In x (map fst d).
Proof. intros d k x; induction d as [|[a c] d IH]; simpl; auto. destruct (String.eqb k a); simpl; auto. intros [H|H]; auto. Qed.

Lemma without_nil_clean : forall k, clean k -> clean (without_nil k).
Proof.
  intros [tag ns text tail a cs line|text tail|text tail a line] [A N]; inv N. split; [|constructor; auto]. simpl in *.
  destruct A as [A1 A2]. split; auto. rewrite Forall_forall in *. intros x I. apply A1. eapply ddel_incl; eauto.
Qed.

Lemma reached_clean : forall path d k, reached path d k -> clean d -> clean k.
Proof.
  induction path as [|t path IH]; intros d k H C; simpl in H; [subst; auto|]. destruct H as (c & B & _ & R).
  eapply IH; eauto. eapply below_clean; eauto.
Qed.

Lemma clean_attribute : forall d name t, clean d -> In (name, t) (own_attributes d) -> proper_name name.
Proof.
  intros [tag ns text tail a cs line|text tail|text tail a line] name t [A _] I; simpl in *; try contradiction.
  - destruct A as [A _]. rewrite Forall_forall in A. apply A. apply in_map_iff. exists (name, t); auto.
  - rewrite Forall_forall in A. apply A. apply in_map_iff. exists (name, t); auto.
Qed.

(** ---- the same classes under other element names ---- *)

Definition retagged (ev ev' : env) : Prop :=
  en_backend ev' = en_backend ev /\
  forall c, match en_model ev c, en_model ev' c with Some m, Some m' => renamed m m' | None, None => True | _, _ => False end.

Lemma retagged_refl : forall ev, retagged ev ev.
Proof.
  intros ev; split; auto. intros c. destruct (en_model ev c) as [m|]; auto. exists (md_elem_name m). destruct m; reflexivity.
Qed.

Lemma retagged_with : forall t cls ev ev', retagged ev ev' -> retagged ev (with_tag t cls ev').
Proof.
  intros t cls ev ev' [B R]. split; auto. intros c. specialize (R c). simpl. destruct (en_model ev c) as [m|], (en_model ev' c) as [m'|]; auto.
  destruct R as [u ->]. destruct (String.eqb c cls); [exists t|exists u]; reflexivity.
Qed.

Lemma bare_self : forall n n', bare_copy n n' -> bare_copy n' n'.
Proof.
  induction n as [tag ns text tail a cs line IH|text tail|text tail a line] using native_ind'; intros n' H; inv H.
  constructor. assert (E : no_comments cs' = cs').
  { clear IH. unfold no_comments in *. remember (filter (fun c => negb (is_xml_comment c)) cs) as l. clear Heql.
    match goal with F : Forall2 _ _ _ |- _ => induction F as [|x y l l' B F IHF]; auto end. simpl. inv B. simpl. f_equal. auto. }
  rewrite E. unfold no_comments in *.
  assert (IH' : Forall (fun c => forall n', bare_copy c n' -> bare_copy n' n') (filter (fun c => negb (is_xml_comment c)) cs)).
  { rewrite Forall_forall in *. intros c I. apply filter_In in I as [I _]. apply IH; auto. }
  clear E IH. match goal with F : Forall2 _ _ _ |- _ => induction F as [|x y l l' B F IHF]; constructor; inv IH'; auto end.
Qed.

Lemma bare_no_pi : forall n n', bare_copy n n' -> no_pi n'.
Proof.
  induction n as [tag ns text tail a cs line IH|text tail|text tail a line] using native_ind'; intros n' H; inv H.
  constructor. unfold no_comments in *.
  assert (IH' : Forall (fun c => forall n', bare_copy c n' -> no_pi n') (filter (fun c => negb (is_xml_comment c)) cs)).
  { rewrite Forall_forall in *. intros c I. apply filter_In in I as [I _]. apply IH; auto. }
  match goal with F : Forall2 _ _ _ |- _ => induction F as [|x y l l' B F IHF]; constructor; inv IH'; auto end.
Qed.

Lemma bare_tag : forall n n', bare_copy n n' -> native_tag n' = native_tag n.
Proof. intros n n' H; inv H; reflexivity. Qed.

(** ---- dicts of distinct keys ---- *)

Definition entries (m : mdef) (found : list (string * val)) : list (string * val) :=
  map (fun nv => (data_key m (fst nv), snd nv)) (filter (fun nv => negb (is_none (snd nv))) found).

Lemma entries_keys : forall m found x, In x (map fst (entries m found)) -> In x (map (fun nv => data_key m (fst nv)) found).
Proof.
  intros m found x H. unfold entries in H. rewrite map_map in H. simpl in H. apply in_map_iff in H as (nv & <- & I).
  apply filter_In in I as [I _]. apply in_map_iff; eauto.
Qed.

Lemma entries_nodup : forall m found, NoDup (map (fun nv => data_key m (fst nv)) found) -> NoDup (map fst (entries m found)).
Proof.
  intros m found; induction found as [|[n v] found IH]; intros N; [constructor|]. inv N. unfold entries in *. simpl. destruct (is_none v); simpl; auto.
  constructor; auto. intros I. apply (entries_keys m found) in I. auto.
Qed.

Lemma entries_get : forall m found name v, NoDup (map (fun nv => data_key m (fst nv)) found) -> In (name, v) found ->
  dget (data_key m name) (entries m found) = if is_none v then None else Some v.
Proof.
  intros m found; induction found as [|[a w] found IH]; intros name v N I; [contradiction|]. inv N. destruct I as [[= -> ->]|I].
  - unfold entries. simpl. destruct (is_none v) eqn:E; simpl.
    + destruct (dget _ _) eqn:D; auto. apply dget_in in D. exfalso. match goal with X : ~ In _ _ |- _ => apply X end.
      apply (entries_keys m found). apply in_map_iff. eexists; split; [|exact D]; reflexivity.
    + rewrite String.eqb_refl; auto.
  - rewrite <- (IH name v) by auto. unfold entries. simpl. destruct (is_none w); simpl; auto.
    destruct (String.eqb_spec (data_key m name) (data_key m a)) as [E|E]; auto. exfalso.
    match goal with X : ~ In _ _ |- _ => apply X end. rewrite <- E. apply in_map_iff. exists (name, v); auto.
Qed.

Lemma given_entries : forall m found, NoDup (map (fun nv => data_key m (fst nv)) found) -> given m found = entries m found.
Proof. intros m found N. unfold given. apply (@dict_of_nodup val). apply entries_nodup; auto. Qed.

Lemma read_data_entries : forall m found, NoDup (map (fun nv => data_key m (fst nv)) found) -> read_data m found = VDict (entries m found).
Proof. intros m found N. unfold read_data. f_equal. apply (@dict_of_nodup val). apply (entries_nodup m found); auto. Qed.

Local Ltac rename_all F := match type of F with retold_all _ ?a ?b ?c => let x := fresh "xs" in let y := fresh "ys" in let z := fresh "zs" in rename a into x; rename b into y; rename c into z end.

Section Stable.
  Variables (ev : env) (eas : bool) (encode : val -> val) (fl : flags).
  Hypothesis SE : steady encode eas ev.
  Hypothesis LO : leaves_out_missing ev fl.

  Lemma same_flags : forall cls m, en_model ev cls = Some m -> with_skip_empty m fl = fl.
  Proof.
    intros cls m Em. destruct SE as (_ & _ & S3). destruct (S3 _ _ Em) as [_ _ _ _ _ _ N _ _ _]. destruct LO as [L _].
    unfold with_skip_empty. destruct (md_skip_empty m) as [[|]|]; try congruence. destruct fl; simpl in *; congruence.
  Qed.

  Lemma no_drop : forall y, is_none y = false -> drops fl y = false.
  Proof. intros y E. unfold drops. rewrite E; auto. Qed.

  Lemma reads_only : forall ev', retagged ev ev' -> validators_read ev'.
  Proof.
    intros ev' [_ R] cls m name f Em Ec. specialize (R cls). rewrite Em in R. destruct (en_model ev cls) as [m0|] eqn:E0; [|contradiction].
    destruct R as [u ->]. simpl in Ec. destruct SE as (_ & _ & S3). destruct (S3 _ _ E0) as [_ _ _ _ O _ _ _ _ _]. rewrite O in Ec; discriminate.
  Qed.

  (** the two ways an instance comes about *)
  Lemma comes_from : forall n ev' cls d v, retagged ev ev' -> from_xml_tree n ev' cls d eas = Ok v ->
    exists m, en_model ev cls = Some m /\
      ((md_root m = false /\ exists found, Forall2 (fun nf nv => fst nf = fst nv /\ part ev' eas d (snd nf) (snd nv)) (md_fields m) found /\
          md_validate m (Some (VDict (given m found))) = Valid v) \/
       (md_root m = true /\ exists s x, md_fields m = [("root", s)] /\ x <> VNone /\ part ev' eas d s x /\ md_validate m (Some x) = Valid v)).
  Proof.
    intros n ev' cls d v R E. destruct (en_model ev' cls) as [m'|] eqn:Em'; [|unfold from_xml_tree in E; rewrite Em' in E; discriminate].
    destruct (@from_xml_fine ev' (reads_only R) n cls m' d eas v Em' E) as (input & I & V).
    destruct R as [B R]. specialize (R cls). rewrite Em' in R. destruct (en_model ev cls) as [m|] eqn:Em; [|contradiction]. destruct R as [u ->].
    exists m; split; auto. destruct SE as (_ & _ & S3). destruct (S3 _ _ Em) as [_ _ _ _ O _ _ _ _ Rt]. unfold input_from in I. simpl in I, V.
    destruct (md_root m) eqn:Rm.
    - right. split; auto. destruct (Rt eq_refl) as ((Rn & _) & s & Fs). destruct I as [->|(name & s' & rest & x & Ef & -> & Nx & P)]; [destruct (Rn _ V)|].
      rewrite Fs in Ef. injection Ef as <- <- <-. eauto 8.
    - left. split; auto. destruct I as (found & F & ->). exists found. split; auto.
      clear - F O. induction F as [|nf nv l l' [H1 H2] F IH]; constructor; auto. split; auto. apply H2. apply O.
  Qed.

  Lemma is_instance : forall n ev' cls d v, retagged ev ev' -> from_xml_tree n ev' cls d eas = Ok v -> exists attrs set, v = VModel cls attrs set.
  Proof.
    intros n ev' cls d v R E. destruct (@comes_from n ev' cls d v R E) as (m & Em & C). destruct SE as (_ & _ & S3). destruct (S3 _ _ Em) as [_ _ _ _ _ _ _ In _ _].
    destruct C as [(Rm & found & _ & V)|(Rm & s & x & _ & _ & _ & V)]; eauto.
  Qed.

  (** all that is read can be read *)
  Lemma attributes_data : forall ns d x, attributes_of ns d x -> document_data x.
  Proof.
    intros ns d x (en & -> & _ & T). constructor. apply Forall_forall. intros [k w] I. destruct (T k w I) as (? & t & _ & E & _). simpl. eauto.
  Qed.

  Lemma proxy_data : forall ev' p d x, retagged ev ev' -> part ev' eas d (SProxy p) x -> x = VNone \/ document_data x.
  Proof.
    intros ev' p d x R P. inv P; auto. right.
    match goal with E : from_xml_tree _ _ _ _ _ = Ok _ |- _ => destruct (@is_instance _ _ _ _ _ (retagged_with (px_name p) (px_model p) R) E) as (attrs & set & ->) end. constructor.
  Qed.

  Lemma part_data : forall ev' s d x, retagged ev ev' -> part ev' eas d s x -> x = VNone \/ document_data x.
  Proof.
    intros ev' s; induction s using ser_ind'; intros d0 x R P; try (eapply proxy_data; eauto; fail); inv P; auto;
      try (match goal with T : text_of _ _ _ |- _ => destruct T as (? & -> & _); right; constructor end; fail);
      try (right; constructor; fail); try (right; eapply attributes_data; eauto; fail); try (eapply proxy_data; eauto; fail); eauto.
    - right. constructor. match goal with F : Forall (part _ _ _ _) _ |- _ => revert F; apply Forall_impl end. eauto.
    - right. constructor. match goal with X : Exists _ _ |- _ => clear X end. match goal with F : Forall2 (part _ _ _) _ _ |- _ => induction F as [|s x l l' P F IH] end; constructor; match goal with H : Forall _ (_ :: _) |- _ => inv H end; eauto.
  Qed.

  Lemma entries_data : forall ev' d m fs found, retagged ev ev' -> Forall2 (fun nf nv => fst nf = fst nv /\ part ev' eas d (snd nf) (snd nv)) fs found ->
    Forall (fun kx => document_data (snd kx)) (entries m found).
  Proof.
    intros ev' d m fs found R F; induction F as [|[a s] [a' x] l l' [_ P] F IH]; [constructor|]. simpl in P. unfold entries in *. simpl.
    destruct (part_data R P) as [->|D]; auto. destruct x; simpl; auto. 
  Qed.

  (** what is known of a value that was read from [d] *)
  Definition good (d : native) : Prop :=
    forall n ev' cls v, retagged ev ev' -> from_xml_tree n ev' cls d eas = Ok v -> no_nil_entry v -> clean d ->
    exists m attrs set rs, en_model ev cls = Some m /\ v = VModel cls attrs set /\
      kept_model ev eas fl m v (encode v) rs v /\ (md_root m = false -> exists i, Forall (fun kx => document_data (snd kx)) i /\ md_validate m (Some (VDict i)) = Valid v).

  Definition fine_value (s : ser) (y x' : val) : Prop :=
    kept ev eas fl s y (encode y) x' /\ is_none y = false /\ x' <> VNone.

  Lemma text_kept : forall d x y x', text_of eas d x -> retold encode x y x' ->
    exists t, encode_primitive (encode y) = Ok t /\ x' = VStr t /\ text_back eas t = VStr t /\ is_none y = false.
  Proof.
    intros d x y x' (t & -> & T) R. inv R. eexists; split; [eassumption|]. split; auto. split; auto.
    unfold text_back. destruct (String.eqb_spec t' ""); auto. subst. destruct T as [[_ T]|[-> _]]; auto. exfalso; auto.
  Qed.

  Lemma mapping_kept : forall a k x y x', own_namespace a -> clean k -> SpecSub.attributes_of (as_namespaced a) k x -> retold encode x y x' ->
    no_nil_entry y -> exists d ts, encode y = VDict d /\ mapping_ok a d ts /\ x' = strings d ts /\ is_none y = false.
  Proof.
    intros a k x y x' ON C (es & -> & ND & At) R NN. destruct SE as (_ & (_ & _ & Ed) & _).
    inversion R as [| | dx dy ts K P| |]; subst. rewrite Ed.
    set (de := map (fun ky => (fst ky, encode (snd ky))) dy).
    assert (Kd : dkeys de = map fst dy) by (unfold dkeys, de; rewrite map_map; reflexivity).
    assert (Pl : as_namespaced a = true -> Forall plain_tag (map fst dy)).
    { intros An. rewrite <- K. rewrite Forall_forall. intros key I. apply in_map_iff in I as ([k' v] & <- & I).
      destruct (At _ _ I) as (name & t & It & _ & ->). rewrite An. eapply clean_attribute; eauto. }
    exists de, ts. split; auto. split; [|split; auto; unfold strings; rewrite Kd; auto].
    split; [rewrite Kd, <- K; auto|]. split.
    { unfold de. clear - P. induction P as [|[kk y] t dy ts H P IH]; constructor; auto. }
    rewrite Kd. split.
    - intros I. apply in_map_iff in I as (key & E & I). unfold own_namespace in ON. destruct (as_namespaced a) eqn:An.
      + specialize (Pl eq_refl). rewrite Forall_forall in Pl. specialize (Pl _ I). specialize (ON eq_refl).
        assert (X : from_uri xsi_nil = QName "nil" (Some xsi_namespace)) by reflexivity. rewrite <- E in X.
        destruct (attrs_uri a) as [u|]; [destruct (ON u eq_refl) as [->|[Pu Nu]]|].
        * change (uri (QName key (Some ""))) with (uri (QName key None)) in X. rewrite (uri_from_uri_plain Pl) in X. discriminate.
        * rewrite (uri_from_uri Pu Pl) in X. congruence.
        * rewrite (uri_from_uri_plain Pl) in X. discriminate.
      + assert (U : attrs_uri a = None) by (unfold attrs_uri; rewrite An; auto). rewrite U in E. simpl in NN. apply NN. change (uri (QName key None)) with key in E. congruence.
    - intros An. split; auto. intros u Eu. destruct (ON An u Eu) as [|[]]; auto.
  Qed.

  Lemma split_variant : forall vs p, NoDup (map px_model vs) -> In p vs ->
    exists before after, vs = before ++ p :: after /\ Forall (fun q => px_model q <> px_model p) before.
  Proof.
    induction vs as [|q vs IH]; intros p N I; [contradiction|]. inv N. destruct I as [->|I]; [exists [], vs; auto|].
    destruct (IH p) as (b & a & -> & F); auto. exists (q :: b), a. split; auto. constructor; auto. intros E. match goal with X : ~ In _ _ |- _ => apply X end.
    rewrite E. rewrite map_app. apply in_or_app. right; left; auto.
  Qed.

  Lemma model_kept : forall ev' d p x y x', retagged ev ev' -> (forall k, size k < size d -> good k) -> clean d ->
    part ev' eas d (SProxy p) x -> retold encode x y x' -> no_nil_entry y ->
    fine_value (SProxy p) y x' /\ exists m attrs set, en_model ev (px_model p) = Some m /\ y = VModel (px_model p) attrs set /\
      (md_root m = false -> exists i, Forall (fun kx => document_data (snd kx)) i /\ md_validate m (Some (VDict i)) = Valid y).
  Proof.
    intros ev' d p x y x' R G C P T NN. inv P; [inv T|].
    match goal with B : below d ?k, F : from_xml_tree _ _ _ _ _ = Ok x |- _ =>
      assert (X : size (without_nil k) < size d) by (rewrite without_nil_size; apply below_size; auto);
      assert (Ck : clean (without_nil k)) by (apply without_nil_clean; eapply below_clean; eauto);
      assert (Gk := G _ X _ _ _ _ (retagged_with (px_name p) (px_model p) R) F) end.
    match goal with F : from_xml_tree _ _ _ _ _ = Ok x |- _ => destruct (is_instance _ _ _ (retagged_with (px_name p) (px_model p) R) F) as (attrs & set & ->) end. inv T.
    destruct (Gk NN Ck) as (m & attrs' & set' & rs & Em & Ev & K & V). split.
    - split; [|split; [auto|discriminate]]. eapply kept_submodel; eauto.
      intros E. destruct LO as [L _]. rewrite L in E; discriminate.
    - exists m, attrs, set. auto.
  Qed.

  Lemma tagged_kept : forall ev' d c disc aname vs mode x y x', retagged ev ev' -> (forall k, size k < size d -> good k) -> clean d ->
    Forall (fun kv => has_tag encode ev disc aname vs (snd kv)) vs ->
    part ev' eas d (STagged c disc aname vs mode) x -> retold encode x y x' -> no_nil_entry y -> fine_value (STagged c disc aname vs mode) y x'.
  Proof.
    intros ev' d c disc aname vs mode x y x' R G C Ht P T NN. inv P; [inv T|].
    match goal with P : part _ _ _ (SProxy ?q) _ |- _ => rename q into p; destruct (model_kept R G C P T NN) as ((K & Ny & Nx) & m & attrs & set & Em & Ey & V) end.
    rewrite Forall_forall in Ht. match goal with I : In (_, p) vs |- _ => destruct (Ht _ I) as (m' & c' & Em' & Rm & If & Hv) end. simpl in *.
    assert (m' = m) by congruence. subst m'. destruct (V Rm) as (i & Di & Vi). rewrite Ey in Vi. destruct (Hv _ _ _ Di Vi) as (Is & y0 & t & p' & D & Ny0 & Et & Nt & Dt & Pm).
    destruct SE as (_ & (Em1 & _) & S3). specialize (Em1 _ _ attrs set Em). rewrite Rm in Em1. destruct Em1 as (de & Ede & Hde).
    destruct (S3 _ _ Em) as [_ _ Nn _ _ Ex _ _ _ _].
    split; [|split; auto]. subst y. rewrite Ede in *. eapply kept_tagged with (m := m) (p := p') (x := y0) (t := t); eauto.
    - rewrite (Hde _ _ D), Et; auto.
    - rewrite Pm; auto.
    - split; [rewrite Ex; auto|]. intros _. simpl. f_equal. apply negb_false_iff. apply str_in_In; auto.
    - simpl. rewrite D; auto.
    - inv K; [contradiction|discriminate|]. eapply kept_submodel; eauto. rewrite Pm; auto.
  Qed.

  Lemma part_kept : forall s ev' d x y x', retagged ev ev' -> (forall k, size k < size d -> good k) -> clean d -> tells_apart encode ev s ->
    part ev' eas d s x -> retold encode x y x' -> no_nil_entry y -> fine_value s y x'.
  Proof.
    assert (SK : fl_skip_empty fl = false) by (destruct LO; auto).
    intros s; induction s using ser_ind'; intros ev' d0 x y x' R G C TA P T NN.
    - inv P; [inv T|]. destruct (@text_kept d0 x y x') as (t & E & -> & B & N); auto. split; [|split; [auto|discriminate]].
      rewrite <- B. apply kept_text; auto. apply no_drop; auto.
    - inv P; [inv T|]. inv T. split; [|split; [auto|discriminate]]. apply kept_attr; auto. apply no_drop; auto.
    - inv P; [inv T|]. match goal with X : text_of _ ?k _ |- _ => destruct (@text_kept k x y x') as (t & E & -> & B & N); auto end. split; [|split; [auto|discriminate]].
      replace (VStr t) with (if ni && is_none y || fl_skip_empty fl && String.eqb t "" then VNone else text_back eas t)
        by (rewrite N, SK, andb_false_r; simpl; auto).
      apply kept_elem; auto; [apply no_drop; auto|congruence].
    - inv P; [inv T|]. inv TA. match goal with X : SpecSub.attributes_of _ _ _, O : own_namespace a |- _ => destruct (@mapping_kept a d0 x y x' O C X T NN) as (de & ts & E & M & -> & N) end.
      split; [|split; [auto|discriminate]]. rewrite E. apply kept_attrs; auto.
    - inv P; [inv T|]. inv TA.
match goal with B : below d0 ?k, X : SpecSub.attributes_of _ _ _, O : own_namespace a |- _ => assert (Ck := @below_clean _ _ B C);
        destruct (@mapping_kept a k x y x' O Ck X T NN) as (de & ts & E & M & -> & N) end.
      split; [|split; [auto|discriminate]]. rewrite E. apply kept_map; auto. congruence.
    - inv P; [inv T|]. inv TA. inversion T as [|u0 u1 u2 F| | |]; subst. rename_all F. destruct SE as (_ & (_ & El & _) & _). split; [|split; [auto|discriminate]].
      rewrite El.
      assert (K : kept_items ev eas fl s ys (map encode ys) zs).
      { match goal with X : Forall (part _ _ _ _) xs, Y : tells_apart _ _ s |- _ => revert X; rename Y into TA end. clear - IHs R G C F NN TA. revert NN.
        induction F as [|x xs y ys x' xs' Hx F IHF]; intros NN P; [constructor|]. simpl in NN. inv P.
        match goal with Q : part _ _ _ s x |- _ => destruct (IHs _ _ _ _ _ R G C TA Q Hx (proj1 NN)) as (K & N & Nx) end. simpl. constructor; auto. apply IHF; tauto. }
      assert (L : list_back zs = VList zs) by (inv F; [congruence|reflexivity]). rewrite <- L. constructor; auto.
    - inv P; [inv T|]. inv TA. inversion T as [|u0 u1 u2 F| | |]; subst. rename_all F. destruct SE as (_ & (_ & El & _) & _). split; [|split; [auto|discriminate]].
      rewrite El.
      assert (K : kept_members ev eas fl l ys (map encode ys) zs).
      { match goal with X : Forall2 (part _ _ _) l xs, Y : Forall (tells_apart _ _) l |- _ => revert X Y; clear X Y end. clear - H R G C F NN. revert l H NN.
        induction F as [|x xs y ys x' xs' Hx F IHF]; intros l H NN P TA; inv P; [constructor|]. simpl in NN. inv H. inv TA.
        match goal with X : forall ev' d x y x', _ |- _ => destruct (X _ _ _ _ _ R G C ltac:(eassumption) ltac:(eassumption) Hx (proj1 NN)) as (K & N & Nx) end. simpl. constructor; auto. apply IHF; tauto. }
      assert (L : list_back zs = VList zs) by (inv F; [match goal with X : Exists _ [] |- _ => inv X end|reflexivity]). rewrite <- L. constructor; auto.
    - inv P; [inv T|]. inv TA. assert (TA' : tells_apart encode ev s) by (destruct s; try contradiction; constructor).
      destruct (IHs _ _ _ _ _ R G C TA' ltac:(eassumption) T NN) as (K & N & Nx). split; auto. apply kept_prim; auto.
    - inv P; [inv T|]. inv TA. match goal with P : part _ _ _ (SProxy ?q) _ |- _ => rename q into p; destruct (model_kept R G C P T NN) as ((K & Ny & Nx) & m & attrs & set & Em & Ey & V) end.
      match goal with N : NoDup _, I : In p vs |- _ => destruct (@split_variant vs p N I) as (b & a & -> & F) end.
      split; auto. eapply kept_union with (cls := px_model p); eauto. rewrite Ey; auto.
    - inv TA. eapply tagged_kept; eauto.
    - inv P; [inv T|]. inv TA. match goal with X : reached _ d0 ?k, Q : part _ _ ?k _ _ |- _ => assert (Ck := @reached_clean _ _ _ X C); assert (Gk : forall k', size k' < size k -> good k')
        by (intros k' L; apply G; apply reached_size in X; lia); destruct (IHs _ _ _ _ _ R Gk Ck ltac:(eassumption) Q T NN) as (K & N & Nx) end.
      split; auto. apply kept_wrap; auto. rewrite SK; auto.
    - inv P; [inv T|]. inv T. split; [|split; [auto|discriminate]].
      match goal with B : below d0 ?k, E : to_native _ _ = Some _ |- _ => destruct (@below_clean _ _ B C) as [_ Np];
        destruct (@convert_back (en_backend ev') _ Np) as (n' & E' & Bc); assert (EE : Some n' = Some _) by (rewrite <- E', <- E; reflexivity); injection EE as -> end. apply kept_raw.
      + rewrite (bare_tag Bc); auto.
      + eapply bare_no_pi; eauto.
      + eapply bare_self; eauto.
      + congruence.
    - eapply model_kept; eauto.
  Qed.

  Lemma entry_of : forall cls attrs set name y, no_nil_entry (VModel cls attrs set) -> dget name attrs = Some y -> no_nil_entry y.
  Proof.
    intros cls attrs set name y N D. simpl in N. induction attrs as [|[a w] attrs IH]; [discriminate|]. simpl in *.
    destruct (String.eqb name a); [injection D as <-; tauto|]. apply IH; tauto.
  Qed.

  Lemma apart_known : forall ss p, apart ev eas ss -> In (SProxy p) ss -> known ev p.
  Proof.
    intros ss p A; induction A as [|s ss D A IH|q ws ss Ai IHi A IH]; intros I; [contradiction| |].
    - destruct I as [->|I]; auto. inv D. match goal with X : repeatable _ _ |- _ => inv X; auto end.
    - apply in_app_or in I as [I|I]; auto. apply in_map_iff in I as (w & E & _). discriminate.
  Qed.

  Lemma not_always : forall s, ~ always_read eas s -> unwritten eas s = VNone.
  Proof.
    intros s N. unfold always_read in N. destruct (unwritten eas s); auto; exfalso; apply N; discriminate.
  Qed.

  (** a field that had nothing to read *)
  Lemma none_kept : forall m name s, keeps_apart ev eas -> (exists cls, en_model ev cls = Some m) -> In (name, s) (md_fields m) -> tells_apart encode ev s ->
    match s with SMapElem _ _ _ | STagged _ _ _ _ _ => False | _ => True end -> fl_exclude_none fl = true -> ~ always_read eas s ->
    kept ev eas fl s VNone (encode VNone) VNone.
  Proof.
    intros m name s KA (cls & Em) I TA Nm En Na. assert (U := not_always Na).
    assert (D : drops fl VNone = true) by (unfold drops; simpl; rewrite En; apply orb_true_r).
    assert (Pr : forall s', primitive s' -> unwritten eas s' = VNone -> kept ev eas fl s' VNone (encode VNone) VNone).
    { intros s' P U'. assert (K := @kept_dropped ev eas fl s' VNone (encode VNone) P D). rewrite U' in K. exact K. }
    destruct s; try contradiction; try (apply Pr; simpl; auto; fail).
    - discriminate.
    - apply kept_list_none; auto.
    - apply kept_tuple_none; auto.
    - inv TA. apply kept_prim; auto. apply Pr; auto. destruct s; try contradiction; exact U.
    - apply kept_union_none. discriminate.
    - apply kept_wrap_none; auto.
    - apply kept_raw_none.
    - apply kept_model_none; auto. destruct (KA _ _ Em) as [A _]. eapply apart_known; eauto. apply in_map_iff. exists (name, SProxy p); auto.
  Qed.

  Definition same_found (attrs : list (string * val)) (nv nr : string * val) : Prop :=
    fst nv = fst nr /\ is_none (snd nv) = is_none (snd nr) /\
    forall y, is_none (snd nv) = false -> dget (fst nv) attrs = Some y -> retold encode (snd nv) y (snd nr).

  Lemma fields_kept : forall ev' d cls m attrs set found, retagged ev ev' -> (forall k, size k < size d -> good k) -> clean d ->
    en_model ev cls = Some m -> md_root m = false -> no_nil_entry (VModel cls attrs set) ->
    Forall (fun kx => document_data (snd kx)) (entries m found) -> md_validate m (Some (VDict (entries m found))) = Valid (VModel cls attrs set) ->
    NoDup (map (fun nv => data_key m (fst nv)) found) ->
    (forall name s, In (name, s) (md_fields m) ->
       match dget (data_key m name) (entries m found) with
       | Some x => In name set /\ exists y x', dget name attrs = Some y /\ retold encode x y x'
       | None => ~ In name set /\ ~ always_read eas s
       end) ->
    forall fs fnd, Forall2 (fun nf nv => fst nf = fst nv /\ part ev' eas d (snd nf) (snd nv)) fs fnd -> incl fs (md_fields m) -> incl fnd found ->
    exists rs, kept_fields ev eas fl m fs (VModel cls attrs set) (encode (VModel cls attrs set)) rs /\ Forall2 (same_found attrs) fnd rs.
  Proof.
    intros ev' d cls m attrs set found R G C Em Rm NN DD V ND A fs fnd F. pose proof SE as (KA & (Ee & _) & S3). destruct (S3 _ _ Em) as [Lv Ta Nn Nk O Ex _ _ _ _].
    specialize (Ee _ _ attrs set Em). rewrite Rm in Ee. destruct Ee as (de & Ede & Hde). rewrite Ede.
    induction F as [|[name s] [name' x] fs fnd [En P] F IH]; intros I1 I2; [exists []; split; constructor|]. simpl in En, P. subst name'.
    destruct IH as (rs & K & S'); [intros z Z; apply I1; right; auto|intros z Z; apply I2; right; auto|].
    assert (If : In (name, s) (md_fields m)) by (apply I1; left; auto).
    assert (Ix : In (name, x) found) by (apply I2; left; auto).
    assert (Ls : live s = true) by (rewrite Forall_forall in Lv; apply (Lv _ If)).
    assert (Ts : tells_apart encode ev s) by (rewrite Forall_forall in Ta; apply (Ta _ If)).
    specialize (A _ _ If). rewrite (@entries_get m found _ _ ND Ix) in A. destruct (is_none x) eqn:Nx.
    - destruct A as [Ns Na]. assert (x = VNone) by (destruct x; auto; discriminate). subst x.
      exists ((name, VNone) :: rs). split; [|constructor; auto; split; [auto|split; [auto|discriminate]]].
      destruct LO as [_ [L|(L & Le & NM)]].
      + eapply kept_left_out; eauto.
        * right. split; auto. simpl. f_equal. apply negb_true_iff. destruct (str_in name set) eqn:E; auto. apply str_in_In in E. contradiction.
        * right. split; auto. symmetry. apply not_always; auto.
      + destruct (NM _ _ Em Rm) as [NMf NMv]. assert (Da : dget name attrs = Some VNone).
        { apply (NMv _ _ _ DD V _ _ If). rewrite (@entries_get m found _ _ ND Ix). reflexivity. }
        rewrite Forall_forall in NMf. specialize (NMf _ If). simpl in NMf.
        eapply kept_field with (x := VNone) (xe := encode VNone); eauto.
        * split; [rewrite Ex; auto|congruence].
        * simpl. rewrite Da; auto.
        * simpl. rewrite (Hde _ _ Da); auto.
        * eapply none_kept; eauto.
    - destruct A as [Is (y & x' & Da & T)].
      destruct (part_kept R G C Ts P T (@entry_of cls attrs set _ _ NN Da)) as (Kx & Ny & Nx').
      exists ((name, x') :: rs). split.
      + eapply kept_field with (x := y) (xe := encode y); eauto.
        * split; [rewrite Ex; auto|]. intros _. simpl. f_equal. apply negb_false_iff. apply str_in_In; auto.
        * simpl. rewrite Da; auto.
        * simpl. rewrite (Hde _ _ Da); auto.
      + constructor; auto. split; auto. simpl. split; [destruct x'; auto; congruence|]. intros y' _ Dy. assert (y' = y) by congruence. subst; auto.
  Qed.

  Lemma same_found_keys : forall m attrs found rs, Forall2 (same_found attrs) found rs ->
    map (fun nv => data_key m (fst nv)) rs = map (fun nv => data_key m (fst nv)) found /\ map fst (entries m rs) = map fst (entries m found).
  Proof.
    intros m attrs found rs F; induction F as [|[n v] [n' r] found rs (E1 & E2 & _) F [IH1 IH2]]; [auto|]. simpl in *. subst n'. split; [f_equal; auto|].
    unfold entries in *. simpl. rewrite E2. destruct (is_none r); simpl; auto. f_equal; auto.
  Qed.

  Lemma all_good : forall N d, size d < N -> good d.
  Proof.
    induction N as [|N IH]; intros d L; [lia|]. intros n ev' cls v R E NN C.
    assert (G : forall k, size k < size d -> good k) by (intros k Lk; apply IH; lia).
    destruct (@comes_from n ev' cls d v R E) as (m & Em & Cf). pose proof SE as (KA & (Ee & _) & S3).
    destruct (S3 _ _ Em) as [Lv Ta Nn Nk O Ex _ _ Pl Rt]. exists m.
    destruct Cf as [(Rm & found & F & V)|(Rm & s & x & Fs & Nx & P & V)].
    - assert (Kf : map (fun nv => data_key m (fst nv)) found = map (fun nf => data_key m (fst nf)) (md_fields m)).
      { clear - F. induction F as [|[a s] [a' x] l l' [E _] F IH]; auto. simpl in *. subst; f_equal; auto. }
      assert (ND : NoDup (map (fun nv => data_key m (fst nv)) found)) by (rewrite Kf; auto).
      rewrite (given_entries _ _ ND) in V. assert (DD := @entries_data ev' d m (md_fields m) found R F). destruct (Pl Rm _ _ DD V) as (attrs & set & -> & A & Again).
      destruct (@fields_kept ev' d cls m attrs set found R G C Em Rm NN DD V ND A (md_fields m) found F (incl_refl _) (incl_refl _)) as (rs & K & Sf).
      destruct (same_found_keys m Sf) as [Kr Ke].
      assert (NDr : NoDup (map (fun nv => data_key m (fst nv)) rs)) by (rewrite Kr; auto).
      exists attrs, set, (map snd rs). split; auto. split; auto. split; [|eauto].
      apply kept_plain; auto; [rewrite (same_flags _ Em); auto|]. rewrite (read_data_entries _ _ NDr).
      apply Again; auto. intros name s x y x' If Dx Dy Dx'.
      assert (exists v r, In (name, v) found /\ In (name, r) rs /\ same_found attrs (name, v) (name, r)) as (v & r & Iv & Ir & (_ & En & T)).
      { clear - If F Sf. revert rs Sf. induction F as [|[a s0] [a' w] l l' [E _] F IH]; intros rs Sf; [contradiction|]. simpl in E. subst a'. inv Sf.
        destruct If as [[= -> ->]|If].
        - destruct y as [n r]. assert (X := H1). destruct X as [E _]. simpl in E. subst n. exists w, r. split; [left; auto|]. split; [left; auto|auto].
        - destruct (IH If _ H3) as (v & r & I1 & I2 & S'). exists v, r. split; [right; auto|]. split; [right; auto|auto]. }
      simpl in En. rewrite (@entries_get m found _ _ ND Iv) in Dx. rewrite (@entries_get m rs _ _ NDr Ir) in Dx'. rewrite <- En in Dx'. destruct (is_none v) eqn:Nv; [discriminate|].
      injection Dx as <-. injection Dx' as <-. apply T; auto.
    - destruct (Rt Rm) as ((_ & Rs) & _). assert (DX : document_data x) by (destruct (part_data R P); [contradiction|auto]). destruct (Rs _ _ DX V) as (attrs & set & y & x' & -> & Is & Da & T & V').
      specialize (Ee _ _ attrs set Em). rewrite Rm in Ee. specialize (Ee _ Da).
      assert (Ts : tells_apart encode ev s) by (rewrite Fs in Ta; inv Ta; auto).
      assert (Ls : live s = true) by (rewrite Fs in Lv; inv Lv; auto).
      destruct (part_kept R G C Ts P T (@entry_of cls attrs set _ _ NN Da)) as (Kx & Ny & Nx').
      exists attrs, set, [x']. split; auto. split; auto. split; [|congruence]. rewrite Ee.
      eapply kept_root with (x := y) (r := x'); eauto.
      + intros _. simpl. f_equal. apply negb_false_iff. apply str_in_In; auto.
      + simpl. rewrite Da; auto.
      + rewrite (same_flags _ Em); auto.
      + destruct x'; auto; congruence.
  Qed.
End Stable.

Lemma read_is_kept : forall ev eas encode fl, steady encode eas ev -> leaves_out_missing ev fl ->
  forall n cls d v, from_xml_tree n ev cls d eas = Ok v -> no_nil_entry v -> attribute_names proper_name d -> no_pi d ->
  exists m attrs set rs, en_model ev cls = Some m /\ v = VModel cls attrs set /\ kept_model ev eas fl m v (encode v) rs v.
Proof.
  intros ev eas encode fl SE LO n cls d v E NN An Np.
  destruct (@all_good ev eas encode fl SE LO (S (size d)) d (Nat.lt_succ_diag_r _) n ev cls v (retagged_refl ev) E NN (conj An Np)) as (m & attrs & set & rs & Em & Ev & K & _).
  eauto 8.
Qed.
