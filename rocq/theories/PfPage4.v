(** PfPage4.v -- whole documents, and the classes the builder makes. *)

From Verif Require Import Base Elem Native Errs Names Fields Ser Build Read Api PfElem SpecSim SpecOut SpecSub SpecRead SpecBuild PfDecl
  PfBuild PfBuild2 PfBuild3 PfBuild4 PfBuild5 SpecPage PfPage PfPage2 PfPage3.

Local Ltac inv H := inversion H; subst; clear H.

Lemma root_tag : forall tag d, tag_is (native_tag d) tag = true <-> SpecPage.named tag d.
Proof. exact is_named_iff. Qed.

Lemma read_document : forall ev, plain_classes ev -> forall cls m root eas v, en_model ev cls = Some m ->
  (exists n, from_xml_tree n ev cls root eas = Ok v) <->
  SpecPage.named (md_elem_name m) root /\ exists left, reads_model ev eas m (unopened root) (Got v) left.
Proof.
  intros ev HP cls m root eas v Em. split.
  - intros [n E]. unfold from_xml_tree in E. rewrite Em in E. destruct (tag_is (native_tag root) (md_elem_name m)) eqn:Et; [|discriminate].
    split; [apply root_tag, Et|].
    pose proof (@model_sim ev eas HP (read n ev) cls m Em (@read_follows ev eas HP n) [] root (unopened root) (St (from_native (en_backend ev) root) []) (shows_new _ root)) as X.
    unfold sim in X. rewrite E in X. destruct X as (p' & X & _). eauto.
  - intros (Nr & rem & R). destruct (@obeyed ev eas HP) as (_ & _ & _ & _ & _ & _ & _ & _ & H).
    destruct (H _ _ _ _ R (proj1 (@HP _ _ Em))) as [N Q].
    destruct (Q N (le_n _) [] root (St (from_native (en_backend ev) root) []) (shows_new _ root)) as [G _].
    exists N. unfold from_xml_tree. rewrite Em, (proj2 (root_tag _ _) Nr). apply gives_got, G.
Qed.

Lemma refused_document : forall ev, plain_classes ev -> forall cls m root eas t remarks, en_model ev cls = Some m ->
  (exists n err, from_xml_tree n ev cls root eas = Raise (XValidation err) /\ ve_title err = t /\ map remark_of (ve_lines err) = remarks) <->
  SpecPage.named (md_elem_name m) root /\ exists left, reads_model ev eas m (unopened root) (Refused t remarks) left.
Proof.
  intros ev HP cls m root eas t remarks Em. split.
  - intros (n & err & E & <- & <-). unfold from_xml_tree in E. rewrite Em in E. destruct (tag_is (native_tag root) (md_elem_name m)) eqn:Et; [|discriminate].
    split; [apply root_tag, Et|].
    pose proof (@model_sim ev eas HP (read n ev) cls m Em (@read_follows ev eas HP n) [] root (unopened root) (St (from_native (en_backend ev) root) []) (shows_new _ root)) as X.
    unfold sim in X. rewrite E in X. destruct X as (p' & X & _). eauto.
  - intros (Nr & rem & R). destruct (@obeyed ev eas HP) as (_ & _ & _ & _ & _ & _ & _ & _ & H).
    destruct (H _ _ _ _ R (proj1 (@HP _ _ Em))) as [N Q].
    destruct (Q N (le_n _) [] root (St (from_native (en_backend ev) root) []) (shows_new _ root)) as [G _].
    apply gives_refused in G. destruct G as (err & G & Et & Er).
    exists N, err. unfold from_xml_tree. rewrite Em, (proj2 (root_tag _ _) Nr). auto.
Qed.

Lemma stopped_document : forall ev, plain_classes ev -> forall cls m root eas what, en_model ev cls = Some m ->
  (exists n, from_xml_tree n ev cls root eas = Raise (XUser what)) <->
  SpecPage.named (md_elem_name m) root /\ exists left, reads_model ev eas m (unopened root) (Stopped what) left.
Proof.
  intros ev HP cls m root eas what Em. split.
  - intros (n & E). unfold from_xml_tree in E. rewrite Em in E. destruct (tag_is (native_tag root) (md_elem_name m)) eqn:Et; [|discriminate].
    split; [apply root_tag, Et|].
    pose proof (@model_sim ev eas HP (read n ev) cls m Em (@read_follows ev eas HP n) [] root (unopened root) (St (from_native (en_backend ev) root) []) (shows_new _ root)) as X.
    unfold sim in X. rewrite E in X. destruct X as (p' & X & _). eauto.
  - intros (Nr & rem & R). destruct (@obeyed ev eas HP) as (_ & _ & _ & _ & _ & _ & _ & _ & H).
    destruct (H _ _ _ _ R (proj1 (@HP _ _ Em))) as [N Q].
    destruct (Q N (le_n _) [] root (St (from_native (en_backend ev) root) []) (shows_new _ root)) as [G _].
    exists N. unfold from_xml_tree. rewrite Em, (proj2 (root_tag _ _) Nr). apply gives_stopped, G.
Qed.

(** the rules never answer twice *)
Lemma one_answer : forall ev, plain_classes ev -> forall cls m root eas a a' l l', en_model ev cls = Some m ->
  reads_model ev eas m (unopened root) a l -> reads_model ev eas m (unopened root) a' l' -> a = a'.
Proof.
  intros ev HP cls m root eas a a' l l' Em R R'. destruct (@obeyed ev eas HP) as (_ & _ & _ & _ & _ & _ & _ & _ & H).
  pose proof (proj1 (@HP _ _ Em)) as Hc.
  destruct (H _ _ _ _ R Hc) as [N Q]. destruct (H _ _ _ _ R' Hc) as [N' Q'].
  destruct (Q (N + N') ltac:(lia) [] root (St (from_native (en_backend ev) root) []) (shows_new _ root)) as [G _].
  destruct (Q' (N + N') ltac:(lia) [] root (St (from_native (en_backend ev) root) []) (shows_new _ root)) as [G' _].
  unfold gives in G, G'. congruence.
Qed.

(** ---- built classes ---- *)
Lemma declared_paths : forall cl am s encl i, declared cl am encl i s -> has_paths s.
Proof.
  intros cl am. induction s using ser_ind'; intros encl i Hd; inversion Hd; subst; simpl; eauto.
  - match goal with X : Forall (declared _ _ _ _) _ |- _ => rename X into F end.
    clear - H F. induction H; simpl; auto. inversion F; subst. split; eauto.
  - split; eauto. match goal with X : Forall2 _ (py_split _ _) _ |- _ => rename X into F end.
    intros ->. inversion F as [E|]. symmetry in E. revert E. apply split_nonempty.
Qed.

Lemma built_paths : forall T U cl ev, classes_ok cl -> built_env T U cl ev -> forall cls m, en_model ev cls = Some m ->
  Forall (fun nf => has_paths (snd nf)) (md_fields m).
Proof.
  intros T U cl ev Hcl Hev cls m E. destruct Hev as [Hk H].
  destruct (H _ _ E) as (n & k & b & forbid & skip & cser & cval & validate & ds & s & s0 & root &
    body & parts & K & C & S & Ss & HD & P & F & I & B & -> & V & Vc).
  pose proof (class_stands C S) as S'. simpl. destruct root; simpl in P.
  - destruct (@root_built cl ev Hcl _ _ _ _ _ _ B S' K I) as (r & Ef & Dr & _).
    rewrite Ef. constructor; auto. simpl. eapply declared_paths; eauto.
  - destruct P as (fs & cs & Fd & _).
    destruct (@class_built cl ev Hcl _ _ _ _ _ _ _ _ B S' K Fd (I _ _ Fd)) as (own & comp & Ef & D1 & D2 & _).
    rewrite Ef. apply Forall_app. split.
    + eapply Forall2_snd; [exact D1|]. intros [nm [e sa va sc]] nf [_ D]. simpl in D. eapply declared_paths; eauto.
    + eapply Forall2_snd; [exact D2|]. intros cf nf [_ D]. eapply declared_paths; eauto.
Qed.
