(** PropSub.v -- C68: where the values come from. *)

From Verif Require Import Base Elem Native Errs Names Ser Read Api SpecElem SpecRead SpecSub Samples.
From Verif Require Import PfSub2 PropStray PropGrow.

(** C68.  Reading invents nothing.  Whatever [from_xml_tree] hands to pydantic for an instance was taken from
    the document: strings from the text or the attributes of the element they are bound to, raw elements as copies
    of a child, and a sub-model -- in a list, a tuple, a union, below a wrapper -- is exactly what [from_xml_tree]
    of its class gives for its element taken as a document of its own, whatever was read before it. *)
Theorem C68_values_from_document : forall ev, validators_read ev ->
  forall n cls m d eas v, en_model ev cls = Some m -> from_xml_tree n ev cls d eas = Ok v ->
  exists input, input_from ev m eas d input /\ md_validate m input = Valid v.
Proof. exact from_xml_fine. Qed.

(** the same for a plain list of sub-models, spelled out *)
Theorem C68_submodels_alone : forall ev, validators_read ev ->
  forall n cls m d eas v name title c p hide,
  en_model ev cls = Some m -> md_root m = false -> md_valias m = [] ->
  (forall s, In (name, s) (md_fields m) -> s = SHomo title c (SProxy p) hide) -> md_cval m name = None ->
  from_xml_tree n ev cls d eas = Ok v ->
  exists entries, md_validate m (Some (VDict entries)) = Valid v /\
    forall x, In (name, x) entries -> exists items, x = VList items /\ items <> [] /\
      Forall (fun item => exists k n', below d k /\ native_tag k = TName (px_name p) /\
        from_xml_tree n' (with_tag (px_name p) (px_model p) ev) (px_model p) (without_nil k) eas = Ok item) items.
Proof.
  intros ev VR n cls m d eas v name title c p hide Em Rm Am Fm Cm E.
  destruct (@C68_values_from_document ev VR n cls m d eas v Em E) as (input & I & V). unfold input_from in I. rewrite Rm in I.
  destruct I as (found & F & ->). eexists. split; [exact V|]. intros x Ix. unfold given in Ix. apply dict_of_in in Ix.
  apply in_map_iff in Ix as ([nm y] & [= K <-] & Iy). apply filter_In in Iy as [Iy Ny]. unfold input_key in K. rewrite Am in K. simpl in K. subst nm.
  assert (exists s, In (name, s) (md_fields m) /\ part ev eas d s y) as (s & In_f & P).
  { clear - F Iy Cm. induction F as [|[a s] [c z] l l' [E1 E2] F IH]; [contradiction|]. simpl in *. subst c.
    destruct Iy as [[= -> ->]|I]; [exists s; auto|]. destruct (IH I) as (s' & I' & P'). exists s'; auto. }
  rewrite (Fm s In_f) in P. inversion P; subst; [discriminate|]. eexists; split; [reflexivity|]. split; auto.
  match goal with H1 : Forall _ vs, H2 : Forall (part _ _ _ _) vs |- _ => apply Forall_and with (1 := H1) in H2; eapply Forall_impl; [|exact H2] end.
  intros item [Nn Q]. inversion Q; subst; [congruence|]. eauto 6.
Qed.

Lemma nodes_read : forall m, validators_read (nodes m).
Proof. intros m cls md name f E C. simpl in E. destruct (String.eqb cls "Node"); [|discriminate]. injection E as <-. discriminate. Qed.

(** a node with two nodes below it, one of them marked xsi:nil="false" *)
Definition nested_nodes : native :=
  el "node" [("id", "1")] "" [el "value" [] "5" []; el "node" [("id", "2")] "" [el "value" [] "6" []];
    el "node" [(xsi_nil, "false"); ("id", "3")] "" [el "value" [] "7" []; el "node" [] "" [el "value" [] "8" []]]].

Example C68_ex : forall m, validators_read (nodes m) /\
  exists a c, from_xml_tree 9 (nodes m) "Node" nested_nodes false =
      Ok (VModel "Node" [("id", VStr "1"); ("value", VStr "5"); ("children", VList [a; c])] ["id"; "value"; "children"]) /\
    from_xml_tree 9 (nodes m) "Node" (el "node" [("id", "2")] "" [el "value" [] "6" []]) false = Ok a /\
    from_xml_tree 9 (nodes m) "Node" (el "node" [("id", "3")] "" [el "value" [] "7" []; el "node" [] "" [el "value" [] "8" []]]) false = Ok c.
Proof.
  intros m. split; [apply nodes_read|]. destruct m; eexists _, _; (split; [vm_compute; reflexivity|split; vm_compute; reflexivity]).
Qed.

Print Assumptions C68_values_from_document.
Print Assumptions C68_submodels_alone.
