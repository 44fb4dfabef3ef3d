(** PropAlias.v -- C75: the choice of namespace prefixes has no effect beyond the prefix declarations of the output. *)

From Verif Require Import Base Elem Native Errs Names Fields Ser Build Write Read Api Samples SpecAlias PfAlias PfAlias2.

(** Rename the prefixes in every class statement and every annotation: inheritance and merging give the
    renamed parameters and annotations. *)
Theorem C75_same_declarations : forall f, renaming f ->
  (forall ds, class_chain (map (re_decl f) ds) = option_map (re_params f) (class_chain ds)) /\
  (forall metas, extract_info (map (re_meta f) metas) = option_map (re_info f) (extract_info metas)) /\
  (forall path inner ns m, wrapped path (option_map (map (re_meta f)) inner) (re_ns f ns) (re_nsmap f m) =
     map (re_meta f) (wrapped path inner ns m)).
Proof.
  intros f Hf. split; [intros; apply chain_re; auto|]. split; [intros; apply extract_re; auto|intros; apply wrapped_re; auto].
Qed.

(** Then the same classes are accepted, the others are rejected with the same exception, and the class built
    has the same element names, attribute names, paths, modes and options: only the namespace maps it carries
    for the output have other prefixes. *)
Theorem C75_same_classes : forall f, renaming f -> forall cl ev n i s,
  match build_class cl ev n i s with
  | Ok b => exists b', build_class (re_classes f cl) (re_env f ev) n (re_class f i) s = Ok b' /\
      forall name forbid skip cser cval validate,
        mdef_of b' name forbid skip cser cval validate = re_mdef f (mdef_of b name forbid skip cser cval validate)
  | Raise x => build_class (re_classes f cl) (re_env f ev) n (re_class f i) s = Raise x
  | Fuel => build_class (re_classes f cl) (re_env f ev) n (re_class f i) s = Fuel
  end.
Proof.
  intros f Hf cl ev n i s. rewrite (build_class_re Hf). destruct (build_class cl ev n i s) as [b|x|]; simpl; auto.
  exists (re_built f b). split; auto.
Qed.

(** to_xml writes the same document (same tags, attributes and text, same exceptions); its elements declare
    the renamed prefixes. *)
Theorem C75_same_documents : forall f, renaming f -> forall ev, prefixes_ignored f ev -> forall n encode v fl,
  to_xml_tree n (re_env f ev) encode v fl = out_map (re_native f) (to_xml_tree n ev encode v fl).
Proof. intros f Hf ev Hc. apply to_xml_re; auto. Qed.

(** from_xml returns the same value or raises the same error, on documents with either prefixes. *)
Theorem C75_same_values : forall f ev n cls root eas,
  from_xml_tree n (re_env f ev) cls root eas = from_xml_tree n ev cls root eas /\
  from_xml_tree n (re_env f ev) cls (re_native f root) eas = from_xml_tree n ev cls root eas.
Proof. intros; split; [apply from_xml_re|apply from_xml_doc_re]. Qed.

(** ---- a class with two prefixes and a default namespace ---- *)
Definition swap_pq (s : string) : string :=
  if String.eqb s "p" then "q" else if String.eqb s "q" then "p" else s.

Lemma swap_renaming : renaming swap_pq.
Proof.
  split; [|reflexivity]. intros a b. unfold swap_pq.
  destruct (String.eqb_spec a "p"), (String.eqb_spec a "q"), (String.eqb_spec b "p"), (String.eqb_spec b "q"); subst; congruence.
Qed.

Definition item_cls : cls_info := ClsInfo "Item"
  (CParams (Some "item") (Some "p") (Some [("", "urn:d"); ("p", "urn:p"); ("q", "urn:q")]) true None Strict)
  (fun name => if String.eqb name "price" then element None (Some "q") None None
               else if String.eqb name "id" then attr None None else element None (Some "") None None)
  (fun _ => None) None.
Definition item_cl : classes := fun c => if String.eqb c "Item" then Some item_cls else None.
Definition item_schema : cschema := CModel "Item" false
  (CFields [("id", CField false None None (CType "str")); ("price", CField false None None (CType "int"));
            ("note", CField false None None (CType "str"))] []).
Definition none_yet : env := Env Lxml (fun _ => None).
Definition item_map (p q : string) : option nsmap := Some [("", "urn:d"); (p, "urn:p"); (q, "urn:q")].
Definition item_built (p q : string) : bmodel := BModel "Item" false "{urn:p}item" (item_map p q)
  [("id", SAttr "{urn:p}id" false); ("price", SElem "{urn:q}price" (item_map p q) Strict false false);
   ("note", SElem "{urn:d}note" (item_map p q) Strict false false)] [] [] false.

Definition item_env (p q : string) : env := Env Lxml (fun c => if String.eqb c "Item" then
  Some (mdef_of (item_built p q) "Item" false None (fun _ => None) (fun _ => None) (accepts "Item" ["id"; "price"; "note"])) else None).
Definition item_val : val := VModel "Item" [("id", VStr "7"); ("price", VStr "3"); ("note", VStr "x")] ["id"; "price"; "note"].
Definition item_decls (p q : string) := [(None, "urn:d"); (Some p, "urn:p"); (Some q, "urn:q")].
Definition item_doc (p q : string) : native :=
  NElem "{urn:p}item" (item_decls p q) None None [("{urn:p}id", "7")]
    [NElem "{urn:q}price" (item_decls p q) (Some "3") None [] [] None;
     NElem "{urn:d}note" (item_decls p q) (Some "x") None [] [] None] None.

Lemma item_ignored : prefixes_ignored swap_pq (item_env "p" "q").
Proof. intros cls m name custom H C. simpl in H. destruct (String.eqb cls "Item"); inversion H; subst. discriminate C. Qed.

Example C75_ex : renaming swap_pq /\ prefixes_ignored swap_pq (item_env "p" "q") /\
  build_class item_cl none_yet 9 item_cls item_schema = Ok (item_built "p" "q") /\
  build_class (re_classes swap_pq item_cl) none_yet 9 (re_class swap_pq item_cls) item_schema = Ok (item_built "q" "p") /\
  c_ns (ci_params (re_class swap_pq item_cls)) = Some "q" /\
  to_xml_tree 9 (item_env "p" "q") (fun _ => VDict [("id", VStr "7"); ("price", VStr "3"); ("note", VStr "x")]) item_val (Flags false false false) =
    Ok (item_doc "p" "q") /\
  to_xml_tree 9 (item_env "q" "p") (fun _ => VDict [("id", VStr "7"); ("price", VStr "3"); ("note", VStr "x")]) item_val (Flags false false false) =
    Ok (item_doc "q" "p") /\
  from_xml_tree 9 (item_env "p" "q") "Item" (item_doc "q" "p") false = from_xml_tree 9 (item_env "q" "p") "Item" (item_doc "p" "q") false /\
  exists v, from_xml_tree 9 (item_env "p" "q") "Item" (item_doc "q" "p") false = Ok v.
Proof.
  split; [exact swap_renaming|]. split; [exact item_ignored|]. do 5 (split; [vm_compute; reflexivity|]).
  split; [vm_compute; reflexivity|]. eexists; vm_compute; reflexivity.
Qed.

(** Both conditions on the renaming are needed.  Giving the default namespace a prefix changes the names of
    elements declared without ns; giving two prefixes one name makes an undeclared prefix a declared one. *)
Theorem C75_default_refuted : exists f cl ev n i s b b', (forall a b : string, f a = f b -> a = b) /\ f "" <> "" /\
  build_class cl ev n i s = Ok b /\ build_class (re_classes f cl) (re_env f ev) n (re_class f i) s = Ok b' /\
  bm_elem_name b = "{urn:d}m" /\ bm_elem_name b' = "m".
Proof.
  exists (fun s => ("x" ++ s)%string),
    (fun _ => Some (ClsInfo "M" (CParams (Some "m") None (Some [("", "urn:d")]) false None Strict) (fun _ => []) (fun _ => None) None)),
    none_yet, 5, (ClsInfo "M" (CParams (Some "m") None (Some [("", "urn:d")]) false None Strict) (fun _ => []) (fun _ => None) None),
    (CModel "M" false (CFields [] [])). do 2 eexists. split; [intros a b H; simpl in H; congruence|]. split; [discriminate|].
  split; [vm_compute; reflexivity|]. split; [vm_compute; reflexivity|]. split; reflexivity.
Qed.

Theorem C75_merged_refuted : exists f cl ev n i s b', f "" = "" /\ (forall a, f a = "" -> a = "") /\ f "p" = f "q" /\
  build_class cl ev n i s = Raise XModelError /\
  build_class (re_classes f cl) (re_env f ev) n (re_class f i) s = Ok b' /\ bm_elem_name b' = "{urn:p}m".
Proof.
  exists (fun s => if String.eqb s "q" then "p" else s),
    (fun _ => Some (ClsInfo "M" (CParams (Some "m") (Some "q") (Some [("p", "urn:p")]) false None Strict) (fun _ => []) (fun _ => None) None)),
    none_yet, 5, (ClsInfo "M" (CParams (Some "m") (Some "q") (Some [("p", "urn:p")]) false None Strict) (fun _ => []) (fun _ => None) None),
    (CModel "M" false (CFields [] [])). eexists. split; [reflexivity|]. split; [intros a; destruct (String.eqb a "q"); congruence|]. split; [reflexivity|].
  split; [vm_compute; reflexivity|]. split; [vm_compute; reflexivity|]. reflexivity.
Qed.

Print Assumptions C75_same_declarations.
Print Assumptions C75_same_classes.
Print Assumptions C75_same_documents.
Print Assumptions C75_same_values.
Print Assumptions C75_default_refuted.
Print Assumptions C75_merged_refuted.
