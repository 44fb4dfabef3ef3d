(** PropNest.v -- C82: a wrapper with a path is the same as one wrapper per step of the path. *)

From Verif Require Import Base Elem Native Errs Names Fields Ser Build Write Read Api Samples SpecDecl SpecSim SpecNest
  PfDecl PfNest PfNest2 PfNest3 PfNest4.

(** wrapped('p/q', X) and wrapped('p', wrapped('q', X)) declare the same thing: they have the same form
    once every path is written out as nested wrappers. *)
Theorem C82_declarations : forall p q inner ns,
  nest_oinfo (extract_info (wrapped (p ++ "/" ++ q) inner ns None)) =
  nest_oinfo (extract_info (wrapped p (Some (wrapped q inner None None)) ns None)).
Proof.
  assert (W : forall path e ns, extract_info (wrapped path e ns None) =
            Some (EInfo (Some LocWrapped) (Some path) ns None None (match e with Some i => extract_info i | None => None end)))
    by (intros; apply extract_wrapped).
  intros p q inner ns. rewrite !W. cbn [nest_oinfo]. f_equal.
  cbn [nest_info]. rewrite split_app.
  pose proof (split_nonempty "/"%char p) as Np. destruct (py_split "/" p) as [|a rp]; [congruence|].
  pose proof (split_nonempty "/"%char q) as Nq. cbn [app]. f_equal. rewrite step_infos_app.
  destruct (py_split "/" q) as [|b rq]; [congruence|]. reflexivity.
Qed.

(** Classes that differ only in this are accepted or rejected alike, with the same exception, and what is built
    has the same form. *)
Theorem C82_classes : forall cl cl' ev ev' i i', same_classes cl cl' -> same_env ev ev' -> same_class i i' -> forall n n' s,
  build_class cl ev n i s <> Fuel -> build_class cl' ev' n' i' s <> Fuel ->
  match build_class cl ev n i s, build_class cl' ev' n' i' s with
  | Ok b, Ok b' => nest_bmodel b = nest_bmodel b'
  | Raise x, Raise y => x = y
  | _, _ => False
  end.
Proof.
  intros cl cl' ev ev' i i' C E I n n' s N N'.
  destruct (@class_ag cl cl' ev ev' (conj C E) n n' i i' s I); try congruence; auto.
Qed.

(** The classes then write the same documents ... *)
Theorem C82_writing : forall ev ev', same_env ev ev' -> forall n n' encode v fl,
  to_xml_tree n ev encode v fl <> Fuel -> to_xml_tree n' ev' encode v fl <> Fuel ->
  to_xml_tree n ev encode v fl = to_xml_tree n' ev' encode v fl.
Proof. intros; apply to_xml_ag; auto. Qed.

(** ... and read every document alike: the same value, or the same error (up to line numbers). *)
Theorem C82_reading : forall ev ev', same_env ev ev' -> forall n n' cls doc eas,
  from_xml_tree n ev cls doc eas <> Fuel -> from_xml_tree n' ev' cls doc eas <> Fuel ->
  same_out (from_xml_tree n ev cls doc eas) (from_xml_tree n' ev' cls doc eas).
Proof. intros; apply from_xml_ag; auto. Qed.

(** ---- a class with a list behind the path 'a/b/c' ---- *)
Definition path_cls (metas : list meta) : cls_info := ClsInfo "Doc"
  (CParams (Some "doc") None (Some [("p", "urn:p")]) false None Ordered)
  (fun name => if String.eqb name "ts" then metas else element None None None None) (fun _ => None) None.
Definition path_cl (metas : list meta) : classes := fun c => if String.eqb c "Doc" then Some (path_cls metas) else None.
Definition path_schema : cschema := CModel "Doc" false
  (CFields [("ts", CField false None None (CList (CType "str"))); ("x", CField false None None (CType "str"))] []).
Definition titles : option (list meta) := Some (element (Some "t") None None None).
Definition by_path : list meta := wrapped "a/b/c" titles (Some "p") None.
Definition by_nesting : list meta := wrapped "a" (Some (wrapped "b/c" titles None None)) (Some "p") None.
Definition p_map : option nsmap := Some [("p", "urn:p")].
Definition title_ser : ser := SHomo "Doc" false (SElem "{urn:p}t" p_map Ordered false false) false.
Definition path_ser : ser := SWrap ["{urn:p}a"; "{urn:p}b"; "{urn:p}c"] p_map Ordered false title_ser.
Definition nested_ser : ser := SWrap ["{urn:p}a"] p_map Ordered false (SWrap ["{urn:p}b"; "{urn:p}c"] p_map Ordered false title_ser).
Definition path_built (s : ser) : bmodel := BModel "Doc" false "doc" p_map
  [("ts", s); ("x", SElem "x" p_map Ordered false false)] [] [] false.
Definition path_env (s : ser) : env := Env Lxml (fun c => if String.eqb c "Doc" then
  Some (mdef_of (path_built s) "Doc" false None (fun _ => None) (fun _ => None) (accepts "Doc" ["ts"; "x"])) else None).
Definition path_val : val := VModel "Doc" [("ts", VList [VStr "1"; VStr "2"]); ("x", VStr "y")] ["ts"; "x"].
Definition path_enc (v : val) : val := VDict [("ts", VList [VStr "1"; VStr "2"]); ("x", VStr "y")].

Lemma path_same_env : same_env (path_env path_ser) (path_env nested_ser).
Proof. split; [reflexivity|]. intros c. simpl. destruct (String.eqb c "Doc"); reflexivity. Qed.

Lemma path_same_class : same_class (path_cls by_path) (path_cls by_nesting).
Proof. repeat split; intros f; simpl; destruct (String.eqb f "ts"); reflexivity. Qed.

Example C82_ex : exists doc,
  build_class (path_cl by_path) (Env Std (fun _ => None)) 9 (path_cls by_path) path_schema = Ok (path_built path_ser) /\
  build_class (path_cl by_nesting) (Env Std (fun _ => None)) 9 (path_cls by_nesting) path_schema = Ok (path_built nested_ser) /\
  path_built path_ser <> path_built nested_ser /\
  to_xml_tree 9 (path_env path_ser) path_enc path_val (Flags false false false) = Ok doc /\
  to_xml_tree 9 (path_env nested_ser) path_enc path_val (Flags false false false) = Ok doc /\
  from_xml_tree 9 (path_env path_ser) "Doc" doc false = Ok path_val /\
  from_xml_tree 9 (path_env nested_ser) "Doc" doc false = Ok path_val.
Proof.
  exists (NElem "doc" [(Some "p", "urn:p")] None None []
    [NElem "{urn:p}a" [(Some "p", "urn:p")] None None []
      [NElem "{urn:p}b" [(Some "p", "urn:p")] None None []
        [NElem "{urn:p}c" [(Some "p", "urn:p")] None None []
          [NElem "{urn:p}t" [(Some "p", "urn:p")] (Some "1") None [] [] None;
           NElem "{urn:p}t" [(Some "p", "urn:p")] (Some "2") None [] [] None] None] None] None;
     NElem "x" [(Some "p", "urn:p")] (Some "y") None [] [] None] None).
  split; [vm_compute; reflexivity|]. split; [vm_compute; reflexivity|]. split; [discriminate|].
  split; [vm_compute; reflexivity|]. split; [vm_compute; reflexivity|]. split; vm_compute; reflexivity.
Qed.

(** A wrapper that declares prefixes itself is different when written as nested wrappers: inside a wrapper,
    prefixes declared by the class win over those the wrapper declares. *)
Theorem C82_own_prefixes_refuted : exists b b',
  build_class (path_cl (wrapped "a/b" titles (Some "p") (Some [("p", "urn:q")]))) (Env Std (fun _ => None)) 9
    (path_cls (wrapped "a/b" titles (Some "p") (Some [("p", "urn:q")]))) path_schema = Ok b /\
  build_class (path_cl (wrapped "a" (Some (wrapped "b" titles None None)) (Some "p") (Some [("p", "urn:q")]))) (Env Std (fun _ => None)) 9
    (path_cls (wrapped "a" (Some (wrapped "b" titles None None)) (Some "p") (Some [("p", "urn:q")]))) path_schema = Ok b' /\
  (exists m s, dget "ts" (bm_fields b) = Some (SWrap ["{urn:q}a"; "{urn:q}b"] m Ordered false s)) /\
  (exists m m' s, dget "ts" (bm_fields b') = Some (SWrap ["{urn:q}a"] m Ordered false (SWrap ["{urn:p}b"] m' Ordered false s))).
Proof.
  do 2 eexists. split; [vm_compute; reflexivity|]. split; [vm_compute; reflexivity|].
  split; [do 2 eexists; vm_compute; reflexivity|do 3 eexists; vm_compute; reflexivity].
Qed.

(** Line numbers in errors are not kept: when the outer step is there and the inner one is not, the nested
    form reports the line of the outer step, the path the line of the model's element. *)
Theorem C82_lines_refuted : exists doc e e',
  from_xml_tree 9 (path_env path_ser) "Doc" doc false = Raise (XValidation e) /\
  from_xml_tree 9 (path_env nested_ser) "Doc" doc false = Raise (XValidation e') /\
  map le_msg (ve_lines e) = [MLine 1%Z (MText "Field required")] /\
  map le_msg (ve_lines e') = [MLine 2%Z (MText "Field required")].
Proof.
  exists (NElem "doc" [] None None [] [NElem "{urn:p}a" [] None None [] [] (Some 2%Z); NElem "x" [] (Some "y") None [] [] (Some 3%Z)] (Some 1%Z)).
  do 2 eexists. split; [vm_compute; reflexivity|]. split; [vm_compute; reflexivity|]. split; vm_compute; reflexivity.
Qed.

Print Assumptions C82_declarations.
Print Assumptions C82_classes.
Print Assumptions C82_writing.
Print Assumptions C82_reading.
Print Assumptions C82_own_prefixes_refuted.
Print Assumptions C82_lines_refuted.
