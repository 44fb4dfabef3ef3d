(** PropPrefix.v -- C59: which namespace prefixes the elements of a serialized document declare. *)

From Verif Require Import Base Elem Native Errs Names Ser Write Read Api Samples SpecElem SpecWrite SpecPrefix PfPrefix.

(** The root declares the prefixes of its class, and every element below it those of the field it was
    written for. *)
Theorem C59_prefix_declarations : forall ev, no_customs ev -> env_no_raw ev -> forall n encode cls attrs set fl m t,
  en_model ev cls = Some m -> to_xml_tree n ev encode (VModel cls attrs set) fl = Ok t ->
  (exists decls text tail attrib cs line, t = NElem (md_elem_name m) decls text tail attrib cs line /\
     prefixed (en_backend ev) (md_nsmap m) decls) /\
  (forall d, below t d -> exists tag ns decls text tail attrib cs line,
     d = NElem tag decls text tail attrib cs line /\ prefixed (en_backend ev) ns decls /\ declared_in ev tag ns).
Proof. exact prefixes_written. Qed.

Definition shop_ns : option nsmap := Some [("", "urn:shop"); ("p", "urn:price")].
Definition shop (b : backend) : env := Env b (fun c => if String.eqb c "Shop" then
  Some (MDef "Shop" false "{urn:shop}shop" shop_ns
          [("owner", SElem "{urn:owner}owner" (Some [("o", "urn:owner")]) Strict false false);
           ("price", SWrap ["{urn:shop}item"] shop_ns Strict false (SElem "{urn:price}price" None Strict false false))]
          [] [] false false None (fun _ => None) (fun _ => None) (accepts "Shop" [])) else None).
Definition shop_val : val := VModel "Shop" [("owner", VStr "Ann"); ("price", VStr "3")] [].
Definition shop_doc (b : backend) : native :=
  let decl l := match b with Lxml => l | Std => [] end in
  NElem "{urn:shop}shop" (decl [(None, "urn:shop"); (Some "p", "urn:price")]) None None []
    [NElem "{urn:owner}owner" (decl [(Some "o", "urn:owner")]) (Some "Ann") None [] [] None;
     NElem "{urn:shop}item" (decl [(None, "urn:shop"); (Some "p", "urn:price")]) None None []
       [NElem "{urn:price}price" [] (Some "3") None [] [] None] None] None.

Lemma shop_env : forall b, no_customs (shop b) /\ env_no_raw (shop b).
Proof.
  split; intros cls m; [intros name H|intros H]; unfold shop in H; simpl in H;
    destruct (String.eqb cls "Shop"); try discriminate; injection H as <-; [reflexivity|].
  repeat constructor.
Qed.

Example C59_ex : (forall b, no_customs (shop b) /\ env_no_raw (shop b)) /\
  (forall b, to_xml_tree 5 (shop b) (fun _ => VDict [("owner", VStr "Ann"); ("price", VStr "3")]) shop_val (Flags false false false) = Ok (shop_doc b)).
Proof. split; [exact shop_env|]. intros [|]; vm_compute; reflexivity. Qed.

(** An element kept as it was read loses its prefix declarations, with either library: it is written
    without any. *)
Theorem C59_raw_prefixes_refuted : exists ev encode v t decls,
  en_backend ev = Lxml /\ decls <> [] /\
  v = VModel "M" [("any", VRaw (NElem "{urn:x}a" decls (Some "x:kind") None [] [] None))] [] /\
  to_xml_tree 4 ev encode v (Flags false false false) = Ok t /\
  exists d, below t d /\ d = NElem "{urn:x}a" [] (Some "x:kind") None [] [] None.
Proof.
  exists (Env Lxml (fun c => if String.eqb c "M" then
            Some (MDef "M" false "m" None [("any", SRaw "{urn:x}a" Strict false)] [] [] false false None
                    (fun _ => None) (fun _ => None) (accepts "M" [])) else None)),
    (fun _ => VDict [("any", VNone)]),
    (VModel "M" [("any", VRaw (NElem "{urn:x}a" [(Some "x", "urn:x")] (Some "x:kind") None [] [] None))] []),
    (NElem "m" [] None None [] [NElem "{urn:x}a" [] (Some "x:kind") None [] [] None] None),
    [(Some "x", "urn:x")].
  split; [reflexivity|]. split; [discriminate|]. split; [reflexivity|]. split; [vm_compute; reflexivity|].
  eexists; split; [|reflexivity]. constructor; simpl; auto.
Qed.

Print Assumptions C59_prefix_declarations.
Print Assumptions C59_raw_prefixes_refuted.
