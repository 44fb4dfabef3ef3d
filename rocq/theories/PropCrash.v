(** PropCrash.v -- what happens to exceptions raised by user code (C77). *)

From Verif Require Import Base Elem Native Errs Names Ser Write Read Api SpecElem SpecRead SpecCrash PfCrash Samples.

(** C77.  Let the user code of a program (field validators, field serializers, validators and default
    factories called by pydantic) raise other exceptions than ValidationError in any cases one likes.
    Then from_xml_tree raises one of just these exceptions, or does what it did before: no such
    exception is swallowed, replaced, collected into a ValidationError or taken for a union variant
    that does not fit, and code that raises but is not reached has no effect. *)
Theorem C77_reading : forall (New : exn -> Prop) ev ev', (forall x, New x -> foreign x) -> raises_more New ev ev' ->
  forall n cls root eas,
  from_xml_tree n ev cls root eas = from_xml_tree n ev' cls root eas \/
  exists x, New x /\ from_xml_tree n ev cls root eas = Raise x.
Proof. intros New ev ev' F H. exact (from_xml_cr F H). Qed.

(** ... and likewise to_xml_tree; here not even a ValidationError is treated specially *)
Theorem C77_writing : forall New ev ev', raises_more New ev ev' ->
  forall n encode v fl,
  to_xml_tree n ev encode v fl = to_xml_tree n ev' encode v fl \/
  exists x, New x /\ to_xml_tree n ev encode v fl = Raise x.
Proof. exact to_xml_cr. Qed.

(** in particular, if user code that would make a difference raises, the call raises *)
Theorem C77_not_swallowed : forall what ev ev', raises_more (eq (XUser what)) ev ev' ->
  forall n cls root eas, from_xml_tree n ev cls root eas <> from_xml_tree n ev' cls root eas ->
  from_xml_tree n ev cls root eas = Raise (XUser what).
Proof.
  intros what ev ev' H n cls root eas D.
  destruct (@C77_reading (eq (XUser what)) ev ev' ltac:(intros x <- err; discriminate) H n cls root eas) as [E|(x & <- & E)];
    [contradiction|auto].
Qed.

(** non-vacuity: pydantic, validating a Node, calls user code that fails for the value "20" *)
Definition touchy (validate : option val -> verdict) (i : option val) : verdict :=
  match i with
  | Some (VDict d) => match dget "value" d with Some (VStr "20") => Crashed "boom" | _ => validate i end
  | _ => validate i
  end.

(** ... and the field serializer of Circle.r fails for "1" *)
Definition touchy_circle (name : string) : option (val -> elem -> val -> out elem) :=
  if String.eqb name "r" then Some (fun _ e x => match x with VStr "1" => Raise (XUser "ouch") | _ => Ok e end) else None.

Definition calm_circle (name : string) : option (val -> elem -> val -> out elem) :=
  if String.eqb name "r" then Some (fun _ e x => Ok e) else None.

Definition with_user_code (validate : (option val -> verdict) -> option val -> verdict)
    (cser : string -> option (val -> elem -> val -> out elem)) (ev : env) : env :=
  Env (en_backend ev) (fun c =>
    option_map (fun m => if String.eqb c "Node" then with_code m (md_cser m) (md_cval m) (validate (md_validate m))
                         else if String.eqb c "Circle" then with_code m cser (md_cval m) (md_validate m) else m)
      (en_model ev c)).

Definition touchy_lib : env := with_user_code touchy touchy_circle (lib Lxml Ordered).
Definition calm_lib : env := with_user_code (fun f => f) calm_circle (lib Lxml Ordered).

Lemma touchy_more : raises_more (fun x => x = XUser "boom" \/ x = XUser "ouch") touchy_lib calm_lib.
Proof.
  split; [reflexivity|]. intros cls. unfold touchy_lib, calm_lib, with_user_code. cbn [en_model].
  assert (Ss : forall (f : string -> option (val -> elem -> val -> out elem)) name, both_there (serializer_raises (fun x => x = XUser "boom" \/ x = XUser "ouch")) (f name) (f name))
    by (intros f name; unfold both_there; destruct (f name); [intros v e x; auto|auto]).
  assert (V : forall (f : string -> option (elem -> out val * elem)) name, both_there (validator_raises (fun x => x = XUser "boom" \/ x = XUser "ouch")) (f name) (f name))
    by (intros f name; unfold both_there; destruct (f name); [intros e; auto|auto]).
  destruct (en_model (lib Lxml Ordered) cls) as [m|]; simpl; auto.
  destruct (String.eqb cls "Node"); [|destruct (String.eqb cls "Circle")].
  - split; [reflexivity|]. split; [intros name; apply Ss|]. split; [intros name; apply V|].
    intros i. cbn [with_code md_validate]. unfold touchy.
    destruct i as [[| | | | | |d| |]|]; auto. destruct (dget "value" d) as [[| | |s| | | | |]|]; auto.
    destruct (string_dec s "20") as [->|Ne]; [right; exists "boom"; auto|]. left.
    destruct s as [|c1 s]; auto. destruct (ascii_dec c1 "2") as [->|N1]; [|destruct c1 as [[] [] [] [] [] [] [] []]; auto; congruence].
    destruct s as [|c2 s]; auto. destruct (ascii_dec c2 "0") as [->|N2]; [|destruct c2 as [[] [] [] [] [] [] [] []]; auto; congruence].
    destruct s as [|c3 s]; auto. congruence.
  - split; [reflexivity|]. split; [|split; [intros name; apply V|intros i; auto]]. intros name.
    cbn [with_code md_cser]. unfold touchy_circle, calm_circle. destruct (String.eqb name "r"); simpl; auto.
    intros v e x. destruct x as [| | |s| | | | |]; auto.
    destruct (string_dec s "1") as [->|Ne]; [right; exists (XUser "ouch"); auto|]. left.
    destruct s as [|c1 s]; auto. destruct (ascii_dec c1 "1") as [->|N1]; [|destruct c1 as [[] [] [] [] [] [] [] []]; auto; congruence].
    destruct s as [|c3 s]; auto. congruence.
  - split; [destruct m; reflexivity|]. split; [intros name; apply Ss|]. split; [intros name; apply V|intros i; auto].
Qed.

(** the exception gets out of the sub-model of a list; another document is read as before *)
Example C77_ex_read :
  from_xml_tree 9 touchy_lib "Node" node_doc false = Raise (XUser "boom") /\
  (exists v, from_xml_tree 9 calm_lib "Node" node_doc false = Ok v) /\
  from_xml_tree 9 touchy_lib "Node" bad_node_doc false = from_xml_tree 9 calm_lib "Node" bad_node_doc false.
Proof. split; [|split]; [vm_compute; reflexivity|eexists; vm_compute; reflexivity|vm_compute; reflexivity]. Qed.

Definition two_circles (r1 r2 : string) : val :=
  VModel "Shapes" [("shapes", VList [VModel "Circle" [("r", VStr r1)] ["r"]; VModel "Circle" [("r", VStr r2)] ["r"]]);
                   ("note", VNone); ("author", VNone); ("extra", VNone)] ["shapes"].

Definition as_data (v : val) : val :=
  VDict [("shapes", VList [VDict [("r", VStr "")]; VDict [("r", VStr "")]]); ("note", VNone); ("author", VNone); ("extra", VNone)].

Example C77_ex_write :
  to_xml_tree 9 touchy_lib as_data (two_circles "2" "1") (Flags false true false) = Raise (XUser "ouch") /\
  (exists t, to_xml_tree 9 touchy_lib as_data (two_circles "2" "3") (Flags false true false) = Ok t /\
             to_xml_tree 9 calm_lib as_data (two_circles "2" "3") (Flags false true false) = Ok t).
Proof. split; [vm_compute; reflexivity|eexists; split; [vm_compute; reflexivity|vm_compute; reflexivity]]. Qed.

(** a ValidationError is treated differently when reading: a union variant that raises one is passed
    over, so that the error need not reach the caller (this is how unions are read, see C32) *)
Definition picky_lib (cval : string -> option (elem -> out val * elem)) : env :=
  Env Lxml (fun c =>
    if String.eqb c "A" then Some (with_code (plain_model "A" "x" [("v", SAttr "v" false)] []) (fun _ => None) cval (accepts "A" []))
    else if String.eqb c "B" then Some (plain_model "B" "x" [("v", SAttr "v" false)] [])
    else if String.eqb c "Top" then
      Some (plain_model "Top" "top" [("u", SUnionModel "Top" false [sub "A" "x" Strict; sub "B" "x" Strict] false)] [])
    else None).

Definition reads_v (e : elem) : out val * elem := (Ok (VStr "read"), e).
Definition rejects_v (e : elem) : out val * elem := (Raise (XValidation (VErr "A" [] false)), e).

Theorem C77_validation_error_refuted : exists err ev ev' root v v',
  raises_more (fun x => x = XValidation err) ev ev' /\
  from_xml_tree 9 ev "Top" root false = Ok v /\ from_xml_tree 9 ev' "Top" root false = Ok v' /\ v <> v'.
Proof.
  exists (VErr "A" [] false), (picky_lib (fun name => if String.eqb name "v" then Some rejects_v else None)),
    (picky_lib (fun name => if String.eqb name "v" then Some reads_v else None)),
    (el "top" [] "" [el "x" [("v", "1")] "" []]),
    (VModel "Top" [("u", VModel "B" [("v", VStr "1")] ["v"])] ["u"]),
    (VModel "Top" [("u", VModel "A" [("v", VStr "read")] ["v"])] ["u"]).
  split; [|split; [vm_compute; reflexivity|split; [vm_compute; reflexivity|discriminate]]].
  split; [reflexivity|]. intros cls. unfold picky_lib. cbn [en_model].
  destruct (String.eqb cls "A"); [|destruct (String.eqb cls "B"); [|destruct (String.eqb cls "Top"); [|exact I]]]; simpl;
    (split; [reflexivity|split; [intros name; exact I|split; [|intros i; auto]]]); try (intros name; exact I).
  intros name. destruct (String.eqb name "v"); simpl; auto.
  intros e. right. exists (XValidation (VErr "A" [] false)). auto.
Qed.

Print Assumptions C77_reading.
Print Assumptions C77_writing.
Print Assumptions C77_not_swallowed.
Print Assumptions C77_validation_error_refuted.
