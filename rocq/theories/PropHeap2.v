(** PropHeap2.v -- C33: reading and writing over references is reading and writing on trees.
    C64: calls leave no trace on objects that were there before.

    Read.v and Write.v work on trees, where "change the child the reference points to" is "put the
    changed child back".  HeapRead2.v and HeapWrite.v model the same methods with references, dicts
    and lists on a heap. *)

From Verif Require Import Base Elem Native Errs Names Ser Read Write Api Heap SpecHeap HeapRead HeapRead2 HeapWrite
  SpecHeap2 SpecHeap3.
From Verif Require Import PfHeap3 PfHeap9 PfHeap10.

(** Every serializer object, whatever it is made of, reads over references exactly as it reads on
    trees: same value or exception, same source map, same remaining element; nothing outside the
    element changes.  Custom field validators are any functions of the element. *)
Theorem C33_reading_agrees : forall ev hc, customs_as hc ev -> forall n s, reads_as (h_read n ev hc s) (read n ev s).
Proof. exact read_as. Qed.

(** Every serializer object writes over references exactly as it writes on trees, although the new
    elements share the serializers' nsmap dicts: same tree or exception; nothing outside the element
    changes, in particular no nsmap. *)
Theorem C33_writing_agrees : forall nsr maps ev hc, covers maps ev -> custom_sers_as nsr maps hc ev ->
  forall n s, incl (ser_maps s) maps -> writes_as nsr maps (h_write nsr n ev hc s) (write n ev s).
Proof. exact write_as. Qed.

(** Reading a tree gives the same result on every heap and changes nothing that was there. *)
Theorem C64_reading_leaves_no_trace : forall n ev hc cls root eas h, customs_as hc ev ->
  fst (h_from_xml_tree n ev hc cls root eas h) = from_xml_tree n ev cls root eas /\
  forall x, x < length h -> nth_error (snd (h_from_xml_tree n ev hc cls root eas h)) x = nth_error h x.
Proof.
  intros n ev hc cls root eas h H. destruct (@from_xml_tree_as n ev hc cls root eas h H) as [h' [E C]].
  rewrite E. split; [reflexivity|]. intros x Hx. apply (only_changes_nil C Hx).
Qed.

(** Writing a model gives the same tree on every heap that holds the classes' nsmaps and changes
    nothing that was there. *)
Theorem C64_writing_leaves_no_trace : forall nsr maps n ev hc encode v fl h,
  covers maps ev -> custom_sers_as nsr maps hc ev -> placed nsr maps h ->
  fst (h_to_xml_tree nsr n ev hc encode v fl h) = to_xml_tree n ev encode v fl /\
  forall x, x < length h -> nth_error (snd (h_to_xml_tree nsr n ev hc encode v fl h)) x = nth_error h x.
Proof.
  intros nsr maps n ev hc encode v fl h Cov HC P.
  destruct (@to_xml_tree_as nsr maps ev hc Cov HC n encode v fl h P) as [h' [E C]].
  rewrite E. split; [reflexivity|]. intros x Hx. apply (only_changes_nil C Hx).
Qed.

(** In any program, however many calls it makes and whether or not they fail, every call gives what
    it gives on its own. *)
Theorem C64_calls_independent : forall nsr maps n ev hv hs encode,
  customs_as hv ev -> covers maps ev -> custom_sers_as nsr maps hs ev -> forall cs h, placed nsr maps h ->
  fst (run_calls nsr n ev hv hs encode cs h) = map (alone n ev encode) cs /\
  forall x, x < length h -> nth_error (snd (run_calls nsr n ev hv hs encode cs h)) x = nth_error h x.
Proof.
  intros nsr maps n ev hv hs encode HV Cov HS cs; induction cs as [|[cls root eas|v fl] cs IH]; intros h P.
  - split; [reflexivity|]. auto.
  - cbn [run_calls map alone].
    destruct (@from_xml_tree_as n ev hv cls root eas h HV) as [h1 [E C]]. rewrite E. pose proof C as [L _].
    assert (P1 : placed nsr maps h1).
    { eapply placed_keeps; [exact P| |exact C]. intros x _ []. }
    destruct (IH h1 P1) as [E1 K1]. destruct (run_calls nsr n ev hv hs encode cs h1) as [os h2]. cbn [fst snd] in *.
    split; [congruence|]. intros x Hx. rewrite K1 by lia. apply (only_changes_nil C Hx).
  - cbn [run_calls map alone].
    destruct (@to_xml_tree_as nsr maps ev hs Cov HS n encode v fl h P) as [h1 [E C]]. rewrite E. pose proof C as [L _].
    assert (P1 : placed nsr maps h1).
    { eapply placed_keeps; [exact P| |exact C]. intros x _ []. }
    destruct (IH h1 P1) as [E1 K1]. destruct (run_calls nsr n ev hv hs encode cs h1) as [os h2]. cbn [fst snd] in *.
    split; [congruence|]. intros x Hx. rewrite K1 by lia. apply (only_changes_nil C Hx).
Qed.

(** ---- a concrete case ---- *)
(** A class with an attribute, a list of elements, a text two elements down and a field with a
    custom validator and a custom serializer. *)
Definition ex_map : nsmap := [("p", "urn:p")].
Definition ex_pop : elem -> out val * elem := fun e => let (t, e') := pop_text e in (Ok (str_or_none t), e').
Definition ex_put : val -> elem -> val -> out elem := fun _ e x =>
  match x with VStr s => Ok (set_text s e) | _ => Ok e end.
Definition ex_model : mdef := MDef "M" false "m" (Some ex_map)
  [("a", SAttr "a" false); ("i", SHomo "M" false (SElem "i" (Some ex_map) Strict false false) false);
   ("q", SWrap ["p"; "q"] (Some ex_map) Strict false (SText false false)); ("t", SText false false)]
  [] [] false true None
  (fun name => if (name =? "t")%string then Some ex_put else None)
  (fun name => if (name =? "t")%string then Some ex_pop else None)
  (fun input => match input with
                | Some (VDict d) => Valid (VModel "M" d (map fst d))
                | _ => Valid VNone
                end).
Definition ex_env : env := Env Lxml (fun cls => if (cls =? "M")%string then Some ex_model else None).
Definition ex_hv : hcvals := fun cls name =>
  if (cls =? "M")%string && (name =? "t")%string
  then Some (fun a h => match h_pop_text a h with
                        | (Some t, h') => (Ok (str_or_none t), h')
                        | (None, h') => (Fuel, h')
                        end)
  else None.
Definition ex_hs : hcsers := fun cls name =>
  if (cls =? "M")%string && (name =? "t")%string
  then Some (fun _ a x => match x with VStr s => wlift (h_set_text a s) | _ => wret tt end)
  else None.
Definition ex_nsr : nsmap -> ref := fun _ => 1.
(** a heap with other things on it *)
Definition ex_heap : heap := [OList [7; 7]; ODict ex_map; ODict [("x", "y")]].
Definition ex_doc : native :=
  NElem "m" [] (Some "t") None [("a", "1")]
    [NElem "i" [] (Some "x") None [] [] (Some 2%Z); NElem "i" [] (Some "y") None [] [] (Some 3%Z);
     NElem "p" [] None None [] [NElem "q" [] (Some "z") None [] [] (Some 5%Z)] (Some 4%Z)] (Some 1%Z).
Definition ex_val : val :=
  VModel "M" [("a", VStr "1"); ("i", VList [VStr "x"; VStr "y"]); ("q", VStr "z"); ("t", VStr "t")] ["a"; "i"; "q"; "t"].
Definition ex_encode (v : val) : val := match v with VModel _ d _ => VDict d | _ => v end.

Lemma ex_hv_ok : customs_as ex_hv ex_env.
Proof.
  intros cls m name E. unfold ex_env in E. simpl in E. unfold ex_hv.
  destruct (cls =? "M")%string; [|discriminate]. inversion E; subst m. simpl.
  destruct (name =? "t")%string; [|exact I].
  intros h a e F N T. destruct (pop_text_impl T) as [h' [F' [N' [E1 R]]]].
  exists h', F', N'. rewrite E1. simpl. split; [reflexivity|exact R].
Qed.
Lemma ex_hs_ok : custom_sers_as ex_nsr [ex_map] ex_hs ex_env.
Proof.
  intros cls m name E. unfold ex_env in E. simpl in E. unfold ex_hs.
  destruct (cls =? "M")%string; [|discriminate]. inversion E; subst m. simpl.
  destruct (name =? "t")%string; [|exact I].
  intros v x. destruct x; try apply wa_ret.
  apply wa_lift with (f := set_text s). apply set_text_impl.
Qed.
Lemma ex_covers : covers [ex_map] ex_env.
Proof.
  intros cls m E. unfold ex_env in E. simpl in E. destruct (cls =? "M")%string; [|discriminate]. inversion E; subst m.
  intros x Hx. simpl in Hx. simpl. intuition.
Qed.
Lemma ex_placed : placed ex_nsr [ex_map] ex_heap.
Proof. intros m [<-|[]]. reflexivity. Qed.

(** reading, writing what was read, a call that fails, and reading again *)
Example C64_ex :
  customs_as ex_hv ex_env /\ covers [ex_map] ex_env /\ custom_sers_as ex_nsr [ex_map] ex_hs ex_env /\
  placed ex_nsr [ex_map] ex_heap /\
  fst (run_calls ex_nsr 10 ex_env ex_hv ex_hs ex_encode
         [CallRead "M" ex_doc false; CallWrite ex_val (Flags false false false);
          CallRead "M" (NElem "other" [] None None [] [] None) false; CallRead "M" ex_doc false] ex_heap) =
  [Read (Ok ex_val);
   Written (Ok (NElem "m" [(Some "p", "urn:p")] (Some "t") None [("a", "1")]
     [NElem "i" [(Some "p", "urn:p")] (Some "x") None [] [] None;
      NElem "i" [(Some "p", "urn:p")] (Some "y") None [] [] None;
      NElem "p" [(Some "p", "urn:p")] None None []
        [NElem "q" [(Some "p", "urn:p")] (Some "z") None [] [] None] None] None));
   Read (Raise XParsing); Read (Ok ex_val)].
Proof.
  split; [exact ex_hv_ok|]. split; [exact ex_covers|]. split; [exact ex_hs_ok|]. split; [exact ex_placed|].
  vm_compute. reflexivity.
Qed.

Print Assumptions C33_reading_agrees.
Print Assumptions C33_writing_agrees.
Print Assumptions C64_reading_leaves_no_trace.
Print Assumptions C64_writing_leaves_no_trace.
Print Assumptions C64_calls_independent.
