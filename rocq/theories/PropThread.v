(** PropThread.v -- C74: calls in different threads do not affect each other.

    The programs are those of Prog.v, ProgRead.v and ProgWrite.v: trees of single memory accesses.
    The threads share the memory, among other things the classes' nsmap dicts, to which the elements
    they build refer.  A schedule says, access by access, which thread gets its turn; it is any list,
    so threads may be interrupted anywhere, in any order, and for good. *)

From Verif Require Import Base Elem Native Errs Names Ser Read Write Api Heap SpecHeap HeapRead HeapRead2 HeapWrite
  SpecHeap2 SpecHeap3 Prog ProgRead ProgWrite SpecThread.
From Verif Require Import PfThread1 PfThread2 PfThread3 PropHeap2.

(** Whatever the schedule, a thread that has had as many turns as it needs on its own has ended, and
    every one of its calls has given what it gives alone; before that it is still running.  So no
    call fails, or changes its result, or takes more steps, because of what other threads do. *)
Theorem C74_any_schedule : forall nsr maps n ev hv hs encode h,
  customs_as (uninterrupted_vals hv) ev -> covers maps ev -> custom_sers_as nsr maps (uninterrupted_sers hs) ev ->
  placed nsr maps h -> h <> [] -> local_vals (dict_in h) hv -> local_sers (dict_in h) hs ->
  forall threads schedule i cs, nth_error threads i = Some cs ->
  exists p, nth_error (fst (run_threads schedule (map (thread nsr n ev hv hs encode) threads) h)) i = Some p /\
    if accesses (thread nsr n ev hv hs encode cs) h <=? turns i schedule
    then p = Ret (map (alone n ev encode) cs)
    else running p.
Proof.
  intros nsr maps n ev hv hs encode h HV Cov HS P N LV LS threads schedule i cs E.
  destruct (threads_alone (@all_threads nsr maps n ev hv hs encode h HV Cov HS P N LV LS threads) schedule) as [K _].
  apply (K i); rewrite nth_error_map, E; reflexivity.
Qed.

(** Nothing that was in memory before the threads were started is changed, at any moment. *)
Theorem C74_shared_data_unchanged : forall nsr maps n ev hv hs encode h,
  customs_as (uninterrupted_vals hv) ev -> covers maps ev -> custom_sers_as nsr maps (uninterrupted_sers hs) ev ->
  placed nsr maps h -> h <> [] -> local_vals (dict_in h) hv -> local_sers (dict_in h) hs ->
  forall threads schedule x, x < length h ->
  nth_error (snd (run_threads schedule (map (thread nsr n ev hv hs encode) threads) h)) x = nth_error h x.
Proof.
  intros nsr maps n ev hv hs encode h HV Cov HS P N LV LS threads schedule x Hx.
  destruct (threads_alone (@all_threads nsr maps n ev hv hs encode h HV Cov HS P N LV LS threads) schedule) as [_ K].
  apply K; auto.
Qed.

(** The programs are the model of C33 and C64: without interruption, a call does on the memory what
    it does there. *)
Theorem C74_same_program : forall nsr n ev hv hs encode c h,
  match go (one_call nsr n ev hv hs encode c) h with
  | Some (o, h') => run_calls nsr n ev (uninterrupted_vals hv) (uninterrupted_sers hs) encode [c] h = ([o], h')
  | None => snd (run_calls nsr n ev (uninterrupted_vals hv) (uninterrupted_sers hs) encode [c] h) = []
  end.
Proof.
  intros nsr n ev hv hs encode [cls root eas|v fl] h; unfold one_call; rewrite go_andthen; cbn [run_calls].
  - pose proof (from_xml_tree_go n ev hv cls root eas h) as G.
    destruct (go (p_from_xml_tree n ev hv cls root eas) h) as [[o hf]|]; rewrite G; reflexivity.
  - pose proof (to_xml_tree_go nsr n ev hs encode v fl h) as G.
    destruct (go (p_to_xml_tree nsr n ev hs encode v fl) h) as [[o hf]|]; rewrite G; reflexivity.
Qed.

(** ---- a concrete case ---- *)
(** The class of PropHeap2.v; its custom functions as programs. *)
Definition ex_pv : pcvals := fun cls name =>
  if (cls =? "M")%string && (name =? "t")%string
  then Some (fun a => andthen (p_pop_text a) (fun o => Ret (match o with Some t => Ok (str_or_none t) | None => Fuel end)))
  else None.
Definition ex_ps : pcsers := fun cls name =>
  if (cls =? "M")%string && (name =? "t")%string
  then Some (fun _ a x => match x with VStr s => pwlift (p_set_text a s) | _ => pwret tt end)
  else None.

Lemma ex_pv_as : customs_as (uninterrupted_vals ex_pv) ex_env.
Proof.
  intros cls m name E. pose proof (ex_hv_ok cls name E) as K. unfold uninterrupted_vals, ex_pv, ex_hv in *.
  destruct ((cls =? "M")%string && (name =? "t")%string); [|exact K]. cbn [option_map].
  destruct (md_cval m name); [|exact K]. intros h a e F N T. specialize (K h a e F N T). cbv beta in K.
  unfold uninterrupted. rewrite go_andthen. rewrite (same_pop_text a h). destruct (h_pop_text a h) as [[t|] h1]; exact K.
Qed.
Lemma ex_ps_as : custom_sers_as ex_nsr [ex_map] (uninterrupted_sers ex_ps) ex_env.
Proof.
  intros cls m name E. pose proof (ex_hs_ok cls name E) as K. unfold uninterrupted_sers, ex_ps, ex_hs in *.
  destruct ((cls =? "M")%string && (name =? "t")%string); [|exact K]. cbn [option_map].
  destruct (md_cser m name); [|exact K]. intros v x h P. specialize (K v x h P).
  intros a e F N T X. specialize (K a e F N T X).
  unfold uninterrupted. destruct x; try exact K.
  unfold pwlift. rewrite go_andthen. rewrite (same_set_text a s h).
  cbv beta in K. unfold wlift in K. destruct (h_set_text a s h) as [[t|] h1]; exact K.
Qed.
Lemma ex_pv_local : forall sh, local_vals sh ex_pv.
Proof.
  intros sh cls name f E. unfold ex_pv in E. destruct ((cls =? "M")%string && (name =? "t")%string); [|discriminate].
  assert (f = fun a => andthen (p_pop_text a) (fun o => Ret (match o with Some t => Ok (str_or_none t) | None => Fuel end))) by congruence.
  subst f. intros w a a' H. eapply step_andthen; [apply meth_pop_text; exact H|].
  intros w1 [t|] [t'|] _ R; simpl in R; try contradiction; [unfold same_as in R; subst|]; apply StepRet; reflexivity.
Qed.
Lemma ex_ps_local : forall sh, local_sers sh ex_ps.
Proof.
  intros sh cls name f E v x. unfold ex_ps in E. destruct ((cls =? "M")%string && (name =? "t")%string); [|discriminate].
  assert (f = fun _ a x => match x with VStr s => pwlift (p_set_text a s) | _ => pwret tt end) by congruence.
  subst f. intros w a a' H. destruct x; try (apply StepRet; reflexivity).
  eapply step_andthen; [apply meth_set_text; exact H|].
  intros w1 [t|] [t'|] _ R; simpl in R; try contradiction; [unfold same_as in R; subst|]; apply StepRet; reflexivity.
Qed.

(** three threads: one reads a document, one writes a model, reads a document that does not fit and
    writes again, one reads another time *)
Definition ex_threads : list (list call) :=
  [[CallRead "M" ex_doc false];
   [CallWrite ex_val (Flags false false false); CallRead "M" (NElem "other" [] None None [] [] None) false;
    CallWrite ex_val (Flags false false false)];
   [CallRead "M" ex_doc false]].
(** turns: one for each thread, again and again, and then none for the last one any more *)
Definition ex_schedule : list nat := concat (repeat [0; 1; 2] 30) ++ concat (repeat [1; 0; 1] 200).

Definition ended {A} (p : prog A) : option A := match p with Ret x => Some x | _ => None end.

Example C74_ex :
  customs_as (uninterrupted_vals ex_pv) ex_env /\ covers [ex_map] ex_env /\
  custom_sers_as ex_nsr [ex_map] (uninterrupted_sers ex_ps) ex_env /\ placed ex_nsr [ex_map] ex_heap /\ ex_heap <> [] /\
  local_vals (dict_in ex_heap) ex_pv /\ local_sers (dict_in ex_heap) ex_ps /\
  map ended (fst (run_threads ex_schedule (map (thread ex_nsr 10 ex_env ex_pv ex_ps ex_encode) ex_threads) ex_heap)) =
  [Some [Read (Ok ex_val)];
   Some (map (alone 10 ex_env ex_encode)
     [CallWrite ex_val (Flags false false false); CallRead "M" (NElem "other" [] None None [] [] None) false;
      CallWrite ex_val (Flags false false false)]);
   None].
Proof.
  split; [exact ex_pv_as|]. split; [exact ex_covers|]. split; [exact ex_ps_as|]. split; [exact ex_placed|].
  split; [discriminate|]. split; [apply ex_pv_local|]. split; [apply ex_ps_local|].
  vm_compute. reflexivity.
Qed.

Print Assumptions C74_any_schedule.
Print Assumptions C74_shared_data_unchanged.
Print Assumptions C74_same_program.
