(** SpecThread.v -- what the theorems about threads are stated with. *)

From Verif Require Import Base Elem Native Errs Names Ser Read Write Api Heap HeapRead HeapRead2 HeapWrite SpecHeap3
  Prog ProgRead ProgWrite.

(** ---- threads ---- *)

(** a thread gets its turn: one memory access.  A thread that has ended stays as it is. *)
Definition turn {A} (p : prog A) (h : heap) : prog A * heap :=
  match p with
  | Ret x => (Ret x, h)
  | Stop => (Stop, h)
  | Alloc o k => (k (length h), h ++ [o])
  | Load r k => (k (nth_error h r), h)
  | Store r o k => if Nat.ltb r (length h) then (k true, list_upd r o h) else (k false, h)
  | Size k => (k (length h), h)
  end.

(** threads that share the memory, and a schedule: the numbers of the threads, in the order in which
    they get their turns *)
Fixpoint run_threads {A} (schedule : list nat) (ts : list (prog A)) (h : heap) : list (prog A) * heap :=
  match schedule with
  | [] => (ts, h)
  | i :: rest =>
      match nth_error ts i with
      | None => run_threads rest ts h
      | Some p => let (p', h') := turn p h in run_threads rest (list_upd i p' ts) h'
      end
  end.

(** how many turns thread [i] gets *)
Definition turns (i : nat) (schedule : list nat) : nat := count_occ Nat.eq_dec schedule i.

(** a thread that has not ended *)
Definition running {A} (p : prog A) : Prop :=
  match p with Ret _ | Stop => False | _ => True end.

(** how many accesses a program makes when it runs without interruption *)
Fixpoint accesses {A} (p : prog A) (h : heap) : nat :=
  match p with
  | Ret _ | Stop => 0
  | Alloc o k => S (accesses (k (length h)) (h ++ [o]))
  | Load r k => S (accesses (k (nth_error h r)) h)
  | Store r o k => S (if Nat.ltb r (length h) then accesses (k true) (list_upd r o h) else accesses (k false) h)
  | Size k => S (accesses (k (length h)) h)
  end.

(** the program of one call *)
Definition one_call (nsr : nsmap -> ref) (n : nat) (ev : env) (hv : pcvals) (hs : pcsers) (encode : val -> val)
    (c : call) : prog outcome :=
  match c with
  | CallRead cls root eas => andthen (p_from_xml_tree n ev hv cls root eas) (fun o => Ret (Read o))
  | CallWrite v fl => andthen (p_to_xml_tree nsr n ev hs encode v fl) (fun o => Ret (Written o))
  end.

(** a thread makes some calls, one after the other *)
Fixpoint thread (nsr : nsmap -> ref) (n : nat) (ev : env) (hv : pcvals) (hs : pcsers) (encode : val -> val)
    (cs : list call) : prog (list outcome) :=
  match cs with
  | [] => Ret []
  | c :: rest =>
      andthen (one_call nsr n ev hv hs encode c) (fun o =>
      andthen (thread nsr n ev hv hs encode rest) (fun os => Ret (o :: os)))
  end.

(** a dict that was in memory before the threads were started, for instance a class's nsmap *)
Definition dict_in (h : heap) (r : ref) : Prop := exists d, nth_error h r = Some (ODict d).

(** ---- custom field functions ---- *)

(** a custom function as the heap models take it: run without interruption *)
Definition uninterrupted {A} (f : ref -> prog (out A)) (self : ref) (h : heap) : out A * heap :=
  match go (f self) h with Some r => r | None => (Fuel, []) end.

Definition uninterrupted_vals (hc : pcvals) : hcvals := fun cls name => option_map uninterrupted (hc cls name).
Definition uninterrupted_sers (hc : pcsers) : hcsers := fun cls name =>
  option_map (fun f v self x => uninterrupted (fun self => f v self x) self) (hc cls name).

(** Two runs of a program on two memories, for instance with and without other threads.  [w] pairs the
    objects the program has made so far in the two runs.  Objects of both memories at the same place
    ([shared]) are dicts it may read but not change. *)
Section Local.
  Variable shared : ref -> Prop.

  Definition pairs := list (ref * ref).

  Definition own (w : pairs) (r r' : ref) : Prop := In (r, r') w.
  Definition readable (w : pairs) (r r' : ref) : Prop := own w r r' \/ (r = r' /\ shared r).

  (** a result that may be missing *)
  Definition maybe_rel {A} (R : pairs -> A -> A -> Prop) (w : pairs) (o o' : option A) : Prop :=
    match o, o' with
    | None, None => True
    | Some x, Some x' => R w x x'
    | _, _ => False
    end.
  Definition list_rel {A} (R : pairs -> A -> A -> Prop) (w : pairs) : list A -> list A -> Prop := Forall2 (R w).
  Definition same_as {A} (w : pairs) (x x' : A) : Prop := x = x'.

  (** the same element in the two runs: its attributes, its list of children and the children are the
      program's own; its nsmap may be shared *)
  Inductive node_rel (w : pairs) : node -> node -> Prop :=
  | NodeRel : forall tag ns ns' text tail at_ at_' es es' next line,
      maybe_rel readable w ns ns' -> maybe_rel own w at_ at_' -> own w es es' ->
      node_rel w (Node tag ns text tail at_ es next line) (Node tag ns' text tail at_' es' next line).

  Inductive obj_rel (w : pairs) : obj -> obj -> Prop :=
  | ObjNode : forall n n', node_rel w n n' -> obj_rel w (ONode n) (ONode n')
  | ObjDict : forall d, obj_rel w (ODict d) (ODict d)
  | ObjList : forall l l', list_rel own w l l' -> obj_rel w (OList l) (OList l').

  (** the two runs make the same accesses to corresponding objects, change only objects of their own,
      and end with corresponding results ([R]), whatever else happens in between; the second run may
      have more memory, and the first one may hit the recursion limit *)
  Inductive in_step {A} (R : pairs -> A -> A -> Prop) (w : pairs) : prog A -> prog A -> Prop :=
  | StepRet : forall x x', R w x x' -> in_step R w (Ret x) (Ret x')
  | StepStop : forall p', in_step R w Stop p'
  | StepAlloc : forall o o' k k', obj_rel w o o' ->
      (forall w' r r', incl w w' -> own w' r r' -> in_step R w' (k r) (k' r')) ->
      in_step R w (Alloc o k) (Alloc o' k')
  | StepLoad : forall r r' k k', readable w r r' ->
      (forall w' o o', incl w w' -> obj_rel w' o o' -> in_step R w' (k (Some o)) (k' (Some o'))) ->
      in_step R w (Load r k) (Load r' k')
  | StepStore : forall r r' o o' k k', own w r r' -> obj_rel w o o' ->
      (forall w', incl w w' -> in_step R w' (k true) (k' true)) ->
      in_step R w (Store r o k) (Store r' o' k')
  | StepSize : forall k k', (forall w' n n', incl w w' -> n <= n' -> in_step R w' (k n) (k' n')) ->
      in_step R w (Size k) (Size k').

  (** a custom function works with the element it is given, what belongs to it and what it makes
      itself, not with anything it could share with another thread *)
  Definition local {A} (f : ref -> prog (out A)) : Prop :=
    forall w self self', own w self self' -> in_step same_as w (f self) (f self').

  Definition local_vals (hc : pcvals) : Prop := forall cls name f, hc cls name = Some f -> local f.
  Definition local_sers (hc : pcsers) : Prop := forall cls name f, hc cls name = Some f ->
    forall v x, local (fun self => f v self x).
End Local.
