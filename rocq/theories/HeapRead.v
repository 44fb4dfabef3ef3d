(** HeapRead.v -- union.py's use of snapshots, over the heap of Heap.v.

    Read.v models the loop of [ModelSerializer.deserialize] (union.py:135-158) on trees, where
    "working on a snapshot" is "working on a copy".  This file models the same loop with
    references; PropHeap.v proves that the two agree. *)

From Verif Require Import Base Elem Native Errs Names Ser Read Heap SpecHeap.

(** [serializer.deserialize(element, ...)] on the heap: the outcome, the source map and the heap *)
Definition hreader := bool -> location -> ref -> smap -> heap -> (out val * smap) * heap.

(** union.py:135-158.  The recursion limit of [create_snapshot] is taken to be large enough
    (the size of the heap bounds the depth of any tree on it); [Fuel] marks the exceptions the
    element methods raise on broken heaps.  Should the limit not be enough, nothing of the heap is
    kept, so that no theorem about what is left on the heap holds by accident. *)
Fixpoint h_read_variants (rs : list hreader) (title : string) (hide eas : bool) (loc : location)
    (errors : dict verr) (self : ref) (sm : smap) (h : heap) : (out val * smap) * heap :=
  match rs with
  | [] =>
      match errors with
      | _ :: _ =>
          match h_step_forward self h with
          | (Some _, h') =>
              (Raise (XValidation (into_validation_error title
                       (map (fun kv => (Some (LKey (fst kv)), snd kv)) errors) hide)), sm, h')
          | (None, h') => (Fuel, sm, h')
          end
      | [] => (Ok VNone, sm, h)
      end
  | r :: rs' =>
      match h_create_snapshot (length h) self h with
      | (None, _) => (Fuel, sm, [])
      | (Some snapshot, h1) =>
          match r eas loc snapshot sm h1 with
          | (Ok VNone, sm', h2) => h_read_variants rs' title hide eas loc errors self sm' h2
          | (Ok v, sm', h2) =>
              match h_apply_snapshot self snapshot h2 with
              | (Some _, h3) => (Ok v, sm', h3)
              | (None, h3) => (Fuel, sm', h3)
              end
          | (Raise (XValidation err), sm', h2) =>
              h_read_variants rs' title hide eas loc (dset (ve_title err) err errors) self sm' h2
          | (Raise x, sm', h2) => (Raise x, sm', h2)
          | (Fuel, sm', h2) => (Fuel, sm', h2)
          end
      end
  end.

(** a heap reader does on the heap what a tree reader does on trees without sharing *)
Definition reads_as (hr : hreader) (r : reader) : Prop :=
  forall eas loc h a e F N sm, tree h a e F N ->
  exists h' F' N',
    hr eas loc a sm h = ((fst (r eas loc (St e sm)), st_sm (snd (r eas loc (St e sm)))), h') /\
    tree h' a (st_el (snd (r eas loc (St e sm)))) F' N' /\
    only_changes F h h' /\ from_or_new F h F' /\ from_or_new (F ++ N) h N'.
