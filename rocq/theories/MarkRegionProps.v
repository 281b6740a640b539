(** C70: dropping the stack regions that reclaim nothing changes nothing. *)
From Coq Require Import List Arith Bool Lia.
From Verif Require Import MarkModel MarkSpec MarkMachine MarkRegionModel MarkRegionSpec MarkRegionProofs.
Import ListNotations.

(** Of the operations that are left it removes exactly the saves and restores of
    the empty regions: in one block, restored at one place, and nothing between
    them leaves a cell but regions that take it back. *)
Theorem C70_removes_exactly_the_empty : forall f gone,
  without f (fun p => In p gone \/ useless_mark f gone p)
    (delete (remove_empty_local_stack_regions f gone) f).
Proof. intros f gone. apply delete_without. apply removed_exact. Qed.
Print Assumptions C70_removes_exactly_the_empty.

(** No operation is left that restores a marker whose save is removed. *)
Theorem C70_no_lost_marker : forall f gone, verified f -> saves_kept f gone ->
  no_lost_marker f (delete (remove_empty_local_stack_regions f gone) f).
Proof. exact no_lost. Qed.
Print Assumptions C70_no_lost_marker.

(** The function computes the same as without the removal of the regions, and
    every operation that is left finds as many cells as before; functions that
    yield are covered as well. *)
Theorem C70_behaviour_same : forall W (m : machine W) f gone n c w,
  honest m -> verified f -> start m (delete gone f) n c w <> Unnested ->
  start m (delete (remove_empty_local_stack_regions f gone) f) n c w = start m (delete gone f) n c w.
Proof.
  intros W m f gone n c w Hm V U.
  apply (run_alike m f gone Hm (one_save f V) (invoked_fallible f V)); [|exact U].
  split; reflexivity.
Qed.
Print Assumptions C70_behaviour_same.

(** The allocation in the outer region at the front is gone, so that both
    regions there are empty; the region of the marker 3 takes a cell, the region
    around it takes none. *)
Example example_removed :
  delete (remove_empty_local_stack_regions hollow [(0, 1)]) hollow =
  [ mkBlock [work 0; save 3; alloc 11; restore 3; work 1] Return ].
Proof. vm_compute. reflexivity. Qed.

Example example_hypotheses : verified hollow /\ honest (logging 0) /\ saves_kept hollow [(0, 1)].
Proof.
  split; [exact hollow_verified|]. split; [exact (logging_honest 0)|].
  intros p o O [E|[]]. subst p. destruct O as (bl & H & N). cbn in H. inversion H; subst.
  cbn in N. inversion N; subst. discriminate.
Qed.

Example example_runs : start (logging 0) (delete [(0, 1)] hollow) 2 3 [] = Returned 3 [3; 3; 3].
Proof. vm_compute. reflexivity. Qed.
