(** C37: which modules a change affects, for any dependencies, cyclic or not. *)
From Coq Require Import List Arith.
From Verif Require Import GraphModel SessionModel SessionProofs AffectedModel AffectedSpec AffectedProofs.
Import ListNotations.

Theorem C37_affected : forall ms id, exists l, get_modules_affected_by ms id = Val l /\ NoDup l /\
  forall x, In x l <-> depends_on ms x id.
Proof. exact affected_ok. Qed.
Print Assumptions C37_affected.

Theorem C37_reverse_deps : forall ms id, NoDup (direct_deps ms id) /\
  forall x, In x (direct_deps ms id) <-> exists e, nth_error ms x = Some e /\ In id (latest_deps e).
Proof. exact (fun ms id => conj (direct_deps_nodup ms id) (reverse_deps_ok ms id)). Qed.
Print Assumptions C37_reverse_deps.

Example C37_ex : get_modules_affected_by (map (fun deps => fresh_raw deps 0) [[]; [0]; [0; 1]; [2]; []; [4]]) 0 = Val [2; 3; 1].
Proof. vm_compute. reflexivity. Qed.
(** A module in a cycle is affected by itself. *)
Example C37_cycle_ex : get_modules_affected_by (map (fun deps => fresh_raw deps 0) [[1]; [0]]) 0 = Val [1; 0].
Proof. vm_compute. reflexivity. Qed.
