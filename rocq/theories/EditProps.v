(** C45: the edits of function bodies keep what they do. *)
From Coq Require Import List.
From Verif Require Import MirModel TermSpec WillReturnSpec SimSpec GraphModel EditModel EditSpec EditMerge EditExamples.
Import ListNotations.

(** Removing unreachable blocks does not fail; it keeps exactly the blocks that
    control can reach, in their order, with their operations; and every run of
    a program that contains the body goes as before, operation by operation. *)
Theorem C45_removal_keeps_runs : forall m bodies f (fn : function (payload m) (cond m)),
  well_formed_body fn ->
  exists fn' order, remove_unreachable_blocks fn = Val fn' /\ rearranged fn order fn' /\
    increasing order /\ (forall b, In b order <-> reachable_block fn b) /\
    well_formed_body fn' /\ (forall b, b < length fn' -> reachable_block fn' b) /\
    equivalent any_event m (with_body bodies f fn) (with_body bodies f fn').
Proof. exact removal_keeps. Qed.
Print Assumptions C45_removal_keeps_runs.

Example C45_removal_meets : well_formed_body scattered.
Proof. exact scattered_well_formed. Qed.
Example C45_removal_sample : remove_unreachable_blocks scattered = Val tidy.
Proof. vm_compute. reflexivity. Qed.

(** Reordering places every block once, the entry first, and blocks after the
    blocks that dominate them. *)
Theorem C45_reordering_keeps_runs : forall m bodies f (fn : function (payload m) (cond m)),
  well_formed_body fn ->
  exists fn' order, reorder_blocks_in_reverse_postorder fn = Val fn' /\ rearranged fn order fn' /\
    NoDup order /\ (forall b, In b order <-> b < length fn) /\ nth_error order 0 = Some entry /\
    (forall i j a b, nth_error order i = Some a -> nth_error order j = Some b -> reachable_block fn b ->
     dominates fn a b -> i <= j) /\
    well_formed_body fn' /\
    equivalent any_event m (with_body bodies f fn) (with_body bodies f fn').
Proof. exact reorder_keeps. Qed.
Print Assumptions C45_reordering_keeps_runs.

Example C45_reordering_sample : reorder_blocks_in_reverse_postorder tidy =
  Val [ Block [OPlain 0] (Goto 1); Block [OPlain 6] (Goto 2); Block [] (CondBr tt 4 3);
        Block [] Return; Block [OCheckFuel] (Goto 5); Block [OPlain 2] (Goto 6); Block [OPlain 5] (Goto 2) ].
Proof. vm_compute. reflexivity. Qed.

(** Appending blocks to their only predecessor does not fail, and keeps every
    run; in a body without unreachable blocks it leaves none, and nothing to
    append. *)
Theorem C45_merging_keeps_runs : forall m bodies f (fn : function (payload m) (cond m)),
  well_formed_body fn ->
  exists fn', merge_blocks_into_predecessors fn = Val fn' /\
    equivalent any_event m (with_body bodies f fn) (with_body bodies f fn') /\
    well_formed_body fn' /\ length fn' <= length fn /\
    ((forall b, b < length fn -> reachable_block fn b) ->
     (forall b, b < length fn' -> reachable_block fn' b) /\ forall p s, ~ mergeable fn' p s).
Proof. exact merge_ok. Qed.
Print Assumptions C45_merging_keeps_runs.

Example C45_merging_meets : well_formed_body tidy /\ forall b, b < length tidy -> reachable_block tidy b.
Proof. exact (conj tidy_well_formed tidy_reachable). Qed.
Example C45_merging_sample : merge_blocks_into_predecessors tidy =
  Val [ Block [OPlain 0; OPlain 6] (Goto 1); Block [] (CondBr tt 2 3);
        Block [OCheckFuel; OPlain 2; OPlain 5] (Goto 1); Block [] Return ].
Proof. vm_compute. reflexivity. Qed.

(** With an unreachable block left, its edges still count. *)
Example C45_merging_unreachable : merge_blocks_into_predecessors scattered =
  Val [ Block [OPlain 0; OPlain 6] (Goto 2); Block [OPlain 2; OPlain 5] (Goto 2);
        Block [] (CondBr tt 3 4); Block [OCheckFuel] (Goto 1); Block [] Return ].
Proof. vm_compute. reflexivity. Qed.
