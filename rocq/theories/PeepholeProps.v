(** C40: boolean branches become straight code. *)
From Coq Require Import List.
From Verif Require Import MirModel WillReturnSpec SimSpec RegModel PeepholeSpec GraphModel EditModel EditSpec
  PeepholeModel PeepholeProofs PeepholeExamples.
Import ListNotations.

(** The pass does not fail.  It leaves a body alone exactly when no branch only
    serves to store a boolean.  Otherwise every such branch becomes straight
    code that stores the condition or its opposite, with a fresh register; dead
    blocks are removed and lines of blocks joined; and every run of a program
    that contains the body, and does not crash the host, goes as before, but for
    which operations are executed. *)
Theorem C40_boolean_branches_straightened : forall d bodies0 bodies f (fn : function (instruction (code d)) operand),
  well_formed_body fn -> closed fn ->
  (materialize_boolean_results fn = Val None /\ forall b q v dst j, ~ diamond fn b q v dst j) \/
  exists fn' mid fn1, materialize_boolean_results fn = Val (Some fn') /\
    (exists b q v dst j, diamond fn b q v dst j) /\
    straightened fn mid /\ remove_unreachable_blocks mid = Val fn1 /\ merge_blocks_into_predecessors fn1 = Val fn' /\
    refines effect_event (register_machine d bodies0) (with_body bodies f fn) (with_body bodies f fn') /\
    well_formed_body fn' /\ (forall b, b < length fn' -> reachable_block fn' b) /\
    (forall p s, ~ mergeable fn' p s).
Proof. exact materialize_keeps. Qed.
Print Assumptions C40_boolean_branches_straightened.

Example C40_meets : well_formed_body flags /\ closed flags /\ diamond flags 0 (OReg 0) false (OParam 1) 3.
Proof. exact (conj flags_well_formed (conj flags_closed flags_diamond)). Qed.
Example C40_sample : materialize_boolean_results flags = Val (Some flags_straight).
Proof. vm_compute. reflexivity. Qed.
Example C40_runs : forall x, flags_run flags x = Some [VBool x; VBool (negb x); VBool (negb x)] /\
  flags_run flags_straight x = flags_run flags x.
Proof. intros [|]; vm_compute; auto. Qed.
