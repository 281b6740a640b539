(** A body used to illustrate C45. *)
From Coq Require Import List Arith Bool Lia.
From Verif Require Import MirModel TermSpec WillReturnSpec EditSpec.
Import ListNotations.

(** Block 1 is not reachable; 4, 2 and 5 form a line; the loop head 3 precedes
    nothing in the table but dominates 4. *)
Definition scattered : function nat unit :=
  [ Block [OPlain 0] (Goto 6);
    Block [OPlain 1] (Goto 2);
    Block [OPlain 2] (Goto 5);
    Block [] (CondBr tt 4 7);
    Block [OCheckFuel] (Goto 2);
    Block [OPlain 5] (Goto 3);
    Block [OPlain 6] (Goto 3);
    Block [] Return ].

Lemma scattered_well_formed : well_formed_body scattered.
Proof.
  split; [discriminate|]. intros b b' (blk & N & I).
  assert (C : forallb (fun blk => forallb (fun b => b <? 8) (successors (term blk))) scattered = true) by reflexivity.
  rewrite forallb_forall in C. specialize (C blk (nth_error_In _ _ N)). rewrite forallb_forall in C.
  apply Nat.ltb_lt, C, I.
Qed.

(** What is left of it without block 1. *)
Definition tidy : function nat unit :=
  [ Block [OPlain 0] (Goto 5);
    Block [OPlain 2] (Goto 4);
    Block [] (CondBr tt 3 6);
    Block [OCheckFuel] (Goto 1);
    Block [OPlain 5] (Goto 2);
    Block [OPlain 6] (Goto 2);
    Block [] Return ].

Lemma tidy_well_formed : well_formed_body tidy.
Proof.
  split; [discriminate|]. intros b b' (blk & N & I).
  assert (C : forallb (fun blk => forallb (fun b => b <? 7) (successors (term blk))) tidy = true) by reflexivity.
  rewrite forallb_forall in C. specialize (C blk (nth_error_In _ _ N)). rewrite forallb_forall in C.
  apply Nat.ltb_lt, C, I.
Qed.

Lemma tidy_reachable : forall b, b < length tidy -> reachable_block tidy b.
Proof.
  assert (R0 : reachable_block tidy 0) by constructor.
  assert (ST : forall a b, reachable_block tidy a -> (exists blk, nth_error tidy a = Some blk /\ In b (successors (term blk))) ->
    reachable_block tidy b) by (intros a b H F; exact (reachable_next tidy a b H F)).
  assert (R5 : reachable_block tidy 5) by (apply (ST 0); [exact R0|eexists; split; [reflexivity|cbn; auto]]).
  assert (R2 : reachable_block tidy 2) by (apply (ST 5); [exact R5|eexists; split; [reflexivity|cbn; auto]]).
  assert (R3 : reachable_block tidy 3) by (apply (ST 2); [exact R2|eexists; split; [reflexivity|cbn; auto]]).
  assert (R6 : reachable_block tidy 6) by (apply (ST 2); [exact R2|eexists; split; [reflexivity|cbn; auto]]).
  assert (R1 : reachable_block tidy 1) by (apply (ST 3); [exact R3|eexists; split; [reflexivity|cbn; auto]]).
  assert (R4 : reachable_block tidy 4) by (apply (ST 1); [exact R1|eexists; split; [reflexivity|cbn; auto]]).
  intros b L. cbn in L. do 7 (destruct b as [|b]; [assumption|]). lia.
Qed.
