(** A module used to illustrate C39. *)
From Coq Require Import List Arith Bool Lia Permutation.
From Verif Require Import MirModel TermSpec GraphModel WillReturnModel WillReturnSpec WillReturnProofs TermExamples.
Import ListNotations.

(** 0: a leaf with a diamond; 1: calls 0 and the native 2; 2: native;
    3 and 4: mutually recursive; 5: a loop; 6: an unreachable loop, and a call
    of module 9; 7 and 8: mention each other, but only 7 calls 8;
    9: calls through a function value; 10: a yield. *)
Definition sample : list (option (function nat unit)) :=
  [ Some [Block [OPlain 0] (CondBr tt 1 2); Block [OCheckFuel] (Goto 3); Block [] (Goto 3); Block [] Return];
    Some [Block [OCheckCallDepth; OCall (5, 0) 0] (Invoke (OCall (5, 2) 0) 1 2); Block [] Return; Block [] PropagateError];
    None;
    Some [Block [OCall (5, 4) 0] Return];
    Some [Block [OCall (5, 3) 0] Return];
    Some [Block [OCheckFuel] (CondBr tt 0 1); Block [] Return];
    Some [Block [OCall (9, 0) 0] (CondBr tt 2 2); Block [] (Goto 1); Block [] Return];
    Some [Block [OCall (5, 8) 0] Return];
    Some [Block [OPlain 7] Return];
    Some [Block [OHost 0] Return];
    Some [Block [] (Yield 0 1); Block [] Return] ].

Definition sample_mentions (p : nat) : list fid := if p =? 7 then [(5, 7)] else [].
Definition sample_external (f : fid) : bool := snd f =? 0.

Definition sample_machine : machine :=
  small (fun f => if fst f =? 5 then match nth_error sample (snd f) with Some b => b | None => None end else None)
        (5, 0).

Lemma sample_well_formed : well_formed_module sample_mentions 5 sample.
Proof.
  assert (C : forallb (fun body => match body with
    | None => true
    | Some fn => (0 <? length fn) && forallb (fun blk =>
        forallb (fun b => b <? length fn) (successors (term blk)) &&
        forallb (fun o => forallb (fun f => snd f <? length sample) (operation_mentions sample_mentions o))
                (all_operations blk)) fn
    end) sample = true) by reflexivity.
  rewrite forallb_forall in C. intros fn I. specialize (C _ I). cbn beta iota in C.
  apply andb_true_iff in C. destruct C as [CL C]. apply Nat.ltb_lt in CL. rewrite forallb_forall in C.
  split; [split|].
  - intros ->. cbn in CL. lia.
  - intros b b' (blk & N & J). specialize (C blk (nth_error_In _ _ N)). apply andb_true_iff in C.
    destruct C as [C _]. rewrite forallb_forall in C. apply Nat.ltb_lt. apply C. exact J.
  - intros blk o j IB IO N. specialize (C blk IB). apply andb_true_iff in C. destruct C as [_ C].
    rewrite forallb_forall in C. specialize (C o IO). rewrite forallb_forall in C.
    specialize (C (5, j) (proj2 (mentions_names sample_mentions sample_external o (5, j)) N)). apply Nat.ltb_lt in C. exact C.
Qed.

Lemma sample_bodies : forall i, body sample_machine (5, i) = match nth_error sample i with Some b => b | None => None end.
Proof. reflexivity. Qed.

Lemma sample_externals : forall f, fst f <> 5 -> sample_external f = true -> call_returns sample_machine f.
Proof. intros f N _. left. cbn. apply Nat.eqb_neq in N. rewrite N. reflexivity. Qed.
