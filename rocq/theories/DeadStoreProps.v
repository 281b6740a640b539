(** C52: dropping overwritten stores does not change what a program does. *)
From Coq Require Import List Arith Bool Lia.
From Verif Require Import FrameModel FrameSpec FrameProofs FrameExample.
From Verif Require Import DeadStoreModel DeadStoreSpec DeadStoreProofs DeadStoreLive.
Import ListNotations.

(** The pass ends; it drops exactly the stores of unowned values to private
    cells that no path reads before it overwrites them; if there is none it
    leaves the body alone. *)
Theorem C52_exact : forall trivial p,
  match remove_overwritten_stores trivial p with
  | Some (Some p') => drops_removable trivial p p' /\ exists b i, removable trivial p b i
  | Some None => forall b i, ~ removable trivial p b i
  | None => False
  end.
Proof. exact pass_exact. Qed.
Print Assumptions C52_exact.

(** Every call of a body that passes the verifier and does not panic does, in
    as many blocks, what it did before: on every machine, for all parameters
    and all worlds. *)
Theorem C52_same_calls : forall (other world : Type) (m : machine other world) trivial p p',
  single_definitions p -> no_address_in_cell p ->
  remove_overwritten_stores trivial p = Some (Some p') -> same_calls m p p'.
Proof. exact pass_same. Qed.
Print Assumptions C52_same_calls.

(** The body after the pass. *)
Definition without_dead_stores (trivial : nat -> bool) (p : body) : body :=
  match remove_overwritten_stores trivial p with Some (Some p') => p' | _ => p end.

(** A whole program, each function rewritten: every call of a function that
    ends, ends the same. *)
Theorem C52_same_program : forall (other world : Type) (base : machine other world) enters result
    trivial bodies,
  (forall f, single_definitions (bodies f) /\ no_address_in_cell (bodies f)) ->
  same_program base enters result bodies (fun f => without_dead_stores trivial (bodies f)).
Proof.
  intros other world base enters result trivial bodies H. apply program_same. intros m f.
  unfold without_dead_stores. destruct (H f).
  destruct (remove_overwritten_stores trivial (bodies f)) as [[p'|]|] eqn:E;
    [|intros n params w _; reflexivity|intros n params w _; reflexivity].
  apply same_calls_ends. eapply pass_same; eauto.
Qed.
Print Assumptions C52_same_program.

(** Both branches overwrite what the entry stored, but only one path reads
    the second cell after its first store; that store stays. *)
Definition diamond (drop : bool) : body :=
  [ Block ([alloca 0 0; alloca 1 0] ++ (if drop then [] else [store (number 5) (OReg 0)])
           ++ [store (number 6) (OReg 1); load 2 (OParam 0)])
      (TCondBr (OReg 2) 1 2);
    Block [store (number 7) (OReg 0)] (TGoto 3);
    Block [sum_into (number 1) (number 2) (OReg 0); store (number 9) (OReg 1)] (TGoto 3);
    Block [load 3 (OReg 0); load 4 (OReg 1); sum_into (OReg 3) (OReg 4) (OParam 1)] TReturn ].

Example C52_diamond_example :
  remove_overwritten_stores (fun _ => true) (diamond false) = Some (Some (diamond true)) /\
  call small 9 (diamond false) [VOther 0; VOther 1] [Some (VBool true); None]
  = Returned [Some (VBool true); Some (VOther 13)] /\
  call small 9 (diamond false) [VOther 0; VOther 1] [Some (VBool false); None]
  = Returned [Some (VBool false); Some (VOther 12); Some (VOther 3)] /\
  call small 9 (diamond true) [VOther 0; VOther 1] [Some (VBool false); None]
  = Returned [Some (VBool false); Some (VOther 12); Some (VOther 3)] /\
  single_definitions (diamond false) /\ no_address_in_cell (diamond false).
Proof.
  split; [vm_compute; reflexivity|]. split; [vm_compute; reflexivity|].
  split; [vm_compute; reflexivity|]. split; [vm_compute; reflexivity|]. split.
  - unfold single_definitions. cbn. repeat constructor; cbn; intuition congruence.
  - intros o r r' Ho Hk E _. cbn in Ho.
    repeat (destruct Ho as [<- |Ho]; [cbn in *; discriminate|]). destruct Ho.
Qed.

(** A store that the next turn of a loop reads stays; an owned value stored to
    a dead cell stays; an owned value's cell may still lose another store. *)
Definition loop (drop : bool) : body :=
  [ Block [alloca 0 0; alloca 1 0; store (number 1) (OReg 0)] (TGoto 1);
    Block ([load 2 (OReg 0); Op (KOther true 3) [] (Some 4); store (OReg 4) (OReg 1)]
           ++ (if drop then [] else [store (OReg 2) (OReg 1)])
           ++ [store (number 2) (OReg 0); load 3 (OParam 0)])
      (TCondBr (OReg 3) 1 2);
    Block [] TReturn ].

Example C52_loop_example :
  remove_overwritten_stores (fun _ => true) (loop false) = Some (Some (loop true)) /\
  remove_overwritten_stores (fun _ => false) (loop false) = Some None /\
  removable (fun _ => true) (loop false) 1 3 /\ ~ removable (fun _ => true) (loop false) 1 2.
Proof.
  assert (E : remove_overwritten_stores (fun _ => true) (loop false) = Some (Some (loop true)))
    by (vm_compute; reflexivity).
  split; [exact E|]. split; [vm_compute; reflexivity|].
  pose proof (C52_exact (fun _ => true) (loop false)) as H. rewrite E in H.
  destruct H as [[_ H] _]. destruct (H 1 _ eq_refl) as (keep & bl' & Eb & _ & Hl & Eo & Hk).
  inversion Eb; subst bl'. cbn in Hl, Eo.
  do 6 (destruct keep as [|? keep]; [discriminate|]). destruct keep; [|discriminate].
  destruct b, b0, b1, b2, b3, b4; cbn in Eo; try discriminate Eo. split.
  - apply Hk; cbn; auto; lia.
  - intros Hr. apply Hk in Hr; cbn in *; [discriminate|lia].
Qed.
