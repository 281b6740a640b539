(** C53: forwarding stored booleans to the branch that tests them does not
    change what a program does. *)
From Coq Require Import List Arith Bool Lia Relations.
From Verif Require Import FrameModel FrameSpec FrameProofs FrameExample.
From Verif Require Import BranchForwardModel BranchForwardSpec BranchForwardProofs.
Import ListNotations.

(** A call of a body that does not panic goes through the same answers after
    the pass, in no more blocks: on every machine with booleans, for all
    parameters and all worlds. *)
Theorem C53_same_runs : forall (other world : Type) (m : machine other world) bool_type p p',
  boolean_machine m -> single_definitions p ->
  forward_boolean_branches bool_type p = Some p' -> same_runs m p p'.
Proof. exact @pass_same_runs. Qed.
Print Assumptions C53_same_runs.

(** The body after the pass. *)
Definition with_forwarded_branches (bool_type : nat) (p : body) : body :=
  match forward_boolean_branches bool_type p with Some p' => p' | None => p end.

(** A whole program, each function rewritten: every call of a function that
    ends, ends the same. *)
Theorem C53_same_program : forall (other world : Type) (base : machine other world) enters result
    bool_type bodies,
  boolean_machine base -> (forall f, single_definitions (bodies f)) ->
  same_program base enters result bodies (fun f => with_forwarded_branches bool_type (bodies f)).
Proof.
  intros other world base enters result bool_type bodies Hb H. apply program_same_on. intros n depth f.
  unfold with_forwarded_branches.
  destruct (forward_boolean_branches bool_type (bodies f)) as [p'|] eqn:E;
    [|intros k params w _; reflexivity].
  apply same_runs_ends. eapply pass_same_runs; eauto. now apply program_boolean.
Qed.
Print Assumptions C53_same_program.

(** When the pass rewrites a body, control no longer reaches some test of a
    flag. *)
Theorem C53_removes_test : forall bool_type p p',
  forward_boolean_branches bool_type p = Some p' -> entry_once p ->
  exists b flag, tests_flag p b flag /\ ~ reachable p' b.
Proof. exact pass_removes_test. Qed.
Print Assumptions C53_removes_test.

(** The search for the stores before a test is never cut short by the fuel of
    the model. *)
Theorem C53_search_ends : forall p join u visited pending found fuel,
  forward_boolean_blocks < fuel + length visited ->
  forall more, walk_back (fuel + more) p join u visited pending found
    = walk_back fuel p join u visited pending found.
Proof. intros. now apply walk_back_fuel. Qed.
Print Assumptions C53_search_ends.

Definition yes_no (b : bool) : operand := OConst (LBool b).
Definition stack_save (r : nat) : operation := Op KStackSave [] (Some r).
Definition stack_restore (r : nat) : operation := Op KStackRestore [OReg r] None.
Definition equal_to (r : nat) (s : operand) (b : bool) : operation :=
  Op KCompareEqual [s; OPattern (LBool b)] (Some r).

(** [a or b]: the deeper arms reach the test through a block that restores the
    stack. *)
Definition either (forwarded : bool) : body :=
  [ Block [alloca 0 7; stack_save 1; load 2 (OParam 0)] (TCondBr (OReg 2) 1 2);
    Block ([store (yes_no true) (OReg 0)] ++ (if forwarded then [] else []))
      (TGoto (if forwarded then 7 else 6));
    Block [load 3 (OParam 1)] (TCondBr (OReg 3) 3 4);
    Block ([store (yes_no true) (OReg 0)] ++ (if forwarded then [stack_restore 1] else []))
      (TGoto (if forwarded then 7 else 5));
    Block ([store (yes_no false) (OReg 0)] ++ (if forwarded then [stack_restore 1] else []))
      (TGoto (if forwarded then 8 else 5));
    Block [stack_restore 1] (TGoto 6);
    Block [load 4 (OReg 0)] (TCondBr (OReg 4) 7 8);
    Block [sum_into (number 1) (number 2) (OParam 2)] TReturn;
    Block [sum_into (number 3) (number 4) (OParam 2)] TReturn ].

Lemma small_boolean : boolean_machine small.
Proof. intros b. split; reflexivity. Qed.

Example C53_either_example :
  forward_boolean_branches 7 (either false) = Some (either true) /\
  forward_boolean_branches 8 (either false) = None /\
  (forall a b, call small 9 (either false) [VOther 0; VOther 1; VOther 2] [Some (VBool a); Some (VBool b); None]
   = Returned [Some (VBool a); Some (VBool b); Some (VOther (if a || b then 3 else 7))]) /\
  (forall a b, call small 9 (either true) [VOther 0; VOther 1; VOther 2] [Some (VBool a); Some (VBool b); None]
   = Returned [Some (VBool a); Some (VBool b); Some (VOther (if a || b then 3 else 7))]) /\
  single_definitions (either false) /\ entry_once (either false) /\
  reachable (either false) 6 /\ ~ reachable (either true) 6.
Proof.
  assert (E : forward_boolean_branches 7 (either false) = Some (either true)) by (vm_compute; reflexivity).
  assert (Hentry : entry_once (either false)).
  { intros b (bl & Eb & H). do 9 (destruct b as [|b]; [inversion Eb; subst bl; cbn in H; intuition discriminate|]).
    destruct b; discriminate. }
  split; [exact E|]. split; [vm_compute; reflexivity|].
  split; [intros [|] [|]; vm_compute; reflexivity|]. split; [intros [|] [|]; vm_compute; reflexivity|].
  split; [unfold single_definitions; cbn; repeat constructor; cbn; intuition congruence|].
  split; [exact Hentry|]. split.
  - apply (Relation_Operators.rtn1_trans _ _ 0 1); [eexists; split; [reflexivity|]; cbn; auto|].
    apply (Relation_Operators.rtn1_trans _ _ 0 0); [eexists; split; [reflexivity|]; cbn; auto|]. constructor.
  - eapply join_unreachable; [exact E|exact Hentry|vm_compute; reflexivity].
Qed.

(** A test for [false] swaps the ways; the test that has its own block as a
    target, a flag stored twice in a block, and a flag read elsewhere stop the
    pass. *)
Definition negated (kept : operation) (s : bool) (target : nat) : body :=
  [ Block [alloca 0 7; load 1 (OParam 0)] (TCondBr (OReg 1) 1 2);
    Block [store (yes_no true) (OReg 0)] (TGoto (if s then 5 else 3));
    Block [kept; store (yes_no false) (OReg 0)] (TGoto (if s then 4 else 3));
    Block [equal_to 2 (OReg 0) false] (TCondBr (OReg 2) target 5);
    Block [sum_into (number 1) (number 2) (OParam 1)] TReturn;
    Block [sum_into (number 3) (number 4) (OParam 1)] TReturn ].

Example C53_negated_example :
  let nothing := Op (KOther false 0) [] None in
  forward_boolean_branches 7 (negated nothing false 4) = Some (negated nothing true 4) /\
  forward_boolean_branches 7 (negated nothing false 3) = None /\
  forward_boolean_branches 7 (negated (store (yes_no true) (OReg 0)) false 4) = None /\
  forward_boolean_branches 7 (negated (load 3 (OReg 0)) false 4) = None /\
  call small 9 (negated nothing false 4) [VOther 0; VOther 1] [Some (VBool true); None]
  = Returned [Some (VBool true); Some (VOther 7)] /\
  call small 9 (negated nothing true 4) [VOther 0; VOther 1] [Some (VBool true); None]
  = Returned [Some (VBool true); Some (VOther 7)].
Proof. cbv zeta. repeat (split; [vm_compute; reflexivity|]). vm_compute. reflexivity. Qed.
