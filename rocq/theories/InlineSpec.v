(** What it means for inlining to change no behaviour, and what it relies on. *)
From Coq Require Import List Arith Bool.
From Verif Require Import InlineModel InlineMachine.
Import ListNotations.

(** Two runs agree when, unless the first one panicked, either both are still
    going or both have ended in the same way: with the same world, and with
    the same failure if they failed. *)
Inductive agrees {pl v t fa po w} : status pl v t fa po w -> status pl v t fa po w -> Prop :=
| agrees_panicked : forall s, agrees Panicked s
| agrees_running : forall st w st' w', agrees (Running st w) (Running st' w')
| agrees_done : forall o, agrees (Done o) (Done o).

(** A program with the body of one function replaced. *)
Definition replace (P : program) (f : fid) (F : function) : program :=
  fun g => if fid_eqb g f then Some F else P g.

Section Laws.
  Variable d : dialect.
  Local Notation resolved := (resolved (place d) (value d) (tag d)).
  Local Notation act := (act (place d) (value d) (tag d) (failure d) (poisoning d) (world d)).

  (** What a callee reads in a parameter, and what the operand its caller
      passed reads as: a place and the value that stands for the place, or
      evidence in a parameter and the evidence itself. *)
  Inductive sees : resolved -> resolved -> Prop :=
  | sees_same : forall x, sees x x
  | sees_place : forall p v, value_place d v = Some p -> sees (RBound (BPlace p)) (RBound (BValue v))
  | sees_dict : forall n, sees (RBound (BDict n)) (RDict n).

  (** Two operations that do the same, unless the first panics, and that move
      values out of the operands [Q] only. *)
  Inductive act_sim (Q : nat -> Prop) : act -> act -> Prop :=
  | sim_panic : forall a, act_sim Q Panic a
  | sim_finish : forall w ms r, Forall (fun m => Q (fst m)) ms ->
      act_sim Q (Finish w ms r) (Finish w ms r)
  | sim_fail : forall w ms e, Forall (fun m => Q (fst m)) ms ->
      act_sim Q (Fail w ms e) (Fail w ms e)
  | sim_poison : forall w e, act_sim Q (Poison w e) (Poison w e)
  | sim_call : forall g bs w k k', (forall r w, act_sim Q (k r w) (k' r w)) ->
      act_sim Q (Call g bs w k) (Call g bs w k').

  (** Operations are transparent: they do the same with a place and with a
      value that stands for the place, and move values out of registers that
      hold one. *)
  Record lawful : Prop := {
    exec_transparent : forall k xs xs' w, Forall2 sees xs xs' ->
      act_sim (fun i => exists v, nth_error xs i = Some (RBound (BValue v)))
              (exec d k xs w) (exec d k xs' w);
    branch_transparent : forall x x' w b, sees x x' -> branch d x w = Some b -> branch d x' w = Some b
  }.
End Laws.

(** * What the verifier of MIR ensures (src/mir/verify.rs) *)

(** The blocks reached with a failure in flight. *)
Inductive in_cleanup (bs : list block) : nat -> Prop :=
| cleanup_edge : forall b ops o n e, nth_error bs b = Some (Block ops (TInvoke o n e)) -> in_cleanup bs e
| cleanup_flow : forall b B c, in_cleanup bs b -> nth_error bs b = Some B ->
    In c (successors (b_term B)) -> in_cleanup bs c.

(** Normal and error flow never join: no failure is in flight at a return. *)
Definition returns_clean (F : function) : Prop :=
  forall b ops, in_cleanup (f_blocks F) b -> nth_error (f_blocks F) b <> Some (Block ops TReturn).

(** A direct call. *)
Definition calls (F : function) (g : fid) (args : list operand) : Prop :=
  exists B o y, In B (f_blocks F) /\ In o (block_operations B) /\ o_kind o = KCall y /\
    o_operands o = OFunction g :: args.

(** A function that calls itself checks the call depth (src/hir/emit_functions.rs
    wrap_body_with_call_depth_check_if_recursive). *)
Definition guards_recursion (f : fid) (F : function) : Prop :=
  (exists args, calls F f args) ->
  exists B o, In B (f_blocks F) /\ In o (b_ops B) /\ o_kind o = KCheckDepth.

(** No call with a body passes a symbolic subscript as evidence. *)
Definition no_subscript_argument (P : program) (F : function) : Prop :=
  forall g G args s, calls F g args -> P g = Some G -> ~ In (OSubscript s) args.

(** Everything a body names exists. *)
Definition operand_ok (F : function) (o : operand) : Prop :=
  match o with
  | OParam i => i < length (f_params F)
  | OReg r => In r (flat_map results (f_blocks F))
  | OConst c => c < length (f_constants F)
  | _ => True
  end.

Definition body_ok (F : function) : Prop :=
  (forall B o x, In B (f_blocks F) -> In o (block_operations B) -> In x (o_operands o) -> operand_ok F x) /\
  (forall B x a b, In B (f_blocks F) -> b_term B = TCond x a b -> operand_ok F x) /\
  (forall B b, In B (f_blocks F) -> In b (successors (b_term B)) -> b < length (f_blocks F)).

(** A direct call passes as many arguments as the callee has parameters. *)
Definition arity_ok (P : program) (F : function) : Prop :=
  forall g G args, calls F g args -> P g = Some G -> length args = length (f_params G).

(** A function without the guard on the call depth. *)
Definition unguarded (G : function) : Prop :=
  forall B o, In B (f_blocks G) -> In o (b_ops B) -> o_kind o <> KCheckDepth.
