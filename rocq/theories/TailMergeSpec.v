(** What the merging of equal blocks relies on, beside FrameSpec and
    NegationSpec ([next_operation], [used_at], [definitions_first]).
    Read with FrameModel; nothing here refers to the pass. *)
From Coq Require Import List Arith Relations.
From Verif Require Import FrameModel FrameSpec NegationSpec.
Import ListNotations.

(** Control may go from one block to the other; control may reach a block. *)
Definition goes (p : body) (b c : nat) : Prop :=
  exists bl, nth_error p b = Some bl /\ In c (successors (term bl)).

Definition visited (p : body) (b : nat) : Prop := clos_refl_trans_n1 nat (goes p) 0 b.

(** What a block computes in registers is used in that block only, and after
    it is computed. *)
Definition keeps_results (p : body) (b : nat) : Prop :=
  forall i o r x, next_operation p (b, i) o -> op_result o = Some r ->
    used_at p r x -> visited p (fst x) -> fst x = b /\ i < snd x.

(** Blocks that look alike: the same operations in the same order, up to the
    registers they take and give. *)
Definition shape (o : operation) : kind * list (option operand) :=
  (op_kind o, map (fun x => match x with OReg _ => None | x => Some x end) (op_operands o)).

Definition look_alike (bl bl' : block) : Prop :=
  map shape (operations bl) = map shape (operations bl').

(** Two blocks that look alike, and may be reached, other than the entry. *)
Definition alike (p : body) (b b' : nat) : Prop :=
  b <> b' /\ b <> 0 /\ b' <> 0 /\ visited p b /\ visited p b' /\
  exists bl bl', nth_error p b = Some bl /\ nth_error p b' = Some bl' /\ look_alike bl bl'.

(** Every edge goes down: control never comes back to a block. *)
Definition loop_free (p : body) : Prop :=
  exists level : nat -> nat, forall b c, goes p b c -> level c < level b.

(** Operations with a result register give it a value. *)
Definition gives_result {other world : Type} (m : machine other world) (o : operation) : Prop :=
  op_result o <> None ->
  match op_kind o with
  | KAlloca _ | KStackSave | KLoad | KCompareEqual => True
  | KOther _ _ => forall vs w w' g, exec m (op_kind o) vs w = EDone w' g -> g <> None
  | _ => False
  end.

Definition gives_results {other world : Type} (m : machine other world) (p : body) : Prop :=
  forall o, In o (body_operations p) -> gives_result m o.

(** ** The same block up to the registers it defines *)

(** [R]: which register of one block stands for which of the other. *)
Definition same_operand (R : list (nat * nat)) (x x' : operand) : Prop :=
  match x, x' with
  | OReg r, OReg r' => In (r, r') R \/ (r = r' /\ ~ In r (map fst R) /\ ~ In r (map snd R))
  | OReg _, _ | _, OReg _ => False
  | _, _ => x = x'
  end.

Definition and_results (R : list (nat * nat)) (o o' : operation) : option (list (nat * nat)) :=
  match op_result o, op_result o' with
  | Some r, Some r' => Some ((r, r') :: R)
  | None, None => Some R
  | _, _ => None
  end.

Inductive same_operations : list (nat * nat) -> list operation -> list operation -> list (nat * nat) -> Prop :=
| same_none R : same_operations R [] [] R
| same_one R R1 R2 o o' os os' :
    op_kind o' = op_kind o -> Forall2 (same_operand R) (op_operands o) (op_operands o') ->
    and_results R o o' = Some R1 -> same_operations R1 os os' R2 ->
    same_operations R (o :: os) (o' :: os') R2.

(** The same terminator, with the same targets; not an invoked operation. *)
Definition same_end (R : list (nat * nat)) (t t' : terminator) : Prop :=
  match t, t' with
  | TGoto a, TGoto a' => a = a'
  | TCondBr c a b, TCondBr c' a' b' => same_operand R c c' /\ a = a' /\ b = b'
  | TYield q a, TYield q' a' => same_operand R q q' /\ a = a'
  | TReturn, TReturn | TPropagateError, TPropagateError
  | TFailureDuringCleanup, TFailureDuringCleanup => True
  | _, _ => False
  end.

Definition same_block (bl bl' : block) : Prop :=
  exists R, same_operations [] (operations bl) (operations bl') R /\ same_end R (term bl) (term bl').
