(** What a user of the branch forwarding relies on, beside FrameSpec. *)
From Coq Require Import List Relations.
From Verif Require Import FrameModel.
Import ListNotations.

(** Control may go from one block to the other. *)
Definition leads (p : body) (b c : nat) : Prop :=
  exists bl, nth_error p b = Some bl /\ In c (successors (term bl)).

(** Control may reach the block. *)
Definition reachable (p : body) (b : nat) : Prop := clos_refl_trans_n1 nat (leads p) 0 b.

(** Nothing jumps back to the entry. *)
Definition entry_once (p : body) : Prop := forall b, ~ leads p b 0.

(** A block that ends in a test of a flag, read just before. *)
Definition tests_flag (p : body) (b flag : nat) : Prop :=
  exists before read r yes no,
    nth_error p b = Some (Block (before ++ [read]) (TCondBr (OReg r) yes no)) /\
    op_result read = Some r /\ (op_kind read = KLoad \/ op_kind read = KCompareEqual) /\
    In (OReg flag) (op_operands read).
