(** What the forwarding of boolean conditions relies on, beside FrameSpec.
    Read with FrameModel; nothing here refers to the pass. *)
From Coq Require Import List Arith.
From Verif Require Import FrameModel FrameSpec.
Import ListNotations.

(** A point of a body: in a block, before the operation of that index; after
    the last operation, before the terminator. *)
Definition point : Type := nat * nat.

(** The operation that runs next. *)
Definition next_operation (p : body) (x : point) (o : operation) : Prop :=
  exists bl, nth_error p (fst x) = Some bl /\ nth_error (operations bl) (snd x) = Some o.

(** The terminator that runs next. *)
Definition next_terminator (p : body) (x : point) (t : terminator) : Prop :=
  exists bl, nth_error p (fst x) = Some bl /\ snd x = length (operations bl) /\ t = term bl.

(** The points control may get to from the entry without running an operation
    of [D]. *)
Inductive avoiding (p : body) (D : point -> Prop) : point -> Prop :=
| avoiding_entry : avoiding p D (0, 0)
| avoiding_next b i o : avoiding p D (b, i) -> next_operation p (b, i) o -> ~ D (b, i) ->
    avoiding p D (b, S i)
| avoiding_jump b i t c : avoiding p D (b, i) -> next_terminator p (b, i) t -> In c (successors t) ->
    avoiding p D (c, 0).

(** Whenever control gets to [x], the operation at [d] has run. *)
Definition always_before (p : body) (d x : point) : Prop := ~ avoiding p (eq d) x.

(** A register is an operand of what runs next. *)
Definition used_at (p : body) (r : nat) (x : point) : Prop :=
  (exists o, next_operation p x o /\ In (OReg r) (op_operands o)) \/
  (exists t, next_terminator p x t /\ In (OReg r) (term_operands t)).

(** src/mir/verify.rs L719-768: the definition of a register dominates its
    uses. *)
Definition definitions_first (p : body) : Prop :=
  forall d o r x, next_operation p d o -> op_result o = Some r -> used_at p r x -> always_before p d x.

(** verify.rs: the targets of a terminator are blocks of the body. *)
Definition targets_exist (p : body) : Prop :=
  forall bl c, In bl p -> In c (successors (term bl)) -> c < length p.

(** Control may get to every block. *)
Definition all_reachable (p : body) : Prop :=
  forall b, b < length p -> avoiding p (fun _ => False) (b, 0).

(** No load goes through an address that a load or a comparison gave: the
    values that are loaded are not addresses. *)
Definition loads_no_address (p : body) : Prop :=
  forall o o' r, In o (body_operations p) -> op_kind o = KLoad -> In (OReg r) (op_operands o) ->
    In o' (body_operations p) -> op_result o' = Some r ->
    op_kind o' <> KLoad /\ op_kind o' <> KCompareEqual.
