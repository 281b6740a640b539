(** Which stores to local cells may be dropped.  Read with FrameModel and
    FrameSpec; nothing here refers to DeadStoreModel. *)
From Coq Require Import List Arith Bool.
From Verif Require Import FrameModel FrameSpec.
Import ListNotations.

(** The operand at a position is a cell that is read or written as a whole:
    the source of a load, copy or move, the destination of a store or copy, the
    result place of a call. *)
Definition reads_whole (o : operation) (i : nat) : Prop :=
  i = 0 /\ (op_kind o = KLoad \/ op_kind o = KMemcpy \/ op_kind o = KMove).

Definition writes_whole (o : operation) (i : nat) : Prop :=
  (i = 1 /\ (op_kind o = KStore \/ op_kind o = KMemcpy)) \/
  (exists visible id, op_kind o = KCall visible id /\ visible + 2 <= length (op_operands o)
     /\ S i = length (op_operands o)).

Definition reads_cell (o : operation) (r : nat) : Prop :=
  exists i, nth_error (op_operands o) i = Some (OReg r) /\ reads_whole o i.

Definition writes_cell (o : operation) (r : nat) : Prop :=
  exists i, nth_error (op_operands o) i = Some (OReg r) /\ writes_whole o i.

(** A cell of a type that may be copied bit by bit, which is only ever read or
    written as a whole, and by no terminator. *)
Definition private (trivial : nat -> bool) (p : body) (r : nat) : Prop :=
  (exists o ty, In o (flat_map operations p) /\ op_kind o = KAlloca ty /\ trivial ty = true
     /\ op_result o = Some r) /\
  (forall o i, In o (flat_map operations p) -> nth_error (op_operands o) i = Some (OReg r) ->
     reads_whole o i \/ writes_whole o i) /\
  (forall b, In b p -> ~ In (OReg r) (term_operands (term b))).

(** From operation [i] of block [b] on, some path reads the cell before it
    overwrites it. *)
Inductive may_read (p : body) (r : nat) : nat -> nat -> Prop :=
| may_here b i bl o : nth_error p b = Some bl -> nth_error (operations bl) i = Some o ->
    reads_cell o r -> may_read p r b i
| may_later b i bl o : nth_error p b = Some bl -> nth_error (operations bl) i = Some o ->
    ~ writes_cell o r -> may_read p r b (S i) -> may_read p r b i
| may_leave b bl s : nth_error p b = Some bl -> In s (successors (term bl)) ->
    may_read p r s 0 -> may_read p r b (length (operations bl)).

(** The result of an operation that must be consumed: a variant or a closure
    that owns what it was built from. *)
Definition owned_result (p : body) (v : nat) : Prop :=
  exists o id, In o (flat_map operations p) /\ op_kind o = KOther true id /\ op_result o = Some v.

(** Operation [i] of block [b] is a store to a private cell that no path reads
    before it is overwritten, of something that need not be consumed. *)
Definition removable (trivial : nat -> bool) (p : body) (b i : nat) : Prop :=
  exists bl o v r rest, nth_error p b = Some bl /\ nth_error (operations bl) i = Some o /\
    op_kind o = KStore /\ op_operands o = v :: OReg r :: rest /\
    private trivial p r /\ (forall x, v = OReg x -> ~ owned_result p x) /\
    ~ may_read p r b (S i).

(** What is left of a list when some of its elements are dropped. *)
Fixpoint kept {A : Type} (keep : list bool) (l : list A) : list A :=
  match keep, l with
  | k :: keep, x :: l => if k then x :: kept keep l else kept keep l
  | _, _ => []
  end.

(** [p'] is [p] without exactly the removable stores. *)
Definition drops_removable (trivial : nat -> bool) (p p' : body) : Prop :=
  length p' = length p /\
  forall b bl, nth_error p b = Some bl ->
    exists keep bl', nth_error p' b = Some bl' /\ term bl' = term bl /\
      length keep = length (operations bl) /\ operations bl' = kept keep (operations bl) /\
      forall i, i < length keep -> (nth_error keep i = Some false <-> removable trivial p b i).
