(** What the verifier of MIR bodies guarantees, as far as the passes over local
    storage rely on it, and what it means that a body behaves as another.
    Read with FrameModel; nothing here refers to a pass. *)
From Coq Require Import List Arith Bool.
From Verif Require Import FrameModel.
Import ListNotations.

(** The operations of a block, the invoked one of its terminator last. *)
Definition block_operations (b : block) : list operation :=
  operations b ++ match term b with TInvoke o _ _ => [o] | _ => [] end.

Definition body_operations (p : body) : list operation := flat_map block_operations p.

(** The registers a body defines, once for every definition. *)
Definition defined (p : body) : list nat :=
  flat_map (fun o => match op_result o with Some r => [r] | None => [] end) (body_operations p).

(** Every register has one definition (src/mir/function.rs: the result
    identities of a function are allocated by counting up). *)
Definition single_definitions (p : body) : Prop := NoDup (defined p).

(** The registers that hold the address of a cell of the frame. *)
Definition is_cell_register (p : body) (r : nat) : Prop :=
  exists o ty, In o (body_operations p) /\ op_kind o = KAlloca ty /\ op_result o = Some r.

(** The address of a cell is not stored into a cell of the frame
    (src/mir/verify.rs L913-928: a stored place has a pointer type, a cell the
    type it was allocated for). *)
Definition no_address_in_cell (p : body) : Prop :=
  forall o r r', In o (body_operations p) -> op_kind o = KStore ->
    op_operands o = [OReg r; OReg r'] -> is_cell_register p r -> ~ is_cell_register p r'.

(** Booleans of the machine are booleans, and may be copied. *)
Definition boolean_machine {other world : Type} (m : machine other world) : Prop :=
  forall b, constant m (LBool b) = VBool b /\ copyable m (VBool b) = true.

Section Behaviour.
Context {other world : Type}.
Variable m : machine other world.

(** Every call of [p] that does not panic ends as the call of [p'] in the same
    world: in the same number of blocks, whether it returns, raises, is
    stopped or is still running. *)
Definition same_calls (p p' : body) : Prop :=
  forall n params w, call m n p params w <> Panicked -> call m n p' params w = call m n p params w.

(** A call of [p'] goes through the answers of the call of [p], at least as
    fast: [n] blocks of [p'] give what some number [k >= n] of blocks of [p]
    gives; the call is not supposed to panic. *)
Definition same_runs (p p' : body) : Prop :=
  forall params w, (forall k, call m k p params w <> Panicked) ->
    forall n, exists k, n <= k /\ call m n p' params w = call m k p params w.

(** A call that ends. *)
Definition ends (a : answer world) : Prop :=
  match a with
  | Returned _ | Raised _ | CleanupFailed _ | Stopped _ => True
  | Panicked | Diverged | OutOfFuel => False
  end.

(** Every call of [p] that ends, ends as the call of [p'], in no more blocks. *)
Definition same_ends (p p' : body) : Prop :=
  forall n params w, ends (call m n p params w) -> call m n p' params w = call m n p params w.
End Behaviour.

Section Program.
Context {other world : Type}.
Variable base : machine other world.
(** Which function an operation enters, with which parameters; [None]: none
    (src/mir/interpreter.rs exec_call, drops and clones included). *)
Variable enters : kind -> list (value other) -> world -> option (nat * list (value other) * world).
(** What a callee gives back for its answer, when it returns. *)
Variable result : kind -> list (value other) -> option (given other).

Definition effect_of (k : kind) (vs : list (value other)) (a : answer world) : effect other world :=
  match a with
  | Returned w => EDone w (result k vs)
  | Raised w => EError w
  | CleanupFailed w | Stopped w => EStopped w
  | Panicked => EPanic
  | Diverged | OutOfFuel => EDiverge
  end.

(** The machine on which the functions of a program run: calls enter the bodies
    of the program, at most [depth] deep, each for at most [n] blocks. *)
Fixpoint program_machine (bodies : nat -> body) (n depth : nat) : machine other world :=
  Machine other world (constant base) (static base) (copyable base) (matches base) (read base)
    (write base) (share base) (takes base)
    (fun k vs w =>
       match enters k vs w with
       | None => exec base k vs w
       | Some (f, params, w) =>
           match depth with
           | 0 => EDiverge
           | S depth => effect_of k vs (call (program_machine bodies n depth) n (bodies f) params w)
           end
       end).

(** Every call of a function of a program that ends, ends as the same call of
    the other program. *)
Definition same_program (bodies bodies' : nat -> body) : Prop :=
  forall n depth f params w,
    ends (call (program_machine bodies n depth) n (bodies f) params w) ->
    call (program_machine bodies' n depth) n (bodies' f) params w
    = call (program_machine bodies n depth) n (bodies f) params w.
End Program.
