(** The control part of the MIR interpreter: blocks, calls, scoped
    projections, source failures with their cleanup, resource limits and
    poisoning.

    Modelled: src/mir/interpreter.rs (run_entry L261-340, run_function L500-512,
    run_frame L514-531, run_loop L533-650, exec_operation L653-775,
    exec_end_project L1102-1133, exec_drop L1159-1225, exec_call L1239-1279,
    exec_project L1288-1470, exec_closure_call L1820-1940, alloc_cell
    L2157-2173, discard_inactive_bindings L2209-2225,
    discard_bindings_after_poisoning L2233-2258) and the limits and poisoning
    state of src/eval.rs (check_fuel L246-256, check_call_depth L258-269,
    check_environment_cell_limit L271-283, sandbox_violation L294-306,
    ensure_runnable L411-423, cleanup_after_error L429-453, poison L455-476,
    poison_source_failures L478-490, record_poisoning_error L492-505,
    is_poisoning L1489).

    Simplifications.  What one operation does to the values of the program is
    a parameter: [G] is the memory (environment cells and everything they own),
    [L] the bindings of one frame except its open projections.  An operation
    is given by the finite interaction ([act], [drive]) it has with the rest of
    the interpreter: it may allocate cells, save and restore the stack, call
    script functions, and finally finish, raise a source failure, or panic.
    Source failures are numbers: their kind, message and backtrace are not
    modelled.  Source spans and profiling are dropped. *)
From Coq Require Import List Arith Bool.
Import ListNotations.

(** A function identifier: module and index in its function table
    (src/module/id.rs FunctionId). *)
Definition fid := (nat * nat)%type.

(** A source failure (src/eval.rs SourceFailure), identified by a number. *)
Definition failure := nat.

(** src/eval.rs SandboxViolationKind. *)
Inductive violation :=
| FuelExhausted
| CallDepthLimitExceeded
| EnvironmentCellLimitExceeded.

(** src/eval.rs RuntimeError L1420-1440: a sandbox violation may retain the
    source failure whose cleanup it interrupted. *)
Inductive runtime_error :=
| SourceFailure (f : failure)
| SandboxViolation (k : violation) (interrupted : option failure)
| FailureDuringCleanup (initial during : failure).

(** src/eval.rs PoisonReason and ExecutionState. *)
Inductive poison_reason :=
| PoisonedBySandbox (k : violation) (interrupted : option failure)
| PoisonedByCleanup (initial during : failure).

Inductive execution_state :=
| Running
| Poisoned (r : poison_reason).

(** What a run does, newest first.  Ghost: the code keeps no such record; it
    is how the theorems speak about what was executed. *)
Inductive event :=
| EvOperation (f : fid)         (** an operation of [f] starts *)
| EvFuel                        (** a fuel check succeeds *)
| EvDepth (d : nat)             (** a call-depth check succeeds at depth [d] *)
| EvCell (i : nat)              (** environment cell [i] is allocated *)
| EvPoison (r : poison_reason). (** the executor becomes poisoned *)

(** The execution context: the fields of EvalCtx (src/eval.rs L120-160) that
    concern limits and poisoning.  [cells] is environment.len(). *)
Record context := Context {
  fuel_remaining : option nat;
  call_depth : nat;
  call_depth_limit : nat;
  cells : nat;
  cell_limit : nat;
  state : execution_state;
  trace : list event
}.

Definition set_fuel (c : context) (n : option nat) : context :=
  Context n (call_depth c) (call_depth_limit c) (cells c) (cell_limit c) (state c) (trace c).
Definition set_depth (c : context) (d : nat) : context :=
  Context (fuel_remaining c) d (call_depth_limit c) (cells c) (cell_limit c) (state c) (trace c).
Definition set_cells (c : context) (n : nat) : context :=
  Context (fuel_remaining c) (call_depth c) (call_depth_limit c) n (cell_limit c) (state c) (trace c).
Definition log (e : event) (c : context) : context :=
  Context (fuel_remaining c) (call_depth c) (call_depth_limit c) (cells c) (cell_limit c)
          (state c) (e :: trace c).
Definition set_poisoned (c : context) (r : poison_reason) : context :=
  Context (fuel_remaining c) (call_depth c) (call_depth_limit c) (cells c) (cell_limit c)
          (Poisoned r) (EvPoison r :: trace c).

(** truncate_environment_storage (src/eval.rs L314-318) and restore_stack:
    drop the cells above [n]. *)
Definition truncate (n : nat) (c : context) : context := set_cells c (Nat.min n (cells c)).

(** src/eval.rs L1488-1491. *)
Definition is_poisoning (e : runtime_error) : bool :=
  match e with SourceFailure _ => false | _ => true end.

(** sandbox_violation: poison the context and build the error. *)
Definition sandbox_violation (k : violation) (c : context) : runtime_error * context :=
  (SandboxViolation k None, set_poisoned c (PoisonedBySandbox k None)).

(** record_poisoning_error.  [None] is its panic: a source failure cannot
    poison by itself. *)
Definition record_poisoning_error (e : runtime_error) (c : context)
  : option (runtime_error * context) :=
  match e with
  | SandboxViolation k i => Some (e, set_poisoned c (PoisonedBySandbox k i))
  | FailureDuringCleanup i d => Some (e, set_poisoned c (PoisonedByCleanup i d))
  | SourceFailure _ => None
  end.

(** poison_source_failures. *)
Definition poison_source_failures (i d : failure) (c : context) : runtime_error * context :=
  (FailureDuringCleanup i d, set_poisoned c (PoisonedByCleanup i d)).

(** poison: a second error [during] while [initial] was being cleaned up. *)
Definition poison (initial during : runtime_error) (c : context)
  : option (runtime_error * context) :=
  match initial, during with
  | SourceFailure i, SourceFailure d => Some (poison_source_failures i d c)
  | SourceFailure i, SandboxViolation k None =>
      record_poisoning_error (SandboxViolation k (Some i)) c
  | SourceFailure i, SandboxViolation k (Some j) =>
      record_poisoning_error (SandboxViolation k (Some j)) c
  | _, _ => if is_poisoning initial then record_poisoning_error initial c
            else record_poisoning_error during c
  end.

(** check_fuel: no limit, or consume one unit. *)
Definition check_fuel (c : context) : (option runtime_error) * context :=
  match fuel_remaining c with
  | None => (None, c)
  | Some O => let (e, c') := sandbox_violation FuelExhausted c in (Some e, c')
  | Some (S n) => (None, log EvFuel (set_fuel c (Some n)))
  end.

(** check_call_depth. *)
Definition check_call_depth (c : context) : (option runtime_error) * context :=
  if call_depth_limit c <=? call_depth c
  then let (e, c') := sandbox_violation CallDepthLimitExceeded c in (Some e, c')
  else (None, log (EvDepth (call_depth c)) c).

(** alloc_cell: the index of the new cell, or a violation. *)
Definition alloc_cell (c : context) : (runtime_error + nat) * context :=
  if cell_limit c <=? cells c
  then let (e, c') := sandbox_violation EnvironmentCellLimitExceeded c in (inl e, c')
  else (inr (cells c), log (EvCell (cells c)) (set_cells c (S (cells c)))).

(** ensure_runnable: a poisoned executor reports its cause. *)
Definition ensure_runnable (c : context) : option runtime_error :=
  match state c with
  | Running => None
  | Poisoned (PoisonedBySandbox k i) => Some (SandboxViolation k i)
  | Poisoned (PoisonedByCleanup i d) => Some (FailureDuringCleanup i d)
  end.

Section Mir.

(** Memory, frame bindings, payloads of operations, conditions and yielded
    places: parameters, see the header. *)
Variables G L prim cnd yld : Type.

(** What a step without calls may do: return a result, raise, allocate a cell,
    save or restore the stack, or panic. *)
Inductive act (A : Type) : Type :=
| ARet (a : A)
| ARaise (f : failure) (g : G) (l : L)
| AAlloc (k : nat -> act A)
| AMark (k : nat -> act A)
| ATruncate (n : nat) (k : act A)
| APanic.
Arguments ARet {A}. Arguments ARaise {A}. Arguments AAlloc {A}. Arguments AMark {A}.
Arguments ATruncate {A}. Arguments APanic {A}.

(** The result of a native function (no MIR body): the host contract
    (doc/runtime-sandboxing.md) is that it terminates. *)
Inductive native_result := NReturn (g : G) | NRaise (f : failure) (g : G) | NPanic.

(** What an operation that runs script code may do.  [DCall f args g ok fail]
    calls [f] in memory [g] and goes on with [ok] or, on a source failure,
    [fail]; a poisoning error always ends the operation.  [DCleanup i d] runs
    [d] while the source failure [i] is in flight (cleanup_after_error, and
    the two-error case of exec_closure_call). *)
Inductive drive : Type :=
| DDone (g : G) (l : L)
| DRaise (f : failure) (g : G) (l : L)
| DPanic
| DCheckFuel (k : drive)
| DCheckDepth (k : drive)
| DAlloc (k : nat -> drive)
| DMark (k : nat -> drive)
| DTruncate (n : nat) (k : drive)
| DCall (f : fid) (args : L) (g : G) (ok : G -> drive) (fail : failure -> G -> drive)
| DCleanup (initial : failure) (d : drive)
| DProject (r : nat) (f : fid) (args : L) (g : G)
           (ok : yld -> G -> drive) (fail : failure -> G -> drive)
| DEndProject (r : nat) (g : G) (ok : G -> drive) (fail : failure -> G -> drive).

(** The operations (src/mir/operation.rs OperationKind), by the way they can
    run script code: not at all; by calling the function they name (call,
    clone and drop with a constant callee); through a function value, a
    dictionary or a closure environment; by entering or leaving a scoped
    projection bound to register [r]. *)
Inductive operation :=
| OCheckFuel
| OCheckCallDepth
| OPlain (p : prim)
| OCall (f : fid) (p : prim)
| OHost (p : prim)
| OProject (r : nat) (p : prim)
| OEndProject (r : nat) (p : prim).

(** src/mir/terminator.rs TerminatorKind. *)
Inductive terminator :=
| Goto (target : nat)
| CondBr (c : cnd) (then_target else_target : nat)
| Invoke (o : operation) (normal error : nat)
| Yield (place : prim) (resume : nat)
| Return
| PropagateError
| FailureInCleanup.

(** Terminator::successors (src/mir/terminator.rs L165-185). *)
Definition successors (t : terminator) : list nat :=
  match t with
  | Goto b => [b]
  | CondBr _ a b => [a; b]
  | Invoke _ a b => [a; b]
  | Yield _ b => [b]
  | Return | PropagateError | FailureInCleanup => []
  end.

(** A basic block and a function body; the entry is block 0
    (src/mir/function.rs). *)
Record block := Block { operations : list operation; term : terminator }.
Definition function := list block.
Definition entry : nat := 0.

(** The open projections of a frame own suspended accessor frames
    (interpreter.rs Binding::Projected, SuspendedFrame). *)
Inductive frame := Frame (locals : L) (projections : list (nat * suspended))
with suspended := Suspended (f : fid) (resume : nat) (fr : frame) (frame_top : nat).

(** The outcome of running a frame: FrameOutcome, an error, a panic, or
    running out of the model's own fuel; the last two keep the context reached,
    so that theorems also cover runs that crash or never end. *)
Inductive outcome :=
| Completed (g : G) (c : context)
| YieldedAt (y : yld) (resume : nat) (fr : frame) (g : G) (c : context)
| Failed (e : runtime_error) (g : G) (c : context)
| Panicked (c : context)
| OutOfFuel (c : context).

(** The outcome of one operation; the open projections may change. *)
Inductive op_outcome :=
| OpDone (g : G) (l : L) (ps : list (nat * suspended)) (c : context)
| OpFailed (e : runtime_error) (g : G) (l : L) (ps : list (nat * suspended)) (c : context)
| OpPanicked (c : context)
| OpOutOfFuel (c : context).

(** The outcome of the operations of a block: go on to the terminator, or
    leave the frame. *)
Inductive block_outcome :=
| BDone (g : G) (l : L) (ps : list (nat * suspended)) (c : context)
| BExit (o : outcome).

End Mir.

Arguments ARet {G L A} a.
Arguments ARaise {G L A} f g l.
Arguments AAlloc {G L A} k.
Arguments AMark {G L A} k.
Arguments ATruncate {G L A} n k.
Arguments APanic {G L A}.
Arguments NReturn {G} g.
Arguments NRaise {G} f g.
Arguments NPanic {G}.
Arguments DDone {G L yld} g l.
Arguments DRaise {G L yld} f g l.
Arguments DPanic {G L yld}.
Arguments DCheckFuel {G L yld} k.
Arguments DCheckDepth {G L yld} k.
Arguments DAlloc {G L yld} k.
Arguments DMark {G L yld} k.
Arguments DTruncate {G L yld} n k.
Arguments DCall {G L yld} f args g ok fail.
Arguments DCleanup {G L yld} initial d.
Arguments DProject {G L yld} r f args g ok fail.
Arguments DEndProject {G L yld} r g ok fail.
Arguments OCheckFuel {prim}.
Arguments OCheckCallDepth {prim}.
Arguments OPlain {prim} p.
Arguments OCall {prim} f p.
Arguments OHost {prim} p.
Arguments OProject {prim} r p.
Arguments OEndProject {prim} r p.
Arguments Goto {prim cnd} target.
Arguments CondBr {prim cnd} c then_target else_target.
Arguments Invoke {prim cnd} o normal error.
Arguments Yield {prim cnd} place resume.
Arguments Return {prim cnd}.
Arguments PropagateError {prim cnd}.
Arguments FailureInCleanup {prim cnd}.
Arguments successors {prim cnd} t.
Arguments Block {prim cnd} operations term.
Arguments operations {prim cnd} b.
Arguments term {prim cnd} b.
Arguments Frame {L} locals projections.
Arguments Suspended {L} f resume fr frame_top.
Arguments Completed {G L yld} g c.
Arguments YieldedAt {G L yld} y resume fr g c.
Arguments Failed {G L yld} e g c.
Arguments Panicked {G L yld} c.
Arguments OutOfFuel {G L yld} c.
Arguments OpDone {G L} g l ps c.
Arguments OpFailed {G L} e g l ps c.
Arguments OpPanicked {G L} c.
Arguments OpOutOfFuel {G L} c.
Arguments BDone {G L yld} g l ps c.
Arguments BExit {G L yld} o.

(** A machine: the program and the behaviour of its operations. *)
Record machine := Machine {
  memory : Type;
  bindings : Type;
  payload : Type;
  cond : Type;
  place : Type;
  (** The MIR body of a script function; [None] for a native one. *)
  body : fid -> option (function payload cond);
  plain : payload -> memory -> bindings -> act memory bindings (memory * bindings);
  native : fid -> bindings -> memory -> native_result memory;
  (** Marshalling of a direct call: the callee's bindings and the memory, or
      nothing to call (exec_drop on an already dropped value). *)
  call_enter : payload -> memory -> bindings
               -> act memory bindings (option bindings * (memory * bindings));
  (** What the caller does when the callee returned ([true]) or raised. *)
  call_leave : payload -> bool -> memory -> bindings -> memory * bindings;
  (** Indirect and closure calls, closure environments. *)
  host : payload -> memory -> bindings -> drive memory bindings place;
  (** exec_project and exec_end_project, with the register of the
      projection. *)
  project : payload -> nat -> memory -> bindings -> drive memory bindings place;
  end_project : payload -> nat -> memory -> bindings -> drive memory bindings place;
  condition : cond -> memory -> bindings -> option bool;
  yielded : payload -> memory -> bindings -> option place
}.

Section Interpreter.

Variable m : machine.
Local Notation G := (memory m).
Local Notation L := (bindings m).
Local Notation operation := (operation (payload m)).
Local Notation frame := (frame (bindings m)).
Local Notation suspended := (suspended (bindings m)).
Local Notation drive := (drive (memory m) (bindings m) (place m)).
Local Notation outcome := (outcome (memory m) (bindings m) (place m)).
Local Notation op_outcome := (op_outcome (memory m) (bindings m)).
Local Notation block_outcome := (block_outcome (memory m) (bindings m) (place m)).

(** A step without calls, as an interaction. *)
Fixpoint embed {A} (a : act G L A) (k : A -> drive) : drive :=
  match a with
  | ARet x => k x
  | ARaise f g l => DRaise f g l
  | AAlloc q => DAlloc (fun i => embed (q i) k)
  | AMark q => DMark (fun i => embed (q i) k)
  | ATruncate n q => DTruncate n (embed q k)
  | APanic => DPanic
  end.

(** exec_operation: the interaction of one operation. *)
Definition operation_drive (o : operation) (g : G) (l : L) : drive :=
  match o with
  | OCheckFuel => DCheckFuel (DDone g l)
  | OCheckCallDepth => DCheckDepth (DDone g l)
  | OPlain p => embed (plain m p g l) (fun '(g, l) => DDone g l)
  | OCall f p =>
      embed (call_enter m p g l) (fun '(args, (g, l)) =>
        match args with
        | None => DDone g l
        | Some args =>
            DCall f args g
              (fun g => let (g, l) := call_leave m p true g l in DDone g l)
              (fun e g => let (g, l) := call_leave m p false g l in DRaise e g l)
        end)
  | OHost p => host m p g l
  | OProject r p => project m p r g l
  | OEndProject r p => end_project m p r g l
  end.

(** The open projection of register [r], and the others. *)
Fixpoint take_projection (r : nat) (ps : list (nat * suspended))
  : option (suspended * list (nat * suspended)) :=
  match ps with
  | [] => None
  | (r', s) :: q =>
      if r =? r' then Some (s, q)
      else match take_projection r q with
           | Some (s', q') => Some (s', (r', s) :: q')
           | None => None
           end
  end.

(** Some error becomes [OpFailed]; a poisoning error stops the operation. *)
Definition lift_violation (g : G) (l : L) (ps : list (nat * suspended))
  (r : option runtime_error * context) (k : context -> op_outcome) : op_outcome :=
  match r with
  | (Some e, c) => OpFailed e g l ps c
  | (None, c) => k c
  end.

(** Executes an interaction.  [run] runs a frame: function, block, frame.
    [g0] and [l0] are the memory and bindings to report when a violation
    stops the operation. *)
Fixpoint run_drive (run : fid -> nat -> frame -> G -> context -> outcome)
  (d : drive) (g0 : G) (l0 : L) (ps : list (nat * suspended)) (c : context) : op_outcome :=
  match d with
  | DDone g l => OpDone g l ps c
  | DRaise f g l => OpFailed (SourceFailure f) g l ps c
  | DPanic => OpPanicked c
  | DCheckFuel k => lift_violation g0 l0 ps (check_fuel c) (run_drive run k g0 l0 ps)
  | DCheckDepth k => lift_violation g0 l0 ps (check_call_depth c) (run_drive run k g0 l0 ps)
  | DAlloc k =>
      match alloc_cell c with
      | (inl e, c') => OpFailed e g0 l0 ps c'
      | (inr i, c') => run_drive run (k i) g0 l0 ps c'
      end
  | DMark k => run_drive run (k (cells c)) g0 l0 ps c
  | DTruncate n k => run_drive run k g0 l0 ps (truncate n c)
  | DCall f args g ok fail =>
      match body m f with
      | None =>
          match native m f args g with
          | NReturn g' => run_drive run (ok g') g' l0 ps c
          | NRaise e g' => run_drive run (fail e g') g' l0 ps c
          | NPanic => OpPanicked c
          end
      | Some _ =>
          (* run_function *)
          let top := cells c in
          let leave c' := truncate top (set_depth c' (call_depth c' - 1)) in
          match run f entry (Frame args []) g (set_depth c (S (call_depth c))) with
          | Completed g' c' => run_drive run (ok g') g' l0 ps (leave c')
          | Failed (SourceFailure e) g' c' => run_drive run (fail e g') g' l0 ps (leave c')
          | Failed e g' c' => OpFailed e g' l0 ps (leave c')
          | YieldedAt _ _ _ _ c' => OpPanicked c'
          | Panicked c' => OpPanicked c'
          | OutOfFuel c' => OpOutOfFuel c'
          end
      end
  | DCleanup i d =>
      match run_drive run d g0 l0 ps c with
      | OpDone g l ps' c' => OpFailed (SourceFailure i) g l ps' c'
      | OpFailed e g l ps' c' =>
          match poison (SourceFailure i) e c' with
          | Some (e', c'') => OpFailed e' g l ps' c''
          | None => OpPanicked c'
          end
      | OpPanicked c' => OpPanicked c'
      | OpOutOfFuel c' => OpOutOfFuel c'
      end
  | DProject r f args g ok fail =>
      match body m f with
      | None => OpPanicked c
      | Some _ =>
          let top := cells c in
          match run f entry (Frame args []) g (set_depth c (S (call_depth c))) with
          | YieldedAt y b fr g' c' =>
              run_drive run (ok y g') g' l0 ((r, Suspended f b fr top) :: ps) c'
          | Completed _ c' => OpPanicked c'
          | Failed (SourceFailure e) g' c' =>
              run_drive run (fail e g') g' l0 ps
                        (truncate top (set_depth c' (call_depth c' - 1)))
          | Failed e g' c' =>
              OpFailed e g' l0 ps (truncate top (set_depth c' (call_depth c' - 1)))
          | Panicked c' => OpPanicked c'
          | OutOfFuel c' => OpOutOfFuel c'
          end
      end
  | DEndProject r g ok fail =>
      match take_projection r ps with
      | None => OpPanicked c
      | Some (Suspended f b fr top, ps') =>
          let leave c' := truncate top (set_depth c' (call_depth c' - 1)) in
          match run f b fr g c with
          | Completed g' c' => run_drive run (ok g') g' l0 ps' (leave c')
          | Failed (SourceFailure e) g' c' => run_drive run (fail e g') g' l0 ps' (leave c')
          | Failed e g' c' => OpFailed e g' l0 ps' (leave c')
          | YieldedAt _ _ _ _ c' => OpPanicked c'
          | Panicked c' => OpPanicked c'
          | OutOfFuel c' => OpOutOfFuel c'
          end
      end
  end.

(** exec_operation, recording that it starts. *)
Definition exec_operation (run : fid -> nat -> frame -> G -> context -> outcome)
  (key : fid) (o : operation) (g : G) (l : L) (ps : list (nat * suspended)) (c : context)
  : op_outcome :=
  run_drive run (operation_drive o g l) g l ps (log (EvOperation key) c).

(** discard_bindings_after_poisoning: give back the frames held by the open
    projections.  (The code visits them by decreasing frame_top; only the
    number of frames and the least frame_top matter here.)  [None] is the
    panic of its checked_sub. *)
Fixpoint discard_suspended (s : suspended) (c : context) : option context :=
  match s with
  | Suspended _ _ fr top =>
      match discard_frame fr c with
      | None => None
      | Some c' =>
          match call_depth c' with
          | O => None
          | S d => Some (truncate top (set_depth c' d))
          end
      end
  end
with discard_frame (fr : frame) (c : context) : option context :=
  match fr with
  | Frame _ ps =>
      (fix discard_all (ps : list (nat * suspended)) (c : context) : option context :=
         match ps with
         | [] => Some c
         | (_, s) :: q =>
             match discard_suspended s c with
             | None => None
             | Some c' => discard_all q c'
             end
         end) ps c
  end.

(** The exit of run_loop on a poisoning error [e]: merge it with the source
    failure in flight, reclaim the frame. *)
Definition poisoned_exit (pending : option failure) (e : runtime_error)
  (fr : frame) (g : G) (c : context) : outcome :=
  match (match pending with
         | Some i => poison (SourceFailure i) e c
         | None => Some (e, c)
         end) with
  | None => Panicked c
  | Some (e', c') =>
      match discard_frame fr c' with
      | None => Panicked c'
      | Some c'' => Failed e' g c''
      end
  end.

(** The operations of a block; a plain operation must not raise a source
    failure (run_loop's panic). *)
Fixpoint run_operations (run : fid -> nat -> frame -> G -> context -> outcome)
  (key : fid) (pending : option failure) (ops : list operation)
  (g : G) (l : L) (ps : list (nat * suspended)) (c : context) : block_outcome :=
  match ops with
  | [] => BDone g l ps c
  | o :: ops' =>
      match exec_operation run key o g l ps c with
      | OpDone g' l' ps' c' => run_operations run key pending ops' g' l' ps' c'
      | OpFailed e g' l' ps' c' =>
          BExit (if is_poisoning e
                 then poisoned_exit pending e (Frame l' ps') g' c'
                 else Panicked c')
      | OpPanicked c' => BExit (Panicked c')
      | OpOutOfFuel c' => BExit (OutOfFuel c')
      end
  end.

(** run_loop.  [n] is the model's fuel: one unit for every block and every
    nested frame. *)
Fixpoint run_loop (n : nat) (key : fid) (b : nat) (pending cleanup_failure : option failure)
  (fr : frame) (g : G) (c : context) : outcome :=
  match n with
  | O => OutOfFuel c
  | S n =>
      let run f b fr g c := run_loop n f b None None fr g c in
      match body m key with
      | None => Panicked c
      | Some fn =>
          match nth_error fn b with
          | None => Panicked c
          | Some blk =>
              let (l, ps) := fr in
              match run_operations run key pending (operations blk) g l ps c with
              | BExit o => o
              | BDone g l ps c =>
                  match term blk with
                  | Goto t => run_loop n key t pending cleanup_failure (Frame l ps) g c
                  | CondBr q t e =>
                      match condition m q g l with
                      | None => Panicked c
                      | Some taken =>
                          run_loop n key (if taken then t else e) pending cleanup_failure
                                   (Frame l ps) g c
                      end
                  | Invoke o t e =>
                      match exec_operation run key o g l ps c with
                      | OpDone g' l' ps' c' =>
                          run_loop n key t pending cleanup_failure (Frame l' ps') g' c'
                      | OpFailed (SourceFailure f) g' l' ps' c' =>
                          match pending with
                          | None => run_loop n key e (Some f) cleanup_failure (Frame l' ps') g' c'
                          | Some _ =>
                              match cleanup_failure with
                              | Some _ => Panicked c'
                              | None => run_loop n key e pending (Some f) (Frame l' ps') g' c'
                              end
                          end
                      | OpFailed err g' l' ps' c' =>
                          poisoned_exit pending err (Frame l' ps') g' c'
                      | OpPanicked c' => Panicked c'
                      | OpOutOfFuel c' => OutOfFuel c'
                      end
                  | Return =>
                      match pending, ps with
                      | None, [] => Completed g c
                      | _, _ => Panicked c
                      end
                  | PropagateError =>
                      match pending, cleanup_failure, ps with
                      | Some f, None, [] => Failed (SourceFailure f) g c
                      | _, _, _ => Panicked c
                      end
                  | FailureInCleanup =>
                      match pending, cleanup_failure with
                      | Some _, Some d =>
                          poisoned_exit pending (SourceFailure d) (Frame l ps) g c
                      | _, _ => Panicked c
                      end
                  | Yield p resume =>
                      match pending, yielded m p g l with
                      | None, Some y => YieldedAt y resume (Frame l ps) g c
                      | _, _ => Panicked c
                      end
                  end
              end
          end
      end
  end.

(** run_entry: refused when poisoned, otherwise runs the function in a new
    frame.  The cells of the arguments and of the result ([ncells]) are
    allocated first and given back at the end. *)
Definition run_entry (n : nat) (f : fid) (args : L) (ncells : nat) (g : G) (c : context) : outcome :=
  match ensure_runnable c with
  | Some e => Failed e g c
  | None =>
      let top := cells c in
      if cell_limit c <? top + ncells
      then let (e, c') := sandbox_violation EnvironmentCellLimitExceeded c in Failed e g c'
      else
        let c1 := set_cells c (top + ncells) in
        let leave c' := truncate top (truncate (top + ncells) (set_depth c' (call_depth c' - 1))) in
        match run_loop n f entry None None (Frame args []) g (set_depth c1 (S (call_depth c1))) with
        | Completed g' c' => Completed g' (leave c')
        | Failed e g' c' => Failed e g' (leave c')
        | YieldedAt _ _ _ _ c' => Panicked c'
        | Panicked c' => Panicked c'
        | OutOfFuel c' => OutOfFuel c'
        end
  end.

(** A new executor (src/eval.rs with_limits). *)
Definition new_context (fuel : option nat) (depth_limit cells_limit : nat) : context :=
  Context fuel 0 depth_limit 0 cells_limit Running [].

(** The host's use of one executor: a sequence of entries, each seeing the
    memory and context left by the previous one.  The replies, in order, and the
    context at the end.  A panic, or running out of the model's fuel, ends the
    history there. *)
Definition request := (fid * L * nat)%type.

Inductive reply := Returned | Raised (e : runtime_error) | Crashed | Unfinished.

Fixpoint run_history (n : nat) (reqs : list request) (g : G) (c : context)
  : list reply * context :=
  match reqs with
  | [] => ([], c)
  | (f, args, k) :: q =>
      match run_entry n f args k g c with
      | Completed g' c' => let (rs, c'') := run_history n q g' c' in (Returned :: rs, c'')
      | Failed e g' c' => let (rs, c'') := run_history n q g' c' in (Raised e :: rs, c'')
      | YieldedAt _ _ _ _ c' => ([Crashed], c')
      | Panicked c' => ([Crashed], c')
      | OutOfFuel c' => ([Unfinished], c')
      end
  end.

End Interpreter.

