(** One activation of a MIR function: registers, the cells of its stack frame
    and the operations that access a whole cell.  This is the machine on which
    the passes that rewrite local storage are checked.

    Modelled: src/mir/value.rs Value L17-52, src/mir/operation.rs Operation
    L58-72, src/mir/terminator.rs TerminatorKind L155-203, src/mir/interpreter.rs
    Binding L60-90, run_loop L540-650, exec_operation L650-790, bind L816-820,
    exec_load L926-936, exec_store L943-960, exec_memcpy L1013-1033, exec_move
    L1040-1050, exec_compare_equal L1054-1078, place_operand L2388-2415,
    value_operand L2419-2459, take L2546-2552, store L2556-2567.

    Simplifications.  A constant is written where it is used.  A cell belongs
    to the frame until its address is used otherwise than to read, write or
    copy the whole cell, or to receive the result of a call; it is then moved,
    with its contents, to the shared memory, which is part of an abstract
    world, and its address becomes a value.  (Addresses cannot be compared or
    computed in MIR, so where a cell lives cannot be observed.)  The result of
    a call into a cell of the frame is written to a fresh shared slot and
    copied back.  Everything else an operation does to the world is a parameter:
    a function of the operation's kind, the values of its operands and the
    world.  A cell keeps a fresh number; using one that was popped panics.  What
    the consumer of a [yield] does before it resumes is a function of the
    place and the world. *)
From Coq Require Import List Arith Bool.
Import ListNotations.

(** src/hir/value.rs LiteralValue: booleans, others by number. *)
Inductive literal := LBool (b : bool) | LOther (n : nat).

(** src/mir/value.rs Value L17-52; [OStatic]: dictionaries, subscripts,
    functions. *)
Inductive operand :=
| OConst (v : literal)
| OPattern (v : literal)
| OStatic (n : nat)
| OParam (n : nat)
| OReg (n : nat).

(** src/mir/operation.rs OperationKind.  [KCall]: the number of visible
    arguments of its type, and what else tells calls apart.  [KOther]: all
    other kinds; whether its result must be consumed (result_requires_consuming_use
    L117-133), and a number. *)
Inductive kind :=
| KAlloca (ty : nat)
| KStackSave
| KStackRestore
| KLoad
| KStore
| KMemcpy
| KMove
| KCompareEqual
| KCall (visible : nat) (id : nat)
| KYield
| KOther (owned : bool) (id : nat).

Record operation := Op { op_kind : kind; op_operands : list operand; op_result : option nat }.

(** src/mir/terminator.rs TerminatorKind L161-188. *)
Inductive terminator :=
| TGoto (target : nat)
| TCondBr (condition : operand) (then_target else_target : nat)
| TInvoke (o : operation) (normal error : nat)
| TYield (place : operand) (resume : nat)
| TReturn
| TPropagateError
| TFailureDuringCleanup.

Record block := Block { operations : list operation; term : terminator }.

(** The entry is block 0. *)
Definition body := list block.

(** terminator.rs operands L136-146. *)
Definition term_operands (t : terminator) : list operand :=
  match t with
  | TCondBr c _ _ => [c]
  | TInvoke o _ _ => op_operands o
  | TYield p _ => [p]
  | TGoto _ | TReturn | TPropagateError | TFailureDuringCleanup => []
  end.

(** terminator.rs successors L190-203. *)
Definition successors (t : terminator) : list nat :=
  match t with
  | TGoto b => [b]
  | TCondBr _ a b => [a; b]
  | TInvoke _ a b => [a; b]
  | TYield _ b => [b]
  | TReturn | TPropagateError | TFailureDuringCleanup => []
  end.

(** pass/dataflow.rs call_result_operand_index L954-962. *)
Definition call_result_operand_index (operands : list operand) (visible : nat) : option nat :=
  if visible + 2 <=? length operands
  then Some (1 + (length operands - (visible + 2)) + visible)
  else None.

Section Values.
Variable other : Type.

(** Runtime values: booleans, and others (among them addresses of the shared
    memory). *)
Inductive value := VBool (b : bool) | VOther (o : other).

(** interpreter.rs Binding L60-90.  [BVal]: a value (also a tag, a dictionary);
    [BPlace]: a place of the shared memory; [BCell]: a place of the frame;
    [BMark]: a stack marker, for the frame and for the world; [BMoved]: the
    tombstone of a moved value. *)
Inductive binding :=
| BVal (v : value)
| BPlace (p : value)
| BCell (c : nat)
| BMark (height : nat) (v : value)
| BMoved.

(** What an operation gives its result register. *)
Inductive given := GValue (v : value) | GPlace (p : value).

Definition as_binding (g : given) : binding :=
  match g with GValue v => BVal v | GPlace p => BPlace p end.

(** The contents of storage; [None]: uninitialized. *)
Definition content := option value.

(** A cell of the frame: still local, moved to the shared memory at an
    address, or popped. *)
Inductive cell := CLocal (x : content) | CShared (p : value) | CPopped.

Record frame := Frame {
  args : nat -> option value;
  regs : nat -> option binding;
  cells : nat -> cell;
  stack : list nat;
  next : nat }.

Definition upd {A : Type} (f : nat -> A) (k : nat) (v : A) : nat -> A :=
  fun x => if x =? k then v else f x.

Definition set_reg (r : nat) (b : binding) (f : frame) : frame :=
  Frame (args f) (upd (regs f) r (Some b)) (cells f) (stack f) (next f).

Definition set_cell (c : nat) (x : cell) (f : frame) : frame :=
  Frame (args f) (regs f) (upd (cells f) c x) (stack f) (next f).

(** The frame of a call: parameters bound, nothing else. *)
Definition start (params : list value) : frame :=
  Frame (fun n => nth_error params n) (fun _ => None) (fun _ => CPopped) [] 0.
End Values.

Arguments VBool {other}. Arguments VOther {other}.
Arguments BVal {other}. Arguments BPlace {other}. Arguments BCell {other}. Arguments BMark {other}. Arguments BMoved {other}.
Arguments GValue {other}. Arguments GPlace {other}. Arguments as_binding {other}.
Arguments CLocal {other}. Arguments CShared {other}. Arguments CPopped {other}.
Arguments args {other}. Arguments regs {other}. Arguments cells {other}.
Arguments stack {other}. Arguments next {other}. Arguments Frame {other}.
Arguments set_reg {other}. Arguments set_cell {other}. Arguments start {other}.

(** What an operation does to the world: it completes, possibly with something
    for its result register; raises a source error; stops the execution (a
    sandbox limit); panics; never ends. *)
Inductive effect (other world : Type) :=
| EDone (w : world) (g : option (given other))
| EError (w : world)
| EStopped (w : world)
| EPanic
| EDiverge.
Arguments EDone {other world}. Arguments EError {other world}.
Arguments EStopped {other world}. Arguments EPanic {other world}. Arguments EDiverge {other world}.

(** Everything outside the frame. *)
Record machine (other world : Type) := Machine {
  (** interpreter.rs constant_value L2462-2479. *)
  constant : literal -> value other;
  static : nat -> value other;
  (** read_copy L2578-2600: whether a value may be duplicated. *)
  copyable : value other -> bool;
  (** LiteralValue::try_matches_runtime_value, for literals that are not
      booleans; [None]: incompatible representations. *)
  matches : nat -> value other -> option bool;
  (** Place::target_ref at an address; [None]: not a valid place. *)
  read : value other -> world -> option (content other);
  (** store and take at an address. *)
  write : value other -> content other -> world -> effect other world;
  (** A cell becomes shared, with its contents: its address. *)
  share : content other -> world -> world * value other;
  (** Whether an operation takes an operand by value. *)
  takes : kind -> nat -> bool;
  (** Any operation, on the values of its operands. *)
  exec : kind -> list (value other) -> world -> effect other world }.
Arguments constant {other world}. Arguments static {other world}.
Arguments copyable {other world}. Arguments matches {other world}.
Arguments read {other world}. Arguments write {other world}.
Arguments share {other world}. Arguments takes {other world}. Arguments exec {other world}.

(** What an operation does to the frame and the world. *)
Inductive outcome (other world : Type) :=
| RDone (f : frame other) (w : world)
| RError (f : frame other) (w : world)
| RStopped (w : world)
| RPanic
| RDiverge.
Arguments RDone {other world}. Arguments RError {other world}.
Arguments RStopped {other world}. Arguments RPanic {other world}. Arguments RDiverge {other world}.

(** How a call ends. *)
Inductive answer (world : Type) :=
| Returned (w : world)
| Raised (w : world)
| CleanupFailed (w : world)
| Stopped (w : world)
| Panicked
| Diverged
| OutOfFuel.
Arguments Returned {world}. Arguments Raised {world}. Arguments CleanupFailed {world}.
Arguments Stopped {world}. Arguments Panicked {world}. Arguments Diverged {world}.
Arguments OutOfFuel {world}.

Section Machine.
Context {other world : Type}.
Variable m : machine other world.

(** A place: a cell of the frame, or an address. *)
Inductive place := PLocal (c : nat) | PShared (p : value other).

(** interpreter.rs place_operand L2388-2415. *)
Definition place_of (f : frame other) (o : operand) : option place :=
  match o with
  | OReg r =>
      match regs f r with
      | Some (BCell c) =>
          match cells f c with
          | CLocal _ => Some (PLocal c)
          | CShared p => Some (PShared p)
          | CPopped => None
          end
      | Some (BVal v) => Some (PShared v)
      | Some (BPlace p) => Some (PShared p)
      | Some (BMark _ _) | Some BMoved | None => None
      end
  | OParam n => option_map PShared (args f n)
  | OConst _ | OPattern _ | OStatic _ => None
  end.

Definition content_of (p : place) (f : frame other) (w : world) : option (content other) :=
  match p with
  | PLocal c => match cells f c with CLocal x => Some x | CShared _ | CPopped => None end
  | PShared p => read m p w
  end.

Definition write_place (p : place) (x : content other) (f : frame other) (w : world) :
    outcome other world :=
  match p with
  | PLocal c => RDone (set_cell c (CLocal x) f) w
  | PShared p =>
      match write m p x w with
      | EDone w _ => RDone f w
      | EError w => RError f w
      | EStopped w => RStopped w
      | EPanic => RPanic
      | EDiverge => RDiverge
      end
  end.

(** interpreter.rs value_operand L2419-2459: a value that cannot be copied is
    moved out of its register. *)
Definition value_of (f : frame other) (o : operand) : option (value other * frame other) :=
  match o with
  | OReg r =>
      match regs f r with
      | Some (BVal v) => Some (v, if copyable m v then f else set_reg r BMoved f)
      | Some (BPlace _) | Some (BCell _) | Some (BMark _ _) | Some BMoved | None => None
      end
  | OParam n => option_map (fun v => (v, f)) (args f n)
  | OConst l => Some (constant m l, f)
  | OStatic n => Some (static m n, f)
  | OPattern _ => None
  end.

(** The address of a cell leaves the frame. *)
Definition share_cell (c : nat) (f : frame other) (w : world) :
    option (value other * frame other * world) :=
  match cells f c with
  | CLocal x => let (w, p) := share m x w in Some (p, set_cell c (CShared p) f, w)
  | CShared p => Some (p, f, w)
  | CPopped => None
  end.

(** The value of an operand in any position but those below. *)
Definition pass_operand (k : kind) (i : nat) (o : operand) (f : frame other) (w : world) :
    option (value other * frame other * world) :=
  match o with
  | OReg r =>
      match regs f r with
      | Some (BVal v) =>
          Some (v, if takes m k i && negb (copyable m v) then set_reg r BMoved f else f, w)
      | Some (BPlace p) => Some (p, f, w)
      | Some (BCell c) => share_cell c f w
      | Some (BMark _ _) | Some BMoved | None => None
      end
  | OParam n => option_map (fun v => (v, f, w)) (args f n)
  | OConst l | OPattern l => Some (constant m l, f, w)
  | OStatic n => Some (static m n, f, w)
  end.

Fixpoint pass_operands (k : kind) (i : nat) (os : list operand) (f : frame other) (w : world) :
    option (list (value other) * frame other * world) :=
  match os with
  | [] => Some ([], f, w)
  | o :: os =>
      match pass_operand k i o f w with
      | None => None
      | Some (v, f, w) =>
          match pass_operands k (S i) os f w with
          | None => None
          | Some (vs, f, w) => Some (v :: vs, f, w)
          end
      end
  end.

(** interpreter.rs bind L816-820. *)
Definition bind (result : option nat) (b : option (binding other)) (f : frame other) : frame other :=
  match result, b with
  | Some r, Some b => set_reg r b f
  | _, _ => f
  end.

(** A boolean literal against a value (try_matches_runtime_value). *)
Definition compare (l : literal) (v : value other) : option bool :=
  match l, v with
  | LBool b, VBool b' => Some (Bool.eqb b b')
  | LBool _, VOther _ => None
  | LOther n, v => matches m n v
  end.

(** interpreter.rs with_runtime_value L2487-2525: through a place, or in a
    register. *)
Definition inspect (f : frame other) (w : world) (o : operand) : option (content other) :=
  match o with
  | OReg r =>
      match regs f r with
      | Some (BCell c) =>
          match cells f c with
          | CLocal x => Some x
          | CShared p => read m p w
          | CPopped => None
          end
      | Some (BVal v) => Some (Some v)
      | Some (BPlace p) => read m p w
      | Some (BMark _ _) | Some BMoved | None => None
      end
  | OParam n => match args f n with Some v => read m v w | None => None end
  | OConst l => Some (Some (constant m l))
  | OStatic n => Some (Some (static m n))
  | OPattern _ => None
  end.

(** interpreter.rs exec_stack_restore: the cells pushed since the marker. *)
Definition restore (height : nat) (f : frame other) : frame other :=
  let popped := firstn (length (stack f) - height) (stack f) in
  Frame (args f) (regs f)
    (fun c => if existsb (Nat.eqb c) popped then CPopped else cells f c)
    (skipn (length (stack f) - height) (stack f)) (next f).

(** interpreter.rs alloc_cell, in a frame. *)
Definition allocate (result : option nat) (f : frame other) : frame other :=
  bind result (Some (BCell (next f)))
    (Frame (args f) (regs f) (upd (cells f) (next f) (CLocal None))
       (next f :: stack f) (S (next f))).

Definition after (e : effect other world) (k : world -> option (given other) -> outcome other world)
    (f : frame other) : outcome other world :=
  match e with
  | EDone w v => k w v
  | EError w => RError f w
  | EStopped w => RStopped w
  | EPanic => RPanic
  | EDiverge => RDiverge
  end.

(** The stored value of a [store] (exec_store L943-960): a place is stored as
    its address. *)
Definition stored_value (o : operand) (f : frame other) (w : world) :
    option (value other * frame other * world) :=
  match o with
  | OReg r =>
      match regs f r with
      | Some (BPlace p) => Some (p, f, w)
      | Some (BCell c) => share_cell c f w
      | _ => option_map (fun '(v, f) => (v, f, w)) (value_of f o)
      end
  | _ => option_map (fun '(v, f) => (v, f, w)) (value_of f o)
  end.

(** Any operation whose operands are passed as they are. *)
Definition step_other (o : operation) (f : frame other) (w : world) : outcome other world :=
  match pass_operands (op_kind o) 0 (op_operands o) f w with
  | None => RPanic
  | Some (vs, f, w) =>
      after (exec m (op_kind o) vs w)
        (fun w v => RDone (bind (op_result o) (option_map as_binding v) f) w) f
  end.

(** exec_call: the result place is the last operand. *)
Definition step_call (o : operation) (visible : nat) (f : frame other) (w : world) :
    outcome other world :=
  match call_result_operand_index (op_operands o) visible with
  | None => RPanic
  | Some i =>
      match nth_error (op_operands o) i with
      | None => RPanic
      | Some result =>
          match pass_operands (op_kind o) 0 (firstn i (op_operands o)) f w with
          | None => RPanic
          | Some (vs, f, w) =>
              match place_of f result with
              | None => RPanic
              | Some (PShared p) =>
                  after (exec m (op_kind o) (vs ++ [p]) w) (fun w _ => RDone f w) f
              | Some (PLocal c) =>
                  let (w, p) := share m None w in
                  after (exec m (op_kind o) (vs ++ [p]) w)
                    (fun w _ =>
                       match read m p w with
                       | Some x => RDone (set_cell c (CLocal x) f) w
                       | None => RPanic
                       end) f
              end
          end
      end
  end.

(** interpreter.rs exec_operation L650-790. *)
Definition step (o : operation) (f : frame other) (w : world) : outcome other world :=
  match op_kind o, op_operands o with
  | KAlloca _, os =>
      match pass_operands (op_kind o) 0 os f w with
      | None => RPanic
      | Some (vs, f, w) =>
          after (exec m (op_kind o) vs w) (fun w _ => RDone (allocate (op_result o) f) w) f
      end
  | KStackSave, [] =>
      after (exec m KStackSave [] w)
        (fun w v =>
           match v with
           | Some (GValue v) => RDone (bind (op_result o) (Some (BMark (length (stack f)) v)) f) w
           | _ => RPanic
           end) f
  | KStackRestore, [OReg r] =>
      match regs f r with
      | Some (BMark height v) =>
          after (exec m KStackRestore [v] w) (fun w _ => RDone (restore height f) w) f
      | _ => RPanic
      end
  | KLoad, [s] =>
      match place_of f s with
      | None => RPanic
      | Some p =>
          match content_of p f w with
          | Some (Some v) =>
              if copyable m v then RDone (bind (op_result o) (Some (BVal v)) f) w else RPanic
          | _ => RPanic
          end
      end
  | KStore, [v; d] =>
      match stored_value v f w with
      | None => RPanic
      | Some (v, f, w) =>
          match place_of f d with
          | None => RPanic
          | Some p => write_place p (Some v) f w
          end
      end
  | KMemcpy, [s; d] =>
      match place_of f s, place_of f d with
      | Some s, Some d =>
          match content_of s f w with
          | Some (Some v) => if copyable m v then write_place d (Some v) f w else RPanic
          | _ => RPanic
          end
      | _, _ => RPanic
      end
  | KMove, s :: d :: _ =>
      match place_of f s, place_of f d with
      | Some s, Some d =>
          match content_of s f w with
          | Some x =>
              match write_place s None f w with
              | RDone f w => write_place d x f w
              | r => r
              end
          | None => RPanic
          end
      | _, _ => RPanic
      end
  | KCompareEqual, [s; OPattern l] =>
      match inspect f w s with
      | Some (Some v) =>
          match compare l v with
          | Some b => RDone (bind (op_result o) (Some (BVal (VBool b))) f) w
          | None => RPanic
          end
      | _ => RPanic
      end
  | KCall visible _, _ => step_call o visible f w
  | KOther _ _, _ => step_other o f w
  | _, _ => RPanic
  end.

Fixpoint steps (os : list operation) (f : frame other) (w : world) : outcome other world :=
  match os with
  | [] => RDone f w
  | o :: os =>
      match step o f w with
      | RDone f w => steps os f w
      | r => r
      end
  end.

(** Where a terminator leads: on to a block, or out. *)
Inductive exit := XGo (b : nat) (f : frame other) (w : world) | XEnd (a : answer world).

(** interpreter.rs run_loop L540-650, the terminators. *)
Definition leave (t : terminator) (f : frame other) (w : world) : exit :=
  match t with
  | TGoto b => XGo b f w
  | TCondBr c b b' =>
      match inspect f w c with
      | Some (Some (VBool true)) => XGo b f w
      | Some (Some (VBool false)) => XGo b' f w
      | _ => XEnd Panicked
      end
  | TInvoke o b b' =>
      match step o f w with
      | RDone f w => XGo b f w
      | RError f w => XGo b' f w
      | RStopped w => XEnd (Stopped w)
      | RPanic => XEnd Panicked
      | RDiverge => XEnd Diverged
      end
  | TYield p b =>
      match pass_operand KYield 0 p f w with
      | None => XEnd Panicked
      | Some (v, f, w) =>
          match exec m KYield [v] w with
          | EDone w _ => XGo b f w
          | EError _ => XEnd Panicked
          | EStopped w => XEnd (Stopped w)
          | EPanic => XEnd Panicked
          | EDiverge => XEnd Diverged
          end
      end
  | TReturn => XEnd (Returned w)
  | TPropagateError => XEnd (Raised w)
  | TFailureDuringCleanup => XEnd (CleanupFailed w)
  end.

(** One block.  Only an invoked operation may raise an error. *)
Definition step_block (b : block) (f : frame other) (w : world) : exit :=
  match steps (operations b) f w with
  | RDone f w => leave (term b) f w
  | RError _ _ => XEnd Panicked
  | RStopped w => XEnd (Stopped w)
  | RPanic => XEnd Panicked
  | RDiverge => XEnd Diverged
  end.

(** At most [n] blocks. *)
Fixpoint run (n : nat) (p : body) (b : nat) (f : frame other) (w : world) : answer world :=
  match n with
  | 0 => OutOfFuel
  | S n =>
      match nth_error p b with
      | None => Panicked
      | Some bl =>
          match step_block bl f w with
          | XGo b f w => run n p b f w
          | XEnd a => a
          end
      end
  end.

(** A call. *)
Definition call (n : nat) (p : body) (params : list (value other)) (w : world) : answer world :=
  run n p 0 (start params) w.
End Machine.
