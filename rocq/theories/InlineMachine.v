(** The MIR interpreter as an abstract machine with a stack of frames.

    Modelled: src/mir/interpreter.rs Binding L60-90, run_function L500-512,
    run_frame L516-531, run_loop L534-646, exec_operation L649-788 (stack_save,
    stack_restore), bind L816-820, exec_call L1239-1279, exec_resolved_call
    L1612-1684, restore_stack L2262-2270, evidence_binding L2326-2341,
    place_operand L2388-2415.

    Simplifications.  What an operation does to the world (the cells, their
    contents, the limits on fuel and cells) is a parameter, given as an
    interaction with the machine: it reads its operands, may call functions,
    may move values out of registers, and finishes, fails or panics.  It cannot
    see the number of frames, so the limit on the call depth is left out.  A
    poisoning error ends the run at once: every operation in progress passes
    it on (the [?] of the exec functions) and every frame adds the failure it
    was cleaning up after.  The machine panics on a scoped projection and on a
    yield, which are not modelled.  A panic of the code is [Panicked]. *)
From Coq Require Import List Arith Bool.
From Verif Require Import InlineModel.
Import ListNotations.

Section Bindings.
  Variables (place value tag failure poisoning world : Type).

  (** Binding; an open projection is left out. *)
  Inductive binding :=
  | BPlace (p : place)
  | BValue (v : value)
  | BMarker (n : nat)
  | BDict (d : nat)
  | BTag (t : tag).

  (** An operand as an operation reads it. *)
  Inductive resolved :=
  | RConst (x : nat)
  | RPattern (p : nat)
  | RDict (d : nat)
  | RSubscript (s : nat)
  | RFunction (f : fid)
  | RBound (b : binding).

  (** How a call ends, unless it poisons. *)
  Inductive ret := ROk | RErr (e : failure).

  (** The interaction of an operation: [moves] gives the new bindings of the
      operands, by position, whose values were moved out. *)
  Inductive act :=
  | Finish (w : world) (moves : list (nat * binding)) (result : option binding)
  | Fail (w : world) (moves : list (nat * binding)) (e : failure)
  | Poison (w : world) (e : poisoning)
  | Call (f : fid) (args : list binding) (w : world) (k : ret -> world -> act)
  | Panic.

  Inductive outcome :=
  | Returned (w : world)
  | Failed (e : failure) (w : world)
  | Poisoned (e : poisoning) (w : world).

  Inductive control :=
  | CRun (ops : list operation)
  | CAct (a : act) (o : operation) (rest : option (list operation))
  | CWait (k : ret -> world -> act) (o : operation) (rest : option (list operation)).

  (** One call of run_loop.  [fr_top]: the height of the stack of cells when
      the frame was entered.  The rest of a control: the operations that
      follow a plain operation, nothing for an invoked one. *)
  Record frame := Frame {
    fr_fun : fid;
    fr_params : nat -> option binding;
    fr_regs : nat -> option binding;
    fr_pending : option failure;
    fr_cleanup : option failure;
    fr_top : nat;
    fr_block : nat;
    fr_control : control
  }.

  Inductive status :=
  | Running (stack : list frame) (w : world)
  | Done (o : outcome)
  | Panicked.
End Bindings.
Arguments BPlace {place value tag}.
Arguments BValue {place value tag}.
Arguments BMarker {place value tag}.
Arguments BDict {place value tag}.
Arguments BTag {place value tag}.
Arguments RConst {place value tag}.
Arguments RPattern {place value tag}.
Arguments RDict {place value tag}.
Arguments RSubscript {place value tag}.
Arguments RFunction {place value tag}.
Arguments RBound {place value tag}.
Arguments ROk {failure}.
Arguments RErr {failure}.
Arguments Finish {place value tag failure poisoning world}.
Arguments Fail {place value tag failure poisoning world}.
Arguments Poison {place value tag failure poisoning world}.
Arguments Call {place value tag failure poisoning world}.
Arguments Panic {place value tag failure poisoning world}.
Arguments Returned {failure poisoning world}.
Arguments Failed {failure poisoning world}.
Arguments Poisoned {failure poisoning world}.
Arguments CRun {place value tag failure poisoning world}.
Arguments CAct {place value tag failure poisoning world}.
Arguments CWait {place value tag failure poisoning world}.
Arguments Frame {place value tag failure poisoning world}.
Arguments fr_fun {place value tag failure poisoning world}.
Arguments fr_params {place value tag failure poisoning world}.
Arguments fr_regs {place value tag failure poisoning world}.
Arguments fr_pending {place value tag failure poisoning world}.
Arguments fr_cleanup {place value tag failure poisoning world}.
Arguments fr_top {place value tag failure poisoning world}.
Arguments fr_block {place value tag failure poisoning world}.
Arguments fr_control {place value tag failure poisoning world}.
Arguments Running {place value tag failure poisoning world}.
Arguments Done {place value tag failure poisoning world}.
Arguments Panicked {place value tag failure poisoning world}.

(** The parameters of the machine. *)
Record dialect := Dialect {
  place : Type;
  value : Type;
  tag : Type;
  failure : Type;
  poisoning : Type;
  world : Type;
  (** PlaceResult: a place returned by a function, carried as a value. *)
  value_place : value -> option place;
  (** environment.len() and its truncation. *)
  height : world -> nat;
  truncate : nat -> world -> world;
  (** The cell evidence_binding allocates for a symbolic subscript. *)
  subscript_cell : nat -> world -> place * world;
  (** EvalCtx::poison. *)
  poison : failure -> poisoning -> poisoning;
  poison_pair : failure -> failure -> poisoning;
  exec : kind -> list (resolved place value tag) -> world
         -> act place value tag failure poisoning world;
  branch : resolved place value tag -> world -> option bool
}.

Section Machine.
  Variable d : dialect.
  Local Notation binding := (binding (place d) (value d) (tag d)).
  Local Notation resolved := (resolved (place d) (value d) (tag d)).
  Local Notation act := (act (place d) (value d) (tag d) (failure d) (poisoning d) (world d)).
  Local Notation frame := (frame (place d) (value d) (tag d) (failure d) (poisoning d) (world d)).
  Local Notation control := (control (place d) (value d) (tag d) (failure d) (poisoning d) (world d)).
  Local Notation status := (status (place d) (value d) (tag d) (failure d) (poisoning d) (world d)).
  Local Notation ret := (ret (failure d)).

  Definition set {A} (m : nat -> option A) (k : nat) (a : A) : nat -> option A :=
    fun x => if x =? k then Some a else m x.

  (** Reading an operand; [None]: an unbound operand or a constant out of
      range, which panics. *)
  Definition resolve (F : function) (fr : frame) (o : operand) : option resolved :=
    match o with
    | OConst c => option_map RConst (nth_error (f_constants F) c)
    | OPattern p => Some (RPattern p)
    | ODict x => Some (RDict x)
    | OSubscript s => Some (RSubscript s)
    | OFunction f => Some (RFunction f)
    | OParam i => option_map RBound (fr_params fr i)
    | OReg r => option_map RBound (fr_regs fr r)
    end.

  Fixpoint resolve_all (F : function) (fr : frame) (os : list operand) : option (list resolved) :=
    match os with
    | [] => Some []
    | o :: r => InlineModel.bind (resolve F fr o) (fun x =>
                InlineModel.bind (resolve_all F fr r) (fun xs => Some (x :: xs)))
    end.

  (** place_operand L2388-2415. *)
  Definition as_place (b : binding) : option (place d) :=
    match b with
    | BPlace p => Some p
    | BValue v => value_place d v
    | _ => None
    end.

  (** One argument of a call (exec_resolved_call L1648-1664, evidence_binding
      L2326-2341). *)
  Definition bind_argument (k : passing) (x : resolved) (w : world d) : option (binding * world d) :=
    match k, x with
    | PDictionary, RDict n => Some (BDict n, w)
    | PDictionary, RBound (BDict n) => Some (BDict n, w)
    | PDictionary, RSubscript s => let (p, w') := subscript_cell d s w in Some (BPlace p, w')
    | _, RBound b => option_map (fun p => (BPlace p, w)) (as_place b)
    | _, _ => None
    end.

  (** Past the parameters, an argument is a place. *)
  Fixpoint bind_arguments (ks : list passing) (xs : list resolved) (w : world d)
    : option (list binding * world d) :=
    match xs with
    | [] => Some ([], w)
    | x :: r =>
        InlineModel.bind (bind_argument (match ks with k :: _ => k | [] => PPlace end) x w) (fun p =>
        InlineModel.bind (bind_arguments (tl ks) r (snd p)) (fun q =>
        Some (fst p :: fst q, snd q)))
    end.

  (** What follows a direct call: nothing but passing a failure on. *)
  Definition direct (r : ret) (w : world d) : act :=
    match r with ROk => Finish w [] None | RErr e => Fail w [] e end.

  (** The start of an operation (exec_operation). *)
  Definition begin (P : program) (F : function) (fr : frame) (o : operation) (w : world d) : act :=
    match resolve_all F fr (o_operands o) with
    | None => Panic
    | Some xs =>
        match o_kind o with
        | KProject | KEndProject => Panic
        | KCall _ =>
            match xs with
            | RFunction g :: args =>
                match P g with
                | Some G =>
                    match bind_arguments (f_params G) args w with
                    | Some (bs, w') => Call g bs w' direct
                    | None => Panic
                    end
                | None => exec d (o_kind o) xs w
                end
            | _ => exec d (o_kind o) xs w
            end
        | k => exec d k xs w
        end
    end.

  Definition with_control (fr : frame) (c : control) : frame :=
    Frame (fr_fun fr) (fr_params fr) (fr_regs fr) (fr_pending fr) (fr_cleanup fr) (fr_top fr)
          (fr_block fr) c.

  Definition with_reg (fr : frame) (r : nat) (b : binding) : frame :=
    Frame (fr_fun fr) (fr_params fr) (set (fr_regs fr) r b) (fr_pending fr) (fr_cleanup fr)
          (fr_top fr) (fr_block fr) (fr_control fr).

  Definition with_param (fr : frame) (i : nat) (b : binding) : frame :=
    Frame (fr_fun fr) (set (fr_params fr) i b) (fr_regs fr) (fr_pending fr) (fr_cleanup fr)
          (fr_top fr) (fr_block fr) (fr_control fr).

  (** To the start of a block; [None]: there is no such block. *)
  Definition goto (F : function) (fr : frame) (b : nat) : option frame :=
    match nth_error (f_blocks F) b with
    | Some B => Some (Frame (fr_fun fr) (fr_params fr) (fr_regs fr) (fr_pending fr) (fr_cleanup fr)
                            (fr_top fr) b (CRun (b_ops B)))
    | None => None
    end.

  (** The operands whose values an operation moved out. *)
  Fixpoint apply_moves (fr : frame) (os : list operand) (ms : list (nat * binding)) : option frame :=
    match ms with
    | [] => Some fr
    | (i, b) :: rest =>
        match nth_error os i with
        | Some (OReg r) => apply_moves (with_reg fr r b) os rest
        | Some (OParam n) => apply_moves (with_param fr n b) os rest
        | _ => None
        end
    end.

  Definition apply_result (fr : frame) (r : option nat) (b : option binding) : option frame :=
    match b, r with
    | None, _ => Some fr
    | Some b, Some r => Some (with_reg fr r b)
    | Some _, None => None
    end.

  Definition arguments (bs : list binding) : nat -> option binding := nth_error bs.

  (** run_function and run_frame. *)
  Definition enter (G : function) (g : fid) (bs : list binding) (w : world d) : option frame :=
    goto G (Frame g (arguments bs) (fun _ => None) None None (height d w) 0 (CRun [])) 0.

  (** A frame is gone: whoever waits for it goes on. *)
  Definition return_to (stack : list frame) (r : ret) (w : world d) : status :=
    match stack with
    | [] => Done (match r with ROk => Returned w | RErr e => Failed e w end)
    | fr :: rest =>
        match fr_control fr with
        | CWait k o ops => Running (with_control fr (CAct (k r w) o ops) :: rest) w
        | _ => Panicked
        end
    end.

  (** A poisoning error ends the run. *)
  Definition blame (fr : frame) (e : poisoning d) : poisoning d :=
    match fr_pending fr with Some i => poison d i e | None => e end.

  Definition base (stack : list frame) : nat := last (map fr_top stack) 0.

  Definition poisoned (stack : list frame) (e : poisoning d) (w : world d) : status :=
    Done (Poisoned (fold_left (fun e fr => blame fr e) stack e) (truncate d (base stack) w)).

  Definition next_or_panic (stack : list frame) (fr : option frame) (w : world d) : status :=
    match fr with Some fr => Running (fr :: stack) w | None => Panicked end.

  (** A source failure of the operation in progress. *)
  Definition fails (F : function) (fr : frame) (rest : option (list operation)) (e : failure d)
    : option frame :=
    match rest with
    | Some _ => None
    | None =>
        match nth_error (f_blocks F) (fr_block fr) with
        | Some (Block _ (TInvoke _ _ target)) =>
            match fr_pending fr with
            | None => goto F (Frame (fr_fun fr) (fr_params fr) (fr_regs fr) (Some e) (fr_cleanup fr)
                                    (fr_top fr) (fr_block fr) (fr_control fr)) target
            | Some i =>
                match fr_cleanup fr with
                | Some _ => None
                | None => goto F (Frame (fr_fun fr) (fr_params fr) (fr_regs fr) (Some i) (Some e)
                                        (fr_top fr) (fr_block fr) (fr_control fr)) target
                end
            end
        | _ => None
        end
    end.

  Definition finishes (F : function) (fr : frame) (rest : option (list operation)) : option frame :=
    match rest with
    | Some ops => Some (with_control fr (CRun ops))
    | None =>
        match nth_error (f_blocks F) (fr_block fr) with
        | Some (Block _ (TInvoke _ target _)) => goto F fr target
        | _ => None
        end
    end.

  (** The terminator of the current block (run_loop L562-645). *)
  Definition terminate (P : program) (F : function) (fr : frame) (stack : list frame) (w : world d)
    (t : terminator) : status :=
    match t with
    | TGoto b => next_or_panic stack (goto F fr b) w
    | TCond c yes no =>
        match resolve F fr c with
        | Some x =>
            match branch d x w with
            | Some taken => next_or_panic stack (goto F fr (if taken then yes else no)) w
            | None => Panicked
            end
        | None => Panicked
        end
    | TInvoke o _ _ => Running (with_control fr (CAct (begin P F fr o w) o None) :: stack) w
    | TReturn =>
        match fr_pending fr with
        | None => return_to stack ROk (truncate d (fr_top fr) w)
        | Some _ => Panicked
        end
    | TPropagate =>
        match fr_cleanup fr, fr_pending fr with
        | None, Some e => return_to stack (RErr e) (truncate d (fr_top fr) w)
        | _, _ => Panicked
        end
    | TFailure =>
        match fr_pending fr, fr_cleanup fr with
        | Some i, Some e =>
            Done (Poisoned (fold_left (fun e fr => blame fr e) stack (poison_pair d i e))
                           (truncate d (base (fr :: stack)) w))
        | _, _ => Panicked
        end
    | TYield _ _ => Panicked
    end.

  (** One step of the frame on top. *)
  Definition step (P : program) (s : status) : status :=
    match s with
    | Running (fr :: stack) w =>
        match P (fr_fun fr) with
        | None => Panicked
        | Some F =>
            match fr_control fr with
            | CRun (o :: ops) =>
                match o_kind o with
                | KStackSave =>
                    match o_result o with
                    | Some r =>
                        Running (with_control (with_reg fr r (BMarker (height d w))) (CRun ops) :: stack) w
                    | None => Panicked
                    end
                | KStackRestore =>
                    match o_operands o with
                    | x :: _ =>
                        match resolve F fr x with
                        | Some (RBound (BMarker n)) =>
                            Running (with_control fr (CRun ops) :: stack) (truncate d n w)
                        | _ => Panicked
                        end
                    | [] => Panicked
                    end
                | _ => Running (with_control fr (CAct (begin P F fr o w) o (Some ops)) :: stack) w
                end
            | CRun [] =>
                match nth_error (f_blocks F) (fr_block fr) with
                | Some B => terminate P F fr stack w (b_term B)
                | None => Panicked
                end
            | CAct a o rest =>
                match a with
                | Finish w' ms b =>
                    match apply_moves fr (o_operands o) ms with
                    | Some fr1 =>
                        match apply_result fr1 (o_result o) b with
                        | Some fr2 => next_or_panic stack (finishes F fr2 rest) w'
                        | None => Panicked
                        end
                    | None => Panicked
                    end
                | Fail w' ms e =>
                    match apply_moves fr (o_operands o) ms with
                    | Some fr1 => next_or_panic stack (fails F fr1 rest e) w'
                    | None => Panicked
                    end
                | Poison w' e => poisoned (fr :: stack) e w'
                | Call g bs w' k =>
                    match P g with
                    | Some G =>
                        next_or_panic (with_control fr (CWait k o rest) :: stack) (enter G g bs w') w'
                    | None => Panicked
                    end
                | Panic => Panicked
                end
            | CWait _ _ _ => Panicked
            end
        end
    | Running [] _ => Panicked
    | s => s
    end.

  Fixpoint run (P : program) (n : nat) (s : status) : status :=
    match n with 0 => s | S n => run P n (step P s) end.

  (** A call from the host (run_entry). *)
  Definition start (P : program) (f : fid) (bs : list binding) (w : world d) : status :=
    match P f with
    | Some F => next_or_panic [] (enter F f bs w) w
    | None => Panicked
    end.
End Machine.
