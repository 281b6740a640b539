(** Removal of stack markers that record a frontier already recorded
    (src/mir/pass/stack_region.rs), and the part of the interpreter that decides
    what a marker means (src/mir/interpreter.rs). *)
From Coq Require Import List Arith Bool.
Import ListNotations.

(** [ValueId], src/mir/value.rs; block indices are [BlockId]. *)
Definition reg := nat.

(** [mir::Value], src/mir/value.rs.  Only the cases the pass tells apart: a
    register, symbolic subscript evidence, and everything else. *)
Inductive operand : Type :=
| Reg (r : reg)
| Subscript (s : nat)
| Datum (c : nat).

(** [OperationKind], src/mir/operation.rs L896-980.  The kinds named in
    [may_leave_frame_storage] are kept; the kinds of its last arm are [Quiet],
    with a number that stands for the kind and its payload. *)
Inductive kind : Type :=
| StackSave | StackRestore
| Alloca | AllocaPlace | Project | EndProject | DictEntry | SubscriptMember | Drop
| Call
| Quiet (k : nat).

Record op : Type := mkOp { okind : kind; operands : list operand; result : option reg }.

(** [TerminatorKind], src/mir/terminator.rs L161-186. *)
Inductive term : Type :=
| Goto (t : nat)
| CondBr (c : operand) (t e : nat)
| Invoke (o : op) (normal error : nat)
| Return | PropagateError | FailureDuringCleanup
| Yield (p : operand) (resume : nat).

Record block : Type := mkBlock { ops : list op; tail : term }.

(** [Function]; the entry is block 0 (src/mir/function.rs L158). *)
Definition function := list block.

(** [successors], src/mir/terminator.rs L190-204. *)
Definition successors (t : term) : list nat :=
  match t with
  | Goto t => [t]
  | CondBr _ t e => [t; e]
  | Invoke _ n e => [n; e]
  | Yield _ r => [r]
  | Return | PropagateError | FailureDuringCleanup => []
  end.

(** ** The pass *)

(** [may_leave_frame_storage], src/mir/pass/dce.rs L411-448. *)
Definition may_leave_frame_storage (o : op) : bool :=
  match okind o with
  | Alloca | AllocaPlace | Project | EndProject | DictEntry | SubscriptMember | Drop => true
  | Call => existsb (fun v => match v with Subscript _ => true | _ => false end) (operands o)
  | StackSave | StackRestore | Quiet _ => false
  end.

(** [Frontier], src/mir/pass/stack_region.rs L54: a sorted vector. *)
Definition frontier := list reg.

(** [holds], L56-60.  The binary search of a sorted vector is written as a search
    from the left. *)
Definition holds (l : frontier) (m : reg) : bool := existsb (Nat.eqb m) l.

(** [record], L62-67. *)
Fixpoint record (l : frontier) (m : reg) : frontier :=
  match l with
  | [] => [m]
  | x :: rest => if m <? x then m :: l else if m =? x then l else x :: record rest m
  end.

(** [intersect], L70-86: the two cursors are the two lists that are left. *)
Fixpoint intersect (l : frontier) : frontier -> frontier :=
  fix go (r : frontier) : frontier :=
    match l, r with
    | a :: l', b :: r' =>
        if a =? b then a :: intersect l' r'
        else if a <? b then intersect l' r
        else go r'
    | _, _ => []
    end.

(** [step], L225-249. *)
Definition step (o : op) (s : frontier) : frontier :=
  match okind o with
  | StackSave => match result o with Some m => record s m | None => s end
  | StackRestore =>
      match operands o with
      | Reg m :: _ => if holds s m then s else [m]
      | _ => s
      end
  | _ => if may_leave_frame_storage o then [] else s
  end.

(** The operations of a block and of its [Invoke], L201-208. *)
Definition transfer (bl : block) (s : frontier) : frontier :=
  let s := fold_left (fun s o => step o s) (ops bl) s in
  match tail bl with Invoke o _ _ => step o s | _ => s end.

(** [entry_states], L189: the map from blocks to states, as a list by block. *)
Definition states := list (option frontier).

Fixpoint set_state (b : nat) (s : frontier) (e : states) : states :=
  match e, b with
  | [], _ => []
  | _ :: rest, 0 => Some s :: rest
  | x :: rest, S b => x :: set_state b s rest
  end.

Definition get_state (e : states) (b : nat) : option frontier := nth b e None.

Definition same_frontier (a b : frontier) : bool := if list_eq_dec Nat.eq_dec a b then true else false.

(** The loop over the successors, L209-218. *)
Fixpoint flow (s : frontier) (succ : list nat) (e : states) (changed : bool) : states * bool :=
  match succ with
  | [] => (e, changed)
  | t :: rest =>
      let updated := match get_state e t with Some old => intersect old s | None => s end in
      if match get_state e t with Some old => same_frontier old updated | None => false end
      then flow s rest e changed
      else flow s rest (set_state t updated e) true
  end.

(** One sweep over the blocks, L197-219. *)
Fixpoint sweep (bls : list block) (b : nat) (e : states) (changed : bool) : states * bool :=
  match bls with
  | [] => (e, changed)
  | bl :: rest =>
      match get_state e b with
      | None => sweep rest (S b) e changed
      | Some s =>
          let (e, changed) := flow (transfer bl s) (successors (tail bl)) e changed in
          sweep rest (S b) e changed
      end
  end.

(** The loop [while changed], L194-220; [None] when the fuel runs out. *)
Fixpoint sweeps (fuel : nat) (f : function) (e : states) : option states :=
  match fuel with
  | 0 => None
  | S n => let (e', changed) := sweep f 0 e false in if changed then sweeps n f e' else Some e'
  end.

(** The registers that a state can hold. *)
Definition markers_of (o : op) : list reg :=
  match okind o with
  | StackSave => match result o with Some m => [m] | None => [] end
  | StackRestore => match operands o with Reg m :: _ => [m] | _ => [] end
  | _ => []
  end.

Definition block_ops (bl : block) : list op :=
  ops bl ++ match tail bl with Invoke o _ _ => [o] | _ => [] end.

Definition all_markers (f : function) : list reg := flat_map markers_of (flat_map block_ops f).

(** A bound on the number of sweeps (not in the source): every sweep that changes
    something reaches a new block or shortens a state. *)
Definition sweeps_enough (f : function) : nat := S (length f * S (length (all_markers f))).

(** [analyze], L188-222. *)
Definition analyze (f : function) : option states :=
  sweeps (sweeps_enough f) f (set_state 0 [] (repeat None (length f))).

(** [substitution], L115: a map, the last insertion first. *)
Definition substitution := list (reg * reg).

Fixpoint lookup (s : substitution) (m : reg) : option reg :=
  match s with
  | [] => None
  | (k, v) :: rest => if k =? m then Some v else lookup rest m
  end.

(** [resolve], L176-185; [None] when the fuel runs out. *)
Fixpoint resolve (fuel : nat) (s : substitution) (m : reg) : option reg :=
  match fuel with
  | 0 => None
  | S n =>
      match lookup s m with
      | None => Some m
      | Some next => if next =? m then Some m else resolve n s next
      end
  end.

(** [OperationSite], src/mir/site.rs: block and index. *)
Definition site := (nat * nat)%type.

(** [representative], L171-173. *)
Definition representative (s : frontier) : option reg := hd_error s.

(** What the scan has decided: the substitution and the sites to remove, L115-116. *)
Definition decision := (substitution * list site)%type.

(** One operation of the scan, L122-142; [None] when [resolve] does not end. *)
Definition decide (b i : nat) (o : op) (s : frontier) (d : decision) : option decision :=
  let (sub, dead) := d in
  match okind o with
  | StackSave =>
      match result o, representative s with
      | Some m, Some held =>
          match resolve (S (length sub)) sub held with
          | Some target => Some ((m, target) :: sub, (b, i) :: dead)
          | None => None
          end
      | _, _ => Some d
      end
  | StackRestore =>
      match operands o with
      | Reg m :: _ => if holds s m then Some (sub, (b, i) :: dead) else Some d
      | _ => Some d
      end
  | _ => Some d
  end.

Fixpoint decide_ops (b i : nat) (l : list op) (s : frontier) (d : decision) : option decision :=
  match l with
  | [] => Some d
  | o :: rest =>
      match decide b i o s d with
      | Some d => decide_ops b (S i) rest (step o s) d
      | None => None
      end
  end.

(** The scan over the blocks, L117-145. *)
Fixpoint decide_all (bls : list block) (b : nat) (e : states) (d : decision) : option decision :=
  match bls with
  | [] => Some d
  | bl :: rest =>
      match get_state e b with
      | None => decide_all rest (S b) e d
      | Some s =>
          match decide_ops b 0 (ops bl) s d with
          | Some d => decide_all rest (S b) e d
          | None => None
          end
      end
  end.

(** [visit_operands_mut] with the substitution, L149-158. *)
Definition rename_operand (s : substitution) (v : operand) : operand :=
  match v with
  | Reg r => match lookup s r with Some t => Reg t | None => v end
  | _ => v
  end.

Definition rename_op (s : substitution) (o : op) : op :=
  mkOp (okind o) (map (rename_operand s) (operands o)) (result o).

Definition rename_term (s : substitution) (t : term) : term :=
  match t with
  | CondBr c a b => CondBr (rename_operand s c) a b
  | Invoke o n e => Invoke (rename_op s o) n e
  | Yield p r => Yield (rename_operand s p) r
  | _ => t
  end.

Definition mem_site (x : site) (l : list site) : bool :=
  existsb (fun y => (fst x =? fst y) && (snd x =? snd y)) l.

(** [operations.retain], L159-166. *)
Fixpoint retain (dead : list site) (b i : nat) (l : list op) : list op :=
  match l with
  | [] => []
  | o :: rest =>
      if mem_site (b, i) dead then retain dead b (S i) rest else o :: retain dead b (S i) rest
  end.

Fixpoint rewrite_from (s : substitution) (dead : list site) (b : nat) (bls : list block) : list block :=
  match bls with
  | [] => []
  | bl :: rest =>
      mkBlock (retain dead b 0 (map (rename_op s) (ops bl))) (rename_term s (tail bl))
        :: rewrite_from s dead (S b) rest
  end.

Definition count_kind (p : kind -> bool) (f : function) : nat :=
  length (filter (fun o => p (okind o)) (flat_map ops f)).

Definition is_save (k : kind) : bool := match k with StackSave => true | _ => false end.
Definition is_restore (k : kind) : bool := match k with StackRestore => true | _ => false end.

(** What the pass gives: an error when a loop of the model ran out of fuel. *)
Inductive answer : Type := Endless | Unchanged | Rewritten (g : function).

(** [remove_redundant_stack_markers], L90-168. *)
Definition remove_redundant_stack_markers (f : function) : answer :=
  if (count_kind is_save f <? 2) && (count_kind is_restore f <? 2) then Unchanged
  else
    match analyze f with
    | None => Endless
    | Some e =>
        match decide_all f 0 e ([], []) with
        | None => Endless
        | Some (_, []) => Unchanged
        | Some (sub, dead) => Rewritten (rewrite_from sub dead 0 f)
        end
    end.

(** ** The interpreter *)

(** What an operation other than a save or a restore does: the new number of
    cells and the new state of everything else.  [Failed] is a source failure,
    [Poisoned] ends the execution at once (src/mir/interpreter.rs L547-560). *)
Inductive outcome (W : Type) : Type :=
| Done (cells : nat) (w : W)
| Failed (cells : nat) (w : W)
| Poisoned (w : W).
Arguments Done {W}. Arguments Failed {W}. Arguments Poisoned {W}.

(** The operations that are not modelled.  [W] holds the registers that are not
    markers, the contents of the cells and all the rest; an operation sees the
    number of cells, so that its addresses, the limit on the cells and the high
    water mark are covered.  [resume] is what happens between a yield and the
    resumption of the accessor (src/mir/interpreter.rs L1103-1133). *)
Record machine (W : Type) : Type := mkMachine {
  perform : op -> nat -> W -> outcome W;
  truth : operand -> W -> option bool;
  resume : operand -> nat -> W -> nat * W
}.
Arguments perform {W}. Arguments truth {W}. Arguments resume {W}.

(** [environment.len()], the markers bound in [slots], and the rest. *)
Record state (W : Type) : Type := mkState { cells : nat; marks : reg -> option nat; world : W }.
Arguments mkState {W}. Arguments cells {W}. Arguments marks {W}. Arguments world {W}.

Definition bind (m : reg -> option nat) (r : reg) (k : nat) : reg -> option nat :=
  fun x => if x =? r then Some k else m x.

(** How an execution ends.  [Stuck] stands for the panics of the interpreter.
    [Unnested]: a restore to a frontier above the current one.  The interpreter
    would pop nothing and go on; the lowering keeps to the stack discipline
    (src/mir/interpreter.rs L2258-2262), and the model stops. *)
Inductive final (W : Type) : Type :=
| Returned (cells : nat) (w : W)
| Raised (cells : nat) (w : W)
| CleanupFailed (cells : nat) (w : W)
| Stopped (w : W)
| Stuck
| Unnested
| Running (b : nat) (cells : nat) (w : W).
Arguments Returned {W}. Arguments Raised {W}. Arguments CleanupFailed {W}. Arguments Stopped {W}.
Arguments Stuck {W}. Arguments Unnested {W}. Arguments Running {W}.

(** [exec_operation], src/mir/interpreter.rs L649-800: the two kinds that deal
    with markers (L751-758, [restore_stack] L2262-2270). *)
Inductive effect (W : Type) : Type := Next (s : state W) | Fail (s : state W) | End (r : final W).
Arguments Next {W}. Arguments Fail {W}. Arguments End {W}.

Definition exec {W} (m : machine W) (o : op) (s : state W) : effect W :=
  match okind o with
  | StackSave =>
      match result o with
      | Some r => Next (mkState (cells s) (bind (marks s) r (cells s)) (world s))
      | None => End Stuck
      end
  | StackRestore =>
      match operands o with
      | Reg r :: _ =>
          match marks s r with
          | Some k => if k <=? cells s then Next (mkState k (marks s) (world s)) else End Unnested
          | None => End Stuck
          end
      | _ => End Stuck
      end
  | _ =>
      match perform m o (cells s) (world s) with
      | Done c w => Next (mkState c (marks s) w)
      | Failed c w => Fail (mkState c (marks s) w)
      | Poisoned w => End (Stopped w)
      end
  end.

(** The operations of a block; a plain operation that raises a source failure
    panics, L547-560. *)
Fixpoint exec_ops {W} (m : machine W) (l : list op) (s : state W) : effect W :=
  match l with
  | [] => Next s
  | o :: rest =>
      match exec m o s with
      | Next s => exec_ops m rest s
      | Fail _ => End Stuck
      | End r => End r
      end
  end.

(** [run_loop], L534-644, for at most [n] blocks.  Which failures are pending is
    part of the rest of the state. *)
Fixpoint run {W} (m : machine W) (f : function) (n b : nat) (s : state W) : final W :=
  match n with
  | 0 => Running b (cells s) (world s)
  | S n =>
      match nth_error f b with
      | None => Stuck
      | Some bl =>
          match exec_ops m (ops bl) s with
          | Fail _ => Stuck
          | End r => r
          | Next s =>
              match tail bl with
              | Goto t => run m f n t s
              | CondBr c t e =>
                  match truth m c (world s) with
                  | Some v => run m f n (if v then t else e) s
                  | None => Stuck
                  end
              | Invoke o normal error =>
                  match exec m o s with
                  | Next s => run m f n normal s
                  | Fail s => run m f n error s
                  | End r => r
                  end
              | Return => Returned (cells s) (world s)
              | PropagateError => Raised (cells s) (world s)
              | FailureDuringCleanup => CleanupFailed (cells s) (world s)
              | Yield p t =>
                  let (c, w) := resume m p (cells s) (world s) in
                  run m f n t (mkState c (marks s) w)
              end
          end
      end
  end.

(** A frame starts without markers. *)
Definition start {W} (m : machine W) (f : function) (n cells : nat) (w : W) : final W :=
  run m f n 0 (mkState cells (fun _ => None) w).
