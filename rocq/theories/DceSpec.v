(** What removing unused computations may not change: the behaviour of the function. *)
From Coq Require Import List.
From Verif Require Import DceModel.
Import ListNotations.

(** ** The machine *)

(** A local cell is named after the register of its allocation; the cells of the caller have other names.
    Values, events and the meaning of the operations are left open. *)
Section Machine.
Variables V E : Type.
Definition cells := reg -> V.
Definition registers := reg -> option V.

Inductive answer : Type :=
| Ok (events : list E) (c : cells) (v : V)
| Fail (events : list E) (c : cells)
| Wrong.

Record machine : Type := {
  addr : reg -> V;                           (* the address of a cell *)
  unset : V;                                 (* what is in a new cell *)
  literal : nat -> V;
  code : nat -> V;
  points : V -> reg -> Prop;                 (* the value gives access to the cell *)
  truth : V -> option bool;
  exec : kind -> list V -> cells -> answer;
  resume : V -> cells -> answer }.           (* what the caller does at a yield *)
Variable M : machine.

Definition set {A} (f : reg -> A) (r : reg) (v : A) : reg -> A := fun x => if Nat.eqb x r then v else f x.

Definition value (regs : registers) (o : operand) : option V :=
  match o with
  | Reg r => regs r
  | Constant n => Some (literal M n)
  | Function n => Some (code M n)
  end.
Fixpoint values (regs : registers) (l : list operand) : option (list V) :=
  match l with
  | [] => Some []
  | o :: rest =>
      match value regs o, values regs rest with
      | Some v, Some vs => Some (v :: vs)
      | _, _ => None
      end
  end.

(** An operation. A new cell has nothing in it. *)
Inductive step : Type :=
| Next (events : list E) (regs : registers) (c : cells)
| Failure (events : list E) (c : cells)
| Bad.
Definition run_op (op : operation) (regs : registers) (c : cells) : step :=
  match values regs (operands op) with
  | None => Bad
  | Some vs =>
      match okind op with
      | Alloca =>
          match result op with
          | Some r => Next [] (set regs r (Some (addr M r))) (set c r (unset M))
          | None => Bad
          end
      | k =>
          match exec M k vs c with
          | Ok t c v => Next t (match result op with Some r => set regs r (Some v) | None => regs end) c
          | Fail t c => Failure t c
          | Wrong => Bad
          end
      end
  end.
Fixpoint run_ops (l : list operation) (regs : registers) (c : cells) : step :=
  match l with
  | [] => Next [] regs c
  | op :: rest =>
      match run_op op regs c with
      | Next t regs c =>
          match run_ops rest regs c with
          | Next t' regs c => Next (t ++ t') regs c
          | Failure t' c => Failure (t ++ t') c
          | Bad => Bad
          end
      | other => other
      end
  end.

Inductive outcome : Type :=
| Returned (c : cells)
| Failed (c : cells)
| Aborted
| Running                  (* not finished after so many blocks *)
| Stuck.                   (* the function reads what is not there, or an operation makes no sense *)
Definition also (t : list E) (x : list E * outcome) : list E * outcome := (t ++ fst x, snd x).
Fixpoint run (n : nat) (f : func) (b : nat) (regs : registers) (c : cells) : list E * outcome :=
  match n with
  | 0 => ([], Running)
  | S n =>
      match nth_error f b with
      | None => ([], Stuck)
      | Some bl =>
          match run_ops (ops bl) regs c with
          | Bad => ([], Stuck)
          | Failure t c => (t, Failed c)
          | Next t regs c =>
              also t
                match term bl with
                | Goto b => run n f b regs c
                | CondBr o yes no =>
                    match value regs o with
                    | Some v =>
                        match truth M v with
                        | Some true => run n f yes regs c
                        | Some false => run n f no regs c
                        | None => ([], Stuck)
                        end
                    | None => ([], Stuck)
                    end
                | Invoke op normal failed =>
                    match run_op op regs c with
                    | Next t regs c => also t (run n f normal regs c)
                    | Failure t c => also t (run n f failed regs c)
                    | Bad => ([], Stuck)
                    end
                | Yield o b =>
                    match value regs o with
                    | Some v =>
                        match resume M v c with
                        | Ok t c _ => also t (run n f b regs c)
                        | Fail t c => (t, Failed c)
                        | Wrong => ([], Stuck)
                        end
                    | None => ([], Stuck)
                    end
                | Return => ([], Returned c)
                | PropagateError => ([], Failed c)
                | FailureDuringCleanup => ([], Aborted)
                end
          end
      end
  end.

(** ** What is asked of the machine *)

Definition clean (X : reg -> Prop) (v : V) : Prop := forall r, X r -> ~ points M v r.
Definition clean_cells (X : reg -> Prop) (c : cells) : Prop := forall r, ~ X r -> clean X (c r).
Definition agree {A} (X : reg -> Prop) (f g : reg -> A) : Prop := forall r, ~ X r -> f r = g r.

(** Cells that cannot be reached are not read, not changed into something reachable, and not revealed. *)
Definition blind (X : reg -> Prop) (a a' : answer) : Prop :=
  match a, a' with
  | Ok t c v, Ok t' c' v' => t = t' /\ v = v' /\ agree X c c' /\ clean_cells X c /\ clean X v
  | Fail t c, Fail t' c' => t = t' /\ agree X c c' /\ clean_cells X c
  | Wrong, Wrong => True
  | _, _ => False
  end.
(** Nothing happens except in the cells of [W]. *)
Definition only (W : reg -> Prop) (a : answer) (c : cells) : Prop :=
  match a with
  | Ok t c' _ => t = [] /\ agree W c c'
  | Fail _ _ => False
  | Wrong => True
  end.

Definition reads (k : kind) : Prop :=
  match k with CompareEqual | Load | ExtractTag | Subfield _ | DictEntry _ => True | _ => False end.
(** A call without effects that returns, by the contract of a native operation or by the summary of a script
    function that only reads its arguments and whose result needs no cleanup. *)
Definition harmless (c : call_info) : Prop :=
  effects_empty c = true /\ value_result c = true /\ direct c = true /\
  (known_total c = true \/
   script c = true /\ owned_arguments c = false /\ has_extras c = false /\ all_let c = true /\
   trivial_result c = true /\ will_return c = true).
(** The place an operation writes to. *)
Inductive writes_to : kind -> list V -> V -> Prop :=
| to_store v p rest : writes_to Store (v :: p :: rest) p
| to_array vs p : writes_to BuildArray (vs ++ [p]) p
| to_clone n v p rest : writes_to (Clone n) (v :: p :: rest) p
| to_drop n p rest : writes_to (Drop n) (p :: rest) p
| to_call c vs p : harmless c -> writes_to (Call c) (vs ++ [p]) p.

Record honest : Prop := {
  h_addr : forall r x, points M (addr M r) x <-> x = r;
  h_unset : forall x, ~ points M (unset M) x;
  h_literal : forall n x, ~ points M (literal M n) x;
  h_code : forall n x, ~ points M (code M n) x;
  h_exec : forall X k vs c c', Forall (clean X) vs -> clean_cells X c -> agree X c c' ->
    blind X (exec M k vs c) (exec M k vs c');
  h_resume : forall X v c c', clean X v -> clean_cells X c -> agree X c c' ->
    blind X (resume M v c) (resume M v c');
  h_reads : forall k vs c, reads k -> only (fun _ => False) (exec M k vs c) c;
  h_writes : forall k vs r c, writes_to k vs (addr M r) -> only (eq r) (exec M k vs c) c }.

(** ** The property *)

Definition local (f : func) (r : reg) : Prop :=
  exists bl op, In bl f /\ In op (ops bl) /\ okind op = Alloca /\ result op = Some r.
Definition block_operations (bl : block) : list operation :=
  ops bl ++ match term bl with Invoke op _ _ => [op] | _ => [] end.
Definition results (f : func) : list reg :=
  flat_map (fun bl => flat_map (fun op => match result op with Some r => [r] | None => [] end) (block_operations bl)) f.

(** Registers and cells at a call: the arguments are there, and nothing knows of the cells to come. *)
Definition entry (f : func) (regs : registers) (c : cells) : Prop :=
  (forall r v, regs r = Some v -> ~ In r (results f) /\ clean (local f) v) /\
  (forall r, clean (local f) (c r)).

(** The caller sees its own cells, not the local ones. *)
Definition same_outcome (f : func) (o o' : outcome) : Prop :=
  match o, o' with
  | Returned c, Returned c' | Failed c, Failed c' => agree (local f) c c'
  | Aborted, Aborted | Running, Running => True
  | _, _ => False
  end.
Definition same_behaviour (f g : func) : Prop :=
  forall n regs c, entry f regs c -> snd (run n f 0 regs c) <> Stuck ->
    fst (run n g 0 regs c) = fst (run n f 0 regs c) /\
    same_outcome f (snd (run n f 0 regs c)) (snd (run n g 0 regs c)).
End Machine.

(** ** Functions *)

(** Each register has one definition; an operation that writes to a place has no result of its own. *)
Definition no_result (k : kind) : Prop :=
  match k with
  | Store | BuildArray | Clone _ | Drop _ => True
  | Call c => value_result c = true
  | _ => False
  end.
Definition well_formed (f : func) : Prop :=
  NoDup (results f) /\
  forall bl op, In bl f -> In op (ops bl) -> no_result (okind op) -> result op = None.

(** Where a register is used. *)
Inductive spot : Type := AtOp (b i position : nat) | AtTerm (b position : nat).
Inductive used (f : func) (r : reg) : spot -> Prop :=
| used_op b i p bl op : nth_error f b = Some bl -> nth_error (ops bl) i = Some op ->
    nth_error (operands op) p = Some (Reg r) -> used f r (AtOp b i p)
| used_term b p bl : nth_error f b = Some bl -> nth_error (term_operands (term bl)) p = Some (Reg r) ->
    used f r (AtTerm b p).
Definition operation_at (f : func) (b i : nat) (op : operation) : Prop :=
  exists bl, nth_error f b = Some bl /\ nth_error (ops bl) i = Some op.

(** No use of a register whose definition is gone. *)
Definition still_defined (f g : func) : Prop :=
  forall r w, used g r w -> In r (results f) -> In r (results g).

(** The roles of a use of a local cell. [wide]: results that need not be consumed are stored too. *)
Definition needs_no_consumer (f : func) (v : reg) : Prop :=
  exists b i op, operation_at f b i op /\ result op = Some v /\ forall n, okind op <> Other n true.
Inductive plain_store (wide : bool) (f : func) : spot -> Prop :=
| store_constant b i op n : operation_at f b i op -> okind op = Store -> nth_error (operands op) 0 = Some (Constant n) ->
    plain_store wide f (AtOp b i 1)
| store_result b i op v : wide = true -> operation_at f b i op -> okind op = Store ->
    nth_error (operands op) 0 = Some (Reg v) -> needs_no_consumer f v -> plain_store wide f (AtOp b i 1).
Inductive construction (f : func) : spot -> Prop :=
| builds_array b i op : operation_at f b i op -> okind op = BuildArray ->
    construction f (AtOp b i (length (operands op) - 1))
| builds_function b i op n : operation_at f b i op -> okind op = Store ->
    nth_error (operands op) 0 = Some (Function n) -> construction f (AtOp b i 1)
| builds_clone b i op ty : operation_at f b i op -> okind op = Clone ty -> construction f (AtOp b i 1).
Inductive dropping (f : func) : spot -> Prop :=
| drops_it b i op ty : operation_at f b i op -> okind op = Drop ty -> dropping f (AtOp b i 0).

(** A cell nobody reads: it only gets plain values, or it is built once, in one place, and dropped. *)
Definition unneeded (wide : bool) (f : func) (r : reg) : Prop :=
  (forall w, used f r w -> plain_store wide f w) \/
  (exists w0, used f r w0 /\ construction f w0 /\
     (exists w, used f r w /\ dropping f w) /\
     forall w, used f r w -> w = w0 \/ dropping f w).
