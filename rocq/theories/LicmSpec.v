(** What moving a call out of a loop may not change: the behaviour of the function. *)
From Coq Require Import List.
From Verif Require Import LicmModel.
Import ListNotations.

(** ** Functions *)

Definition operation_at (f : func) (s : site) (op : operation) : Prop :=
  exists bl, nth_error f (fst s) = Some bl /\ nth_error (ops bl) (snd s) = Some op.
(** Also those of terminators; a yield acts on its place. *)
Inductive occurs (f : func) (op : operation) : Prop :=
| occurs_op s : operation_at f s op -> occurs f op
| occurs_invoke b bl y n : nth_error f b = Some bl -> term bl = Invoke op y n -> occurs f op
| occurs_yield b bl p y : nth_error f b = Some bl -> term bl = Yield p y -> op = yielding p -> occurs f op.

(** The storage that a place belongs to. *)
Inductive rooted (f : func) : operand -> root -> Prop :=
| rooted_param p : rooted f (Param p) (RParam p)
| rooted_cell s op r : operation_at f s op -> result op = Some r ->
    (exists ty, okind op = Alloca ty) \/ okind op = AllocaPlace \/ okind op = SubscriptMember ->
    rooted f (Reg r) (RAlloca r)
| rooted_entry s op r : operation_at f s op -> result op = Some r -> okind op = DictEntry -> rooted f (Reg r) (RDict r)
| rooted_part s op r n base rest x : operation_at f s op -> result op = Some r -> okind op = Subfield n ->
    operands op = base :: rest -> rooted f base x -> rooted f (Reg r) x.

(** The places an operation changes. *)
Inductive written (op : operation) (o : operand) : Prop :=
| written_put n : okind op = Put n -> nth_error (operands op) 1 = Some o -> written op o
| written_move i : okind op = Move -> i < 2 -> nth_error (operands op) i = Some o -> written op o
| written_clear n : okind op = Clear n -> nth_error (operands op) 0 = Some o -> written op o
| written_array l : okind op = BuildArray -> operands op = l ++ [o] -> written op o
| written_open n : okind op = Open n -> In o (operands op) -> written op o
| written_result c g hidden args : okind op = Call c -> operands op = g :: hidden ++ args ++ [o] ->
    length args = length (conventions c) -> written op o
| written_argument c g hidden args out i : okind op = Call c -> operands op = g :: hidden ++ args ++ [out] ->
    length args = length (conventions c) -> nth_error args i = Some o ->
    nth_error (conventions c) i = Some MutableRef \/ In i (owned c) -> written op o
| written_unknown c : okind op = Call c -> length (operands op) < length (conventions c) + 2 -> In o (operands op) -> written op o.
(** The storage an operation changes or creates. *)
Definition touches (f : func) (op : operation) (x : root) : Prop :=
  (exists o, written op o /\ rooted f o x) \/ (exists r, result op = Some r /\ (x = RAlloca r \/ x = RDict r)).

(** Ways through the function; [l] are the blocks before the last. *)
Definition edge (f : func) (a b : nat) : Prop := exists bl, nth_error f a = Some bl /\ In b (successors (term bl)).
Inductive walk (f : func) (a : nat) : list nat -> nat -> Prop :=
| walk_start : walk f a [] a
| walk_step l b c : walk f a l b -> edge f b c -> walk f a (l ++ [b]) c.
(** One place is always passed before the other. *)
Definition before (f : func) (d u : site) : Prop :=
  (fst d = fst u /\ snd d < snd u) \/ (fst d <> fst u /\ forall l, walk f 0 l (fst u) -> In (fst d) l).

Inductive uses (f : func) (r : reg) : site -> Prop :=
| uses_op s op : operation_at f s op -> In (Reg r) (operands op) -> uses f r s
| uses_term b bl : nth_error f b = Some bl -> In (Reg r) (term_operands (term bl)) -> uses f r (b, length (ops bl)).
Definition results (f : func) : list reg :=
  flat_map (fun bl => flat_map (fun op => match result op with Some r => [r] | None => [] end)
    (ops bl ++ match term bl with Invoke op _ _ => [op] | _ => [] end)) f.
(** Each register has one definition, before every use; a call that writes its result to a place has no
    result of its own. *)
Definition verified (f : func) : Prop :=
  NoDup (results f) /\
  (forall s op c, operation_at f s op -> okind op = Call c -> value_result c = true -> result op = None) /\
  (forall r s op u, operation_at f s op -> result op = Some r -> uses f r u -> before f s u).

Definition dominance_right (f : func) (dominates : nat -> nat -> bool) : Prop :=
  forall a b, a <> b -> dominates a b = true -> forall l, walk f 0 l b -> In a l.

(** A call without effects of a function that returns, with the places it reads and the register of the cell
    it writes. *)
Definition pure_call (will_return trivial : nat -> bool) (op : operation) (ins : list operand) (r : reg) : Prop :=
  exists c g, okind op = Call c /\ effects_empty c = true /\ value_result c = true /\ trivial (result_type c) = true /\
    owned c = [] /\ Forall (eq Let) (conventions c) /\ length (conventions c) <= length ins /\
    operands op = Function g :: ins ++ [Reg r] /\ will_return g = true.

(** ** The machine *)

(** The storage of a root is one cell, named by it; a new cell is empty. The meaning of the operations is
    left open. What a return to a mark takes back is not modelled. *)
Section Machine.
Variables V E : Type.
Definition cells := root -> V.
Definition registers := reg -> option V.

Inductive answer : Type :=
| Ok (events : list E) (c : cells) (v : V)
| Fail (events : list E) (c : cells)
| Wrong.
Record machine : Type := {
  addr : reg -> V;
  unset : V;
  constant : operand -> V;
  truth : V -> option bool;
  exec : operation -> registers -> cells -> answer }.
Variable M : machine.

Definition set (regs : registers) (r : reg) (v : V) : registers := fun x => if Nat.eqb x r then Some v else regs x.
Inductive step : Type :=
| Next (events : list E) (regs : registers) (c : cells)
| Failure (events : list E) (c : cells)
| Bad.
Definition run_op (op : operation) (regs : registers) (c : cells) : step :=
  match exec M op regs c with
  | Ok t c v => Next t (match result op with Some r => set regs r v | None => regs end) c
  | Fail t c => Failure t c
  | Wrong => Bad
  end.
Fixpoint run_ops (l : list operation) (regs : registers) (c : cells) : step :=
  match l with
  | [] => Next [] regs c
  | op :: rest =>
      match run_op op regs c with
      | Next t regs c =>
          match run_ops rest regs c with
          | Next t' regs c => Next (t ++ t') regs c
          | Failure t' c => Failure (t ++ t') c
          | Bad => Bad
          end
      | other => other
      end
  end.

Inductive outcome : Type := Returned (c : cells) | Failed (c : cells) | Aborted | Running | Stuck.
Inductive exit : Type :=
| To (events : list E) (b : nat) (regs : registers) (c : cells)
| Stop (events : list E) (o : outcome).
Definition value (regs : registers) (o : operand) : option V :=
  match o with Reg r => regs r | o => Some (constant M o) end.
Definition leave (t : terminator) (regs : registers) (c : cells) : exit :=
  match t with
  | Goto b => To [] b regs c
  | CondBr o yes no =>
      match value regs o with
      | Some v =>
          match truth M v with
          | Some true => To [] yes regs c
          | Some false => To [] no regs c
          | None => Stop [] Stuck
          end
      | None => Stop [] Stuck
      end
  | Invoke op normal failed =>
      match run_op op regs c with
      | Next t regs c => To t normal regs c
      | Failure t c => To t failed regs c
      | Bad => Stop [] Stuck
      end
  | Yield o b =>
      match run_op (yielding o) regs c with
      | Next t regs c => To t b regs c
      | Failure t c => Stop t (Failed c)
      | Bad => Stop [] Stuck
      end
  | Return => Stop [] (Returned c)
  | PropagateError => Stop [] (Failed c)
  | FailureDuringCleanup => Stop [] Aborted
  end.
Definition also (t : list E) (x : list E * outcome) : list E * outcome := (t ++ fst x, snd x).
Fixpoint run (n : nat) (f : func) (b : nat) (regs : registers) (c : cells) : list E * outcome :=
  match n with
  | 0 => ([], Running)
  | S n =>
      match nth_error f b with
      | None => ([], Stuck)
      | Some bl =>
          match run_ops (ops bl) regs c with
          | Bad => ([], Stuck)
          | Failure t c => (t, Failed c)
          | Next t regs c =>
              also t
                match leave (term bl) regs c with
                | To t b regs c => also t (run n f b regs c)
                | Stop t o => (t, o)
                end
          end
      end
  end.
(** The blocks a run comes to. *)
Inductive arrives (f : func) (regs0 : registers) (c0 : cells) : nat -> registers -> cells -> Prop :=
| arrives_start : arrives f regs0 c0 0 regs0 c0
| arrives_next b regs c bl t regs1 c1 t' b' regs' c' : arrives f regs0 c0 b regs c -> nth_error f b = Some bl ->
    run_ops (ops bl) regs c = Next t regs1 c1 -> leave (term bl) regs1 c1 = To t' b' regs' c' ->
    arrives f regs0 c0 b' regs' c'.

(** ** What is asked of the machine *)

Definition agree (X : root -> Prop) (c c' : cells) : Prop := forall x, ~ X x -> c x = c' x.
Definition alike (X : root -> Prop) (a a' : answer) : Prop :=
  match a, a' with
  | Ok t c v, Ok t' c' v' => t = t' /\ v = v' /\ agree X c c'
  | Fail t c, Fail t' c' => t = t' /\ agree X c c'
  | Wrong, Wrong => True
  | _, _ => False
  end.
Definition is_local (x : root) : Prop := match x with RParam _ => False | _ => True end.

Record honest (will_return trivial : nat -> bool) (f : func) : Prop := {
  (* An operation sees the registers among its operands, which must be there. *)
  h_operands : forall op regs regs' c, occurs f op -> (forall r, In (Reg r) (operands op) -> regs r = regs' r) ->
    exec M op regs c = exec M op regs' c;
  h_defined : forall op regs c r, occurs f op -> In (Reg r) (operands op) -> regs r = None -> exec M op regs c = Wrong;
  (* It does not see the local cells that none of its operands leads to. *)
  h_blind : forall op regs c c' (X : root -> Prop), occurs f op ->
    (forall x, X x -> is_local x /\ ~ touches f op x /\ forall o, In o (operands op) -> ~ rooted f o x) ->
    agree X c c' -> alike X (exec M op regs c) (exec M op regs c');
  (* It changes only what it writes to or creates. *)
  h_writes : forall op regs c x, occurs f op -> ~ touches f op x ->
    match exec M op regs c with Ok _ c' _ | Fail _ c' => c' x = c x | Wrong => True end;
  (* It makes no sense to read an empty cell. *)
  h_unset : forall op regs c c' r, occurs f op -> ~ touches f op (RAlloca r) -> c (RAlloca r) = unset M ->
    agree (eq (RAlloca r)) c c' ->
    exec M op regs c = Wrong \/ alike (eq (RAlloca r)) (exec M op regs c) (exec M op regs c');
  h_alloca : forall op ty r regs c, occurs f op -> okind op = Alloca ty -> operands op = [] -> result op = Some r ->
    exists c', exec M op regs c = Ok [] c' (addr M r) /\ c' (RAlloca r) = unset M /\ agree (eq (RAlloca r)) c c';
  (* A pure call of what is there computes its result from the cells it reads. *)
  h_call : forall op ins r regs c, occurs f op -> pure_call will_return trivial op ins r ->
    rooted f (Reg r) (RAlloca r) ->
    (forall x, In (Reg x) (operands op) -> regs x <> None) ->
    (forall o x, In o ins -> rooted f o x -> c x <> unset M) ->
    exists v, forall c1, (forall o x, In o ins -> rooted f o x -> c1 x = c x) ->
      exists c2 w, exec M op regs c1 = Ok [] c2 w /\ c2 (RAlloca r) = v /\ agree (eq (RAlloca r)) c1 c2 }.

(** ** The property *)

(** Whenever the run comes to the place the call is moved to, what it reads is there; and if its cell is not
    moved along, nothing is in it yet. *)
Definition prepared (will_return trivial : nat -> bool) (f : func) (h : hoist) (regs0 : registers) (c0 : cells) : Prop :=
  forall op ins r bl regs c t regs1 c1, operation_at f (call_site h) op -> pure_call will_return trivial op ins r ->
    arrives f regs0 c0 (target h) regs c -> nth_error f (target h) = Some bl ->
    run_ops (firstn (insertion h) (ops bl)) regs c = Next t regs1 c1 ->
    (forall o x, In o ins -> rooted f o x -> c1 x <> unset M) /\ (alloca_site h = None -> c1 (RAlloca r) = unset M).

(** The caller sees the storage of the parameters. *)
Definition same_outcome (o o' : outcome) : Prop :=
  match o, o' with
  | Returned c, Returned c' | Failed c, Failed c' => forall p, c (RParam p) = c' (RParam p)
  | Aborted, Aborted | Running, Running => True
  | _, _ => False
  end.
Definition same_run (n : nat) (f g : func) (regs : registers) (c : cells) : Prop :=
  fst (run n g 0 regs c) = fst (run n f 0 regs c) /\ same_outcome (snd (run n f 0 regs c)) (snd (run n g 0 regs c)).
End Machine.
