(** Proofs that calls return: src/mir/pass/will_return.rs, and the call graph
    of src/mir/pass/call_graph.rs it uses.

    MIR bodies are those of MirModel.  Simplifications: the function-valued
    operands of an operation other than the callee it names are given by
    [mentions]; those of OCall come after the callee (their order does not
    matter); [WillReturn::Proven] is [true].  [order] is the order in which the
    hash sets of topological_sort_sccs are iterated (see GraphModel). *)
From Coq Require Import List Arith Bool.
From Verif Require Import ListUtil MirModel GraphModel.
Import ListNotations.

Section WillReturn.
Context {prim cnd : Type}.
Local Notation function := (function prim cnd).
Local Notation block := (block prim cnd).
Local Notation operation := (operation prim).
Variable mentions : prim -> list fid.
Variable order : list nat -> list nat.
Variable module : nat.
Variable external : fid -> bool.

Definition block_successors (fn : function) (b : nat) : gres (list nat) :=
  let* blk := rd fn b in Val (successors (term blk)).

(** A bound on the iterations of the loops below (for the fuel only). *)
Definition edge_count (fn : function) : nat :=
  fold_right (fun blk n => length (successors (term blk)) + n) 0 fn.

(** reachable_blocks L185-195; the stack has its top first. *)
Fixpoint reach_loop (fuel : nat) (fn : function) (reachable : list bool) (pending : list nat)
  : gres (list bool) :=
  match fuel with
  | O => OutOfFuel
  | S fuel =>
      match pending with
      | [] => Val reachable
      | b :: pending =>
          let* seen := rd reachable b in
          let* reachable := wr reachable b true in
          if seen : bool then reach_loop fuel fn reachable pending
          else let* ss := block_successors fn b in
               reach_loop fuel fn reachable (rev ss ++ pending)
      end
  end.

Definition reachable_blocks (fn : function) : gres (list bool) :=
  reach_loop (2 + edge_count fn) fn (repeat false (length fn)) [entry].

(** The blocks kept by [filter(|block| reachable[block])]. *)
Definition kept (fn : function) (reachable : list bool) : list nat :=
  filter (fun b => nth b reachable false) (seq 0 (length fn)).

(** has_cycle L199-231: counting, ... *)
Fixpoint count_successors (ss : list nat) (reachable : list bool) (indegree : list nat)
  : gres (list nat) :=
  match ss with
  | [] => Val indegree
  | s :: ss =>
      let* r := rd reachable s in
      if r : bool then
        let* d := rd indegree s in
        let* indegree := wr indegree s (S d) in
        count_successors ss reachable indegree
      else count_successors ss reachable indegree
  end.

Fixpoint count_blocks (fn : function) (bs : list nat) (reachable : list bool) (indegree : list nat)
  : gres (list nat) :=
  match bs with
  | [] => Val indegree
  | b :: bs =>
      let* ss := block_successors fn b in
      let* indegree := count_successors ss reachable indegree in
      count_blocks fn bs reachable indegree
  end.

(** ... and removing blocks without predecessors.  The subtraction panics
    below 0. *)
Fixpoint remove_successors (ss : list nat) (reachable : list bool) (indegree pending : list nat)
  : gres (list nat * list nat) :=
  match ss with
  | [] => Val (indegree, pending)
  | s :: ss =>
      let* r := rd reachable s in
      if negb r then remove_successors ss reachable indegree pending
      else
        let* d := rd indegree s in
        match d with
        | O => Panics
        | S d =>
            let* indegree := wr indegree s d in
            remove_successors ss reachable indegree (if d =? 0 then pending ++ [s] else pending)
        end
  end.

Fixpoint remove_blocks (fuel : nat) (fn : function) (reachable : list bool)
  (indegree pending : list nat) (removed : nat) : gres nat :=
  match fuel with
  | O => OutOfFuel
  | S fuel =>
      match pending with
      | [] => Val removed
      | b :: pending =>
          let* ss := block_successors fn b in
          let* (indegree, pending) := remove_successors ss reachable indegree pending in
          remove_blocks fuel fn reachable indegree pending (S removed)
      end
  end.

Definition has_cycle (fn : function) (reachable : list bool) : gres bool :=
  let* indegree := count_blocks fn (kept fn reachable) reachable (repeat 0 (length reachable)) in
  let pending := filter (fun b => nth b indegree 0 =? 0) (kept fn reachable) in
  let* removed := remove_blocks (S (length fn)) fn reachable indegree pending 0 in
  Val (negb (removed =? length (filter (fun r => r) reachable))).

(** callee_returns in derive L110-119. *)
Definition callee_returns (known : list bool) (callee : fid) : bool :=
  if fst callee =? module then nth (snd callee) known false else external callee.

(** operation_returns L150-183. *)
Definition operation_returns (known : list bool) (o : operation) : bool :=
  match o with
  | OCall f _ => callee_returns known f
  | OHost _ | OProject _ _ | OEndProject _ _ => false
  | OCheckFuel | OCheckCallDepth | OPlain _ => true
  end.

Definition terminator_returns (known : list bool) (t : terminator prim cnd) : bool :=
  match t with
  | Invoke o _ _ => operation_returns known o
  | Yield _ _ => false
  | Goto _ | CondBr _ _ _ | Return | PropagateError | FailureInCleanup => true
  end.

Definition block_returns (fn : function) (known : list bool) (b : nat) : bool :=
  match nth_error fn b with
  | None => true
  | Some blk => forallb (operation_returns known) (operations blk) && terminator_returns known (term blk)
  end.

(** derive L99-147. *)
Definition derive (fn : function) (known : list bool) : gres bool :=
  let* reachable := reachable_blocks fn in
  let* cyclic := has_cycle fn reachable in
  if cyclic : bool then Val false
  else Val (forallb (block_returns fn known) (kept fn reachable)).

(** call_graph.rs callees_within L140-170: the functions of the module that a
    body names, each once. *)
Definition operation_mentions (o : operation) : list fid :=
  match o with
  | OCheckFuel | OCheckCallDepth => []
  | OPlain p | OHost p | OProject _ p | OEndProject _ p => mentions p
  | OCall f p => f :: mentions p
  end.

Definition block_operations (blk : block) : list operation :=
  operations blk ++ match term blk with Invoke o _ _ => [o] | _ => [] end.

Definition record (callees : list nat) (f : fid) : list nat :=
  if fst f =? module
  then if existsb (Nat.eqb (snd f)) callees then callees else callees ++ [snd f]
  else callees.

Definition callees_within (fn : function) : list nat :=
  fold_left record (flat_map (fun blk => flat_map operation_mentions (block_operations blk)) fn) [].

Definition call_graph (bodies : list (option function)) : graph :=
  map (fun body => match body with Some fn => callees_within fn | None => [] end) bodies.

(** components_callees_first L121-133. *)
Definition components_callees_first (bodies : list (option function)) : gres (list (list nat)) :=
  let g := call_graph bodies in
  let* sccs := find_strongly_connected_components g in
  let* sorted := topological_sort_sccs order g sccs in
  Val (rev sorted).

(** One pass over a component in of_module L69-83. *)
Fixpoint pass_over (bodies : list (option function)) (component : list nat) (of : list bool)
  (changed : bool) : gres (list bool * bool) :=
  match component with
  | [] => Val (of, changed)
  | i :: component =>
      let* known := rd of i in
      if known : bool then pass_over bodies component of changed
      else
        let* body := rd bodies i in
        let* derived := match body with Some fn => derive fn of | None => Val true end in
        if derived : bool then
          let* of := wr of i true in pass_over bodies component of true
        else pass_over bodies component of changed
  end.

(** The loop L67-88: until nothing changes, or once for a single function. *)
Fixpoint settle (fuel : nat) (bodies : list (option function)) (component : list nat) (of : list bool)
  : gres (list bool) :=
  match fuel with
  | O => OutOfFuel
  | S fuel =>
      let* (of, changed) := pass_over bodies component of false in
      if negb changed || (length component =? 1) then Val of
      else settle fuel bodies component of
  end.

Fixpoint settle_all (bodies : list (option function)) (components : list (list nat)) (of : list bool)
  : gres (list bool) :=
  match components with
  | [] => Val of
  | component :: components =>
      let* of := settle (2 + length bodies) bodies component of in
      settle_all bodies components of
  end.

(** of_module L59-89. *)
Definition of_module (bodies : list (option function)) : gres (list bool) :=
  let* components := components_callees_first bodies in
  settle_all bodies components (repeat false (length bodies)).

End WillReturn.
