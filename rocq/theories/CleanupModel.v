(** Control flow and cleanup: the tree evaluator and the compiled control-flow
    graph.

    Modelled: src/eval.rs (eval_node_with_ctx L1658-1742, eval_return L3003,
    eval_with_yielded L3037-3093, eval_accessor_until_yield L3107-3198,
    eval_block_accessor_until_yield L3200-3248, combine_with_yielded_body_and_epilogue
    L3250-3279, eval_block L3460-3515, drop_cleanup_locals L3517-3539,
    eval_block_with_cleanup L3541-3608, eval_case L3731, eval_loop L3774-3815,
    cleanup_after_error L429-453), src/hir/function.rs call L555-605;
    src/emit_mir.rs (build_mir_fn L181-327, drop_actions L532-553, enter_scope
    L558, emit_cleanup L565-579, exit_scope L584-597, emit_unwind_drops L613-635,
    emit_inline_cleanup_actions L642-664, emit_return_drops L668, innermost_pad
    L678, allocate_pad L693-724, allocate_actions_pad L729-745, fill_pending_pads
    L750-770, lower_with_yielded_enter L1558-1647, create_case_blocks L1710-1728,
    lower_value_into L1936-2738: Block, Case, Loop, Break, Continue, WithYielded,
    Return; insert L2753, invoke L2771-2787, propagate_error_block L2795,
    failure_during_cleanup_block L2807), src/mir/builder.rs append_operation
    L118-142, set_terminator L145-168; src/mir/interpreter.rs run_loop L540-650
    (terminators).

    Simplifications.  Everything a node does besides control flow and cleanup is
    an action on an abstract state; the values nodes produce and the places they
    are written to are part of that state.  Both interpreters perform the same
    actions.  A local is dropped by an action, which looks by itself whether the
    local is initialized.  Which locals have a semantic drop is a parameter (the
    same for both).  Stack markers, spans, debug assertions, the truncation of
    the environment and the drop of what is left in a frame after an error
    (drop_frame_owned_locals_on_error) are left out, and so is [yield] inside an
    accessor body.  The same flag tells whether the ramp and the slide of an
    accessor may fail (both take it from the call type). *)
From Coq Require Import List Arith Bool.
Import ListNotations.

(** What a node does; the flag: whether its effects include Fallible
    (call_type_is_fallible L3027-3033). *)
Inductive action :=
| AOp (may_fail : bool) (n : nat)
| AStore (l : nat)
| ATake (l : nat)
| ADrop (l : nat)
| ARamp (may_fail : bool) (n : nat)
| ASlide (may_fail : bool) (n : nat).

(** src/mir/operation.rs source_fallibility; is_source_fallible L2983. *)
Definition is_fallible (a : action) : bool :=
  match a with
  | AOp b _ | ARamp b _ | ASlide b _ => b
  | AStore _ | ATake _ | ADrop _ => false
  end.

(** A pattern of a case: a boolean, or another literal. *)
Inductive pattern := PBool (expected : bool) | PLiteral (n : nat).

(** Elaborated HIR.  [NOp]: a node that evaluates its children from left to
    right and then acts.  [NCase]: the number names the scrutinee's value, the
    flag tells whether it is a place.  [NWith]: the blocks around the accessor
    call, outermost first (statements before, cleanup), its arguments, flag and
    number, the body. *)
Inductive node :=
| NOp (args : list node) (a : action)
| NBlock (cleanup : list nat) (body : list node)
| NCase (scrutinee : node) (c : nat) (is_place : bool) (alternatives : list (pattern * node)) (default : node)
| NLoop (label : nat) (body : node)
| NBreak (label : nat) (value : node)
| NContinue (label : nat)
| NReturn (value : node)
| NWith (around : list (list node * list nat)) (args : list node) (may_fail : bool) (n : nat) (body : node).

(** How an action ends: done, a source failure, a sandbox violation. *)
Inductive done (state : Type) := Done (s : state) | Err (s : state) | Stop (s : state).
Arguments Done {state}. Arguments Err {state}. Arguments Stop {state}.

Record machine (state : Type) := Machine {
  perform : action -> state -> done state;
  (** The scrutinee read as a boolean, and compared with a literal. *)
  truth : nat -> state -> bool;
  equals : nat -> nat -> state -> bool }.
Arguments perform {state}. Arguments truth {state}. Arguments equals {state}.

(** How a call ends. *)
Inductive answer (state : Type) :=
| Returned (s : state)
| Raised (s : state)
| CleanupFailed (s : state)
| Stopped (s : state)
| Panicked.
Arguments Returned {state}. Arguments Raised {state}. Arguments CleanupFailed {state}.
Arguments Stopped {state}. Arguments Panicked {state}.

Section Drops.
Variable has_drop : nat -> bool.

(** The drops of the locals of a cleanup list, in declaration order. *)
Definition drop_actions (cleanup : list nat) : list action := map ADrop (filter has_drop cleanup).

Section Eval.
Context {state : Type}.
Variable m : machine state.

(** What evaluating a node gives: ControlFlow and RuntimeError.  [Fails]: a
    source failure; [Poisons]: a failure during cleanup; [Stops]: a sandbox
    violation; [NoFuel]: not an outcome of the code. *)
Inductive result :=
| Normal (s : state)
| Breaking (label : nat) (s : state)
| Continuing (label : nat) (s : state)
| Returning (s : state)
| Fails (s : state)
| Poisons (s : state)
| Stops (s : state)
| NoFuel.

(** drop_cleanup_locals L3517-3539: the last declared first, until one does not
    succeed. *)
Fixpoint perform_all (l : list action) (s : state) : done state :=
  match l with
  | [] => Done s
  | a :: l => match perform m a s with Done s => perform_all l s | r => r end
  end.

Definition drop_locals (cleanup : list nat) (s : state) : done state :=
  perform_all (rev (drop_actions cleanup)) s.

(** L429-453 [cleanup_after_error], of a source failure. *)
Definition cleanup_after_error (r : done state) : result :=
  match r with Done s => Fails s | Err s => Poisons s | Stop s => Stops s end.

(** A cleanup after which the evaluation goes on as [k]. *)
Definition then_go (r : done state) (k : state -> result) : result :=
  match r with Done s => k s | Err s => Fails s | Stop s => Stops s end.

(** L3541-3608: the end of a block. *)
Definition leave_block (cleanup : list nat) (r : result) : result :=
  match r with
  | Normal s => then_go (drop_locals cleanup s) Normal
  | Breaking l s => then_go (drop_locals cleanup s) (Breaking l)
  | Continuing l s => then_go (drop_locals cleanup s) (Continuing l)
  | Returning s => then_go (drop_locals cleanup s) Returning
  | Fails s => cleanup_after_error (drop_locals cleanup s)
  | Poisons _ | Stops _ | NoFuel => r
  end.

Definition act (a : action) (s : state) : result :=
  match perform m a s with Done s => Normal s | Err s => Fails s | Stop s => Stops s end.

Definition in_order (f : node -> state -> result) :=
  fix in_order (ns : list node) (s : state) : result :=
    match ns with
    | [] => Normal s
    | n :: ns => match f n s with Normal s => in_order ns s | r => r end
    end.

(** eval_accessor_until_yield, eval_block_accessor_until_yield.  An error of
    the inner accessor leaves the blocks around it without their cleanup. *)
Definition until_yield (f : node -> state -> result) (args : list node) (ramp : action) :=
  fix until_yield (around : list (list node * list nat)) (s : state) : result :=
    match around with
    | [] => match in_order f args s with Normal s => act ramp s | r => r end
    | (prefix, cleanup) :: around =>
        match in_order f prefix s with
        | Normal s =>
            match until_yield around s with
            | (Breaking _ _ | Continuing _ _ | Returning _) as r => leave_block cleanup r
            | r => r
            end
        | r => leave_block cleanup r
        end
    end.

(** drop_accessor_cleanup_scopes: innermost block first. *)
Fixpoint drop_scopes (scopes : list (list nat)) (s : state) : done state :=
  match scopes with
  | [] => Done s
  | c :: scopes => match drop_locals c s with Done s => drop_scopes scopes s | r => r end
  end.

(** eval_with_yielded L3055-3093, after the body: [scopes], innermost first. *)
Definition leave_with (slide : action) (scopes : list (list nat)) (body : result) : result :=
  let after s :=
    match perform m slide s with
    | Done s => then_go (drop_scopes scopes s) (fun s =>
        match body with
        | Breaking l _ => Breaking l s
        | Continuing l _ => Continuing l s
        | Returning _ => Returning s
        | _ => Normal s
        end)
    | Err s => cleanup_after_error (drop_scopes scopes s)
    | Stop s => Stops s
    end in
  match body with
  | Normal s | Breaking _ s | Continuing _ s | Returning s => after s
  | Fails s =>
      match perform m slide s with
      | Done s => cleanup_after_error (drop_scopes scopes s)
      | Err s => Poisons s
      | Stop s => Stops s
      end
  | Poisons _ | Stops _ | NoFuel => body
  end.

(** try_matches_runtime_value. *)
Definition matches (c : nat) (p : pattern) (s : state) : bool :=
  match p with
  | PBool b => Bool.eqb (truth m c s) b
  | PLiteral n => equals m c n s
  end.

(** L3753-3771 [select_case_alternative] and the evaluation of the selected. *)
Definition select (f : node -> state -> result) (c : nat) (default : node) (s : state) :=
  fix select (alternatives : list (pattern * node)) : result :=
    match alternatives with
    | [] => f default s
    | (p, n) :: alternatives => if matches c p s then f n s else select alternatives
    end.

(** L3774-3815 [eval_loop], at most [k] turns. *)
Fixpoint turns (f : state -> result) (label : nat) (k : nat) (s : state) : result :=
  match k with
  | 0 => NoFuel
  | S k =>
      match f s with
      | Normal s => turns f label k s
      | Breaking l s => if l =? label then Normal s else Breaking l s
      | Continuing l s => if l =? label then turns f label k s else Continuing l s
      | r => r
      end
  end.

(** L1658-1742 [eval_node_with_ctx]; [fuel]: the turns any loop may take. *)
Fixpoint eval (fuel : nat) (n : node) (s : state) {struct n} : result :=
  match n with
  | NOp args a => match in_order (eval fuel) args s with Normal s => act a s | r => r end
  | NBlock cleanup body => leave_block cleanup (in_order (eval fuel) body s)
  | NCase scrutinee c _ alternatives default =>
      match eval fuel scrutinee s with
      | Normal s => select (eval fuel) c default s alternatives
      | r => r
      end
  | NLoop label body => turns (eval fuel body) label fuel s
  | NBreak label value => match eval fuel value s with Normal s => Breaking label s | r => r end
  | NContinue label => Continuing label s
  | NReturn value => match eval fuel value s with Normal s => Returning s | r => r end
  | NWith around args may_fail n body =>
      match until_yield (eval fuel) args (ARamp may_fail n) around s with
      | Normal s => leave_with (ASlide may_fail n) (map snd (rev around)) (eval fuel body s)
      | r => r
      end
  end.

(** src/hir/function.rs L555-605.  [None]: out of fuel. *)
Definition call_tree (fuel : nat) (body : node) (s : state) : option (answer state) :=
  match eval fuel body s with
  | Normal s | Returning s => Some (Returned s)
  | Fails s => Some (Raised s)
  | Poisons s => Some (CleanupFailed s)
  | Stops s => Some (Stopped s)
  | Breaking _ _ | Continuing _ _ => Some Panicked
  | NoFuel => None
  end.
End Eval.

(** The compiled graph.  [TBranch]: on the scrutinee read as a boolean, or
    compared with a pattern. *)
Inductive test := IsTrue (c : nat) | Matches (c : nat) (p : pattern).

Inductive terminator :=
| TGoto (target : nat)
| TBranch (t : test) (yes no : nat)
| TInvoke (a : action) (normal error : nat)
| TReturn
| TPropagateError
| TFailureDuringCleanup.

(** A block under construction: no terminator yet. *)
Definition block : Type := list action * option terminator.

(** L2962-2975 [PendingPad], L2945-2960 [Scope], L2991-3011 [LoopFrame],
    L2908-2920 [CleanupUnwindTarget]. *)
Record pad := Pad { pad_block : nat; pad_actions : list action; pad_outer : option nat }.
Record scope := Scope { actions : list action; scope_pad : option nat }.
Record loop_frame := LoopFrame { head : nat; exit : nat; depth : nat }.
Inductive unwind_target := CurrentScope | ToPad (b : nat) | PropagateWithoutPad | FailsDuringCleanup.

(** L2846-2903 [InsertionContext].  Scopes: innermost first. *)
Record builder := Builder {
  blocks : list block;
  point : nat;
  scopes : list scope;
  loops : list (nat * loop_frame);
  pads : list pad;
  unwind : unwind_target;
  propagate : option nat;
  failure : option nat }.

Definition with_blocks (l : list block) (b : builder) : builder :=
  Builder l (point b) (scopes b) (loops b) (pads b) (unwind b) (propagate b) (failure b).
Definition at_point (p : nat) (b : builder) : builder :=
  Builder (blocks b) p (scopes b) (loops b) (pads b) (unwind b) (propagate b) (failure b).
Definition with_scopes (l : list scope) (b : builder) : builder :=
  Builder (blocks b) (point b) l (loops b) (pads b) (unwind b) (propagate b) (failure b).
Definition with_loops (l : list (nat * loop_frame)) (b : builder) : builder :=
  Builder (blocks b) (point b) (scopes b) l (pads b) (unwind b) (propagate b) (failure b).
Definition with_pads (l : list pad) (b : builder) : builder :=
  Builder (blocks b) (point b) (scopes b) (loops b) l (unwind b) (propagate b) (failure b).
Definition with_unwind (t : unwind_target) (b : builder) : builder :=
  Builder (blocks b) (point b) (scopes b) (loops b) (pads b) t (propagate b) (failure b).
Definition with_propagate (p : option nat) (b : builder) : builder :=
  Builder (blocks b) (point b) (scopes b) (loops b) (pads b) (unwind b) p (failure b).
Definition with_failure (p : option nat) (b : builder) : builder :=
  Builder (blocks b) (point b) (scopes b) (loops b) (pads b) (unwind b) (propagate b) p.

(** src/mir/builder.rs add_block. *)
Definition add_block (b : builder) : nat * builder :=
  (length (blocks b), with_blocks (blocks b ++ [([], None)]) b).

Fixpoint set_nth {A} (i : nat) (x : A) (l : list A) : list A :=
  match l with
  | [] => []
  | y :: l => match i with 0 => x :: l | S i => y :: set_nth i x l end
  end.

(** L2821 [current_block_is_terminated]. *)
Definition terminated (b : builder) : bool :=
  match nth_error (blocks b) (point b) with
  | Some (_, None) => false
  | _ => true
  end.

(** builder.rs append_operation; [None]: the assertion fails. *)
Definition append (a : action) (b : builder) : option builder :=
  match nth_error (blocks b) (point b) with
  | Some (l, None) => Some (with_blocks (set_nth (point b) (l ++ [a], None) (blocks b)) b)
  | _ => None
  end.

(** builder.rs set_terminator. *)
Definition terminate (t : terminator) (b : builder) : option builder :=
  match nth_error (blocks b) (point b) with
  | Some (l, None) => Some (with_blocks (set_nth (point b) (l, Some t) (blocks b)) b)
  | _ => None
  end.

(** L2795-2805, L2807-2819: a fresh block with a terminator. *)
Definition add_terminated (t : terminator) (b : builder) : nat * builder :=
  (length (blocks b), with_blocks (blocks b ++ [([], Some t)]) b).

Definition propagate_error_block (b : builder) : nat * builder :=
  match propagate b with
  | Some x => (x, b)
  | None => let (x, b) := add_terminated TPropagateError b in (x, with_propagate (Some x) b)
  end.

Definition failure_during_cleanup_block (b : builder) : nat * builder :=
  match failure b with
  | Some x => (x, b)
  | None => let (x, b) := add_terminated TFailureDuringCleanup b in (x, with_failure (Some x) b)
  end.

(** L678-724 [innermost_pad], [allocate_pad], for the given scopes. *)
Fixpoint allocate_pad (l : list scope) (b : builder) : option nat * list scope * builder :=
  match l with
  | [] => (None, [], b)
  | s :: l =>
      match actions s with
      | [] => let '(p, l, b) := allocate_pad l b in (p, s :: l, b)
      | _ :: _ =>
          match scope_pad s with
          | Some p => (Some p, s :: l, b)
          | None =>
              let (p, b) := add_block b in
              let '(outer, l, b) := allocate_pad l b in
              (Some p, Scope (actions s) (Some p) :: l,
               with_pads (pads b ++ [Pad p (rev (actions s)) outer]) b)
          end
      end
  end.

Definition innermost_pad (b : builder) : option nat * builder :=
  let '(p, l, b) := allocate_pad (scopes b) b in (p, with_scopes l b).

(** L729-745. *)
Definition allocate_actions_pad (l : list action) (outer : option nat) (b : builder) : nat * builder :=
  let (p, b) := add_block b in (p, with_pads (pads b ++ [Pad p l outer]) b).

(** L2774-2780: the error successor. *)
Definition error_block (b : builder) : nat * builder :=
  match unwind b with
  | CurrentScope =>
      match innermost_pad b with
      | (Some p, b) => (p, b)
      | (None, b) => propagate_error_block b
      end
  | ToPad p => (p, b)
  | PropagateWithoutPad => propagate_error_block b
  | FailsDuringCleanup => failure_during_cleanup_block b
  end.

(** L2771-2787. *)
Definition invoke (a : action) (b : builder) : option builder :=
  let (normal, b) := add_block b in
  let (error, b) := error_block b in
  option_map (at_point normal) (terminate (TInvoke a normal error) b).

(** L2753-2762. *)
Definition insert (a : action) (b : builder) : option builder :=
  if is_fallible a then invoke a b else append a b.

(** L565-579. *)
Definition emit_cleanup (a : action) (b : builder) : option builder :=
  if terminated b then Some b else insert a b.

(** L642-664. *)
Fixpoint emit_inline (l : list action) (outer : option nat) (b : builder) : option builder :=
  match l with
  | [] => Some (with_unwind CurrentScope b)
  | a :: rest =>
      let b :=
        if is_fallible a then
          match rest, outer with
          | [], Some p => with_unwind (ToPad p) b
          | [], None => with_unwind PropagateWithoutPad b
          | _ :: _, _ => let (p, b) := allocate_actions_pad rest outer b in with_unwind (ToPad p) b
          end
        else b in
      match emit_cleanup a b with
      | Some b => emit_inline rest outer b
      | None => None
      end
  end.

(** The enclosing pad, if one of the actions may fail. *)
Definition outer_pad (l : list action) (scs : list scope) (b : builder) : option nat * list scope * builder :=
  if existsb is_fallible l then allocate_pad scs b else (None, scs, b).

(** L558-561. *)
Definition enter_scope (cleanup : list nat) (b : builder) : builder :=
  with_scopes (Scope (drop_actions cleanup) None :: scopes b) b.

(** L584-597.  [None]: no scope. *)
Definition exit_scope (b : builder) : option builder :=
  match scopes b with
  | [] => None
  | s :: l =>
      let todo := rev (actions s) in
      let '(outer, l, b) := outer_pad todo l b in
      emit_inline todo outer (with_scopes l b)
  end.

(** L613-635: the cleanup of [k] scopes, after that of the [d] innermost. *)
Fixpoint emit_unwind (k d : nat) (b : builder) : option builder :=
  match k with
  | 0 => Some b
  | S k =>
      match skipn d (scopes b) with
      | [] => Some b
      | s :: l =>
          let todo := rev (actions s) in
          let '(outer, l, b) := outer_pad todo l b in
          match emit_inline todo outer (with_scopes (firstn d (scopes b) ++ s :: l) b) with
          | Some b => emit_unwind k (S d) b
          | None => None
          end
      end
  end.

Definition emit_unwind_drops (to_depth : nat) (b : builder) : option builder :=
  emit_unwind (length (scopes b) - to_depth) 0 b.

Definition in_turn (f : node -> builder -> option builder) :=
  fix in_turn (ns : list node) (b : builder) : option builder :=
    match ns with
    | [] => Some b
    | n :: ns => match f n b with Some b => in_turn ns b | None => None end
    end.

(** The statements of a block: none after a terminator. *)
Definition statements (f : node -> builder -> option builder) :=
  fix statements (ns : list node) (b : builder) : option builder :=
    match ns with
    | [] => Some b
    | n :: ns =>
        if terminated b then Some b
        else match f n b with Some b => statements ns b | None => None end
    end.

Definition prefixes (f : node -> builder -> option builder) :=
  fix prefixes (around : list (list node * list nat)) (b : builder) : option builder :=
    match around with
    | [] => Some b
    | (prefix, _) :: around =>
        match statements f prefix b with Some b => prefixes around b | None => None end
    end.

(** A jump to the tail of a case, unless the arm has already left. *)
Definition join (tail : nat) (b : builder) : option builder :=
  if terminated b then Some b else terminate (TGoto tail) b.

Definition branch (c : nat) (is_place : bool) (p : pattern) (body next : nat) : terminator :=
  match p with
  | PBool expected =>
      if is_place then if expected then TBranch (IsTrue c) body next else TBranch (IsTrue c) next body
      else TBranch (Matches c p) body next
  | PLiteral _ => TBranch (Matches c p) body next
  end.

(** The alternatives, from the [i]th on; the heads and bodies start at [base]. *)
Definition arms (f : node -> builder -> option builder) (c : nat) (is_place : bool) (base tail : nat) :=
  fix arms (i : nat) (alternatives : list (pattern * node)) (b : builder) : option builder :=
    match alternatives with
    | [] => Some b
    | (p, n) :: alternatives =>
        match terminate (branch c is_place p (base + 2 * i + 1) (base + 2 * i + 2)) (at_point (base + 2 * i) b) with
        | None => None
        | Some b =>
            match f n (at_point (base + 2 * i + 1) b) with
            | None => None
            | Some b =>
                match join tail b with
                | None => None
                | Some b => arms (S i) alternatives b
                end
            end
        end
    end.

Fixpoint add_blocks (k : nat) (b : builder) : builder :=
  match k with 0 => b | S k => add_blocks k (snd (add_block b)) end.

Fixpoint frame_of (label : nat) (l : list (nat * loop_frame)) : option loop_frame :=
  match l with
  | [] => None
  | (x, f) :: l => if x =? label then Some f else frame_of label l
  end.

(** L1936-2738 [lower_value_into].  [None]: the compiler panics. *)
Fixpoint lower (n : node) (b : builder) {struct n} : option builder :=
  match n with
  | NOp args a => match in_turn lower args b with Some b => insert a b | None => None end
  | NBlock cleanup body =>
      match statements lower body (enter_scope cleanup b) with
      | Some b => exit_scope b
      | None => None
      end
  | NCase scrutinee c is_place alternatives default =>
      let base := length (blocks b) in
      let k := length alternatives in
      match lower scrutinee (add_blocks (2 * k + 2) b) with
      | None => None
      | Some b =>
          match terminate (TGoto base) b with
          | None => None
          | Some b =>
              match arms lower c is_place base (base + 2 * k + 1) 0 alternatives b with
              | None => None
              | Some b =>
                  match lower default (at_point (base + 2 * k) b) with
                  | None => None
                  | Some b => option_map (at_point (base + 2 * k + 1)) (join (base + 2 * k + 1) b)
                  end
              end
          end
      end
  | NLoop label body =>
      let (head, b) := add_block b in
      let (exit, b) := add_block b in
      let b := with_loops ((label, LoopFrame head exit (length (scopes b))) :: loops b) b in
      match terminate (TGoto head) b with
      | None => None
      | Some b =>
          match lower body (at_point head b) with
          | None => None
          | Some b =>
              match join head b with
              | None => None
              | Some b =>
                  Some (at_point exit (with_loops (filter (fun x => negb (fst x =? label)) (loops b)) b))
              end
          end
      end
  | NBreak label value =>
      match frame_of label (loops b) with
      | None => None
      | Some f =>
          match lower value b with
          | None => None
          | Some b =>
              if terminated b then Some b
              else
                match emit_unwind_drops (depth f) b with
                | None => None
                | Some b => terminate (TGoto (exit f)) b
                end
          end
      end
  | NContinue label =>
      match frame_of label (loops b) with
      | None => None
      | Some f =>
          match emit_unwind_drops (depth f) b with
          | None => None
          | Some b => terminate (TGoto (head f)) b
          end
      end
  | NReturn value =>
      match lower value b with
      | None => None
      | Some b =>
          match emit_unwind_drops 0 b with
          | None => None
          | Some b => terminate TReturn b
          end
      end
  | NWith around args may_fail n body =>
      match prefixes lower around b with
      | None => None
      | Some b =>
          match
            (if terminated b then Some (with_scopes (Scope [] None :: scopes b) b)
            else
              match in_turn lower args b with
              | None => None
              | Some b =>
                  let b := enter_scope (flat_map snd around) b in
                  match insert (ARamp may_fail n) b with
                  | None => None
                  | Some b =>
                      match scopes b with
                      | [] => None
                      | s :: l => Some (with_scopes (Scope (actions s ++ [ASlide may_fail n]) None :: l) b)
                      end
                  end
              end)
          with
          | None => None
          | Some b => match lower body b with Some b => exit_scope b | None => None end
          end
      end
  end.

Fixpoint emit_all (l : list action) (b : builder) : option builder :=
  match l with
  | [] => Some b
  | a :: l => match emit_cleanup a b with Some b => emit_all l b | None => None end
  end.

(** L750-770 [fill_pending_pads]. *)
Fixpoint fill_pads (l : list pad) (b : builder) : option builder :=
  match l with
  | [] => Some b
  | p :: l =>
      match emit_all (pad_actions p) (with_unwind FailsDuringCleanup (at_point (pad_block p) b)) with
      | None => None
      | Some b =>
          match terminate (match pad_outer p with Some o => TGoto o | None => TPropagateError end)
                  (with_unwind CurrentScope b) with
          | None => None
          | Some b => fill_pads l b
          end
      end
  end.

(** L181-327 [build_mir_fn]. *)
Definition compile (body : node) : option (list block) :=
  match lower body (Builder [([], None)] 0 [] [] [] CurrentScope None None) with
  | None => None
  | Some b =>
      match (if terminated b then Some b else terminate TReturn b) with
      | None => None
      | Some b => option_map blocks (fill_pads (pads b) (with_pads [] b))
      end
  end.
End Drops.

(** The graph interpreter. *)
Section Run.
Context {state : Type}.
Variable m : machine state.
Variable g : list block.

(** Block, operation, state. *)
Definition config : Type := nat * nat * state.

Definition holds (t : test) (s : state) : bool :=
  match t with
  | IsTrue c => truth m c s
  | Matches c p => matches m c p s
  end.

(** interpreter.rs run_loop.  A source failure of an operation that is not
    invoked panics. *)
Definition step (c : config) : config + answer state :=
  let '(b, k, s) := c in
  match nth_error g b with
  | None => inr Panicked
  | Some (l, t) =>
      match nth_error l k with
      | Some a =>
          match perform m a s with
          | Done s => inl (b, S k, s)
          | Err _ => inr Panicked
          | Stop s => inr (Stopped s)
          end
      | None =>
          match t with
          | None => inr Panicked
          | Some (TGoto b) => inl (b, 0, s)
          | Some (TBranch t b b') => inl (if holds t s then b else b', 0, s)
          | Some (TInvoke a b b') =>
              match perform m a s with
              | Done s => inl (b, 0, s)
              | Err s => inl (b', 0, s)
              | Stop s => inr (Stopped s)
              end
          | Some TReturn => inr (Returned s)
          | Some TPropagateError => inr (Raised s)
          | Some TFailureDuringCleanup => inr (CleanupFailed s)
          end
      end
  end.

(** At most [n] steps. *)
Fixpoint run (n : nat) (c : config) : option (answer state) :=
  match n with
  | 0 => None
  | S n => match step c with inl c => run n c | inr a => Some a end
  end.

Definition call_graph (n : nat) (s : state) : option (answer state) := run n (0, 0, s).
End Run.
