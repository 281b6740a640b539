(** C44: sandboxed executions end. *)
From Coq Require Import List Arith Lia.
From Verif Require Import GraphModel GraphSpec MirModel TermSpec GuardModel TermProofs GuardProofs TermExamples.
Import ListNotations.

(** With a fuel and a depth limit, every sequence of calls ends, whatever the
    limits, provided every control-flow cycle crosses a fuel check and every
    cycle of calls a depth check: the model needs only finitely many steps. *)
Theorem C44_guarded_programs_end : forall m, finite_program m -> recursion_guarded m ->
  (forall f fn, body m f = Some fn -> fuel_guarded fn) ->
  forall fuel depth cells reqs g, exists n, forall n', n <= n' ->
    ~ In Unfinished (fst (run_history m n' reqs g (new_context (Some fuel) depth cells))).
Proof. exact guarded_histories_end. Qed.
Print Assumptions C44_guarded_programs_end.

Example C44_guarded_meets : finite_program guarded /\ recursion_guarded guarded /\
  (forall f fn, body guarded f = Some fn -> fuel_guarded fn).
Proof. exact (conj guarded_finite (conj guarded_recursion guarded_fuel)). Qed.

Example C44_guarded_run :
  fst (run_history guarded 100 [((0, 0), tt, 1)] 0 (new_context (Some 5) 4 10))
  = [Raised (SandboxViolation CallDepthLimitExceeded None)].
Proof. vm_compute. reflexivity. Qed.

(** The compiler gives a depth check to every source function on a cycle of
    source functions that mention one another. *)
Theorem C44_direct_recursion_checked : forall u, well_formed (dependencies u) ->
  (forall i j, i < length (dependencies u) -> j < length (dependencies u) ->
     edge (mentions u) i j -> edge (dependencies u) i j) ->
  exists checks, functions_with_check u = Val checks /\
  forall l, cycle (edge (mentions u)) l -> (forall i, In i l -> i < length (dependencies u)) ->
  forall i, In i l -> In i checks.
Proof. exact direct_recursion_checked. Qed.
Print Assumptions C44_direct_recursion_checked.

(** ... and only to functions that mention one they are mutually recursive
    with. *)
Theorem C44_checked_are_recursive : forall u checks, well_formed (dependencies u) ->
  functions_with_check u = Val checks ->
  forall i, In i checks -> exists j, edge (mentions u) i j /\ connected (dependencies u) i j.
Proof. exact checked_are_recursive. Qed.
Print Assumptions C44_checked_are_recursive.

(** Function 0 calls 1 and 3, 1 calls 2, 2 calls 1, 3 calls itself. *)
Example C44_checks_example :
  functions_with_check (UnitCode [[1; 3]; [2]; [1]; [3]] [[1; 3]; [2]; [1]; [3]]) = Val [2; 1; 3].
Proof. vm_compute. reflexivity. Qed.

(** Hence a program whose functions only call, directly, functions of their
    module ends under limits. *)
Theorem C44_direct_programs_end : forall m k u checks, finite_program m ->
  (forall f fn, body m f = Some fn -> fuel_guarded fn) ->
  well_formed (dependencies u) ->
  (forall i j, i < length (dependencies u) -> j < length (dependencies u) ->
     edge (mentions u) i j -> edge (dependencies u) i j) ->
  functions_with_check u = Val checks ->
  (forall i, In i checks -> checks_depth m (k, i)) ->
  (forall f h, calls m f h -> body m h <> None ->
     fst f = k /\ snd f < length (dependencies u) /\ edge (mentions u) (snd f) (snd h)) ->
  forall fuel depth cells reqs g, exists n, forall n', n <= n' ->
    ~ In Unfinished (fst (run_history m n' reqs g (new_context (Some fuel) depth cells))).
Proof. exact direct_programs_end. Qed.
Print Assumptions C44_direct_programs_end.

(** But recursion through a lambda expression gets no check: in
    [fn f(n) { (|k| f(k))(n) }], [f] (function 0) mentions its lambda (function
    1), which mentions [f]. *)
Theorem C44_recursion_checked_refuted : exists u, well_formed (dependencies u) /\
  (forall i j, i < length (dependencies u) -> j < length (dependencies u) ->
     edge (mentions u) i j -> edge (dependencies u) i j) /\
  cycle (edge (mentions u)) [0; 1] /\ functions_with_check u = Val [].
Proof. exact lambda_recursion_unchecked. Qed.
Print Assumptions C44_recursion_checked_refuted.

(** ... and such a program never ends, whatever its limits: the interpreter
    recurses until the host's stack overflows. *)
Theorem C44_unchecked_recursion_never_ends : exists m f args, finite_program m /\
  (forall f fn, body m f = Some fn -> fuel_guarded fn) /\
  forall n fuel depth g, 
    fst (run_history m n [(f, args, 0)] g (new_context (Some fuel) depth 0)) = [Unfinished].
Proof. exact unchecked_never_ends. Qed.
Print Assumptions C44_unchecked_recursion_never_ends.
