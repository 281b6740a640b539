(** C36: what a session runs.  The compiler proper is any function [emit] from the state of the modules, a
    source and its uses to an error or the modules the compiled module depends on. *)
From Coq Require Import List Bool Arith ZArith.
From Verif Require Import GraphModel SessionModel SessionSpec SessionProofs SessionHistory SessionExamples.
Import ListNotations.

(** Whatever the compiler does and whatever was asked before, no operation panics or recompiles forever. *)
Theorem C36_total : forall emit initial st o, emit_ok emit -> reachable emit initial st -> admissible st o ->
  exists st', step emit initial st o = Val st'.
Proof. exact (fun emit initial st o E => total emit E initial st o). Qed.
Print Assumptions C36_total.

(** A module is not run while its last compilation, or that of a module it depends on directly or not,
    failed. *)
Theorem C36_failed_refused : forall emit initial st m d, emit_ok emit -> reachable emit initial st ->
  depends st m d -> failed st d -> run_fn st m = Refused.
Proof. exact (fun emit initial st m d E => stale_refused emit E initial st m d). Qed.
Print Assumptions C36_failed_refused.

(** What runs was compiled from the current source and uses, against the revisions of its dependencies that
    run now. *)
Theorem C36_runs_current : forall emit initial st m, emit_ok emit -> reachable emit initial st -> registered st m ->
  run_fn st m = Refused \/
  exists e stamp, nth_error (modules st) m = Some e /\
    run_fn st m = Runs (Built (latest_deps e) (option_map (fun s => (source_id s, src_uses s)) (src e)) stamp) /\
    forall d, In d (latest_deps e) -> exists deps from stamp', run_fn st d = Runs (Built deps from stamp') /\ stamp' < stamp.
Proof. exact (fun emit initial st m E => runs_current emit E initial st m). Qed.
Print Assumptions C36_runs_current.

(** A module compiled from source, whose dependencies all are, is only refused when one of them failed. *)
Theorem C36_refused_for_a_reason : forall emit initial st m, emit_ok emit -> reachable emit initial st ->
  (forall d, depends st m d -> source_backed st d) -> run_fn st m = Refused ->
  exists d, depends st m d /\ failed st d.
Proof. exact (fun emit initial st m E => not_needlessly_stale emit E initial st m). Qed.
Print Assumptions C36_refused_for_a_reason.

(** No module depends on itself. *)
Theorem C36_no_import_cycle : forall emit initial st m e d, emit_ok emit -> reachable emit initial st ->
  nth_error (modules st) m = Some e -> In d (latest_deps e) -> ~ depends st d m.
Proof. exact (fun emit initial st m e d E => no_import_cycle emit E initial st m e d). Qed.
Print Assumptions C36_no_import_cycle.

(** What compiling does to the module and to the others. *)
Theorem C36_compile_effect : forall emit initial st path source u, emit_ok emit -> reachable emit initial st -> 3 <= path ->
  exists st' ok t, compile_to emit st path source u = Val (st', ok) /\ lookup (names st') path = Some t /\
  (forall t0, lookup (names st) path = Some t0 -> t = t0) /\ compiled st t source u st' ok.
Proof. exact (fun emit initial st path source u E => compile_effect emit E initial st path source u). Qed.
Print Assumptions C36_compile_effect.

Theorem C36_update_effect : forall emit initial st id source, emit_ok emit -> reachable emit initial st ->
  (forall e s, nth_error (modules st) id = Some e -> src e = Some s -> exists st' ok,
     update_module_source emit st id source = Val (Some st') /\ names st' = names st /\ compiled st id source (src_uses s) st' ok) /\
  (~ source_backed st id -> update_module_source emit st id source = Val None).
Proof. exact (fun emit initial st id source E => update_effect emit E initial st id source). Qed.
Print Assumptions C36_update_effect.

Example C36_reachable_ex : emit_ok toy /\ reachable toy [] (after broken) /\ reachable toy [] (after repaired).
Proof. split; [exact toy_ok|]. split; apply after_reachable; vm_compute; reflexivity. Qed.
(** Breaking module 3 makes 3, 4 and 5 refuse to run; repairing it recompiles them, with their own sources. *)
Example C36_broken_ex : map (run_fn (after broken)) [0; 3; 4; 5; 6] = [Runs (Built [] None 0); Refused; Refused; Refused; NotFound].
Proof. vm_compute. reflexivity. Qed.
Example C36_repaired_ex : map (run_fn (after repaired)) [3; 4; 5] =
  [Runs (Built [] (Some (5, [])) 11); Runs (Built [3] (Some (1, [3])) 12); Runs (Built [3; 4] (Some (2, [3; 4])) 14)].
Proof. vm_compute. reflexivity. Qed.
(** Finding: while module 4 is being recompiled, module 5, which also depends on it, is first recompiled
    with no uses at all, and only then with its own: its compilation revision goes up by two. *)
Example C36_repaired_revisions_ex : map compilation_revision (modules (after repaired)) = [0; 0; 0; 3; 2; 4].
Proof. vm_compute. reflexivity. Qed.
(** Why [admissible] asks that hosts register modules over fresh dependencies. *)
Example C36_register_over_stale_ex : run_fn (register_module (after broken) 9 [4]) 6 = Runs (Built [4] None 11) /\ run_fn (register_module (after broken) 9 [4]) 4 = Refused.
Proof. vm_compute. split; reflexivity. Qed.
