(** C35: resource limits and poisoning. *)
From Coq Require Import List Arith.
From Verif Require Import MirModel SandboxSpec SandboxProofs.
Import ListNotations.

(** A small program used by the examples: a checked loop (0), a failure whose
    cleanup fails (1), a failure that is propagated (2), a checked recursion
    (3), a function that allocates two cells and returns (4), a loop without
    check inside a cleanup interrupted by the fuel limit (5).  Payload 0 counts
    in memory, payload [S f] raises the failure [f], payload 100 allocates. *)
Definition demo_body (f : fid) : option (function nat unit) :=
  match f with
  | (0, 0) => Some [Block [OCheckFuel; OPlain 0] (Goto 0)]
  | (0, 1) => Some [Block [] (Invoke (OPlain 7) 1 2); Block [] Return;
                    Block [] (Invoke (OPlain 8) 3 4); Block [] PropagateError;
                    Block [] FailureInCleanup]
  | (0, 2) => Some [Block [OPlain 0] (Invoke (OPlain 9) 1 2); Block [] Return;
                    Block [OPlain 0] PropagateError]
  | (0, 3) => Some [Block [OCheckCallDepth] (Invoke (OCall (0, 3) 0) 1 2); Block [] Return;
                    Block [] PropagateError]
  | (0, 4) => Some [Block [OPlain 100; OPlain 100] Return]
  | (0, 5) => Some [Block [] (Invoke (OPlain 9) 1 2); Block [] Return;
                    Block [OCheckFuel] (Goto 2)]
  | _ => None
  end.

Definition demo : machine :=
  Machine nat unit nat unit unit demo_body
    (fun p g l => match p with
                  | 0 => ARet (S g, l)
                  | 100 => AAlloc (fun _ => ARet (g, l))
                  | S f => ARaise f g l
                  end)
    (fun _ _ g => NReturn g)
    (fun _ g l => ARet (Some tt, (g, l)))
    (fun _ _ g l => (g, l))
    (fun _ _ _ => DPanic)
    (fun _ _ _ _ => DPanic)
    (fun _ _ _ _ => DPanic)
    (fun _ _ _ => Some true)
    (fun _ _ _ => Some tt).

(** With a fuel limit of [k], at most [k] fuel checks succeed during the whole
    life of the executor, whatever the host runs on it (even if the run
    crashes or never ends), and what remains is what was not spent. *)
Theorem C35_fuel_limit : forall m n reqs g k d cl,
  let c := snd (run_history m n reqs g (new_context (Some k) d cl)) in
  fuel_checks (trace c) <= k /\ fuel_remaining c = Some (k - fuel_checks (trace c)).
Proof. exact history_fuel. Qed.
Print Assumptions C35_fuel_limit.

Example C35_fuel_limit_example :
  let r := run_history demo 1000 [((0, 0), tt, 1)] 0 (new_context (Some 5) 10 10) in
  fst r = [Raised (SandboxViolation FuelExhausted None)]
  /\ fuel_checks (trace (snd r)) = 5 /\ fuel_remaining (snd r) = Some 0.
Proof. vm_compute. auto. Qed.

(** A fuel violation only happens when the whole budget has been spent. *)
Theorem C35_fuel_violation_when_spent : forall m n reqs g k d cl late i early,
  trace (snd (run_history m n reqs g (new_context (Some k) d cl)))
    = late ++ EvPoison (PoisonedBySandbox FuelExhausted i) :: early ->
  fuel_checks early = k.
Proof. exact history_fuel_spent. Qed.
Print Assumptions C35_fuel_violation_when_spent.

Example C35_fuel_violation_when_spent_example :
  exists early,
  trace (snd (run_history demo 1000 [((0, 0), tt, 1)] 0 (new_context (Some 2) 10 10)))
    = [] ++ EvPoison (PoisonedBySandbox FuelExhausted None) :: early /\ fuel_checks early = 2.
Proof. eexists. vm_compute. split; reflexivity. Qed.

(** Without a fuel limit there is no fuel violation. *)
Theorem C35_no_fuel_limit : forall m n reqs g d cl i,
  ~ In (EvPoison (PoisonedBySandbox FuelExhausted i))
       (trace (snd (run_history m n reqs g (new_context None d cl)))).
Proof. exact history_no_fuel. Qed.
Print Assumptions C35_no_fuel_limit.

Example C35_no_fuel_limit_example :
  fst (run_history demo 50 [((0, 0), tt, 1)] 0 (new_context None 10 10)) = [Unfinished].
Proof. vm_compute. reflexivity. Qed.

(** Every call-depth check that succeeds does so below the limit, and every
    environment cell handed out is below the cell limit. *)
Theorem C35_depth_and_cell_limits : forall m n reqs g fuel d cl,
  let c := snd (run_history m n reqs g (new_context fuel d cl)) in
  (forall x, In (EvDepth x) (trace c) -> x < d)
  /\ (forall x, In (EvCell x) (trace c) -> x < cl)
  /\ cells c <= cl.
Proof. exact history_limits. Qed.
Print Assumptions C35_depth_and_cell_limits.

Example C35_depth_and_cell_limits_example :
  let r := run_history demo 1000 [((0, 4), tt, 1); ((0, 3), tt, 1)] 0 (new_context None 4 3) in
  fst r = [Returned; Raised (SandboxViolation CallDepthLimitExceeded None)]
  /\ In (EvDepth 3) (trace (snd r)) /\ In (EvCell 2) (trace (snd r)).
Proof. vm_compute. intuition. Qed.

(** The checks refuse exactly when the limit is reached. *)
Theorem C35_checks_exact : forall c,
  (fst (check_fuel c) = None <-> fuel_remaining c <> Some 0)
  /\ (fst (check_call_depth c) = None <-> call_depth c < call_depth_limit c)
  /\ ((exists i, fst (alloc_cell c) = inr i) <-> cells c < cell_limit c).
Proof. exact checks_exact. Qed.
Print Assumptions C35_checks_exact.

Example C35_checks_exact_example :
  let c := set_depth (new_context (Some 0) 3 0) 2 in
  fst (check_fuel c) = Some (SandboxViolation FuelExhausted None)
  /\ fst (check_call_depth c) = None
  /\ fst (alloc_cell c) = inl (SandboxViolation EnvironmentCellLimitExceeded None).
Proof. vm_compute. auto. Qed.

(** The call depth is the number of live frames: it is back to zero after
    every entry that came back to the host, however it ended. *)
Theorem C35_depth_restored : forall m n reqs g fuel d cl rs c,
  run_history m n reqs g (new_context fuel d cl) = (rs, c) ->
  (forall r, In r rs -> answered r) ->
  call_depth c = 0.
Proof. exact history_depth. Qed.
Print Assumptions C35_depth_restored.

Example C35_depth_restored_example :
  let r := run_history demo 1000 [((0, 2), tt, 1); ((0, 3), tt, 1)] 0 (new_context None 4 3) in
  fst r = [Raised (SourceFailure 8); Raised (SandboxViolation CallDepthLimitExceeded None)]
  /\ call_depth (snd r) = 0.
Proof. vm_compute. auto. Qed.

(** Once an entry reported a sandbox violation or a failure during cleanup,
    every later entry reports that same error, and the executor stays poisoned
    with that cause. *)
Theorem C35_poisoned_for_good : forall m n reqs g fuel d cl rs c pre e post,
  run_history m n reqs g (new_context fuel d cl) = (rs, c) ->
  rs = pre ++ Raised e :: post -> poisoning (Raised e) ->
  (forall r, In r post -> r = Raised e) /\ state c = state_after e.
Proof. exact history_poisoned_for_good. Qed.
Print Assumptions C35_poisoned_for_good.

Example C35_poisoned_for_good_example :
  fst (run_history demo 1000 [((0, 4), tt, 1); ((0, 1), tt, 1); ((0, 4), tt, 1); ((0, 0), tt, 1)]
         0 (new_context (Some 5) 10 10))
  = [Returned; Raised (FailureDuringCleanup 6 7); Raised (FailureDuringCleanup 6 7);
     Raised (FailureDuringCleanup 6 7)].
Proof. vm_compute. reflexivity. Qed.

(** As long as entries return or end with a source failure, the executor stays
    usable. *)
Theorem C35_source_failures_leave_usable : forall m n reqs g fuel d cl rs c,
  run_history m n reqs g (new_context fuel d cl) = (rs, c) ->
  (forall r, In r rs -> answered r /\ ~ poisoning r) ->
  state c = Running.
Proof. exact history_usable. Qed.
Print Assumptions C35_source_failures_leave_usable.

Example C35_source_failures_leave_usable_example :
  let r := run_history demo 1000 [((0, 2), tt, 1); ((0, 4), tt, 1); ((0, 2), tt, 1)]
             0 (new_context (Some 5) 10 10) in
  fst r = [Raised (SourceFailure 8); Returned; Raised (SourceFailure 8)]
  /\ state (snd r) = Running.
Proof. vm_compute. auto. Qed.

(** From the moment the executor is poisoned, no operation of any function is
    started, no check succeeds and no cell is allocated: nothing is logged
    anymore but the cause itself (to which the interrupted source failure may be
    added while frames are unwound). *)
Theorem C35_no_guest_code_after_poisoning : forall m n reqs g fuel d cl late r early ev,
  trace (snd (run_history m n reqs g (new_context fuel d cl))) = late ++ EvPoison r :: early ->
  In ev late -> exists r', ev = EvPoison r'.
Proof. exact history_quiet. Qed.
Print Assumptions C35_no_guest_code_after_poisoning.

(** Here a violation interrupts the cleanup of failure 8, which is retained. *)
Example C35_no_guest_code_after_poisoning_example :
  let r := run_history demo 1000 [((0, 5), tt, 1); ((0, 0), tt, 1)] 0 (new_context (Some 2) 10 10) in
  fst r = [Raised (SandboxViolation FuelExhausted (Some 8));
           Raised (SandboxViolation FuelExhausted (Some 8))]
  /\ exists early, trace (snd r)
     = [EvPoison (PoisonedBySandbox FuelExhausted (Some 8))]
         ++ EvPoison (PoisonedBySandbox FuelExhausted None) :: early.
Proof. vm_compute. split; [reflexivity|eexists; reflexivity]. Qed.
