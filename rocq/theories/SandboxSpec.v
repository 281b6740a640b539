(** What limits and poisoning promise, in terms of what a run did (its trace)
    and of the replies the host saw. *)
From Coq Require Import List Arith.
From Verif Require Import MirModel.
Import ListNotations.

(** The number of successful fuel checks. *)
Fixpoint fuel_checks (t : list event) : nat :=
  match t with
  | [] => 0
  | EvFuel :: q => S (fuel_checks q)
  | _ :: q => fuel_checks q
  end.

(** The state an executor must be in after an entry ended with error [e]:
    running after a source failure, otherwise poisoned with that cause. *)
Definition state_after (e : runtime_error) : execution_state :=
  match e with
  | SourceFailure _ => Running
  | SandboxViolation k i => Poisoned (PoisonedBySandbox k i)
  | FailureDuringCleanup i d => Poisoned (PoisonedByCleanup i d)
  end.

(** An entry that came back to the host, with a value or an error. *)
Definition answered (r : reply) : Prop :=
  match r with Returned | Raised _ => True | Crashed | Unfinished => False end.

(** A reply that poisons the executor. *)
Definition poisoning (r : reply) : Prop :=
  match r with
  | Raised (SandboxViolation _ _) | Raised (FailureDuringCleanup _ _) => True
  | _ => False
  end.
