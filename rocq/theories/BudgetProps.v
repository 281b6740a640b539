From Coq Require Import ZArith.
From Verif Require Import BudgetModel BudgetProofs.
Open Scope Z_scope.

(** C41.  For every number of bodies a [usize] can hold, the limit is the larger of its floor and of
    the linear allowance, cut at the largest [usize]; so it never overflows, never goes below the
    floor and never decreases when bodies are added. *)
Theorem C41_specialization_limit : forall n, 0 <= n <= 2 ^ 64 - 1 ->
  specialization_limit n = Z.max 512 (Z.min (4 * n) (2 ^ 64 - 1)) /\ 512 <= specialization_limit n <= 2 ^ 64 - 1 /\
  (forall n', n <= n' <= 2 ^ 64 - 1 -> specialization_limit n <= specialization_limit n').
Proof. exact specialization_limit_ok. Qed.
Print Assumptions C41_specialization_limit.

Theorem C41_owned_argument_variant_limit : forall n, 0 <= n <= 2 ^ 64 - 1 ->
  owned_argument_variant_limit n = Z.max 256 (Z.min (2 * n) (2 ^ 64 - 1)) /\ 256 <= owned_argument_variant_limit n <= 2 ^ 64 - 1 /\
  (forall n', n <= n' <= 2 ^ 64 - 1 -> owned_argument_variant_limit n <= owned_argument_variant_limit n').
Proof. exact owned_argument_variant_limit_ok. Qed.
Print Assumptions C41_owned_argument_variant_limit.

Example C41_ex : specialization_limit 128 = 512 /\ specialization_limit 129 = 516 /\ specialization_limit (2 ^ 63) = 2 ^ 64 - 1 /\
  owned_argument_variant_limit 0 = 256 /\ owned_argument_variant_limit 129 = 258.
Proof. repeat split; vm_compute; reflexivity. Qed.
