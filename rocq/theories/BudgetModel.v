(** Model of the module-wide generation limits, [src/mir/pass/budget.rs] (64-bit [usize]). *)
From Coq Require Import ZArith.
Open Scope Z_scope.

Definition usize_max : Z := 18446744073709551615.

(** [usize::saturating_mul]. *)
Definition saturating_mul (a b : Z) : Z := if usize_max <? a * b then usize_max else a * b.

(** L94, L97 *)
Definition min_specializations : Z := 512.
Definition specializations_per_body : Z := 4.
(** L103-110 [specialization_limit]. *)
Definition specialization_limit (declared_bodies : Z) : Z :=
  let scaled := saturating_mul declared_bodies specializations_per_body in
  if min_specializations <? scaled then scaled else min_specializations.

(** L116, L119 *)
Definition min_owned_argument_variants : Z := 256.
Definition owned_argument_variants_per_body : Z := 2.
(** L125-132 [owned_argument_variant_limit]. *)
Definition owned_argument_variant_limit (source_bodies : Z) : Z :=
  let scaled := saturating_mul source_bodies owned_argument_variants_per_body in
  if min_owned_argument_variants <? scaled then scaled else min_owned_argument_variants.
