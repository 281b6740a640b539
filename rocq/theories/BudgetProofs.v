From Coq Require Import ZArith Lia.
From Verif Require Import BudgetModel.
Open Scope Z_scope.

Lemma specialization_limit_ok : forall n, 0 <= n <= 2 ^ 64 - 1 ->
  specialization_limit n = Z.max 512 (Z.min (4 * n) (2 ^ 64 - 1)) /\ 512 <= specialization_limit n <= 2 ^ 64 - 1 /\
  (forall n', n <= n' <= 2 ^ 64 - 1 -> specialization_limit n <= specialization_limit n').
Proof.
  assert (E : forall n, 0 <= n -> specialization_limit n = Z.max 512 (Z.min (4 * n) (2 ^ 64 - 1))).
  { intros n H. unfold specialization_limit, saturating_mul, min_specializations, specializations_per_body, usize_max.
    change (2 ^ 64 - 1) with 18446744073709551615. destruct (Z.ltb_spec 18446744073709551615 (n * 4)); [rewrite Z.min_r by lia|rewrite Z.min_l by lia].
    - reflexivity.
    - destruct (Z.ltb_spec 512 (n * 4)); lia. }
  intros n H. change (2 ^ 64 - 1) with 18446744073709551615 in *. split; [apply E; lia|]. split.
  - rewrite E by lia. lia.
  - intros n' H'. rewrite !E by lia. lia.
Qed.

Lemma owned_argument_variant_limit_ok : forall n, 0 <= n <= 2 ^ 64 - 1 ->
  owned_argument_variant_limit n = Z.max 256 (Z.min (2 * n) (2 ^ 64 - 1)) /\ 256 <= owned_argument_variant_limit n <= 2 ^ 64 - 1 /\
  (forall n', n <= n' <= 2 ^ 64 - 1 -> owned_argument_variant_limit n <= owned_argument_variant_limit n').
Proof.
  assert (E : forall n, 0 <= n -> owned_argument_variant_limit n = Z.max 256 (Z.min (2 * n) (2 ^ 64 - 1))).
  { intros n H. unfold owned_argument_variant_limit, saturating_mul, min_owned_argument_variants, owned_argument_variants_per_body, usize_max.
    change (2 ^ 64 - 1) with 18446744073709551615. destruct (Z.ltb_spec 18446744073709551615 (n * 2)); [rewrite Z.min_r by lia|rewrite Z.min_l by lia].
    - reflexivity.
    - destruct (Z.ltb_spec 256 (n * 2)); lia. }
  intros n H. change (2 ^ 64 - 1) with 18446744073709551615 in *. split; [apply E; lia|]. split.
  - rewrite E by lia. lia.
  - intros n' H'. rewrite !E by lia. lia.
Qed.

