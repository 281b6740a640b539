(** C71: the arithmetic of floats is that of the real numbers, rounded once and
    saturated. *)
From Coq Require Import ZArith Reals.
From Flocq Require Import Core IEEE754.BinarySingleNaN.
From Verif Require Import FloatModel FloatSpec FloatProofs.

(** Sum, difference and product of any two floats are the exact result, rounded to
    the nearest float and saturated; opposite and absolute value are exact. *)
Theorem C71_arithmetic : forall x y, is_float x -> is_float y ->
  gives (add_float x y) (number x + number y) /\
  gives (sub_float x y) (number x - number y) /\
  gives (mul_float x y) (number x * number y) /\
  gives_exactly (neg_float x) (- number x) /\
  gives_exactly (abs_float x) (Rabs (number x)).
Proof.
  intros x y Fx Fy. split; [apply add_ok; assumption|]. split; [apply sub_ok; assumption|].
  split; [apply mul_ok; assumption|]. split; [apply neg_ok; assumption|apply abs_ok; assumption].
Qed.
Print Assumptions C71_arithmetic.

(** A quotient fails exactly when the divisor is zero, of either sign, and is
    otherwise the exact one, rounded and saturated. *)
Theorem C71_division : forall x y, is_float x -> is_float y ->
  (number y = 0%R -> div_float x y = Failed DivisionByZero) /\
  (number y <> 0%R -> gives (div_float x y) (number x / number y)).
Proof. intros x y Fx Fy. split; intros H; [apply div_zero|apply div_ok]; assumption. Qed.
Print Assumptions C71_division.

(** A square root fails exactly on the negative numbers; that of -0.0 is zero. *)
Theorem C71_square_root : forall x, is_float x ->
  ((number x < 0)%R -> sqrt_float x = Failed InvalidArgument) /\
  ((0 <= number x)%R -> gives_exactly (sqrt_float x) (nearest (sqrt (number x)))).
Proof. intros x F. split; intros H; [apply sqrt_negative|apply sqrt_ok]; assumption. Qed.
Print Assumptions C71_square_root.

(** Equality and order are those of the numbers. *)
Theorem C71_order : forall x y, is_float x -> is_float y ->
  (equal_float x y = true <-> number x = number y) /\
  compare_float x y = Done (Rcompare (number x) (number y)).
Proof. intros x y Fx Fy. split; [apply equal_ok|apply compare_ok]; assumption. Qed.
Print Assumptions C71_order.

(** Two floats are equal exactly when their difference is zero: it never vanishes
    by underflow. *)
Theorem C71_difference_zero : forall x y v, is_float x -> is_float y -> sub_float x y = Done v ->
  (number v = 0%R <-> equal_float x y = true).
Proof.
  intros x y v Fx Fy D. rewrite (sub_zero x y v Fx Fy D). symmetry. apply equal_ok; assumption.
Qed.
Print Assumptions C71_difference_zero.

(** Adding the same float to both sides keeps the order, even on overflow. *)
Theorem C71_addition_monotone : forall x y z v w, is_float x -> is_float y -> is_float z ->
  add_float x z = Done v -> add_float y z = Done w -> (number x <= number y)%R -> (number v <= number w)%R.
Proof.
  intros x y z v w Fx Fy Fz Dv Dw H.
  apply (gives_mono _ _ v w _ _ (add_ok x z Fx Fz) (add_ok y z Fy Fz) Dv Dw).
  apply Rplus_le_compat_r. exact H.
Qed.
Print Assumptions C71_addition_monotone.

(** Rounding to an integer is exact, and saturates outside of the integers. *)
Theorem C71_to_int : forall v, is_float v ->
  floor_float v = nearest_int (Zfloor (number v)) /\
  ceil_float v = nearest_int (Zceil (number v)) /\
  round_float v = nearest_int (half_away (number v)) /\
  saturating_trunc v = nearest_int (integer_part (number v)).
Proof.
  intros v F. split; [apply floor_ok; exact F|]. split; [apply ceil_ok; exact F|].
  split; [apply round_ok; exact F|apply trunc_ok; exact F].
Qed.
Print Assumptions C71_to_int.

(** An integer becomes the nearest float, exactly up to 2^53. *)
Theorem C71_from_int : forall n, is_int n ->
  gives_exactly (isize_to_float n) (nearest (IZR n)) /\
  saturating_cast_int_to_float n = isize_to_float n /\
  ((Z.abs n <= 2 ^ 53)%Z -> gives_exactly (isize_to_float n) (IZR n)).
Proof.
  intros n B. split; [apply int_to_float_ok; exact B|]. split; [apply cast_ok; exact B|].
  intros H. rewrite <- (nearest_exact n H). apply int_to_float_ok. exact B.
Qed.
Print Assumptions C71_from_int.

(** Whatever the mathematical library gives: a finite result is kept, an infinite
    one saturates or fails, and not a number fails for a power. *)
Theorem C71_library : forall v powf b e, powf b e = v ->
  (is_float v -> saturated_real_result v = Done v /\ checked_real_result v = Done v /\
    pow_float powf b e = Done v) /\
  (forall s, v = B754_infinity s ->
    gives_exactly (saturated_real_result v) (if s then - largest else largest) /\
    checked_real_result v = Failed InvalidArgument /\
    gives_exactly (pow_float powf b e) (if s then - largest else largest)) /\
  (v = B754_nan -> saturated_real_result v = Panic /\ checked_real_result v = Failed InvalidArgument /\
    pow_float powf b e = Failed InvalidArgument).
Proof.
  intros v powf b e P. unfold pow_float, checked_real_result, saturated_real_result. rewrite P. split; [|split].
  - intros F. unfold new. rewrite new_saturating_finite, F by exact F.
    replace (is_nan v) with false by (destruct v; [reflexivity..|discriminate|reflexivity]).
    split; [|split]; reflexivity.
  - intros s ->. rewrite new_saturating_inf. destruct number_max as [M F].
    assert (G : gives_exactly (Done (if s then Bopp max_f64 else max_f64)) (if s then - largest else largest)).
    { eexists. split; [reflexivity|]. unfold is_float, number in *. destruct s; [|split; assumption].
      rewrite is_finite_Bopp, B2R_Bopp, M. split; [exact F|reflexivity]. }
    split; [exact G|]. split; [reflexivity|exact G].
  - intros ->. split; [|split]; reflexivity.
Qed.
Print Assumptions C71_library.

(** The sign of a number other than zero. *)
Theorem C71_signum_partial : forall x, is_float x -> number x <> 0%R ->
  gives_exactly (signum_float x) (if Rlt_bool 0 (number x) then 1 else -1)%R.
Proof.
  intros x F N. pose proof (signum_ok x F) as G. pose proof (sign_nonzero x N) as S. destruct (Bsign x).
  - rewrite Rlt_bool_false by (apply Rlt_le; exact S). exact G.
  - rewrite Rlt_bool_true by exact S. exact G.
Qed.
Print Assumptions C71_signum_partial.

(** Equal floats may have different signs, and neither of the zeros has the sign 0
    that the integer zero has. *)
Theorem C71_signum_refuted : exists x y, is_float x /\ is_float y /\ equal_float x y = true /\
  number x = 0%R /\ gives_exactly (signum_float x) 1 /\ gives_exactly (signum_float y) (-1).
Proof.
  exists (B754_zero false), (B754_zero true). split; [reflexivity|]. split; [reflexivity|].
  split; [reflexivity|]. split; [reflexivity|].
  split; [apply (signum_ok (B754_zero false))|apply (signum_ok (B754_zero true))]; reflexivity.
Qed.
Print Assumptions C71_signum_refuted.

(** ** Examples *)

Definition show (o : outcome f64) : option SpecFloat.spec_float :=
  match o with Done v => Some (B2SF v) | _ => None end.
Definition ratio (a b : Z) : f64 := Bdiv mode_NE (of_int a) (of_int b).

(** 0.1 + 0.2 is not 0.3. *)
Example C71_example_rounding :
  show (add_float (ratio 1 10) (ratio 2 10)) = Some (SpecFloat.S754_finite false 5404319552844596 (-54)) /\
  B2SF (ratio 3 10) = SpecFloat.S754_finite false 5404319552844595 (-54).
Proof. split; vm_compute; reflexivity. Qed.

(** Overflow saturates; division by -0.0 fails; [sqrt (-1)] fails. *)
Example C71_example_saturation :
  show (add_float max_f64 max_f64) = Some (B2SF max_f64) /\
  show (mul_float max_f64 (of_int (-2))) = Some (B2SF (Bopp max_f64)) /\
  div_float (of_int 1) (B754_zero true) = Failed DivisionByZero /\
  sqrt_float (of_int (-1)) = Failed InvalidArgument.
Proof. split; [|split; [|split]]; vm_compute; reflexivity. Qed.

(** Halves go away from zero, and integers saturate. *)
Example C71_example_to_int :
  round_float (ratio 5 2) = 3%Z /\ round_float (ratio (-5) 2) = (-3)%Z /\ floor_float (ratio (-5) 2) = (-3)%Z /\
  ceil_float (ratio (-5) 2) = (-2)%Z /\ saturating_trunc (ratio (-5) 2) = (-2)%Z /\
  floor_float max_f64 = 9223372036854775807%Z.
Proof. repeat split; vm_compute; reflexivity. Qed.

(** 2^53 + 1 does not come back from a float. *)
Example C71_example_from_int : floor_float (of_int (2 ^ 53 + 1)) = (2 ^ 53)%Z.
Proof. vm_compute. reflexivity. Qed.

(** One divided by zero fails, but the power -1 of zero, for which the library gives
    an infinity, is the largest float. *)
Example C71_example_pow :
  div_float (of_int 1) (of_int 0) = Failed DivisionByZero /\
  show (pow_float (fun _ _ => B754_infinity false) (of_int 0) (of_int (-1))) = Some (B2SF max_f64).
Proof. split; vm_compute; reflexivity. Qed.
