(** The floats of the standard library (src/std/math.rs).  A double is an element
    of Flocq's [binary_float 53 1024], with one NaN; the operations of the
    processor are Flocq's, which are those of the standard IEEE 754. *)
From Coq Require Import ZArith Bool.
From Flocq Require Import Core IEEE754.BinarySingleNaN.

Global Instance prec_positive : Prec_gt_0 53 := eq_refl.
Global Instance prec_fits : Prec_lt_emax 53 1024 := eq_refl.

Definition f64 : Set := binary_float 53 1024.

(** [SourceFailureKind], the two kinds that are used; the text of the message is
    left out. *)
Inductive failure : Set := DivisionByZero | InvalidArgument.

(** What a function gives: a result, a failure of the program, or a panic of the
    host. *)
Inductive outcome (A : Type) : Type := Done (a : A) | Failed (k : failure) | Panic.
Arguments Done {A}. Arguments Failed {A}. Arguments Panic {A}.

(** [f64::MAX]. *)
Definition max_f64 : f64 := Bmax_float.

(** [f64::is_sign_negative]. *)
Definition is_sign_negative (v : f64) : bool := Bsign v.

(** [Float::new], src/std/math.rs L80-88; [None] is [FloatIsNotFinite]. *)
Definition new (v : f64) : option f64 := if is_finite v then Some v else None.

(** [expect] and [unwrap]. *)
Definition expect (r : option f64) : outcome f64 := match r with Some v => Done v | None => Panic end.

(** [Float::new_saturating], L90-100. *)
Definition new_saturating (v : f64) : outcome f64 :=
  if is_finite v then expect (new v)
  else if is_nan v then Panic
  else if is_sign_negative v then expect (new (Bopp max_f64))
  else expect (new max_f64).

(** [equal_float], L305-307: the equality of [NotNan]. *)
Definition equal_float (l r : f64) : bool := Beqb l r.

(** [compare_float], L309-311, through [NotNan::cmp], which panics on NaN, and
    [compare], src/std/ordering.rs L30-40. *)
Definition compare_float (l r : f64) : outcome comparison :=
  match Bcompare l r with Some c => Done c | None => Panic end.

(** [add_float], [sub_float], [mul_float], L313-323. *)
Definition add_float (l r : f64) : outcome f64 := new_saturating (Bplus mode_NE l r).
Definition sub_float (l r : f64) : outcome f64 := new_saturating (Bminus mode_NE l r).
Definition mul_float (l r : f64) : outcome f64 := new_saturating (Bmult mode_NE l r).

(** [div_float], L325-331. *)
Definition div_float (l r : f64) : outcome f64 :=
  if Beqb r (B754_zero false) then Failed DivisionByZero
  else new_saturating (Bdiv mode_NE l r).

(** [sqrt_float], L431-438. *)
Definition sqrt_float (v : f64) : outcome f64 :=
  match new (Bsqrt mode_NE v) with Some r => Done r | None => Failed InvalidArgument end.

(** [neg_float], L440-442; [abs_float], L110-112 and L444-446. *)
Definition neg_float (v : f64) : outcome f64 := expect (new (Bopp v)).
Definition abs_float (v : f64) : outcome f64 := Done (Babs v).

(** [signum_float], L114-116 and L448-450: [f64::signum], one with the sign of the number. *)
Definition signum_float (v : f64) : outcome f64 :=
  Done (if is_nan v then v else if is_sign_negative v then Bopp Bone else Bone).

(** The integers are [isize], taken as 64 bits. *)
Definition int_min : Z := (-9223372036854775808)%Z.
Definition int_max : Z := 9223372036854775807%Z.

(** [v as Int]: the integer part, saturating, and 0 for NaN. *)
Definition as_int (v : f64) : Z :=
  match v with
  | B754_infinity s => if s then int_min else int_max
  | _ => Z.max int_min (Z.min int_max (Btrunc v))
  end.

(** [round_float], [floor_float], [ceil_float], L452-462. *)
Definition round_float (v : f64) : Z := as_int (Bnearbyint mode_NA v).
Definition floor_float (v : f64) : Z := as_int (Bnearbyint mode_DN v).
Definition ceil_float (v : f64) : Z := as_int (Bnearbyint mode_UP v).

(** [v as f64] for an integer. *)
Definition of_int (n : Z) : f64 := binary_normalize 53 1024 _ _ mode_NE n 0 false.

(** [isize_to_float], L176-179. *)
Definition isize_to_float (n : Z) : outcome f64 := expect (new (of_int n)).

(** [saturating_cast_int_to_float] for [Int], L182-194: the conversion of
    [NumCast] always succeeds. *)
Definition saturating_cast_int_to_float (n : Z) : outcome f64 := new_saturating (of_int n).

(** [NumCast::from] of a double that is an integer: [None] out of range. *)
Definition num_cast (v : f64) : option Z :=
  if is_finite v then
    if (int_min <=? Btrunc v)%Z && (Btrunc v <=? int_max)%Z then Some (Btrunc v) else None
  else None.

(** [saturating_trunc] for [Int], L197-208. *)
Definition saturating_trunc (v : f64) : Z :=
  match num_cast (Bnearbyint mode_ZR v) with
  | Some n => n
  | None => if is_sign_negative v then int_min else int_max
  end.

(** The functions of the mathematical library are not modelled; [v] is what the
    library gives.  [saturated_real_result], L172-174, is the end of [sin_float],
    [cos_float], [tan_float], [atan_float], [atan2_float], [sinh_float],
    [cosh_float], [tanh_float], [asinh_float] and [exp_float], L333-407. *)
Definition saturated_real_result (v : f64) : outcome f64 := new_saturating v.

(** [asin_float], [acos_float], [acosh_float], [atanh_float] and [log_float],
    L345-416. *)
Definition checked_real_result (v : f64) : outcome f64 :=
  match new v with Some r => Done r | None => Failed InvalidArgument end.

(** [pow_float], L418-429. *)
Definition pow_float (powf : f64 -> f64 -> f64) (base exponent : f64) : outcome f64 :=
  let result := powf base exponent in
  if is_nan result then Failed InvalidArgument else saturated_real_result result.
