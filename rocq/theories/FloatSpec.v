(** What the floats mean, in real numbers. *)
From Coq Require Import ZArith Reals.
From Flocq Require Import Core IEEE754.BinarySingleNaN.
From Verif Require Import FloatModel.

(** The number that a float stands for. *)
Definition number (v : f64) : R := B2R v.

(** A float of the language. *)
Definition is_float (v : f64) : Prop := is_finite v = true.

(** The largest float, (2^53 - 1) * 2^971. *)
Definition largest : R := (IZR (2 ^ 53 - 1) * bpow radix2 971)%R.

(** Rounding to the nearest multiple of the last of 53 binary digits, but of
    2^-1074 at least; ties to even. *)
Definition nearest (r : R) : R := round radix2 (FLT_exp (-1074) 53) ZnearestE r.

Definition saturate (r : R) : R := Rmax (- largest) (Rmin largest r).

(** The result is the float next to [r], or the largest in its direction. *)
Definition gives (o : outcome f64) (r : R) : Prop :=
  exists v, o = Done v /\ is_float v /\ number v = saturate (nearest r).

(** The result is exactly [r]. *)
Definition gives_exactly (o : outcome f64) (r : R) : Prop :=
  exists v, o = Done v /\ is_float v /\ number v = r.

(** The integers of the language, and the one next to an integer. *)
Definition smallest_int : Z := (- 2 ^ 63)%Z.
Definition largest_int : Z := (2 ^ 63 - 1)%Z.
Definition nearest_int (n : Z) : Z := Z.max smallest_int (Z.min largest_int n).
Definition is_int (n : Z) : Prop := (smallest_int <= n <= largest_int)%Z.

(** Rounding to an integer, halves away from zero. *)
Definition half_away (r : R) : Z := if Rle_bool 0 r then Zfloor (r + / 2) else Zceil (r - / 2).

(** The integer part. *)
Definition integer_part (r : R) : Z := if Rle_bool 0 r then Zfloor r else Zceil r.
