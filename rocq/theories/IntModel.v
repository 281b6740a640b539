(** Model of the native integer functions of src/std/math.rs. *)
From Coq Require Import ZArith Bool List Lia.
From Verif Require Import MachInt.
Open Scope Z_scope.

(** ** Num for int: src/std/math.rs:510-523 *)

(** src/std/math.rs:515 [Int::wrapping_add] *)
Definition int_add (a b : Z) : Z := wrap64 (a + b).
(** src/std/math.rs:516 [Int::wrapping_sub] *)
Definition int_sub (a b : Z) : Z := wrap64 (a - b).
(** src/std/math.rs:517 [Int::wrapping_mul] *)
Definition int_mul (a b : Z) : Z := wrap64 (a * b).
(** src/std/math.rs:518 [Int::wrapping_neg] *)
Definition int_neg (a : Z) : Z := wrap64 (- a).
(** src/std/math.rs:519 [Int::abs]. Rust's [abs] overflows on [MIN]: it panics when overflow checks
    are on and wraps to [MIN] when they are off; [checked] is that build setting. *)
Definition int_abs (checked : bool) (a : Z) : outcome Z :=
  if a <? 0
  then if (a =? int_min) && checked then HostPanic else Done (wrap64 (- a))
  else Done a.
(** src/std/math.rs:520 [Int::signum] *)
Definition int_signum (a : Z) : Z := if a <? 0 then -1 else if a =? 0 then 0 else 1.

(** ** Division: src/std/math.rs:563-622 *)

(** Rust's [/] and [%] on [isize] panic on a zero divisor and on [MIN / -1], [MIN % -1] in every
    build profile; [div_euclid] and [rem_euclid] are built from them. *)
Definition rust_div (a b : Z) : outcome Z :=
  if b =? 0 then HostPanic
  else if (a =? int_min) && (b =? -1) then HostPanic
  else Done (Z.quot a b).
Definition rust_rem (a b : Z) : outcome Z :=
  if b =? 0 then HostPanic
  else if (a =? int_min) && (b =? -1) then HostPanic
  else Done (Z.rem a b).
(** core::num [div_euclid]: [let q = self / rhs; if self % rhs < 0 { return if rhs > 0 { q - 1 } else { q + 1 } } q] *)
Definition rust_div_euclid (a b : Z) : outcome Z :=
  match rust_div a b, rust_rem a b with
  | Done q, Done r => Done (if r <? 0 then (if 0 <? b then q - 1 else q + 1) else q)
  | _, _ => HostPanic
  end.
(** core::num [rem_euclid]: [let r = self % rhs; if r < 0 { r.wrapping_add(rhs.wrapping_abs()) } else { r }] *)
Definition rust_rem_euclid (a b : Z) : outcome Z :=
  match rust_rem a b with
  | Done r => Done (if r <? 0 then wrap64 (r + wrap64 (Z.abs b)) else r)
  | _ => HostPanic
  end.

(** src/std/math.rs:563-577 *)
Definition idiv (lhs rhs : Z) : outcome Z :=
  if rhs =? 0 then Fails DivisionByZero else rust_div lhs rhs.
(** src/std/math.rs:578-592 *)
Definition idiv_euclid (lhs rhs : Z) : outcome Z :=
  if rhs =? 0 then Fails DivisionByZero else rust_div_euclid lhs rhs.
(** src/std/math.rs:593-607 *)
Definition irem (lhs rhs : Z) : outcome Z :=
  if rhs =? 0 then Fails RemainderByZero else rust_rem lhs rhs.
(** src/std/math.rs:608-622 *)
Definition imod (lhs rhs : Z) : outcome Z :=
  if rhs =? 0 then Fails RemainderByZero else rust_rem_euclid lhs rhs.

(** ** Bits for int: src/std/math.rs:209-294, 524-544 *)

Definition u32_max : Z := 2 ^ 32 - 1.

(** src/std/math.rs:209-221 (64-bit branch) *)
Definition clamp_to_u32 (v : Z) : Z := if v <=? 0 then 0 else Z.min (to_u64 v) u32_max.

(** src/std/math.rs:224-227 *)
Definition clamped_negated_shift_to_u32 (shift : Z) : Z :=
  clamp_to_u32 (if shift =? int_min then int_max else - shift).

(** core::num [wrapping_shl]/[wrapping_shr] on i64: the count is masked to 6 bits; [>>] is arithmetic. *)
Definition wrapping_shl (v s : Z) : Z := wrap64 (Z.shiftl v (s mod 64)).
Definition wrapping_shr (v s : Z) : Z := Z.shiftr v (s mod 64).
(** core::num [rotate_left]/[rotate_right] on i64 (count modulo 64, on the unsigned representation). *)
Definition rust_rotate_left (v s : Z) : Z :=
  let k := s mod 64 in
  wrap64 (Z.lor (Z.shiftl (to_u64 v) k) (Z.shiftr (to_u64 v) (64 - k))).
Definition rust_rotate_right (v s : Z) : Z :=
  let k := s mod 64 in
  wrap64 (Z.lor (Z.shiftr (to_u64 v) k) (Z.shiftl (to_u64 v) (64 - k))).

(** src/std/math.rs:524-531 bitand, bitor, bitxor, not *)
Definition bit_and (a b : Z) : Z := Z.land a b.
Definition bit_or (a b : Z) : Z := Z.lor a b.
Definition bit_xor (a b : Z) : Z := Z.lxor a b.
Definition bit_not (a : Z) : Z := Z.lnot a.

(** src/std/math.rs:229-237 *)
Definition shift_left (value shift : Z) : Z :=
  if shift <? 0
  then wrapping_shr value (clamped_negated_shift_to_u32 shift)
  else wrapping_shl value (clamp_to_u32 shift).
(** src/std/math.rs:239-247 *)
Definition shift_right (value shift : Z) : Z :=
  if shift <? 0
  then wrapping_shl value (clamped_negated_shift_to_u32 shift)
  else wrapping_shr value (clamp_to_u32 shift).
(** src/std/math.rs:249-257 *)
Definition rotate_left (value shift : Z) : Z :=
  if shift <? 0
  then rust_rotate_right value (clamped_negated_shift_to_u32 shift)
  else rust_rotate_left value (clamp_to_u32 shift).
(** src/std/math.rs:259-267 *)
Definition rotate_right (value shift : Z) : Z :=
  if shift <? 0
  then rust_rotate_left value (clamped_negated_shift_to_u32 shift)
  else rust_rotate_right value (clamp_to_u32 shift).

(** core::num [count_ones]: population count of the low [n] bits. *)
Fixpoint popcount (n : nat) (v : Z) : Z :=
  match n with
  | O => 0
  | S m => Z.b2z (Z.testbit v (Z.of_nat m)) + popcount m v
  end.
(** src/std/math.rs:269-271 *)
Definition count_ones (value : Z) : Z := popcount 64 (to_u64 value).
(** src/std/math.rs:273-275; Rust defines [count_zeros] as [(!self).count_ones()]. *)
Definition count_zeros (value : Z) : Z := popcount 64 (to_u64 (Z.lnot value)).

(** src/std/math.rs:277-283; [checked_shl] is [None] from 64 on. *)
Definition bit (position : Z) : Z :=
  if position <? 0 then 0
  else let p := clamp_to_u32 position in
       if p <? 64 then wrap64 (Z.shiftl 1 p) else 0.
(** src/std/math.rs:285-287 *)
Definition set_bit (value position : Z) : Z := Z.lor value (bit position).
(** src/std/math.rs:289-291 *)
Definition clear_bit (value position : Z) : Z := Z.land value (Z.lnot (bit position)).
(** src/std/math.rs:293-295 *)
Definition test_bit (value position : Z) : bool := negb (Z.land value (bit position) =? 0).
