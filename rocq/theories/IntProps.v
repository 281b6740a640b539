(** Property theorems C01, C02, C03. *)
From Coq Require Import ZArith Bool List Lia.
From Verif Require Import MachInt IntModel IntSpec IntProofs.
Open Scope Z_scope.

(** ** C01 *)

Theorem C01_int_arithmetic_wraps : forall a b, in_int a -> in_int b ->
  represents (int_add a b) (a + b) /\ represents (int_sub a b) (a - b) /\
  represents (int_mul a b) (a * b) /\ represents (int_neg a) (- a).
Proof. exact int_arith_represents. Qed.
Print Assumptions C01_int_arithmetic_wraps.
Example C01_int_arithmetic_wraps_ex :
  in_int int_max /\ in_int 1 /\ int_add int_max 1 = int_min /\ int_neg int_min = int_min
  /\ int_mul 4294967296 4294967296 = 0 /\ int_sub int_min 1 = int_max.
Proof. vm_compute. repeat split; discriminate. Qed.

(** [abs] and [signum]: |a| for every integer except the minimum. *)
Theorem C01_abs_signum : forall c a, in_int a ->
  (a <> int_min -> int_abs c a = Done (Z.abs a)) /\ int_signum a = Z.sgn a.
Proof. exact abs_signum_spec. Qed.
Print Assumptions C01_abs_signum.
Example C01_abs_signum_ex : in_int (-5) /\ -5 <> int_min /\ int_abs true (-5) = Done 5 /\ int_signum (-5) = -1.
Proof. vm_compute. repeat split; discriminate. Qed.

(** The English claim "never fails" is false of [abs]: with overflow checks it aborts the host, and
    without them the result is negative. *)
Theorem C01_abs_total_refuted :
  exists a, in_int a /\ int_abs true a = HostPanic /\ exists r, int_abs false a = Done r /\ r < 0.
Proof. exact abs_min_bad. Qed.
Print Assumptions C01_abs_total_refuted.

(** ** C02 *)

(** The full English claim: for every pair of operands, a zero divisor is a catchable failure and every
    other divisor gives the mathematical result, with no host panic. *)
Definition C02_statement : Prop := forall n d, in_int n -> in_int d ->
  (d = 0 -> idiv n d = Fails DivisionByZero /\ irem n d = Fails RemainderByZero /\
            idiv_euclid n d = Fails DivisionByZero /\ imod n d = Fails RemainderByZero) /\
  (d <> 0 ->
     (exists q r, idiv n d = Done q /\ irem n d = Done r /\ exists q', trunc_div n d q' r /\ represents q q') /\
     (exists q r, idiv_euclid n d = Done q /\ imod n d = Done r /\ exists q', euclid_div n d q' r /\ represents q q')).

Theorem C02_division_refuted : ~ C02_statement.
Proof. exact division_statement_false. Qed.
Print Assumptions C02_division_refuted.

(** Exactly one pair of operands makes the four functions abort the host. *)
Theorem C02_division_panics_only_at : forall n d, in_int n -> in_int d ->
  (idiv n d = HostPanic <-> n = int_min /\ d = -1) /\
  (irem n d = HostPanic <-> n = int_min /\ d = -1) /\
  (idiv_euclid n d = HostPanic <-> n = int_min /\ d = -1) /\
  (imod n d = HostPanic <-> n = int_min /\ d = -1).
Proof. exact division_panics_iff. Qed.
Print Assumptions C02_division_panics_only_at.
Example C02_division_panics_only_at_ex : in_int int_min /\ in_int (-1) /\ idiv int_min (-1) = HostPanic.
Proof. vm_compute. repeat split; discriminate. Qed.

(** Missing from the full statement: the pair (MIN, -1). *)
Theorem C02_division_partial : forall n d, in_int n -> in_int d ->
  (d = 0 -> idiv n d = Fails DivisionByZero /\ irem n d = Fails RemainderByZero /\
            idiv_euclid n d = Fails DivisionByZero /\ imod n d = Fails RemainderByZero) /\
  (d <> 0 -> ~ (n = int_min /\ d = -1) ->
     (exists q r, idiv n d = Done q /\ irem n d = Done r /\ trunc_div n d q r /\ in_int q /\ in_int r) /\
     (exists q r, idiv_euclid n d = Done q /\ imod n d = Done r /\ euclid_div n d q r /\ in_int q /\ in_int r)).
Proof. exact division_spec. Qed.
Print Assumptions C02_division_partial.
Example C02_division_partial_ex : in_int (-7) /\ in_int 3 /\ ~ (-7 = int_min /\ 3 = -1) /\
  idiv (-7) 3 = Done (-2) /\ irem (-7) 3 = Done (-1) /\ idiv_euclid (-7) 3 = Done (-3) /\ imod (-7) 3 = Done 2
  /\ idiv_euclid (-7) (-3) = Done 3 /\ imod (-7) (-3) = Done 2.
Proof. vm_compute. repeat split; try discriminate. intros []; discriminate. Qed.

(** ** C03 *)

Theorem C03_bitwise : forall a b, in_int a -> in_int b ->
  word_is (bit_and a b) (fun i => bit_at a i && bit_at b i) /\
  word_is (bit_or a b) (fun i => bit_at a i || bit_at b i) /\
  word_is (bit_xor a b) (fun i => xorb (bit_at a i) (bit_at b i)) /\
  word_is (bit_not a) (fun i => negb (bit_at a i)).
Proof. exact bitwise_spec. Qed.
Print Assumptions C03_bitwise.
Example C03_bitwise_ex : in_int 13 /\ in_int 11 /\ bit_and 13 11 = 9 /\ bit_not 0 = -1.
Proof. vm_compute. repeat split; discriminate. Qed.

(** Setting, clearing and testing a bit touch only that bit; positions outside 0..63 are harmless. *)
Theorem C03_single_bit : forall v p, in_int v -> in_int p ->
  word_is (bit p) (fun i => i =? p) /\
  word_is (set_bit v p) (fun i => (i =? p) || bit_at v i) /\
  word_is (clear_bit v p) (fun i => negb (i =? p) && bit_at v i) /\
  test_bit v p = ((0 <=? p) && (p <? 64) && bit_at v p).
Proof. exact single_bit_spec. Qed.
Print Assumptions C03_single_bit.
Example C03_single_bit_ex : in_int 8 /\ in_int 1 /\ set_bit 8 1 = 10 /\ clear_bit 15 2 = 11 /\ test_bit 10 1 = true
  /\ test_bit 10 5000000000 = false /\ bit 63 = int_min.
Proof. vm_compute. repeat split; discriminate. Qed.

Theorem C03_counts : forall v, in_int v ->
  counts (bit_at v) (count_ones v) /\ counts (fun i => negb (bit_at v i)) (count_zeros v) /\
  count_ones v + count_zeros v = 64.
Proof. exact count_spec. Qed.
Print Assumptions C03_counts.
Example C03_counts_ex : in_int 22 /\ count_ones 22 = 3 /\ count_zeros 22 = 61 /\ count_ones (-1) = 64.
Proof. vm_compute. repeat split; discriminate. Qed.

(** Shifts by 0..63 (left is a right shift by the negated amount): zero fill on the left shift, sign
    fill on the right shift. *)
Definition C03_shift_statement (v s : Z) : Prop :=
  word_is (shift_left v s) (fun i => if i - s <? 0 then false else bit_at v (Z.min 63 (i - s))) /\
  word_is (shift_right v s) (fun i => if i + s <? 0 then false else bit_at v (Z.min 63 (i + s))).

Theorem C03_shift_partial : forall v s, in_int v -> -63 <= s <= 63 -> C03_shift_statement v s.
Proof. exact shift_spec. Qed.
Print Assumptions C03_shift_partial.
Example C03_shift_partial_ex : in_int 20 /\ -63 <= 2 <= 63 /\ shift_left 1 4 = 16 /\ shift_right 20 2 = 5 /\ shift_right (-8) 1 = -4
   /\ shift_left 20 (-2) = 5.
Proof. vm_compute. repeat split; discriminate. Qed.

(** Missing: amounts of 64 and more, where the claim "fills with zeros" is false: the count is taken
    modulo 64, and from 2^32 on it is clamped and behaves as a shift by 63. *)
Theorem C03_shift_refuted :
  (exists v s, in_int v /\ in_int s /\ 64 <= s < 2 ^ 32 /\ shift_left v s = v /\ v <> 0) /\
  (exists v s, in_int v /\ in_int s /\ 2 ^ 32 <= s /\ shift_left v s <> 0) /\
  ~ (forall v s, in_int v -> in_int s -> C03_shift_statement v s).
Proof. exact shift_big_bad. Qed.
Print Assumptions C03_shift_refuted.

(** Rotations: every bit moves by the amount modulo 64, and the opposite rotation undoes it. *)
Theorem C03_rotate_partial : forall v s, in_int v -> - (2 ^ 32 - 1) <= s <= 2 ^ 32 - 1 ->
  word_is (rotate_left v s) (fun i => bit_at v ((i - s) mod 64)) /\
  word_is (rotate_right v s) (fun i => bit_at v ((i + s) mod 64)).
Proof. exact rotate_spec. Qed.
Print Assumptions C03_rotate_partial.
Example C03_rotate_partial_ex : in_int 1 /\ - (2 ^ 32 - 1) <= 3 <= 2 ^ 32 - 1 /\ rotate_left 1 3 = 8 /\ rotate_right 1 1 = int_min.
Proof. vm_compute. repeat split; discriminate. Qed.

Theorem C03_rotate_inverse : forall v s, in_int v -> in_int s ->
  rotate_right (rotate_left v s) s = v /\ rotate_left (rotate_right v s) s = v.
Proof. exact rotate_inverse. Qed.
Print Assumptions C03_rotate_inverse.
Example C03_rotate_inverse_ex : in_int 5 /\ in_int 10000000000 /\ rotate_left 5 10000000000 <> 5.
Proof. vm_compute. repeat split; discriminate. Qed.

(** Missing from the rotation claim: amounts beyond 32 bits are clamped, so a rotation by 2^32 (a
    multiple of 64) is not the identity. *)
Theorem C03_rotate_refuted : exists v s, in_int v /\ in_int s /\ s mod 64 = 0 /\ rotate_left v s <> v.
Proof. exact rotate_big_bad. Qed.
Print Assumptions C03_rotate_refuted.
