(** Specification of integer arithmetic and bit operations, in mathematical terms only. *)
From Coq Require Import ZArith List.
From Verif Require Import MachInt.
Open Scope Z_scope.

(** [r] is the 64-bit two's-complement representative of the mathematical integer [z]. *)
Definition represents (r z : Z) : Prop :=
  - 2 ^ 63 <= r < 2 ^ 63 /\ exists k, r = z + k * 2 ^ 64.

(** Truncating division: quotient rounded towards zero, remainder with the sign of the dividend. *)
Definition trunc_div (n d q r : Z) : Prop :=
  n = d * q + r /\ Z.abs r < Z.abs d /\ (r = 0 \/ Z.sgn r = Z.sgn n).

(** Euclidean division: remainder in [0, |d|). *)
Definition euclid_div (n d q r : Z) : Prop := n = d * q + r /\ 0 <= r < Z.abs d.

(** The bit at position [i] (0..63) of a 64-bit integer, two's complement. *)
Definition bit_at (v i : Z) : bool := Z.testbit v i.

(** [r] and the predicate [f] on bit positions describe the same 64-bit word. *)
Definition word_is (r : Z) (f : Z -> bool) : Prop :=
  - 2 ^ 63 <= r < 2 ^ 63 /\ forall i, 0 <= i < 64 -> bit_at r i = f i.

(** Number of positions in 0..63 satisfying [f]: the length of any duplicate-free exhaustive listing. *)
Definition counts (f : Z -> bool) (n : Z) : Prop :=
  exists l : list Z, NoDup l /\ (forall i, In i l <-> (0 <= i < 64 /\ f i = true)) /\ n = Z.of_nat (length l).
