(** Machine integers shared by all models.
    Ferlium's [int] is Rust's [isize] (src/std/math.rs:60 [pub type Int = isize]); the model fixes the
    64-bit target. [u64] words are [Z] in [0, 2^64). *)
From Coq Require Import ZArith Bool List Lia.
Open Scope Z_scope.

Definition two63 : Z := 2 ^ 63.
Definition two64 : Z := 2 ^ 64.

(** [isize::MIN], [isize::MAX]. *)
Definition int_min : Z := - two63.
Definition int_max : Z := two63 - 1.

Definition in_int (z : Z) : Prop := int_min <= z <= int_max.
Definition in_intb (z : Z) : bool := (int_min <=? z) && (z <=? int_max).

(** Reduction of a mathematical integer to the two's-complement [isize] it wraps to. *)
Definition wrap64 (z : Z) : Z := (z + two63) mod two64 - two63.

(** [v as u64]. *)
Definition to_u64 (z : Z) : Z := z mod two64.

(** Result of calling a native function: a value, a catchable source failure
    (src/eval.rs [SourceFailureKind]), or a Rust panic that unwinds through the host. *)
Inductive failure : Type :=
| DivisionByZero
| RemainderByZero.

Inductive outcome (A : Type) : Type :=
| Done (a : A)
| Fails (f : failure)
| HostPanic.
Arguments Done {A} a.
Arguments Fails {A} f.
Arguments HostPanic {A}.
