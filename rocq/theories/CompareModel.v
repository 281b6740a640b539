(** Model of the comparison functions of the prelude, [src/std/prelude/comparison.fer] and
    [src/std/prelude/core_impls.fer] L1-10, and of the native orders they rest on,
    [src/std/ordering.rs], [src/std/math.rs] and [src/std/string.rs].

    - [cmp] and [eq] are the methods of [Ord] and [Value] for the type at hand.  [cmp] is declared
      without effects (core_traits.fer L8-11), so it is a function here.
    - The order of floats is [FloatModel.compare_float]. *)
From Coq Require Import List ZArith Bool.
From Verif Require Import Utf8Model FloatModel.
Import ListNotations.
Open Scope Z_scope.

(** core_traits.fer L5, and ordering.rs L19-29. *)
Inductive ordering : Type := Less | Equal | Greater.

(** A value, or the failure raised by [panic]. *)
Inductive result (T : Type) : Type := Value (v : T) | Panics.
Arguments Value {T}. Arguments Panics {T}.

Section Compare.
Context {T : Type}.
Variable cmp : T -> T -> ordering.
Variable eq : T -> T -> bool.

(** comparison.fer L1-4, the operator [!=]. *)
Definition ne (left right : T) : bool := negb (eq left right).
(** L6-12, the operator [<]. *)
Definition lt (left right : T) : bool := match cmp left right with Less => true | _ => false end.
(** L14-20, the operator [<=]. *)
Definition le (left right : T) : bool := match cmp left right with Greater => false | _ => true end.
(** L22-28, the operator [>]. *)
Definition gt (left right : T) : bool := match cmp left right with Greater => true | _ => false end.
(** L30-36, the operator [>=]. *)
Definition ge (left right : T) : bool := match cmp left right with Less => false | _ => true end.
(** L38-44. *)
Definition min (left right : T) : T := match cmp left right with Less => left | _ => right end.
(** L46-52. *)
Definition max (left right : T) : T := match cmp left right with Greater => left | _ => right end.
(** core_impls.fer L3-10. *)
Definition clamp (value min_bound max_bound : T) : result T :=
  if gt min_bound max_bound then Panics else Value (max min_bound (min value max_bound)).
End Compare.

(** ordering.rs L30-40 [compare]: the answer of Rust's [Ord::cmp] as a value. *)
Definition compare (answer : comparison) : ordering :=
  match answer with Lt => Less | Eq => Equal | Gt => Greater end.

(** math.rs L549, [compare::<Int>], and L496 with value.rs L56, [equal::<Int>]. *)
Definition compare_int (lhs rhs : Z) : ordering := compare (Z.compare lhs rhs).
Definition equal_int (lhs rhs : Z) : bool := Z.eqb lhs rhs.

(** math.rs L309-311 and L663.  Not a number, which no float is, makes the host panic; the model
    gives [Equal] there. *)
Definition order_float (lhs rhs : f64) : ordering :=
  match compare_float lhs rhs with Done answer => compare answer | _ => Equal end.

(** Rust's [Ord for \[u8\]]: [memcmp] of the common length, then the lengths. *)
Fixpoint memcmp (n : nat) (l r : list Z) : comparison :=
  match n, l, r with
  | S n, a :: l, b :: r => match Z.compare a b with Eq => memcmp n l r | c => c end
  | _, _, _ => Eq
  end.
Definition compare_bytes (l r : list Z) : comparison :=
  match memcmp (Nat.min (length l) (length r)) l r with
  | Eq => Nat.compare (length l) (length r)
  | c => c
  end.

(** string.rs L96-101 and L639-641 [compare_string]: the derived order is that of [Rc], of
    [std::string::String] and of [str], which is the one of the bytes.  A string is given by its
    characters, already in normal form. *)
Definition compare_string (lhs rhs : list Z) : ordering := compare (compare_bytes (utf8 lhs) (utf8 rhs)).

(** string.rs L600-602 [equal_string]: [str::eq], the lengths in bytes and then the bytes. *)
Definition equal_string (lhs rhs : list Z) : bool :=
  Nat.eqb (length (utf8 lhs)) (length (utf8 rhs)) &&
  match memcmp (length (utf8 lhs)) (utf8 lhs) (utf8 rhs) with Eq => true | _ => false end.
