(** Orders, without any reference to how values are compared; of the model only the type of the
    three answers is used. *)
From Coq Require Import List ZArith Reals.
From Verif Require Import FloatModel FloatSpec CompareModel.
Import ListNotations.
Open Scope Z_scope.

(** [upto a b] reads "a comes before b or stands with it"; the values at hand are those of which
    [P] holds. *)
Section Order.
Context {T : Type}.
Variable P : T -> Prop.
Variable upto : T -> T -> Prop.

(** Every two values can be compared, and comparisons chain. Different values may stand together. *)
Definition ranking : Prop :=
  (forall a b, P a -> P b -> upto a b \/ upto b a) /\
  (forall a b c, P a -> P b -> P c -> upto a b -> upto b c -> upto a c).

(** Only equal values stand together. *)
Definition tight : Prop := forall a b, P a -> P b -> upto a b -> upto b a -> a = b.
End Order.

(** The order of a dictionary. *)
Inductive dictionary : list Z -> list Z -> Prop :=
| d_end : forall t, dictionary [] t
| d_less : forall a b s t, a < b -> dictionary (a :: s) (b :: t)
| d_same : forall a s t, dictionary s t -> dictionary (a :: s) (a :: t).

(** The order of the numbers that floats stand for. *)
Definition below (x y : f64) : Prop := (number x <= number y)%R.

(** The answer of [cmp] is the one of the order. *)
Definition tells {T : Type} (P : T -> Prop) (upto : T -> T -> Prop) (cmp : T -> T -> ordering) : Prop :=
  forall a b, P a -> P b ->
    (cmp a b = Less <-> ~ upto b a) /\
    (cmp a b = Equal <-> upto a b /\ upto b a) /\
    (cmp a b = Greater <-> ~ upto a b).
