(** What dominance means. *)
From Coq Require Import List Arith.
From Verif Require Import GraphSpec.
Import ListNotations.

(** [l] is the list of the nodes of a path from [u] to [v]. *)
Inductive path (g : list (list nat)) (u : nat) : list nat -> nat -> Prop :=
| path_here : path g u [u] u
| path_step : forall l v w, path g u l v -> edge g v w -> path g u (l ++ [w]) w.

(** Every path from [entry] to [b] goes through [a]. *)
Definition on_every_path (g : list (list nat)) (entry a b : nat) : Prop := forall l, path g entry l b -> In a l.

(** Of the nodes other than [b] on every path to [b], [a] is the last: the others are on every path to [a]. *)
Definition immediate_dominator (g : list (list nat)) (entry a b : nat) : Prop :=
  a <> b /\ on_every_path g entry a b /\ forall c, c <> b -> on_every_path g entry c b -> on_every_path g entry c a.
