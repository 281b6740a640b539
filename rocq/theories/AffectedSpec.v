(** Transitive reverse dependencies. *)
From Coq Require Import List.
From Verif Require Import SessionModel.
Import ListNotations.

(** Module [m] depends on module [d], directly or not. *)
Inductive depends_on (ms : list entry) : nat -> nat -> Prop :=
| direct : forall m d e, nth_error ms m = Some e -> In d (latest_deps e) -> depends_on ms m d
| indirect : forall m x d, depends_on ms m x -> depends_on ms x d -> depends_on ms m d.
