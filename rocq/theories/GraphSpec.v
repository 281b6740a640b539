(** What the graph algorithms must compute. *)
From Coq Require Import List Arith.
Import ListNotations.

(** There is an edge from [u] to [v] in the graph given by successor lists. *)
Definition edge (g : list (list nat)) (u v : nat) : Prop := exists ss, nth_error g u = Some ss /\ In v ss.

(** [v] can be reached from [u] by following zero or more edges. *)
Inductive reach (g : list (list nat)) (u : nat) : nat -> Prop :=
| reach_here : reach g u u
| reach_step : forall v w, reach g u v -> edge g v w -> reach g u w.

(** Every successor is a node. *)
Definition well_formed (g : list (list nat)) : Prop := forall u v, edge g u v -> v < length g.

(** [a] occurs before [b] in [l]. *)
Definition before {A : Type} (l : list A) (a b : A) : Prop :=
  exists i j, i < j /\ nth_error l i = Some a /\ nth_error l j = Some b.

(** [c] is a cycle: each element has an edge to the next one, and the last to the first. *)
Definition is_cycle (g : list (list nat)) (c : list nat) : Prop :=
  match c with
  | [] => False
  | first :: _ => forall i u, nth_error c i = Some u -> edge g u (nth (S i) c first)
  end.

(** Mutual reachability. *)
Definition connected (g : list (list nat)) (u v : nat) : Prop := reach g u v /\ reach g v u.
