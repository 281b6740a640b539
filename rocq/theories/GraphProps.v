(** C27, C28, C29. *)
From Coq Require Import List Arith Permutation.
From Verif Require Import GraphModel GraphSpec GraphProofs SccProofs TopoProofs.
Import ListNotations.

(** The order lists exactly the nodes reachable from the entry, once each, the entry first; an edge
    goes forward unless its target reaches its source again, and every other node has a predecessor
    before it. *)
Theorem C27_reverse_postorder : forall g : graph, well_formed g -> forall entry, entry < length g ->
  exists order, reverse_postorder g entry = Val order /\ NoDup order /\
  (forall v, In v order <-> reach g entry v) /\ hd_error order = Some entry /\
  (forall u v, In u order -> edge g u v -> before order u v \/ reach g v u) /\
  (forall v, In v order -> v <> entry -> exists u, edge g u v /\ before order u v).
Proof. exact reverse_postorder_ok. Qed.
Print Assumptions C27_reverse_postorder.

Definition ex_graph : graph := [[1]; [2; 3]; [1; 4]; [4]; []; [0; 5]].
Example C27_ex : reverse_postorder ex_graph 0 = Val [0; 1; 3; 2; 4].
Proof. vm_compute. reflexivity. Qed.
Example ex_graph_well_formed : well_formed ex_graph.
Proof.
  intros u v (ss & H & I). do 6 (destruct u as [|u]; [simpl in H; inversion H; subst; simpl in *; intuition (subst; repeat constructor)|]). destruct u; discriminate.
Qed.

(** The components partition the nodes; two nodes are in the same one iff each reaches the other; edges
    never go to a later component, so callees come before callers. *)
Theorem C28_components : forall g : graph, well_formed g -> exists sccs, find_strongly_connected_components g = Val sccs /\
  NoDup (concat sccs) /\ (forall v, In v (concat sccs) <-> v < length g) /\ (forall c, In c sccs -> c <> []) /\
  (forall c u v, In c sccs -> In u c -> (connected g u v <-> In v c)) /\
  (forall i j c d u v, nth_error sccs i = Some c -> nth_error sccs j = Some d -> In u c -> In v d -> edge g u v -> j <= i).
Proof. exact scc_ok. Qed.
Print Assumptions C28_components.

(** Sorting the components puts every caller's component before its callees', whatever order the hash
    sets are iterated in. *)
Theorem C28_sorted_components : forall (order : list nat -> list nat) (g : graph), (forall l, Permutation l (order l)) -> well_formed g ->
  exists sccs sorted, find_strongly_connected_components g = Val sccs /\ topological_sort_sccs order g sccs = Val sorted /\ Permutation sccs sorted /\
    forall c d u v, In c sccs -> In d sccs -> In u c -> In v d -> edge g u v -> c <> d -> before sorted c d.
Proof. exact scc_topological_ok. Qed.
Print Assumptions C28_sorted_components.

Example C28_ex : find_strongly_connected_components ex_graph = Val [[4]; [3]; [2; 1]; [0]; [5]]
  /\ topological_sort_sccs (@rev nat) ex_graph [[4]; [3]; [2; 1]; [0]; [5]] = Val [[5]; [0]; [2; 1]; [3]; [4]].
Proof. vm_compute. auto. Qed.

(** The cycle search reports a genuine cycle reachable from the start, or there is none. *)
Theorem C29_cycle_search : forall g : graph, well_formed g -> forall start, start < length g ->
  exists r, find_cycle_from g start = Val r /\
  match r with
  | Some c => is_cycle g c /\ NoDup c /\ forall v, In v c -> reach g start v
  | None => forall v w, reach g start v -> edge g v w -> ~ reach g w v
  end.
Proof. exact find_cycle_ok. Qed.
Print Assumptions C29_cycle_search.

Example C29_ex : find_cycle_from ex_graph 0 = Val (Some [1; 2]) /\ find_cycle_from ex_graph 3 = Val None /\ find_cycle_from ex_graph 5 = Val (Some [1; 2]).
Proof. vm_compute. auto. Qed.
