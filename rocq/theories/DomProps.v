From Coq Require Import List Arith.
From Verif Require Import GraphModel GraphSpec DomModel DomSpec DomLoops.
Import ListNotations.

(** C30.  The computation never panics or loops; a node is reported reachable exactly when it is; the
    dominance query is true exactly when both nodes are reachable and every path from the entry to the
    second goes through the first; the children of a node are the nodes it immediately dominates, each
    once. *)
Theorem C30_dominance : forall g : graph, well_formed g -> forall entry, entry < length g ->
  exists d, dominance_of g entry = Val d /\
  (forall v, v < length g -> exists b, is_reachable d v = Val b /\ (b = true <-> reach g entry v)) /\
  (forall a b, a < length g -> b < length g -> exists r, dominates d a b = Val r /\
     (r = true <-> reach g entry a /\ reach g entry b /\ on_every_path g entry a b)) /\
  (forall a, a < length g -> exists cs, children_of d a = Val cs /\ NoDup cs /\
     forall b, In b cs <-> reach g entry b /\ immediate_dominator g entry a b).
Proof. exact dominance_ok. Qed.
Print Assumptions C30_dominance.

(** An irreducible loop between 2 and 3, and an unreachable node 6. *)
Definition ex_dom : graph := [[1]; [2; 3]; [3; 4]; [2]; [5; 1]; []; [3]].
Example C30_ex : exists d, dominance_of ex_dom 0 = Val d /\ children d = [[1]; [2; 3]; [4]; []; [5]; []; []] /\
  dominates d 1 3 = Val true /\ dominates d 2 3 = Val false /\ dominates d 4 5 = Val true /\ dominates d 6 3 = Val false /\ is_reachable d 6 = Val false.
Proof. eexists. split; [vm_compute; reflexivity|]. repeat split; vm_compute; reflexivity. Qed.
Example ex_dom_well_formed : well_formed ex_dom.
Proof.
  intros u v (ss & H & Hv). do 7 (destruct u; [simpl in H; inversion H; subst; simpl in Hv; repeat (destruct Hv as [<-|Hv]; [simpl; repeat constructor|]); destruct Hv|]).
  destruct u; discriminate.
Qed.
