(** C14. *)
From Coq Require Import ZArith List Bool Permutation Sorted Lia.
From Verif Require Import MachInt ArrayModel ArraySpec SortModel SortSpec SortProofs.
Import ListNotations.
Open Scope Z_scope.

(** Sorting in place gives an ordered permutation that keeps the order of equal elements. *)
Theorem C14_sort_is_stable_ordered_permutation :
  forall (A : Type) (cmp : A -> A -> comparison) (a : array A) (l : list A), holds a l -> total_preorder cmp ->
  exists a' m, array_sort_by cmp a = Returned a' /\ holds a' m /\ Permutation l m /\ ordered cmp m /\ stable cmp l m.
Proof. exact (@sort_correct). Qed.
Print Assumptions C14_sort_is_stable_ordered_permutation.

(** The same for the copying variants. *)
Theorem C14_sorted_is_stable_ordered_permutation :
  forall (A : Type) (cmp : A -> A -> comparison) (a : array A) (l : list A), holds a l -> total_preorder cmp ->
  exists a' m, array_sorted_by cmp a = Returned a' /\ holds a' m /\ Permutation l m /\ ordered cmp m /\ stable cmp l m.
Proof. exact (@sorted_correct). Qed.
Print Assumptions C14_sorted_is_stable_ordered_permutation.

(** These three facts determine the result. *)
Theorem C14_result_is_unique :
  forall (A : Type) (cmp : A -> A -> comparison) (m1 m2 : list A), total_preorder cmp ->
  Permutation m1 m2 -> ordered cmp m1 -> ordered cmp m2 -> stable cmp m1 m2 -> m1 = m2.
Proof. exact (@stable_perm_unique). Qed.
Print Assumptions C14_result_is_unique.

(** With a comparison that is no ordering at all, sorting still ends, stays in bounds and loses nothing. *)
Theorem C14_any_comparison_is_safe :
  forall (A : Type) (cmp : A -> A -> comparison) (a : array A) (l : list A), holds a l ->
  exists a' m, array_sort_by cmp a = Returned a' /\ holds a' m /\ Permutation l m.
Proof. exact (@sort_any_comparison). Qed.
Print Assumptions C14_any_comparison_is_safe.

(** Pairs compared by their first component. *)
Definition by_key (x y : Z * Z) : comparison := Z.compare (fst x) (fst y).
Definition c14_array : array (Z * Z) :=
  mkArray [Some (3, 1); Some (1, 2); Some (2, 3); Some (1, 4); Some (3, 5); Some (2, 6); None] 7 6 0.
Example C14_sort_ex : total_preorder by_key /\
  (exists r, array_sort_by by_key c14_array = Returned r /\
    data r = [Some (1, 2); Some (1, 4); Some (2, 3); Some (2, 6); Some (3, 1); Some (3, 5); None]) /\
  class_of by_key (1, 0) [(3, 1); (1, 2); (2, 3); (1, 4)] = [(1, 2); (1, 4)].
Proof.
  split; [|split].
  - split; unfold by_key; intros.
    + apply Z.compare_antisym.
    + change (fst x <= fst z). change (fst x <= fst y) in H. change (fst y <= fst z) in H0. lia.
  - eexists. split; vm_compute; reflexivity.
  - vm_compute. reflexivity.
Qed.
Example C14_holds_ex : holds c14_array [(3, 1); (1, 2); (2, 3); (1, 4); (3, 5); (2, 6)].
Proof.
  unfold holds. split; [reflexivity|]. split; [vm_compute; discriminate|]. split; [reflexivity|]. split; [repeat constructor|]. split; [vm_compute; split; congruence|].
  intros i H. cbn [c14_array data length] in H. do 7 (destruct i as [|i]; [vm_compute; reflexivity|]). lia.
Qed.
