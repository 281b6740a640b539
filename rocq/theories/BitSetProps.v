(** Property theorems C23. *)
From Coq Require Import NArith List Sorting.Sorted.
From Verif Require Import BitSetModel BitSetSpec BitSetProofs.
Import ListNotations.
Open Scope N_scope.

(** Whatever the history, no operation panics, and membership, emptiness, iteration and counting are
    those of the denoted mathematical set. *)
Theorem C23_bitset_is_a_set : forall h, exists s, run h = Some s /\
  (forall i, bs_contains s i = true <-> member h i) /\
  (bs_is_empty s = true <-> forall i, ~ member h i) /\
  exists l, yields (bs_iter_ones s) l /\ enumerates l (member h) /\ bs_len s = length l.
Proof. exact bitset_refines. Qed.
Print Assumptions C23_bitset_is_a_set.
Example C23_bitset_is_a_set_ex :
  let h := Remove (Union (Insert (Insert Empty 3) 200) (Insert (WithCapacity 100) 64)) 3 in
  run h = Some (BHeap [0; 1; 0; 256]) /\ bs_len (BHeap [0; 1; 0; 256]) = 2%nat /\
  yields (bs_iter_ones (BHeap [0; 1; 0; 256])) [64; 200].
Proof.
  split; [reflexivity|]. split; [reflexivity|]. simpl.
  eapply yields_item; [reflexivity|]. eapply yields_item; [reflexivity|]. apply yields_end; reflexivity.
Qed.

(** The intersection test never panics and answers whether the sets share an element. *)
Theorem C23_intersects : forall h1 h2 s1 s2, run h1 = Some s1 -> run h2 = Some s2 ->
  exists b, bs_intersects s1 s2 = Some b /\ (b = true <-> exists i, member h1 i /\ member h2 i).
Proof. exact bitset_intersects. Qed.
Print Assumptions C23_intersects.
Example C23_intersects_ex : exists s1 s2, run (Insert Empty 70) = Some s1 /\ run (Insert (Insert Empty 1) 70) = Some s2
  /\ bs_intersects s1 s2 = Some true.
Proof. do 2 eexists. repeat split. Qed.

(** Equality is extensional and equal sets feed the hasher the same input. *)
Theorem C23_equality_extensional : forall h1 h2 s1 s2, run h1 = Some s1 -> run h2 = Some s2 ->
  (bs_eq s1 s2 = true <-> forall i, member h1 i <-> member h2 i) /\
  (bs_hash_input s1 = bs_hash_input s2 <-> bs_eq s1 s2 = true).
Proof. exact bitset_equality. Qed.
Print Assumptions C23_equality_extensional.
Example C23_equality_extensional_ex : exists s1 s2,
  run (Insert Empty 5) = Some s1 /\ run (Remove (Insert (Insert Empty 200) 5) 200) = Some s2 /\
  s1 <> s2 /\ bs_eq s1 s2 = true.
Proof. do 2 eexists. split; [reflexivity|]. split; [reflexivity|]. split; [discriminate|reflexivity]. Qed.
