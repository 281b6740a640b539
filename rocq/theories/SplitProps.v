(** C17, arrays. *)
From Coq Require Import ZArith List Bool Lia.
From Verif Require Import MachInt ArrayModel ArraySpec SplitModel SplitSpec SplitProofs.
Import ListNotations.
Open Scope Z_scope.

(** Splitting an array at an array or at an element gives the pieces of the left-to-right scan. *)
Theorem C17_array_split : forall (A : Type) (eqb : A -> A -> bool) (a s : array A) (l sep : list A),
  holds a l -> holds s sep -> sep <> [] ->
  exists parts, split_array eqb a s = Returned parts /\ Forall2 holds parts (list_split eqb sep l).
Proof. exact (@split_array_ok). Qed.
Print Assumptions C17_array_split.

Theorem C17_array_split_element : forall (A : Type) (eqb : A -> A -> bool) (a : array A) (s : A) (l : list A), holds a l ->
  exists parts, split_element eqb a s = Returned parts /\ Forall2 holds parts (list_split eqb [s] l).
Proof. exact (@split_element_ok). Qed.
Print Assumptions C17_array_split_element.

(** An empty separator is refused. *)
Theorem C17_empty_separator : forall (A : Type) (eqb : A -> A -> bool) (a s : array A), holds s [] -> split_array eqb a s = Panic.
Proof. exact (@split_array_empty_separator). Qed.
Print Assumptions C17_empty_separator.

(** Joining concatenates with the separator in between. *)
Theorem C17_array_join : forall (A : Type) (seq : list (array A)) (lseq : list (list A)) (s : array A) (sep : list A),
  Forall2 holds seq lseq -> holds s sep -> Z.of_nat (length (list_join sep lseq)) <= 2 ^ 59 ->
  exists r, join seq s = Returned r /\ holds r (list_join sep lseq).
Proof. exact (@join_ok). Qed.
Print Assumptions C17_array_join.

(** Joining what splitting gave restores the array (for elements whose equality is identity). *)
Theorem C17_array_split_then_join : forall (A : Type) (eqb : A -> A -> bool), (forall x y, eqb x y = true -> x = y) ->
  forall (a s : array A) (l sep : list A), holds a l -> holds s sep -> sep <> [] -> Z.of_nat (length l) <= 2 ^ 59 ->
  exists parts r, split_array eqb a s = Returned parts /\ join parts s = Returned r /\ holds r l.
Proof. exact (@split_then_join). Qed.
Print Assumptions C17_array_split_then_join.

(** No piece contains the separator. *)
Theorem C17_pieces_do_not_contain_separator : forall (A : Type) (eqb : A -> A -> bool) (sep l : list A), sep <> [] ->
  Forall (fun p => ~ occurs eqb sep p) (list_split eqb sep l).
Proof. exact (@list_split_clean). Qed.
Print Assumptions C17_pieces_do_not_contain_separator.

Definition linear_array (l : list Z) : array Z := mkArray (map Some l) (Z.of_nat (length l)) (Z.of_nat (length l)) 0.
Example C17_ex :
  list_split Z.eqb [1; 1] [1; 1; 5; 1; 1; 1; 6] = [[]; [5]; [1; 6]] /\
  list_split Z.eqb [0] [7; 0; 0; 8; 0] = [[7]; []; [8]; []] /\
  (exists parts, split_array Z.eqb (linear_array [1; 1; 5; 1; 1; 1; 6]) (linear_array [1; 1]) = Returned parts /\
    map (@data Z) parts = [[]; [Some 5]; [Some 1; Some 6]] /\
    exists r, join parts (linear_array [1; 1]) = Returned r /\ data r = map Some [1; 1; 5; 1; 1; 1; 6]).
Proof.
  split; [vm_compute; reflexivity|]. split; [vm_compute; reflexivity|]. eexists. split; [vm_compute; reflexivity|]. split; [vm_compute; reflexivity|].
  eexists. split; vm_compute; reflexivity.
Qed.
