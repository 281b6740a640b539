(** C11, C12, C13. *)
From Coq Require Import ZArith List Bool.
From Verif Require Import MachInt ArrayModel ArraySpec ArrayProofs.
Import ListNotations.
Open Scope Z_scope.

(** C11. Every program over arrays observes what it observes over lists, as long as no array grows beyond
    2^59 elements; its final arrays hold the final lists. *)
Theorem C11_arrays_behave_like_lists : forall (A : Type) (eqb : A -> A -> bool) (ops : list (op A)),
  Forall op_ok ops -> stays_below eqb (2 ^ 59) no_elements ops ->
  exists e, array_run eqb empty_arrays ops = Returned (e, snd (list_run eqb no_elements ops)) /\
    forall x, holds (e x) (fst (list_run eqb no_elements ops) x).
Proof. exact (@array_refines_list). Qed.
Print Assumptions C11_arrays_behave_like_lists.

Definition c11_program : list (op nat) :=
  [Collect 0 [1; 2; 3]; PopFront 0; Append 0 4; Append 0 5; Prepend 0 9; Copy 1 0; PopBack 1; Prepend 1 8; Put 1 (-1) 7;
   Slice 2 1 1 (-1); Concat 3 2 0; Reverse 3; Iterate 3; Equal 0 1; Get 3 9; Drop 1; Len 3]%nat.
Example C11_arrays_behave_like_lists_ex :
  Forall op_ok c11_program /\ stays_below Nat.eqb (2 ^ 59) no_elements c11_program /\
  snd (list_run Nat.eqb no_elements c11_program) =
    [ONothing; OOption (Some 1); ONothing; ONothing; ONothing; ONothing; OOption (Some 5); ONothing; ONothing; ONothing; ONothing;
     ONothing; OItems [5; 4; 3; 2; 9; 3; 2; 9]; OBool false; OFailure; OItems [8; 9; 2; 3; 7]; OInt 8]%nat.
Proof.
  split; [|split].
  - unfold c11_program. repeat constructor; vm_compute; discriminate.
  - unfold c11_program. repeat split; try (intros [|[|[|[|n]]]]; vm_compute; discriminate).
  - vm_compute. reflexivity.
Qed.

(** C12. For an array holding [l] and every integer index: reading and writing through the index reach the
    element the index denotes, or fail with the out-of-bounds failure when there is none. *)
Theorem C12_indexing : forall (A : Type) (a : array A) (l : list A) (i : Z), holds a l -> in_int i ->
  array_get a i = match denotes (length l) i with
                  | Some j => match nth_error l j with Some v => Returned v | None => Panic end
                  | None => Panic end /\
  forall v, match denotes (length l) i with
            | Some j => exists a', array_set a i v = Returned a' /\ holds a' (replace l j v)
            | None => array_set a i v = Panic end.
Proof. exact (@array_indexing). Qed.
Print Assumptions C12_indexing.

(** An index denotes position j exactly when it is j or j - len. *)
Theorem C12_index_meaning : forall (len : nat) (i : Z) (j : nat), denotes len i = Some j <->
  (j < len)%nat /\ (i = Z.of_nat j \/ i = Z.of_nat j - Z.of_nat len).
Proof. exact denotes_spec. Qed.
Print Assumptions C12_index_meaning.

(** A wrapped-around array: capacity 4, start 3. *)
Definition c12_array : array Z := mkArray [Some 20; Some 30; None; Some 10] 4 3 3.
Example C12_indexing_ex : holds c12_array [10; 20; 30] /\
  array_get c12_array (-1) = Returned 30 /\ array_get c12_array 0 = Returned 10 /\
  array_get c12_array 3 = Panic /\ array_get c12_array int_min = Panic /\ denotes 3 (-3) = Some 0%nat.
Proof.
  split; [|repeat (split; [vm_compute; reflexivity|]); vm_compute; reflexivity].
  unfold holds. split; [reflexivity|]. split; [vm_compute; discriminate|]. split; [reflexivity|]. split; [repeat constructor|].
  split; [split; vm_compute; congruence|]. intros [|[|[|[|i]]]] H; [vm_compute; reflexivity|vm_compute; reflexivity|vm_compute; reflexivity|vm_compute; reflexivity|].
  exfalso. do 4 apply Nat.succ_lt_mono in H. inversion H.
Qed.

(** C13. A slice is the sublist between its two bounds, for every pair of integers; it never fails. *)
Theorem C13_slicing : forall (A : Type) (a : array A) (l : list A) (s e : Z), holds a l -> in_int s -> in_int e ->
  exists r, array_slice a s e = Returned r /\ holds r (sublist l (bound (length l) s) (bound (length l) e)).
Proof. exact (@array_slicing). Qed.
Print Assumptions C13_slicing.

(** Splitting at any position and concatenating the halves gives the array back. *)
Theorem C13_split_concat : forall (A : Type) (a : array A) (l : list A) (k : Z),
  holds a l -> Z.of_nat (length l) <= 2 ^ 59 -> 0 <= k <= Z.of_nat (length l) ->
  exists x y r, array_slice a 0 k = Returned x /\ array_slice a k (array_len a) = Returned y /\
    array_concat x y = Returned r /\ holds r l.
Proof. exact (@split_concat). Qed.
Print Assumptions C13_split_concat.

Example C13_slicing_ex :
  sublist [10; 20; 30] (bound 3 (-2)) (bound 3 3) = [20; 30] /\ sublist [10; 20; 30] (bound 3 2) (bound 3 1) = [] /\
  sublist [10; 20; 30] (bound 3 (-10)) (bound 3 2) = [] /\
  exists r, array_slice c12_array (-2) int_max = Returned r /\ data r = [Some 20; Some 30].
Proof. repeat (split; [vm_compute; reflexivity|]). eexists. split; vm_compute; reflexivity. Qed.
