(** Property theorem C24. *)
From Coq Require Import NArith List.
From Verif Require Import ListArenaModel ListArenaSpec ListArenaProofs.
Import ListNotations.

(** Every history of the implementation is a history of the abstract sequence with the same observable
    results, and at its end walking forwards gives that sequence, walking backwards its reverse, the
    length is its length, and the live addresses are distinct. *)
Theorem C24_list_refines_sequence : forall (T : Type) (os : list (op T)),
  let '(l, rs) := run ll_new os in
  exists s, arun [] os s rs /\
    forwards l (ll_first_address l) s /\ backwards l (ll_last_address l) (rev s) /\
    ll_len l = length s /\ NoDup (map fst s) /\
    (forall a, ll_get l a = Panicked <-> ~ In a (map fst s)).
Proof. exact (@list_refines). Qed.
Print Assumptions C24_list_refines_sequence.
Example C24_list_refines_sequence_ex :
  let '(l, rs) := run ll_new [Append 10; Append 20; Prepend 5; Remove 0; InsertBefore 1 15; Remove 0; Set_ 1 21; Remove 0] in
  rs = [RAddress 0; RAddress 1; RAddress 2; RValue 10; RAddress 0; RValue 15; RUnit; RPanic] /\
  forwards l (ll_first_address l) [(2, 5); (1, 21)] /\ ll_len l = 2.
Proof.
  vm_compute. split; [reflexivity|]. split; [|reflexivity].
  eapply fw_step; [reflexivity|reflexivity|]. eapply fw_step; [reflexivity|reflexivity|]. apply fw_end.
Qed.
