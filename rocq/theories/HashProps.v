(** Property theorems C04 and C05. *)
From Coq Require Import NArith ZArith List Bool Arith.
From Coq Require Import Sorting.Permutation.
From Verif Require Import HashTabModel HashTabSpec HashModel HashSpec HashProofs.
Import ListNotations.
Open Scope N_scope.

(** 0.0 == -0.0, but their hashes differ, so a set holds both. *)
Theorem C04_equal_values_hash_equally_refuted :
  exists a b, valid a /\ valid b /\ eqv a b = true /\ value_hash a <> value_hash b /\
    exists t, set_run eqv value_hash tab_new [SInsert a; SInsert b; SLen] = Returned (t, [SBool true; SBool true; SInt 2]).
Proof. exact negative_zero. Qed.
Print Assumptions C04_equal_values_hash_equally_refuted.

(** Without negative zeros, equal values leave every hasher in the same state. *)
Theorem C04_equal_values_hash_equally_partial : forall a b, valid a -> valid b -> no_negative_zero a -> no_negative_zero b ->
  eqv a b = true -> (forall st, hashv a st = hashv b st) /\ value_hash a = value_hash b.
Proof. exact equal_values. Qed.
Print Assumptions C04_equal_values_hash_equally_partial.

(** Such values are lawful keys, so that C06 to C10 apply to sets and maps keyed by them. *)
Theorem C04_values_are_lawful_keys_partial :
  lawful (fun a b : { v : value | valid v /\ no_negative_zero v } => eqv (proj1_sig a) (proj1_sig b))
         (fun a => value_hash (proj1_sig a)).
Proof. exact values_lawful. Qed.
Print Assumptions C04_values_are_lawful_keys_partial.

(** Two maps listing the same entries, whose keys are sets, in different orders. *)
Example C04_equal_values_hash_equally_ex :
  let a := VMap [(VSet [VInt 1; VInt 2], VString [97]); (VTuple [VUnit; VFloat 0], VVariant [83] (Some (VArray [VBool true])))] in
  let b := VMap [(VTuple [VUnit; VFloat 0], VVariant [83] (Some (VArray [VBool true]))); (VSet [VInt 2; VInt 1], VString [97])] in
  valid a /\ valid b /\ no_negative_zero a /\ no_negative_zero b /\ eqv a b = true.
Proof.
  cbv zeta. repeat match goal with
  | |- _ /\ _ => split
  | |- (fun _ _ => eqv _ _ = _) _ _ => cbv beta
  | |- (fun _ => _) _ => cbv beta; cbn [fst snd]
  | |- eqv _ _ = _ => vm_compute; reflexivity
  | |- _ <> _ => discriminate
  | |- (_ < _)%N => reflexivity
  | |- (_ < _)%Z => reflexivity
  | |- (_ <= _)%Z => discriminate
  | |- valid _ => constructor
  | |- no_negative_zero _ => constructor
  | |- Forall _ _ => constructor
  | |- ForallOrdPairs _ _ => constructor
  end.
Qed.

(** Feeding the same hashes in another order gives the same unordered hash. *)
Theorem C05_unordered_hash_ignores_order : forall hashes hashes', Permutation hashes hashes' ->
  unordered_finish (fold_left unordered_add hashes unordered_new) =
  unordered_finish (fold_left unordered_add hashes' unordered_new).
Proof. exact unordered_order. Qed.
Print Assumptions C05_unordered_hash_ignores_order.

(** Sets that compare equal hash equally, whatever the histories that built their tables. *)
Theorem C05_equal_sets_hash_equally : forall (K : Type) (keqb : K -> K -> bool) (khash : K -> N), lawful keqb khash ->
  forall ops1 ops2 t1 t2 rs1 rs2,
  set_run keqb khash tab_new ops1 = Returned (t1, rs1) -> set_run keqb khash tab_new ops2 = Returned (t2, rs2) ->
  set_eq keqb khash t1 t2 = Returned true ->
  forall st, exists h, set_hash khash t1 st = Returned h /\ set_hash khash t2 st = Returned h.
Proof. exact set_hash_extensional. Qed.
Print Assumptions C05_equal_sets_hash_equally.

Theorem C05_equal_maps_hash_equally : forall (K V : Type) (keqb : K -> K -> bool) (khash : K -> N) (veqb : V -> V -> bool)
  (item_hash : K * V -> N),
  lawful keqb khash ->
  (forall k k' v v', keqb k k' = true -> veqb v v' = true -> item_hash (k, v) = item_hash (k', v')) ->
  forall ops1 ops2 t1 t2 rs1 rs2,
  map_run keqb veqb khash tab_new ops1 = Returned (t1, rs1) -> map_run keqb veqb khash tab_new ops2 = Returned (t2, rs2) ->
  map_eq keqb khash veqb t1 t2 = Returned true ->
  forall st, exists h, map_hash item_hash t1 st = Returned h /\ map_hash item_hash t2 st = Returned h.
Proof. exact map_hash_extensional. Qed.
Print Assumptions C05_equal_maps_hash_equally.

(** Colliding keys inserted in two orders end in differently laid out, equal tables. *)
Example C05_equal_sets_hash_equally_ex :
  exists t1 t2, set_run N.eqb (fun _ => 5) tab_new [SInsert 1; SInsert 2] = Returned (t1, [SBool true; SBool true]) /\
    set_run N.eqb (fun _ => 5) tab_new [SInsert 2; SInsert 1; SInsert 2] = Returned (t2, [SBool true; SBool true; SBool false]) /\
    t1 <> t2 /\ set_eq N.eqb (fun _ => 5) t1 t2 = Returned true.
Proof.
  eexists _, _. split; [vm_compute; reflexivity|]. split; [vm_compute; reflexivity|]. split; [discriminate|vm_compute; reflexivity].
Qed.
