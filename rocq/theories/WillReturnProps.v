(** C39: functions proved to return do return. *)
From Coq Require Import List Permutation.
From Verif Require Import MirModel TermSpec GraphModel WillReturnModel WillReturnSpec WillReturnProofs
  WillReturnExamples.
Import ListNotations.

(** Calls of a function marked as returning finish, for all arguments, memories
    and limits (none included), if those of other modules marked so do. *)
Theorem C39_proved_functions_return : forall (m : machine) mentions order module external bodies of,
  (forall l, Permutation l (order l)) ->
  well_formed_module mentions module bodies ->
  (forall i, body m (module, i) = match nth_error bodies i with Some b => b | None => None end) ->
  (forall f, fst f <> module -> external f = true -> call_returns m f) ->
  of_module mentions order module external bodies = Val of ->
  forall i, nth i of false = true -> call_returns m (module, i).
Proof. exact proved_functions_return. Qed.
Print Assumptions C39_proved_functions_return.

Example C39_sample_meets :
  well_formed_module sample_mentions 5 sample /\
  (forall i, body sample_machine (5, i) = match nth_error sample i with Some b => b | None => None end) /\
  (forall f, fst f <> 5 -> sample_external f = true -> call_returns sample_machine f).
Proof. exact (conj sample_well_formed (conj sample_bodies sample_externals)). Qed.

(** The analysis never fails, and marks exactly the functions whose calls
    unfold to a finite tree: acyclic control flow, no yield, and only calls, by
    name, of such functions. *)
Theorem C39_exactly_finite_calls : forall prim cnd mentions order module external,
  (forall l, Permutation l (order l)) ->
  forall bodies : list (option (function prim cnd)), well_formed_module mentions module bodies ->
  exists of, of_module mentions order module external bodies = Val of /\
  length of = length bodies /\
  forall i, nth i of false = true <-> finite_calls module bodies external (module, i).
Proof. exact @of_module_ok. Qed.
Print Assumptions C39_exactly_finite_calls.

Example C39_sample :
  of_module sample_mentions (fun l => l) 5 sample_external sample =
  Val [true; true; true; false; false; false; true; true; true; false; false].
Proof. vm_compute. reflexivity. Qed.
