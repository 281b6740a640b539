(** C56: compiled code cleans up as the reference evaluation does. *)
From Coq Require Import List Arith Bool Lia.
From Verif Require Import CleanupModel CleanupSpec CleanupProofs CleanupFlags.
Import ListNotations.

(** Every well-formed body compiles, and calling the compiled graph gives the
    answer that evaluating the tree gives, with the same final state: whatever
    the actions do, whichever of the fallible ones fail, at whatever point.
    Missing: bodies that are not well formed, see the refutations below. *)
Theorem C56_same_answers_partial : forall (has_drop : nat -> bool) (body : node),
  well_formed has_drop [] body = true ->
  exists g, compile has_drop body = Some g /\
    forall (state : Type) (m : machine state), sound m -> forall s,
      same_answers (fun fuel => call_tree has_drop m fuel body s) (fun n => call_graph m g n s).
Proof. exact compiled_agrees. Qed.
Print Assumptions C56_same_answers_partial.

(** A compiled call that returns or raises leaves no local initialized that
    needs a drop. *)
Theorem C56_nothing_left_partial : forall (has_drop : nat -> bool) (body : node),
  well_formed has_drop [] body = true -> scoped has_drop [] body = true ->
  exists g, compile has_drop body = Some g /\
    forall (world : Type) (m : machine world), sound m -> forall w n w' f',
      (call_graph (flagged m) g n (w, fun _ => false) = Some (Returned (w', f')) \/
       call_graph (flagged m) g n (w, fun _ => false) = Some (Raised (w', f'))) ->
      forall l, has_drop l = true -> f' l = false.
Proof. exact nothing_left. Qed.
Print Assumptions C56_nothing_left_partial.

(** The locals of a block are dropped once each, the last declared first, however
    control leaves the block. *)
Theorem C56_reverse_order : forall (has_drop : nat -> bool) (locals : list nat) (e : ending),
  exists g, compile has_drop (block_of locals e) = Some g /\
    forall answers log, exists n,
      call_graph (writer (fun _ => true) answers) g n log =
      Some (match e with
            | FailsAtTheEnd =>
                Raised (log ++ map AStore locals ++ [AOp true 0] ++ map ADrop (rev (filter has_drop locals)))
            | _ => Returned (log ++ map AStore locals ++ map ADrop (rev (filter has_drop locals)))
            end).
Proof. exact reverse_order. Qed.
Print Assumptions C56_reverse_order.

(** A case: a loop with two owned locals around an accessor whose slide may
    fail, an inner break, a continue and a return. *)
Definition every (l : nat) : bool := negb (l =? 9).

Definition sample : node :=
  NBlock [1; 9] [
    NOp [] (AStore 1);
    NOp [] (AStore 9);
    NLoop 7 (NBlock [2; 3] [
      NOp [NBlock [] [NOp [] (AOp true 20)]] (AStore 2);
      NWith [([], [])] [NOp [] (AOp true 21)] true 30 (NBlock [4] [
        NOp [] (AStore 4);
        NCase (NOp [] (AOp false 22)) 50 true
          [(PBool true, NContinue 7); (PLiteral 3, NBreak 7 (NOp [] (AOp true 23)))]
          (NReturn (NOp [] (AOp false 24)));
        NOp [] (AOp false 25)]);
      NOp [] (AStore 3)]);
    NOp [] (AOp true 26)].

(** The first turn continues, the second breaks or returns. *)
Definition first_turn (c : nat) (log : list action) : bool := length log <=? 12.

Definition failing (l : list nat) (n : nat) : bool := existsb (Nat.eqb n) l.

Definition answer_in (fuel : nat) (has_drop : nat -> bool) (body : node) (fails : list nat) :=
  match compile has_drop body with
  | None => None
  | Some g =>
      match call_graph (flagged (writer (failing fails) first_turn)) g fuel ([], fun _ => false) with
      | Some (Returned (log, f)) => Some (0, log, filter f [1; 2; 3; 4; 9])
      | Some (Raised (log, f)) => Some (1, log, filter f [1; 2; 3; 4; 9])
      | Some (CleanupFailed (log, f)) => Some (2, log, filter f [1; 2; 3; 4; 9])
      | _ => None
      end
  end.

Definition tree_answer (fuel : nat) (has_drop : nat -> bool) (body : node) (fails : list nat) :=
  match call_tree has_drop (flagged (writer (failing fails) first_turn)) fuel body ([], fun _ => false) with
  | Some (Returned (log, f)) => Some (0, log, filter f [1; 2; 3; 4; 9])
  | Some (Raised (log, f)) => Some (1, log, filter f [1; 2; 3; 4; 9])
  | Some (CleanupFailed (log, f)) => Some (2, log, filter f [1; 2; 3; 4; 9])
  | _ => None
  end.

Example C56_sample_ok :
  well_formed every [] sample = true /\ scoped every [] sample = true.
Proof. split; vm_compute; reflexivity. Qed.

Example C56_sample_returns :
  answer_in 200 every sample [] =
    Some (0,
      [AStore 1; AStore 9; AOp true 20; AStore 2; AOp true 21; ARamp true 30; AStore 4; AOp false 22;
       ADrop 4; ASlide true 30; ADrop 2;
       AOp true 20; AStore 2; AOp true 21; ARamp true 30; AStore 4; AOp false 22; AOp false 24;
       ADrop 4; ASlide true 30; ADrop 2; ADrop 1], [9])
  /\ tree_answer 200 every sample [] = answer_in 200 every sample [].
Proof. split; vm_compute; reflexivity. Qed.

(** The accessor fails to enter: the rest is cleaned up. *)
Example C56_sample_ramp_fails :
  answer_in 200 every sample [30] =
    Some (1, [AStore 1; AStore 9; AOp true 20; AStore 2; AOp true 21; ARamp true 30; ADrop 2; ADrop 1], [9])
  /\ tree_answer 200 every sample [30] = answer_in 200 every sample [30].
Proof. split; vm_compute; reflexivity. Qed.

(** An accessor whose slide fails: alone, and after its body has failed. *)
Definition slide_fails (and_body : bool) : machine (list action) :=
  Machine _
    (fun a log =>
       match a with
       | ASlide true _ => Err (log ++ [a])
       | AOp true _ => if and_body then Err (log ++ [a]) else Done (log ++ [a])
       | _ => Done (log ++ [a])
       end)
    (fun _ _ => true) (fun _ _ _ => true).

Definition both_fail : node :=
  NBlock [1] [NOp [] (AStore 1); NWith [] [] true 30 (NOp [] (AOp true 31))].

Example C56_failure_during_cleanup :
  match compile every both_fail with
  | Some g =>
      call_graph (slide_fails false) g 50 []
      = Some (Raised [AStore 1; ARamp true 30; AOp true 31; ASlide true 30; ADrop 1]) /\
      call_graph (slide_fails true) g 50 []
      = Some (CleanupFailed [AStore 1; ARamp true 30; AOp true 31; ASlide true 30]) /\
      call_tree every (slide_fails true) 50 both_fail [] = call_graph (slide_fails true) g 50 []
  | None => False
  end.
Proof. vm_compute. repeat split. Qed.

(** A return whose value is a return: the evaluator returns, the compiler runs
    into the assertion that a finished block gets nothing more. *)
Theorem C56_nested_return_refuted :
  let body := NReturn (NReturn (NBlock [] [])) in
  (forall has_drop (state : Type) (m : machine state) fuel s,
     call_tree has_drop m fuel body s = Some (Returned s)) /\
  (forall has_drop, compile has_drop body = None).
Proof. split; reflexivity. Qed.
Print Assumptions C56_nested_return_refuted.

(** An accessor whose ramp fails after a temporary was made: the compiled code
    drops the temporary, the evaluator leaves it (to the drop of everything left
    in the frame of a failed call, which is not modelled). *)
Theorem C56_failing_ramp_refuted :
  let body := NWith [([], [1])] [NOp [] (AStore 1)] true 5 (NBlock [] []) in
  scoped every [] body = true /\
  answer_in 50 every body [5] = Some (1, [AStore 1; ARamp true 5; ADrop 1], []) /\
  tree_answer 50 every body [5] = Some (1, [AStore 1; ARamp true 5], [1]).
Proof. repeat split; vm_compute; reflexivity. Qed.
Print Assumptions C56_failing_ramp_refuted.

(** A later argument that fails: both leave the temporary of an earlier one (the
    evaluator to the drop of what is left in the frame, as above; the compiled
    code has no such net). *)
Theorem C56_failing_argument_refuted :
  let body := NWith [([], [1])] [NOp [] (AStore 1); NOp [] (AOp true 6)] true 5 (NBlock [] []) in
  scoped every [] body = true /\
  answer_in 50 every body [6] = Some (1, [AStore 1; AOp true 6], [1]) /\
  tree_answer 50 every body [6] = Some (1, [AStore 1; AOp true 6], [1]).
Proof. repeat split; vm_compute; reflexivity. Qed.
Print Assumptions C56_failing_argument_refuted.

(** A later argument that may return: the evaluator drops the temporary, the
    compiled code leaves it. *)
Theorem C56_leaving_argument_refuted :
  let body := NWith [([], [1])]
    [NOp [] (AStore 1); NCase (NBlock [] []) 50 true [(PBool true, NReturn (NBlock [] []))] (NBlock [] [])]
    true 5 (NBlock [] []) in
  scoped every [] body = true /\
  answer_in 50 every body [] = Some (0, [AStore 1], [1]) /\
  tree_answer 50 every body [] = Some (0, [AStore 1; ADrop 1], []).
Proof. repeat split; vm_compute; reflexivity. Qed.
Print Assumptions C56_leaving_argument_refuted.
