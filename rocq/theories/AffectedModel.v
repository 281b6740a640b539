(** The modules affected by a change, session.rs L654-669. *)
From Coq Require Import List Bool Arith.
From Verif Require Import GraphModel SessionModel.
Import ListNotations.

(** L656-668 [get_modules_affected_by]: the loop; the stack has its top first, [affected] is in the order of
    the pushes *)
Fixpoint affected_loop (fuel : nat) (ms : list entry) (stack affected : list nat) : gres (list nat) :=
  match fuel with
  | O => OutOfFuel
  | S f =>
      match stack with
      | [] => Val affected
      | id :: stack' =>
          if mem id affected then affected_loop f ms stack' affected
          else affected_loop f ms (List.rev (direct_deps ms id) ++ stack') (affected ++ [id])
      end
  end.
Definition get_modules_affected_by (ms : list entry) (id : nat) : gres (list nat) :=
  affected_loop (S (length ms * length ms + length ms)) ms (List.rev (direct_deps ms id)) [].
