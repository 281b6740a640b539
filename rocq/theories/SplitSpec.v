(** Specification of splitting and joining lists. *)
From Coq Require Import List Bool.
Import ListNotations.

Section Spec.
Context {A : Type} (eqb : A -> A -> bool).

Fixpoint starts_with (sep l : list A) : bool :=
  match sep, l with
  | [], _ => true
  | s :: sep', x :: l' => eqb x s && starts_with sep' l'
  | _ :: _, [] => false
  end.

(** Scan from the left; at an occurrence of [sep] the current piece ends and the scan goes on behind it. *)
Fixpoint split_from (fuel : nat) (sep piece l : list A) : list (list A) :=
  match fuel with
  | O => [piece]
  | S f =>
      if starts_with sep l then piece :: split_from f sep [] (skipn (length sep) l)
      else match l with
           | [] => [piece]
           | x :: l' => split_from f sep (piece ++ [x]) l'
           end
  end.
Definition list_split (sep l : list A) : list (list A) := split_from (S (length l)) sep [] l.

Fixpoint list_join (sep : list A) (pieces : list (list A)) : list A :=
  match pieces with
  | [] => []
  | [p] => p
  | p :: rest => p ++ sep ++ list_join sep rest
  end.

(** [sep] occurs somewhere in [l]. *)
Definition occurs (sep l : list A) : Prop := exists l1 l2, l = l1 ++ l2 /\ starts_with sep l2 = true.
End Spec.
