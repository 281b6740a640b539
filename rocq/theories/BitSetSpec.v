(** Specification of the bit set: histories and the mathematical set each denotes. *)
From Coq Require Import NArith List Sorting.Sorted.
From Verif Require Import BitSetModel.
Import ListNotations.

(** Every way of obtaining a set through the API. *)
Inductive history :=
| Empty
| WithCapacity (bits : N)
| Insert (h : history) (i : N)
| Remove (h : history) (i : N)
| Union (h1 h2 : history).

(** The set of elements such a history denotes. *)
Fixpoint member (h : history) (i : N) : Prop :=
  match h with
  | Empty | WithCapacity _ => False
  | Insert h j => i = j \/ member h i
  | Remove h j => i <> j /\ member h i
  | Union h1 h2 => member h1 i \/ member h2 i
  end.

(** Running the history on the implementation; [None] is a panic. *)
Fixpoint run (h : history) : option bitset :=
  match h with
  | Empty => Some BEmpty
  | WithCapacity n => Some (bs_with_capacity n)
  | Insert h i => match run h with Some s => Some (bs_insert s i) | None => None end
  | Remove h i => match run h with Some s => Some (bs_remove s i) | None => None end
  | Union h1 h2 => match run h1, run h2 with Some a, Some b => bs_union_with a b | _, _ => None end
  end.

(** [it] yields exactly the items of [l], in order, and then ends. *)
Inductive yields : ones_iter -> list N -> Prop :=
| yields_end : forall it, ones_next it = None -> yields it []
| yields_item : forall it x it' l, ones_next it = Some (x, it') -> yields it' l -> yields it (x :: l).

(** [l] enumerates the set [P] in strictly increasing order. *)
Definition enumerates (l : list N) (P : N -> Prop) : Prop :=
  StronglySorted N.lt l /\ forall i, In i l <-> P i.
