(** Specification of sorting: an ordered, stable permutation. *)
From Coq Require Import List Permutation Sorted.
Import ListNotations.

Section Spec.
Context {A : Type} (cmp : A -> A -> comparison).

(** [cmp] decides a total preorder: swapping the arguments swaps [Less] and [Greater], and "not greater"
    is transitive. *)
Definition total_preorder : Prop :=
  (forall x y, cmp y x = CompOpp (cmp x y)) /\
  (forall x y z, cmp x y <> Gt -> cmp y z <> Gt -> cmp x z <> Gt).

(** Each element is not greater than any later one. *)
Definition ordered (l : list A) : Prop := StronglySorted (fun x y => cmp x y <> Gt) l.

(** The elements of [l] that compare equal to [x], in order. *)
Definition class_of (x : A) (l : list A) : list A :=
  filter (fun y => match cmp x y with Eq => true | _ => false end) l.

(** Elements that compare equal appear in the same order in both lists. *)
Definition stable (l r : list A) : Prop := forall x, class_of x r = class_of x l.
End Spec.
