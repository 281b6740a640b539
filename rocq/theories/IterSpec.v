(** Specification of iterators: the items an iterator yields, and the list functions the adaptors and
    consumers stand for. *)
From Coq Require Import ZArith List Bool.
From Verif Require Import MachInt IterModel.
Import ListNotations.
Open Scope Z_scope.

(** From state [s], [next] returns the items [l] one after the other, ending in state [s'], in every
    world and without changing it. *)
Inductive runs {W S T : Type} (next : iterator W S T) : S -> list T -> S -> Prop :=
| runs_nil : forall s, runs next s [] s
| runs_cons : forall s x s1 l s2, (forall w, next s w = Ok (Some x, s1) w) -> runs next s1 l s2 -> runs next s (x :: l) s2.

(** In state [s] the iterator has ended. *)
Definition ended {W S T : Type} (next : iterator W S T) (s : S) : Prop := exists s', forall w, next s w = Ok (None, s') w.

(** From [s] the iterator yields exactly [l], then ends. *)
Definition yields {W S T : Type} (next : iterator W S T) (s : S) (l : list T) : Prop :=
  exists s', runs next s l s' /\ ended next s'.

(** A user function that has no effect. *)
Definition pure {W A B : Type} (f : A -> comp W B) (g : A -> B) : Prop := forall a w, f a w = Ok (g a) w.

(** ** List functions with effectful arguments: called once per item, in order, stopping at a failure. *)
Section Lists.
Context {W : Type}.

Fixpoint map_list {A B : Type} (f : A -> comp W B) (l : list A) : comp W (list B) :=
  match l with
  | [] => ret []
  | x :: l' => bnd (f x) (fun y => bnd (map_list f l') (fun r => ret (y :: r)))
  end.
Fixpoint filter_list {A : Type} (f : A -> comp W bool) (l : list A) : comp W (list A) :=
  match l with
  | [] => ret []
  | x :: l' => bnd (f x) (fun b => bnd (filter_list f l') (fun r => ret (if b then x :: r else r)))
  end.
Fixpoint filter_map_list {A B : Type} (f : A -> comp W (option B)) (l : list A) : comp W (list B) :=
  match l with
  | [] => ret []
  | x :: l' =>
      bnd (f x) (fun o => bnd (filter_map_list f l') (fun r => ret (match o with Some y => y :: r | None => r end)))
  end.
Fixpoint fold_list {A B : Type} (f : A -> B -> comp W A) (a : A) (l : list B) : comp W A :=
  match l with
  | [] => ret a
  | x :: l' => bnd (f a x) (fun a => fold_list f a l')
  end.
Fixpoint try_fold_list {A B : Type} (f : A -> B -> comp W (control_flow A)) (a : A) (l : list B) : comp W (control_flow A) :=
  match l with
  | [] => ret (Continue a)
  | x :: l' => bnd (f a x) (fun c => match c with Continue a => try_fold_list f a l' | Break => ret Break end)
  end.
(** The first item satisfying [f] and its position; [f] is not called after it. *)
Fixpoint first_list {A : Type} (f : A -> comp W bool) (l : list A) (i : Z) : comp W (option (Z * A)) :=
  match l with
  | [] => ret None
  | x :: l' => bnd (f x) (fun b => if b then ret (Some (i, x)) else first_list f l' (i + 1))
  end.
Definition after {A B : Type} (m : comp W A) (f : A -> B) : comp W B := bnd m (fun a => ret (f a)).
End Lists.

Definition is_some {A : Type} (o : option A) : bool := match o with Some _ => true | None => false end.

(** Items numbered from 0, as 64-bit integers. *)
Definition numbered {T : Type} (l : list T) : list (Z * T) :=
  combine (map (fun i => wrap64 (Z.of_nat i)) (seq 0 (length l))) l.

(** a, a+1, ... or a, a-1, ...: [n] numbers. *)
Definition upwards (a : Z) (n : nat) : list Z := map (fun i => a + Z.of_nat i) (seq 0 n).
Definition downwards (a : Z) (n : nat) : list Z := map (fun i => a - Z.of_nat i) (seq 0 n).
Definition exclusive_range (a b : Z) : list Z :=
  if a <=? b then upwards a (Z.to_nat (b - a)) else downwards a (Z.to_nat (a - b)).
Definition inclusive_range (a b : Z) : list Z :=
  if a <=? b then upwards a (Z.to_nat (b - a + 1)) else downwards a (Z.to_nat (a - b + 1)).

(** [r] is an element of [l] that is not greater (less) than any element. *)
Definition is_minimum {T : Type} (cmp : T -> T -> comparison) (l : list T) (r : T) : Prop :=
  In r l /\ forall x, In x l -> cmp r x <> Gt.
Definition is_maximum {T : Type} (cmp : T -> T -> comparison) (l : list T) (r : T) : Prop :=
  In r l /\ forall x, In x l -> cmp x r <> Gt.

(** The items with [sep] between consecutive ones. *)
Fixpoint intersperse {T : Type} (sep : T) (l : list T) : list T :=
  match l with
  | [] => []
  | x :: l' => match l' with [] => [x] | _ => x :: sep :: intersperse sep l' end
  end.
