(** What it means that a type is an alias with given arguments.  Of the model, only the kinds of
    types are used. *)
From Coq Require Import List ZArith.
From Verif Require Import AliasNameModel.
Import ListNotations.
Open Scope nat_scope.

Section Spec.
Variable data : ty -> kind.

(** Two kinds are built alike, with parts related by [R]. *)
Definition same_part {L : Type} (R : ty -> ty -> Prop) (x y : L * ty) : Prop :=
  fst x = fst y /\ R (snd x) (snd y).
Definition alike (R : ty -> ty -> Prop) (k j : kind) : Prop :=
  match k, j with
  | Var v, Var w => v = w
  | Native b l, Native c r => b = c /\ Forall2 R l r
  | Variant l, Variant r => Forall2 (same_part R) l r
  | Tuple l, Tuple r => Forall2 R l r
  | Rec l, Rec r => Forall2 (same_part R) l r
  | Fn l x e, Fn r y f => Forall2 (same_part R) l r /\ R x y /\ e = f
  | Subscript c l, Subscript d r => c = d /\ Forall2 R l r
  | Named d l e, Named c r f => d = c /\ Forall2 R l r /\ e = f
  | Never, Never => True
  | _, _ => False
  end.

(** Where the pattern has a parameter, the type is the argument for it; elsewhere they are built
    alike. *)
Definition fits (args : list (option ty)) (R : ty -> ty -> Prop) (p t : ty) : Prop :=
  (exists v, data p = Var v /\ v < length args /\ nth_error args v = Some (Some t)) \/
  ((forall v, data p = Var v -> length args <= v) /\ alike R (data p) (data t)).

(** [t] is [p] with its parameters replaced by the arguments, all the way down; types may go round
    in circles, so the relation is the largest one. *)
Definition instance (args : list (option ty)) (p t : ty) : Prop :=
  exists R : ty -> ty -> Prop, R p t /\ forall p t, R p t -> fits args R p t.

(** The types that a type is built from. *)
Definition parts (k : kind) : list ty :=
  match k with
  | Var _ | Never => []
  | Native _ l | Tuple l | Subscript _ l | Named _ l _ => l
  | Variant l | Rec l => map snd l
  | Fn l r _ => r :: map snd l
  end.
Definition closed (n : nat) : Prop := forall t, t < n -> Forall (fun u => u < n) (parts (data t)).

(** The types that a type is built from, all the way down. *)
Inductive part_of (t : ty) : ty -> Prop :=
| whole : part_of t t
| deeper : forall u v, part_of t u -> In v (parts (data u)) -> part_of t v.
End Spec.

(** How many arguments are known. *)
Definition known (args : list (option ty)) : nat :=
  length (filter (fun o => match o with Some _ => true | None => false end) args).
