(** Specification for C49: when an implementation applies to types. *)
From Coq Require Import List Bool Arith.
From Verif Require Import UnifyModel UnifySpec CoherenceModel.
Import ListNotations.

(** Types for the variables; implementations mention no mutability variables. *)
Definition inst (tv : nat -> ty) (t : ty) : ty := apply tv (fun _ => MVal false) t.

Section Spec.
(** Implementations the compiler derives. *)
Variable derived : nat -> list ty -> list ty -> Prop.
Variable db : database.

(** A trait holds for input types, with output types, by a chain of implementations. *)
Inductive holds : nat -> list ty -> list ty -> Prop :=
| holds_impl : forall t i tv, In (t, i) db ->
    (forall d, In d (i_demands i) -> holds (d_trait d) (map (inst tv) (d_inputs d)) (map (inst tv) (d_outputs d))) ->
    holds t (map (inst tv) (i_inputs i)) (map (inst tv) (i_outputs i))
| holds_derived : forall t inputs outputs, derived t inputs outputs -> holds t inputs outputs.

(** The implementation gives the trait for these types. *)
Definition applies (i : implementation) (inputs outputs : list ty) : Prop :=
  exists tv, inputs = map (inst tv) (i_inputs i) /\ outputs = map (inst tv) (i_outputs i) /\
    forall d, In d (i_demands i) -> holds (d_trait d) (map (inst tv) (d_inputs d)) (map (inst tv) (d_outputs d)).
End Spec.

(** Implementations use the variables they declare, and only these; those without variables have no demands. *)
Definition within (n : nat) (t : ty) : Prop := forall v, occurs v t = true -> v < n.
Definition proper (i : implementation) : Prop :=
  Forall (within (i_vars i)) (i_inputs i) /\ Forall (within (i_vars i)) (i_outputs i) /\
  Forall (fun d => Forall (within (i_vars i)) (d_inputs d) /\ Forall (within (i_vars i)) (d_outputs d)) (i_demands i).

(** No mutability variable occurs. *)
Definition no_mut_vars (i : implementation) : Prop := Forall (fun t => inst TVar t = t) (i_inputs i).
