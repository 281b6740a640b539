(** Specification for C48: when two types agree, substitutions, and types the compiler builds. *)
From Coq Require Import List Bool Arith.
From Verif Require Import UnifyModel.
Import ListNotations.

(** [m1] can be used where [m2] is asked for: it is the same, or anything where a constant will do, or mutable. *)
Definition fits (m : mode) (m1 m2 : mut_ty) : Prop := m1 = m2 \/ (m = SubType /\ (m1 = MVal true \/ m2 = MVal false)).

(** A subscript with member [c] offers what one with member [e] does. *)
Definition offers (c e : option convention) : Prop := e = None \/ e = c \/ (e = Some YieldedOnce /\ c = Some AddressorPlace).

(** A value of the first type can be used as one of the second, never being anything: the types have the same structure;
    arguments of functions in the other direction. *)
Inductive agrees (m : mode) : ty -> ty -> Prop :=
| ag_never_left : forall t, agrees m TNever t
| ag_never_right : forall t, agrees m t TNever
| ag_var : forall v, agrees m (TVar v) (TVar v)
| ag_native : forall b l r, Forall2 (agrees m) l r -> agrees m (TNative b l) (TNative b r)
| ag_variant : forall l r, Forall2 (fun c e => fst c = fst e /\ agrees m (snd c) (snd e)) l r -> agrees m (TVariant l) (TVariant r)
| ag_tuple : forall l r, Forall2 (agrees m) l r -> agrees m (TTuple l) (TTuple r)
| ag_record : forall l r, Forall2 (fun c e => fst c = fst e /\ agrees m (snd c) (snd e)) l r -> agrees m (TRecord l) (TRecord r)
| ag_function : forall l r x y, Forall2 (fun c e => fits m (fst e) (fst c) /\ agrees m (snd e) (snd c)) l r -> agrees m x y ->
    agrees m (TFunction l x) (TFunction r y)
| ag_subscript : forall l r x y a b c d, Forall2 (fun c e => fits m (fst e) (fst c) /\ agrees m (snd e) (snd c)) l r -> agrees m x y ->
    offers a c -> offers b d -> agrees m (TSubscript l x a b) (TSubscript r y c d)
| ag_named : forall n l r, Forall2 (agrees m) l r -> agrees m (TNamed n l) (TNamed n r).

Section Apply.
Variable tv : nat -> ty.
Variable mv : nat -> mut_ty.
Definition apply_mut (m : mut_ty) : mut_ty := match m with MVar v => mv v | MVal b => MVal b end.
(** Types for variables. *)
Fixpoint apply (t : ty) : ty :=
  match t with
  | TVar v => tv v
  | TNever => TNever
  | TNative b l => TNative b (map apply l)
  | TVariant l => TVariant (map (fun p => (fst p, apply (snd p))) l)
  | TTuple l => TTuple (map apply l)
  | TRecord l => TRecord (map (fun p => (fst p, apply (snd p))) l)
  | TFunction l r => TFunction (map (fun p => (apply_mut (fst p), apply (snd p))) l) (apply r)
  | TSubscript l r c d => TSubscript (map (fun p => (apply_mut (fst p), apply (snd p))) l) (apply r) c d
  | TNamed n l => TNamed n (map apply l)
  end.

(** The substitution is a solution of what the tables say. *)
Definition solution (s : state) : Prop :=
  Forall (fun p => tv (fst p) = apply (snd p)) (types s) /\ Forall (fun p => mv (fst p) = apply_mut (snd p)) (muts s).
End Apply.

(** The compiler's substitution replaces [t] by [t']. *)
Definition resolves (s : state) (t t' : ty) : Prop := exists n, forall m, n <= m -> normalize m s t = Some t'.

(** Native types and definitions have a fixed number of arguments; the records have the given sets of fields. *)
Section Formed.
Variable native_arity def_arity : nat -> nat.
Variable shapes : list nat -> Prop.
Inductive formed : ty -> Prop :=
| fo_var : forall v, formed (TVar v)
| fo_never : formed TNever
| fo_native : forall b l, length l = native_arity b -> Forall formed l -> formed (TNative b l)
| fo_variant : forall l, Forall (fun p => formed (snd p)) l -> formed (TVariant l)
| fo_tuple : forall l, Forall formed l -> formed (TTuple l)
| fo_record : forall l, shapes (map fst l) -> Forall (fun p => formed (snd p)) l -> formed (TRecord l)
| fo_function : forall l r, Forall (fun p => formed (snd p)) l -> formed r -> formed (TFunction l r)
| fo_subscript : forall l r c d, Forall (fun p => formed (snd p)) l -> formed r -> formed (TSubscript l r c d)
| fo_named : forall n l, length l = def_arity n -> Forall formed l -> formed (TNamed n l).
Definition formed_state (s : state) : Prop := Forall (fun p => formed (snd p)) (types s).

(** No set of fields extends another. *)
Definition prefix_free : Prop := forall a b, shapes a -> shapes (a ++ b) -> b = [].
End Formed.

(** States the compiler reaches: nothing bound yet, then the equalities of a program. *)
Definition empty : state := State [] [].

(** No never and no subscript occurs in the type. *)
Inductive ordinary : ty -> Prop :=
| or_var : forall v, ordinary (TVar v)
| or_native : forall b l, Forall ordinary l -> ordinary (TNative b l)
| or_variant : forall l, Forall (fun p => ordinary (snd p)) l -> ordinary (TVariant l)
| or_tuple : forall l, Forall ordinary l -> ordinary (TTuple l)
| or_record : forall l, Forall (fun p => ordinary (snd p)) l -> ordinary (TRecord l)
| or_function : forall l r, Forall (fun p => ordinary (snd p)) l -> ordinary r -> ordinary (TFunction l r)
| or_named : forall n l, Forall ordinary l -> ordinary (TNamed n l).
