(** Specification vocabulary for hashing. *)
From Coq Require Import NArith ZArith List Bool.
From Verif Require Import HashModel.
Import ListNotations.
Open Scope N_scope.

(** Every value of the program satisfies [valid]: ints are 64-bit, and the elements of a set (keys of a
    map) are pairwise different. *)
Inductive valid : value -> Prop :=
| valid_unit : valid VUnit
| valid_bool : forall b, valid (VBool b)
| valid_int : forall z, (- 2 ^ 63 <= z < 2 ^ 63)%Z -> valid (VInt z)
| valid_float : forall b, b < 2 ^ 64 -> valid (VFloat b)
| valid_string : forall s, valid (VString s)
| valid_tuple : forall l, Forall valid l -> valid (VTuple l)
| valid_array : forall l, Forall valid l -> valid (VArray l)
| valid_tag : forall t, valid (VVariant t None)
| valid_variant : forall t p, valid p -> valid (VVariant t (Some p))
| valid_set : forall l, Forall valid l -> ForallOrdPairs (fun x y => eqv x y = false) l -> valid (VSet l)
| valid_map : forall l, Forall (fun p => valid (fst p) /\ valid (snd p)) l ->
    ForallOrdPairs (fun p q => eqv (fst p) (fst q) = false) l -> valid (VMap l).

(** No negative zero (bits 0x8000_0000_0000_0000) occurs anywhere in the value. *)
Inductive no_negative_zero : value -> Prop :=
| nz_unit : no_negative_zero VUnit
| nz_bool : forall b, no_negative_zero (VBool b)
| nz_int : forall z, no_negative_zero (VInt z)
| nz_float : forall b, b <> 2 ^ 63 -> no_negative_zero (VFloat b)
| nz_string : forall s, no_negative_zero (VString s)
| nz_tuple : forall l, Forall no_negative_zero l -> no_negative_zero (VTuple l)
| nz_array : forall l, Forall no_negative_zero l -> no_negative_zero (VArray l)
| nz_tag : forall t, no_negative_zero (VVariant t None)
| nz_variant : forall t p, no_negative_zero p -> no_negative_zero (VVariant t (Some p))
| nz_set : forall l, Forall no_negative_zero l -> no_negative_zero (VSet l)
| nz_map : forall l, Forall (fun p => no_negative_zero (fst p) /\ no_negative_zero (snd p)) l -> no_negative_zero (VMap l).
