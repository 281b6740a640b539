(** What it means for a type to have values, for C33 and C34. *)
From Coq Require Import List Arith.
From Verif Require Import InhabitModel.
Import ListNotations.

(** Finite values.  A value of a native, function, subscript or generic type is opaque; records are
    written as tuples in the order of their fields. *)
Inductive value : Type :=
| VOpaque
| VTuple (fields : list value)
| VVariant (tag : nat) (payload : value).

(** [has_type T v t]: [v] is a value of the type [t]. *)
Inductive has_type (T : table) : value -> nat -> Prop :=
| ht_variable : forall t x, nth_error T t = Some (TVariable x) -> forall v, has_type T v t
| ht_native : forall t args, nth_error T t = Some (TNative args) -> has_type T VOpaque t
| ht_function : forall t args ret, nth_error T t = Some (TFunction args ret) -> has_type T VOpaque t
| ht_subscript : forall t args ret, nth_error T t = Some (TSubscript args ret) -> has_type T VOpaque t
| ht_tuple : forall t ts vs, nth_error T t = Some (TTuple ts) -> Forall2 (has_type T) vs ts -> has_type T (VTuple vs) t
| ht_record : forall t fs vs,
    nth_error T t = Some (TRecord fs) -> Forall2 (has_type T) vs (map snd fs) -> has_type T (VTuple vs) t
| ht_variant : forall t ps tag p v,
    nth_error T t = Some (TVariant ps) -> In (tag, p) ps -> has_type T v p -> has_type T (VVariant tag v) t
| ht_named : forall t params shape v,
    nth_error T t = Some (TNamed params shape) -> has_type T v shape -> has_type T v t.

(** The types a type is made of. *)
Definition parts (k : kind) : list nat :=
  match k with
  | TVariable _ | TNever => []
  | TNative args => args
  | TVariant ps => map snd ps
  | TTuple ts => ts
  | TRecord fs => map snd fs
  | TFunction args ret | TSubscript args ret => args ++ [ret]
  | TNamed params shape => params ++ [shape]
  end.

(** Every part of a type of the table is in the table. *)
Definition well_formed (T : table) : Prop :=
  forall t k p, nth_error T t = Some k -> In p (parts k) -> p < length T.

(** Emptiness that can be seen in finitely many steps: [!] is empty, a tuple or record with an empty
    component is, and so is a variant all of whose payloads are. *)
Inductive evidently_empty (T : table) : nat -> Prop :=
| ee_never : forall t, nth_error T t = Some TNever -> evidently_empty T t
| ee_tuple : forall t ts p, nth_error T t = Some (TTuple ts) -> In p ts -> evidently_empty T p -> evidently_empty T t
| ee_record : forall t fs p,
    nth_error T t = Some (TRecord fs) -> In p (map snd fs) -> evidently_empty T p -> evidently_empty T t
| ee_variant : forall t ps,
    nth_error T t = Some (TVariant ps) -> (forall p, In p (map snd ps) -> evidently_empty T p) -> evidently_empty T t
| ee_named : forall t params shape,
    nth_error T t = Some (TNamed params shape) -> evidently_empty T shape -> evidently_empty T t.

(** The parts whose values a value of the type holds. *)
Definition held (k : kind) : list nat :=
  match k with
  | TVariant ps => map snd ps
  | TTuple ts => ts
  | TRecord fs => map snd fs
  | TNamed _ shape => [shape]
  | _ => []
  end.

(** A type that is not recursive. *)
Inductive not_recursive (T : table) : nat -> Prop :=
| nr : forall t k, nth_error T t = Some k -> (forall p, In p (held k) -> not_recursive T p) -> not_recursive T t.
