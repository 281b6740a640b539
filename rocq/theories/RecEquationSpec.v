(** The rules for recursive type equations, for C34. *)
From Coq Require Import List Arith.
From Verif Require Import InhabitModel InhabitSpec.
Import ListNotations.

(** The types written in a type (of a named type, its arguments). *)
Definition components (k : kind) : list nat :=
  match k with
  | TVariable _ | TNever => []
  | TNative args => args
  | TVariant ps => map snd ps
  | TTuple ts => ts
  | TRecord fs => map snd fs
  | TFunction args ret | TSubscript args ret => args ++ [ret]
  | TNamed params _ => params
  end.

(** The variable [v] is written somewhere in the type. *)
Inductive mentions (T : table) (v : nat) : nat -> Prop :=
| m_here : forall t, nth_error T t = Some (TVariable v) -> mentions T v t
| m_below : forall t k c, nth_error T t = Some k -> In c (components k) -> mentions T v c -> mentions T v t.

(** [v] is written in the type outside every variant payload. *)
Inductive unguarded (T : table) (v : nat) : nat -> Prop :=
| u_here : forall t, nth_error T t = Some (TVariable v) -> unguarded T v t
| u_below : forall t k c, nth_error T t = Some k -> (forall ps, k <> TVariant ps) -> In c (components k) ->
    unguarded T v c -> unguarded T v t.

(** The types on a way from the root down to an occurrence of [v]. *)
Inductive on_cycle (T : table) (v root : nat) : nat -> Prop :=
| oc_root : mentions T v root -> on_cycle T v root root
| oc_below : forall t k c, on_cycle T v root t -> nth_error T t = Some k -> In c (components k) -> mentions T v c ->
    on_cycle T v root c.

(** A payload, of a variant on the cycle, that does not refer back to [v]. *)
Definition ending_payload (T : table) (v root : nat) : Prop :=
  exists t ps p, on_cycle T v root t /\ nth_error T t = Some (TVariant ps) /\ In p (map snd ps) /\ ~ mentions T v p.

(** The cycle goes only through tuples, records and variants. *)
Definition plain_cycle (T : table) (v root : nat) : Prop :=
  forall t k, on_cycle T v root t -> nth_error T t = Some k ->
    match k with TVariable _ | TTuple _ | TRecord _ | TVariant _ => True | _ => False end.

(** All types written on the cycle that do not refer back to [v] have values in the table [T']. *)
Definition others_inhabited (T T' : table) (v root : nat) : Prop :=
  forall t k c, on_cycle T v root t -> nth_error T t = Some k -> In c (components k) -> ~ mentions T v c ->
    exists x, has_type T' x c.
