(** What storing types must guarantee.

    A type may be infinite: it is given by equations, each naming a kind and the types it is made of.
    Two types are the same when their (possibly infinite) unfoldings agree, whatever equations give
    them and in whatever order the fields of records and the alternatives of variants are written. *)
From Coq Require Import List Permutation.
From Verif Require Import GraphModel InternModel.
Import ListNotations.

(** Two kinds agree when everything but the types they are made of is equal, and these are related by [R]. *)
Section Alike.
Variable R : ty -> ty -> Prop.
Definition tagged_alike {A : Type} (x y : A * ty) : Prop := fst x = fst y /\ R (snd x) (snd y).
Definition fields_alike (a b : list (nat * ty)) : Prop := exists b', Permutation b b' /\ Forall2 tagged_alike a b'.
Definition alike (a b : kind) : Prop :=
  match a, b with
  | KNative x l, KNative y m => x = y /\ Forall2 R l m
  | KVariable x, KVariable y => x = y
  | KVariant l, KVariant m => fields_alike l m
  | KTuple l, KTuple m => Forall2 R l m
  | KRecord l, KRecord m => fields_alike l m
  | KFunction l r e, KFunction m s f => Forall2 tagged_alike l m /\ R r s /\ e = f
  | KSubscript l r e g, KSubscript m s f h => Forall2 tagged_alike l m /\ R r s /\ e = f /\ g = h
  | KNamed x l e, KNamed y m f => x = y /\ Forall2 R l m /\ e = f
  | KNever, KNever => True
  | _, _ => False
  end.
End Alike.

(** [a] by the equations [d] and [b] by the equations [e] are the same type: a bisimulation. *)
Definition same (d e : ty -> option kind) (a b : ty) : Prop :=
  exists R : ty -> ty -> Prop, R a b /\
    forall x y, R x y -> exists k l, d x = Some k /\ e y = Some l /\ alike R k l.

(** The types a kind is made of. *)
Definition mentions (k : kind) (t : ty) : Prop :=
  match k with
  | KNative _ l | KTuple l | KNamed _ l _ => In t l
  | KVariable _ | KNever => False
  | KVariant l | KRecord l => exists name, In (name, t) l
  | KFunction l r _ | KSubscript l r _ _ => t = r \/ exists m, In (m, t) l
  end.

(** [b] is met when unfolding [a] zero or more times. *)
Inductive path (d : ty -> option kind) (a : ty) : ty -> Prop :=
| path_here : path d a a
| path_step : forall b k c, path d a b -> d b = Some k -> mentions k c -> path d a c.
(** [a] is met again when unfolding [a]. *)
Definition cyclic (d : ty -> option kind) (a : ty) : Prop := exists k b, d a = Some k /\ mentions k b /\ path d b a.

(** The equations given by a list of kinds to store, on top of those already stored. *)
Definition described (u : universe) (kinds : list kind) (t : ty) : option kind :=
  match t with
  | Loc i => nth_error kinds i
  | Glob _ _ => get_type_data u t
  end.

(** Names of fields and alternatives are distinct. *)
Definition well_named (k : kind) : Prop :=
  match k with KVariant l | KRecord l => NoDup (map fst l) | _ => True end.
(** No effect arguments. *)
Definition plain (k : kind) : Prop := match k with KNamed _ _ e => e = [] | _ => True end.

(** Kinds that make sense: names distinct, every type mentioned exists. *)
Definition sensible (u : universe) (kinds : list kind) : Prop :=
  (forall k, In k kinds -> well_named k) /\
  (forall k t, In k kinds -> mentions k t -> exists l, described u kinds t = Some l).
(** No effect arguments on a cycle. *)
Definition plain_cycles (u : universe) (kinds : list kind) : Prop :=
  forall i k, nth_error kinds i = Some k -> cyclic (described u kinds) (Loc i) -> plain k.
(** Two kinds on a common cycle are different types. *)
Definition distinct_cycles (u : universe) (kinds : list kind) : Prop :=
  forall i j, path (described u kinds) (Loc i) (Loc j) -> path (described u kinds) (Loc j) (Loc i) ->
    same (described u kinds) (described u kinds) (Loc i) (Loc j) -> i = j.
(** No cycle is written out more than once: unfolding a cyclic kind never meets the same type under another name. *)
Definition folded_cycles (u : universe) (kinds : list kind) : Prop :=
  forall i t, cyclic (described u kinds) (Loc i) -> path (described u kinds) (Loc i) t ->
    same (described u kinds) (described u kinds) (Loc i) t -> t = Loc i.

Definition storable (u : universe) (kinds : list kind) : Prop :=
  sensible u kinds /\ plain_cycles u kinds /\ distinct_cycles u kinds.
Definition canonical (u : universe) (kinds : list kind) : Prop :=
  sensible u kinds /\ plain_cycles u kinds /\ folded_cycles u kinds.

(** The universes reached from the empty one by storing kinds that satisfy [ok]. *)
Inductive built (le : kind -> kind -> bool) (order : list nat -> list nat) (ok : universe -> list kind -> Prop) : universe -> Prop :=
| built_empty : built le order ok new_empty
| built_insert : forall u kinds u' ts, built le order ok u -> ok u kinds ->
    insert_types le order u kinds = Val (u', ts) -> built le order ok u'.

(** The order in which a hash set is iterated lists its elements. *)
Definition iteration (order : list nat -> list nat) : Prop := forall l, Permutation l (order l).
