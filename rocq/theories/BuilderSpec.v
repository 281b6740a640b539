(** What a group of recursive aliases means.

    [bodies] are the right-hand sides of the aliases of the group; [denote] relates a type as written to
    a stored type with the same, possibly infinite, unfolding. *)
From Coq Require Import List.
From Verif Require Import InternModel InternSpec BuilderModel.
Import ListNotations.

(** The kind a constructor makes of its parts, in the order written; the last part of a function is its result. *)
Definition made (c : con) (ts : list ty) : kind :=
  match c with
  | CVariant names => KVariant (combine names ts)
  | CTuple => KTuple ts
  | CRecord names => KRecord (combine names ts)
  | CFunction muts effs => KFunction (combine muts ts) (nth (length muts) ts (Loc 0)) effs
  end.
Definition applied (a : atom) (ts : list ty) : kind :=
  match a with ANative b => KNative b ts | ANamed d => KNamed d ts [] end.
Definition alone (l : leaf) : kind := match l with LVariable v => KVariable v | LNever => KNever end.

Section Group.
Variable bodies : list rtype.

Section Denote.
Variable d : ty -> option kind.
(** One step: the type as written shows the kind [k]; [R] relates the parts. *)
Inductive shows (R : rtype -> ty -> Prop) : rtype -> kind -> Prop :=
| sh_node : forall c parts ts k, Forall2 R parts ts -> alike eq (made c ts) k -> shows R (RNode c parts) k
| sh_atom : forall a args ts, Forall2 R args ts -> shows R (RAtom a args) (applied a ts)
| sh_leaf : forall l, shows R (RLeaf l) (alone l)
| sh_tag : forall name t, R (RAtom (ANative unit_bare) []) t -> shows R (RTag name) (KVariant [(name, t)])
| sh_alias : forall i b k, nth_error bodies i = Some b -> shows R b k -> shows R (RAlias i) k
| sh_stored : forall t k k', d t = Some k -> alike (fun x y => R (RStored x) y) k k' -> shows R (RStored t) k'.
Definition denote (r : rtype) (t : ty) : Prop :=
  exists R : rtype -> ty -> Prop, R r t /\ forall r t, R r t -> exists k, d t = Some k /\ shows R r k.
End Denote.

(** [y] is met when unfolding [x]. *)
Inductive meets (x : rtype) : rtype -> Prop :=
| meets_here : meets x x
| meets_part : forall c parts y, meets x (RNode c parts) -> In y parts -> meets x y
| meets_arg : forall a args y, meets x (RAtom a args) -> In y args -> meets x y
| meets_alias : forall i b, meets x (RAlias i) -> nth_error bodies i = Some b -> meets x b.

(** Two types as written are the same type, the known types meaning what [u] says. *)
Definition same_type (u : universe) (a b : rtype) : Prop :=
  exists d t, (forall s k, get_type_data u s = Some k -> d s = Some k) /\ denote d a t /\ denote d b t.
End Group.

(** The places where a type is built: variants, tuples, records, functions and tags. *)
Fixpoint places (r : rtype) : list rtype :=
  match r with
  | RStored _ | RAlias _ | RLeaf _ => []
  | RTag _ => [r]
  | RNode _ parts => r :: flat_map places parts
  | RAtom _ args => flat_map places args
  end.

(** Two places of one cycle are different types. *)
Definition distinct_places (u : universe) (bodies : list rtype) : Prop :=
  forall i j a b, nth_error (flat_map places bodies) i = Some a -> nth_error (flat_map places bodies) j = Some b ->
    meets bodies a b -> meets bodies b a -> same_type bodies u a b -> i = j.

(** As many parts as the constructor has. *)
Definition arity_ok (c : con) (n : nat) : Prop :=
  match c with
  | CVariant names | CRecord names => length names = n
  | CTuple => True
  | CFunction muts _ => S (length muts) = n
  end.
(** Aliases of the group and known types exist. *)
Inductive proper (u : universe) (n : nat) : rtype -> Prop :=
| pr_stored : forall t k, get_type_data u t = Some k -> proper u n (RStored t)
| pr_alias : forall i, i < n -> proper u n (RAlias i)
| pr_tag : forall name, proper u n (RTag name)
| pr_node : forall c parts, arity_ok c (length parts) -> (forall r, In r parts -> proper u n r) -> proper u n (RNode c parts)
| pr_leaf : forall l, proper u n (RLeaf l)
| pr_atom : forall a args, (forall r, In r args -> proper u n r) -> proper u n (RAtom a args).

(** Nothing of the group is built or named inside the arguments of native and named types and of arrays. *)
Inductive apart : rtype -> Prop :=
| ap_stored : forall t, apart (RStored t)
| ap_leaf : forall l, apart (RLeaf l)
| ap_atom : forall a args, (forall r, In r args -> apart r) -> apart (RAtom a args).
Inductive tidy : rtype -> Prop :=
| ti_alias : forall i, tidy (RAlias i)
| ti_tag : forall name, tidy (RTag name)
| ti_node : forall c parts, (forall r, In r parts -> tidy r) -> tidy (RNode c parts)
| ti_apart : forall r, apart r -> tidy r.
(** Every alias is a variant, a tuple, a record or a function. *)
Definition built_up (r : rtype) : Prop := exists c parts, r = RNode c parts.

(** The names of every variant and record are distinct. *)
Inductive duplicates : rtype -> Prop :=
| du_here : forall c parts names, (c = CVariant names \/ c = CRecord names) -> ~ NoDup names -> duplicates (RNode c parts)
| du_part : forall c parts r, In r parts -> duplicates r -> duplicates (RNode c parts)
| du_arg : forall a args r, In r args -> duplicates r -> duplicates (RAtom a args).
