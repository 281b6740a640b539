(** Specification of effect types: finite sets of effects. *)
From Coq Require Import NArith List Sorting.Sorted.
From Verif Require Import EffModel.
Import ListNotations.

(** Every effect type obtainable through the API. *)
Inductive reachable : efftype -> Prop :=
| r_empty : reachable eff_empty
| r_single : forall x, reachable (eff_single x)
| r_single_primitive : forall p, reachable (eff_single_primitive p)
| r_single_variable : forall v, reachable (eff_single_variable v)
| r_multiple_primitive : forall l, reachable (eff_multiple_primitive l)
| r_from_iter : forall l, reachable (eff_from_iter l)
| r_insert : forall e x, reachable e -> reachable (eff_insert e x)
| r_union : forall a b, reachable a -> reachable b -> reachable (eff_union a b)
| r_instantiate : forall e s, reachable e -> (forall v t, subst_get s v = Some t -> reachable t) ->
    reachable (eff_instantiate e s).

Definition mem (e : efftype) (x : effect) : Prop := eff_contains e x = true.

(** The order of iteration: read, write, fallible, then variables by number. *)
Definition before (x y : effect) : Prop :=
  match x, y with
  | Primitive Read, Primitive Write | Primitive Read, Primitive Fallible | Primitive Write, Primitive Fallible => True
  | Primitive _, Variable_ _ => True
  | Variable_ a, Variable_ b => (a < b)%N
  | _, _ => False
  end.
