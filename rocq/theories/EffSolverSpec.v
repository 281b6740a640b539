(** What the effect solver knows: the primitive effects of an effect type, once the values of its variables are
    followed; and what it means to satisfy a constraint. *)
From Coq Require Import NArith List.
From Verif Require Import EffModel EffSpec EffSolverModel.
Import ListNotations.
Open Scope N_scope.

(** Effect type [e] has the primitive effect [p]. *)
Inductive has (t : table) : efftype -> prim_effect -> Prop :=
| has_itself e p : mem e (Primitive p) -> has t e p
| has_through e v x p : mem e (Variable_ v) -> probe t v = Some x -> has t x p -> has t e p.

(** Variable [v] can be met when following the variables of [e]. *)
Inductive leads (t : table) : efftype -> N -> Prop :=
| leads_itself e v : mem e (Variable_ v) -> leads t e v
| leads_through e w x v : mem e (Variable_ w) -> probe t w = Some x -> leads t x v -> leads t e v.

(** [e] is below [f]. *)
Definition below (t : table) (e f : efftype) : Prop := forall p, has t e p -> has t f p.

(** A table as built by the solver: roots are their own roots, values mention variables of the table. *)
Record sound_table (t : table) : Prop := {
  st_idem : forall v, find t (find t v) = find t v;
  st_in : forall v, v < len t -> find t v < len t;
  st_out : forall v, len t <= v -> find t v = v;
  st_value : forall r x, value t r = Some x -> r < len t /\ reachable x /\ forall v, mem x (Variable_ v) -> v < len t
}.

(** Without variables. *)
Definition concrete (e : efftype) : Prop := forall v, ~ mem e (Variable_ v).

(** The effect types of an operation come from the interface of effect types. *)
Definition op_effects (o : op) : list efftype :=
  match o with
  | Fresh | Expand => []
  | Dependent deps => deps
  | Unify a b | Same a b | Include a b => [a; b]
  | UnifyArg e | Generalize e => [e]
  end.
Definition proper (ops : list op) : Prop := Forall (fun o => Forall reachable (op_effects o)) ops.

(** A state met when running operations from the start. *)
Definition history (pick : table -> N -> N -> bool) (ops : list op) (s : solver) : Prop :=
  proper ops /\ run pick ops empty_solver = SOk s.
