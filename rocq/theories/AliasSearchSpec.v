(** What a name written in a module denotes. *)
From Coq Require Import List ZArith.
From Verif Require Import AliasNameModel AliasNameSpec AliasSearchModel.
Import ListNotations.

(** A name without a path is one of the module, else one imported by name, else one of a module of
    which everything is imported; with a path it is one of that module. *)
Inductive denotes (current : list entry) (u : uses_data) (modules : list (path * list entry)) :
  option path -> name -> entry -> Prop :=
| by_path : forall p entries e, In (p, entries) modules -> In e entries ->
    denotes current u modules (Some p) (alias_name e) e
| local : forall e, In e current -> denotes current u modules None (alias_name e) e
| imported : forall p entries e, (forall e', In e' current -> alias_name e' <> alias_name e) ->
    In (alias_name e, p) (explicits u) -> In (p, entries) modules -> In e entries ->
    denotes current u modules None (alias_name e) e
| everything : forall p entries e, (forall e', In e' current -> alias_name e' <> alias_name e) ->
    (forall q, ~ In (alias_name e, q) (explicits u)) -> In p (wildcards u) -> In (p, entries) modules -> In e entries ->
    denotes current u modules None (alias_name e) e.

(** The alias with these arguments is the type. *)
Definition stands_for (data : ty -> kind) (e : entry) (args : list (option ty)) (t : ty) : Prop :=
  (param_count e = 0 /\ args = [] /\ alias_ty e = t) \/
  (param_count e <> 0 /\ length args = ty_var_count e /\ instance data args (alias_ty e) t).

(** The aliases of all modules. *)
Definition declared_somewhere (current : list entry) (modules : list (path * list entry)) (e : entry) : Prop :=
  In e current \/ exists p entries, In (p, entries) modules /\ In e entries.
