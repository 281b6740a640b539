(** Which functions of a module start with a call-depth check.

    Modelled: src/desugar/module.rs module_implementation_sccs L1051-1071 (the
    components of the syntactic dependency graph that are recursive),
    src/hir/emit_hir.rs L957-970 and src/hir/emit_functions.rs L994-1003 (the
    identifiers of the functions of a recursive component), L298-316
    (node_references_any_function) and L335-365
    (wrap_body_with_call_depth_check_if_recursive).

    Simplifications.  Functions are numbered as in the module: first those of
    the source (functions and subscript members), then the functions made from
    their lambda expressions.  The HIR body of a function is reduced to the
    functions it mentions in StaticApply and GetFunction nodes; the body of a
    lambda expression is a separate function, mentioned by the function that
    contains it.  The checks of the functions of a trait implementation
    (emit_hir.rs L1055-1066) follow the same rule within the implementation and
    are not modelled. *)
From Coq Require Import List Arith Bool.
From Verif Require Import GraphModel.
Import ListNotations.

(** [dependencies] is the syntactic dependency graph of the source functions,
    through their lambda expressions too; [mentions] what each emitted function
    mentions, lambdas last. *)
Record unit_code := UnitCode { dependencies : graph; mentions : graph }.

(** ModuleImplementationScc::recursive. *)
Definition recursive_component (g : graph) (scc : list nat) : bool :=
  (1 <? length scc) || match scc with
                       | [] => false
                       | i :: _ => existsb (Nat.eqb i) (nth i g [])
                       end.

(** node_references_any_function. *)
Definition references_any (refs targets : list nat) : bool :=
  existsb (fun f => existsb (Nat.eqb f) targets) refs.

(** emit_functions for one component: the functions that get a check.  The
    lambda functions made on the way get none. *)
Definition component_checks (u : unit_code) (scc : list nat) : list nat :=
  if recursive_component (dependencies u) scc
  then filter (fun f => references_any (nth f (mentions u) []) scc) scc
  else [].

Definition functions_with_check (u : unit_code) : gres (list nat) :=
  let* sccs := find_strongly_connected_components (dependencies u) in
  Val (flat_map (component_checks u) sccs).
