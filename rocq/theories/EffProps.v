(** Property theorems C25. *)
From Coq Require Import NArith List Sorting.Sorted.
From Verif Require Import EffModel EffSpec EffProofs.
Import ListNotations.
Open Scope N_scope.

(** Two effect types with the same effects are the same value, whatever their histories; so the derived
    equality and hash are those of sets. *)
Theorem C25_canonical : forall a b, reachable a -> reachable b ->
  ((forall x, mem a x <-> mem b x) <-> a = b).
Proof. exact eff_canonical. Qed.
Print Assumptions C25_canonical.
Example C25_canonical_ex : reachable (eff_insert (eff_single_variable 70) (Variable_ 3)) /\
  reachable (eff_from_iter [Variable_ 3; Variable_ 70; Variable_ 3]) /\
  eff_insert (eff_single_variable 70) (Variable_ 3) = eff_from_iter [Variable_ 3; Variable_ 70; Variable_ 3].
Proof. split; [|split]; [apply r_insert, r_single_variable|apply r_from_iter|reflexivity]. Qed.

(** Constructors and operations denote the set operations. *)
Theorem C25_constructors : forall x y p v l lp,
  ~ mem eff_empty x /\
  (mem (eff_single y) x <-> x = y) /\
  (mem (eff_single_primitive p) x <-> x = Primitive p) /\
  (mem (eff_single_variable v) x <-> x = Variable_ v) /\
  (mem (eff_multiple_primitive lp) x <-> exists q, x = Primitive q /\ In q lp) /\
  (mem (eff_from_iter l) x <-> In x l).
Proof. exact eff_constructors. Qed.
Print Assumptions C25_constructors.
Example C25_constructors_ex : mem (eff_from_iter [Variable_ 100; Primitive Write; Variable_ 2]) (Variable_ 2).
Proof. reflexivity. Qed.

Theorem C25_insert_union : forall a b x y, reachable a -> reachable b ->
  (mem (eff_insert a y) x <-> x = y \/ mem a x) /\
  (mem (eff_union a b) x <-> mem a x \/ mem b x).
Proof. exact eff_insert_union. Qed.
Print Assumptions C25_insert_union.
Example C25_insert_union_ex : reachable (eff_single_variable 90) /\ reachable (eff_single_variable 5) /\
  mem (eff_union (eff_single_variable 90) (eff_single_variable 5)) (Variable_ 5).
Proof. split; [apply r_single_variable|split; [apply r_single_variable|reflexivity]]. Qed.

(** Substitution replaces every mapped variable by its image and keeps everything else. *)
Theorem C25_instantiate : forall a s x, reachable a -> (forall v t, subst_get s v = Some t -> reachable t) ->
  (mem (eff_instantiate a s) x <->
     (exists p, x = Primitive p /\ mem a x) \/
     (exists v, mem a (Variable_ v) /\
        match subst_get s v with Some t => mem t x | None => x = Variable_ v end)).
Proof. exact eff_instantiate_spec. Qed.
Print Assumptions C25_instantiate.
Example C25_instantiate_ex :
  eff_instantiate (eff_from_iter [Variable_ 1; Variable_ 2]) [(1, eff_single_primitive Read)] =
  eff_from_iter [Primitive Read; Variable_ 2].
Proof. reflexivity. Qed.

(** Iteration lists exactly the effects, each once, in order; the other observers agree with it. *)
Theorem C25_iteration : forall a, reachable a ->
  StronglySorted before (eff_iter a) /\ (forall x, In x (eff_iter a) <-> mem a x) /\
  (eff_is_empty a = true <-> forall x, ~ mem a x) /\
  (eff_has_variables a = true <-> exists v, mem a (Variable_ v)) /\
  (eff_is_only_vars a = true <-> forall p, ~ mem a (Primitive p)).
Proof. exact eff_iteration. Qed.
Print Assumptions C25_iteration.
Example C25_iteration_ex : eff_iter (eff_from_iter [Variable_ 100; Primitive Write; Variable_ 2; Primitive Read]) =
  [Primitive Read; Primitive Write; Variable_ 2; Variable_ 100].
Proof. reflexivity. Qed.

(** The subset test accepts exactly the variable-free subsets; singletons are recognised exactly. *)
Theorem C25_subset_and_singletons : forall a b, reachable a -> reachable b ->
  (eff_is_subset_of a b = true <-> (forall v, ~ mem a (Variable_ v)) /\ forall x, mem a x -> mem b x) /\
  (forall x, eff_as_single a = Some x <-> forall y, mem a y <-> y = x) /\
  (forall v, eff_to_single_variable a = Some v <-> forall y, mem a y <-> y = Variable_ v).
Proof. exact eff_subset_single. Qed.
Print Assumptions C25_subset_and_singletons.
Example C25_subset_and_singletons_ex :
  eff_is_subset_of (eff_single_primitive Read) (eff_from_iter [Primitive Read; Variable_ 2]) = true /\
  eff_is_subset_of (eff_single_variable 2) (eff_from_iter [Primitive Read; Variable_ 2]) = false /\
  eff_as_single (eff_single_variable 70) = Some (Variable_ 70).
Proof. repeat split. Qed.

(** The ordering is a total order compatible with equality. *)
Theorem C25_ordering : forall a b c, reachable a -> reachable b -> reachable c ->
  (eff_compare a b = Eq <-> a = b) /\ eff_compare b a = CompOpp (eff_compare a b) /\
  (eff_compare a b = Lt -> eff_compare b c = Lt -> eff_compare a c = Lt).
Proof. exact eff_ordering. Qed.
Print Assumptions C25_ordering.
Example C25_ordering_ex : eff_compare (eff_single_primitive Read) (eff_single_variable 70) = Lt /\
  eff_compare (eff_single_variable 5) (eff_single_variable 70) = Lt.
Proof. split; reflexivity. Qed.
