(** C34: recursive type equations. *)
From Coq Require Import List Bool Arith Lia.
From Verif Require Import GraphModel InhabitModel InhabitSpec RecEquationModel RecEquationSpec RecEquationProofs RecEquationValues.
Import ListNotations.

(** An equation [v = root] always gets an answer, and the answer follows the rules: it is accepted
    exactly if no occurrence of [v] is outside a variant payload and some variant on the
    cycle has a payload that does not refer back to [v]; the error names the rule that is violated. *)
Theorem C34_verdict : forall T v root, well_formed T -> mentions T v root -> root < length T ->
  exists r, try_equation T v root = Val r /\
    match r with
    | Accepted => ~ unguarded T v root /\ ending_payload T v root
    | UnguardedCycle => unguarded T v root
    | NoTerminatingPayload => ~ unguarded T v root /\ ~ ending_payload T v root
    end.
Proof. exact try_equation_exact. Qed.
Print Assumptions C34_verdict.

(** A rejected equation whose cycle goes through tuples, records and variants only has no finite value. *)
Theorem C34_rejected_no_value : forall T v root r, well_formed T -> mentions T v root -> root < length T ->
  plain_cycle T v root -> nth_error T root <> Some (TVariable v) ->
  try_equation T v root = Val r -> r <> Accepted -> forall x, ~ has_type (tie T v root) x root.
Proof. exact rejected_no_value. Qed.
Print Assumptions C34_rejected_no_value.

(** An accepted equation has a finite value if every variant of its cycle has a payload that does not
    refer back (the right-hand side is a finite type and all other types on it have values). *)
Theorem C34_accepted_value_partial : forall T v root, well_formed T -> mentions T v root -> root < length T ->
  try_equation T v root = Val Accepted -> not_recursive T root ->
  others_inhabited T (tie T v root) v root ->
  (forall t params shape, on_cycle T v root t -> nth_error T t <> Some (TNamed params shape)) ->
  (forall t ps, on_cycle T v root t -> nth_error T t = Some (TVariant ps) ->
     exists p, In p (map snd ps) /\ ~ mentions T v p) ->
  exists x, has_type (tie T v root) x root.
Proof. exact accepted_value. Qed.
Print Assumptions C34_accepted_value_partial.

(** In particular if there is only one variant on the cycle. *)
Theorem C34_single_variant_value_partial : forall T v root, well_formed T -> mentions T v root -> root < length T ->
  try_equation T v root = Val Accepted -> not_recursive T root ->
  others_inhabited T (tie T v root) v root ->
  (forall t params shape, on_cycle T v root t -> nth_error T t <> Some (TNamed params shape)) ->
  (forall t t' ps ps', on_cycle T v root t -> on_cycle T v root t' ->
     nth_error T t = Some (TVariant ps) -> nth_error T t' = Some (TVariant ps') -> t = t') ->
  exists x, has_type (tie T v root) x root.
Proof. exact accepted_single_variant_value. Qed.
Print Assumptions C34_single_variant_value_partial.

(** In general an accepted equation need not have a value: one variant of the cycle with a payload
    that ends is enough for the check, although all components of a tuple are needed.
    [v = (A(v) | B(v), Leaf(int) | Node(v))] is accepted and has no finite value. *)
Theorem C34_accepted_value_refuted : exists T v root,
  well_formed T /\ mentions T v root /\ root < length T /\ plain_cycle T v root /\
  try_equation T v root = Val Accepted /\ forall x, ~ has_type (tie T v root) x root.
Proof. exact accepted_refuted. Qed.
Print Assumptions C34_accepted_value_refuted.

(** And a rejected equation can have a value: [v = Node([v])], where [Node([])] is one. *)
Theorem C34_rejected_value_refuted : exists T v root,
  well_formed T /\ mentions T v root /\ root < length T /\
  try_equation T v root = Val NoTerminatingPayload /\ exists x, has_type (tie T v root) x root.
Proof. exact rejected_refuted. Qed.
Print Assumptions C34_rejected_value_refuted.


Example C34_example : well_formed list_equation /\ mentions list_equation 7 5 /\
  map (try_equation list_equation 7) [5; 3; 6; 7] = [Val Accepted; Val UnguardedCycle; Val NoTerminatingPayload; Val UnguardedCycle].
Proof. exact list_equation_example. Qed.

(** The hypotheses of the existence theorem hold for the list. *)
Example C34_example_list : exists x, has_type (tie list_equation 7 5) x 5.
Proof. exact list_equation_value. Qed.
