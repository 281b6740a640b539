(** C43: tables of named entries, after any history of insertions, replacements and truncations. *)
From Coq Require Import List Bool Arith ZArith.
From Verif Require Import NamedModel NamedSpec NamedProofs.
Import ListNotations.

Theorem C43_total : forall (T : Type) ops, exists t : table T, run new_table ops = Some t.
Proof. exact (@run_total). Qed.
Print Assumptions C43_total.

(** What is found under a name is the last entry that has it. *)
Theorem C43_by_name : forall (T : Type) ops (t : table T) name id v, run new_table ops = Some t -> get_by_name t name = Some (id, v) ->
  get t id = Some v /\ get_name t id = Some name /\ last_with_name (data t) name id.
Proof. exact (@by_name_sound). Qed.
Print Assumptions C43_by_name.

(** Without truncation every name in the table is found. *)
Theorem C43_by_name_complete_partial : forall (T : Type) ops (t : table T) name i, run new_table ops = Some t -> no_truncate ops -> get_name t i = Some name ->
  exists id v, get_by_name t name = Some (id, v) /\ i <= id.
Proof. exact (@by_name_complete). Qed.
Print Assumptions C43_by_name_complete_partial.

(** With truncation it is not: an entry whose name was given to a later one can no longer be found by name
    once that one is gone. *)
Theorem C43_by_name_complete_refuted : exists ops (t : table Z) name i, run new_table ops = Some t /\ get_name t i = Some name /\ get_by_name t name = None.
Proof.
  exact (ex_intro _ [Insert 7 1%Z; Insert 7 2%Z; Truncate 1] (ex_intro _ (mkTable [(1%Z, Some 7)] []) (ex_intro _ 7 (ex_intro _ 0 (conj eq_refl (conj eq_refl eq_refl)))))).
Qed.
Print Assumptions C43_by_name_complete_refuted.

(** Inserting changes no other id and no other name, and gives the next id. *)
Theorem C43_insert : forall (T : Type) ops (t : table T) name v, run new_table ops = Some t -> let '(t', id) := insert t name v in
  id = length (data t) /\ get t' id = Some v /\ get_name t' id = Some name /\ get_by_name t' name = Some (id, v) /\
  forall n, n <> name -> get_by_name t' n = get_by_name t n.
Proof. exact (@inserted_reachable). Qed.
Print Assumptions C43_insert.

Theorem C43_ids_stable : forall (T : Type) (t : table T) name v i, i < length (data t) ->
  get (fst (insert t name v)) i = get t i /\ get_name (fst (insert t name v)) i = get_name t i /\
  get (fst (insert_anonymous t v)) i = get t i /\ get_name (fst (insert_anonymous t v)) i = get_name t i.
Proof. exact (@ids_stable). Qed.
Print Assumptions C43_ids_stable.

(** Replacing keeps the id, returns the old value, and changes nothing else. *)
Theorem C43_replace : forall (T : Type) ops (t : table T) name v, run new_table ops = Some t -> exists t' id,
  replace t name v = Some (t', (id, option_map snd (get_by_name t name))) /\ get_by_name t' name = Some (id, v) /\
  (forall id' w, get_by_name t name = Some (id', w) -> id = id') /\ forall i, i <> id -> get t' i = get t i /\ get_name t' i = get_name t i.
Proof. exact (@replaced). Qed.
Print Assumptions C43_replace.

Theorem C43_truncate : forall (T : Type) (t : table T) len i,
  (i < len -> get (truncate t len) i = get t i /\ get_name (truncate t len) i = get_name t i) /\
  (len <= i -> get (truncate t len) i = None).
Proof. exact (@truncated). Qed.
Print Assumptions C43_truncate.

Example C43_ex : exists t : table Z, run new_table [Insert 7 1%Z; InsertAnonymous 3%Z; Insert 8 4%Z; Insert 7 2%Z; Replace 8 9%Z; Truncate 3] = Some t /\
  get_by_name t 8 = Some (2, 9%Z) /\ get t 0 = Some 1%Z /\ get_name t 1 = None.
Proof. eexists. vm_compute. repeat split. Qed.
