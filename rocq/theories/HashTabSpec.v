(** Specification of the hash collections: a set is described by the list of the elements inserted so
    far, a map by the list of the pairs inserted so far, most recent first. Nothing here knows about
    buckets, hashes or probing. *)
From Coq Require Import NArith List Bool Arith.
From Coq Require Import Sorting.Permutation.
From Verif Require Import HashTabModel.
Import ListNotations.

(** A key type is lawful when [==] is an equivalence and equal keys have equal (64-bit) hashes. *)
Record lawful {K : Type} (keqb : K -> K -> bool) (khash : K -> N) : Prop := {
  law_refl : forall x, keqb x x = true;
  law_sym : forall x y, keqb x y = true -> keqb y x = true;
  law_trans : forall x y z, keqb x y = true -> keqb y z = true -> keqb x z = true;
  law_hash : forall x y, keqb x y = true -> khash x = khash y
}.

Section SetSpec.
Context {K : Type} (keqb : K -> K -> bool).

(** Is an element equal to [x] among those inserted? *)
Definition present (x : K) (inserted : list K) : bool := existsb (fun y => keqb y x) inserted.

(** The inserted elements, without those equal to an element inserted before ([inserted] is most
    recent first). *)
Fixpoint representatives (inserted : list K) : list K :=
  match inserted with
  | [] => []
  | x :: older => if present x older then representatives older else x :: representatives older
  end.

Inductive set_op : Type :=
| SEmpty (** start again from the empty set *)
| SCollect (l : list K) (** start again from the set collected from these elements *)
| SInsert (x : K)
| SContains (x : K)
| SLen.
Inductive set_result : Type :=
| SUnit
| SBool (b : bool)
| SInt (n : nat).

(** What a sequence of operations observes, given the elements inserted so far. *)
Fixpoint set_spec (inserted : list K) (ops : list set_op) : list K * list set_result :=
  match ops with
  | [] => (inserted, [])
  | SEmpty :: rest => let '(i, rs) := set_spec [] rest in (i, SUnit :: rs)
  | SCollect l :: rest => let '(i, rs) := set_spec (rev l) rest in (i, SUnit :: rs)
  | SInsert x :: rest =>
      let '(i, rs) := set_spec (x :: inserted) rest in (i, SBool (negb (present x inserted)) :: rs)
  | SContains x :: rest => let '(i, rs) := set_spec inserted rest in (i, SBool (present x inserted) :: rs)
  | SLen :: rest => let '(i, rs) := set_spec inserted rest in (i, SInt (length (representatives inserted)) :: rs)
  end.

(** The same sequence run by the implementation. *)
Fixpoint set_run (khash : K -> N) (t : table K unit) (ops : list set_op) : outcome (table K unit * list set_result) :=
  match ops with
  | [] => Returned (t, [])
  | op :: rest =>
      bind (match op with
            | SEmpty => Returned (tab_new, SUnit)
            | SCollect l => bind (set_from_iter keqb khash l) (fun t' => Returned (t', SUnit))
            | SInsert x => bind (set_insert keqb khash t x) (fun r => Returned (fst r, SBool (snd r)))
            | SContains x => bind (set_contains keqb khash t x) (fun b => Returned (t, SBool b))
            | SLen => Returned (t, SInt (tab_len t))
            end) (fun '(t', r) =>
      bind (set_run khash t' rest) (fun '(t'', rs) => Returned (t'', r :: rs)))
  end.
End SetSpec.

Section MapSpec.
Context {K V : Type} (keqb : K -> K -> bool) (veqb : V -> V -> bool).

(** The value most recently inserted for a key equal to [k]. *)
Fixpoint lookup (k : K) (inserted : list (K * V)) : option V :=
  match inserted with
  | [] => None
  | (k', v) :: older => if keqb k' k then Some v else lookup k older
  end.

(** The pairs inserted, without those whose key was inserted again later. *)
Fixpoint latest_from (seen : list K) (inserted : list (K * V)) : list (K * V) :=
  match inserted with
  | [] => []
  | (k, v) :: older =>
      if present keqb k seen then latest_from (k :: seen) older else (k, v) :: latest_from (k :: seen) older
  end.
Definition latest : list (K * V) -> list (K * V) := latest_from [].

Inductive map_op : Type :=
| MEmpty
| MCollect (l : list (K * V))
| MInsert (k : K) (v : V)
| MGet (k : K)
| MContainsKey (k : K)
| MContainsKeyValue (k : K) (v : V)
| MLen.
Inductive map_result : Type :=
| MUnit
| MOption (r : option V)
| MBool (b : bool)
| MInt (n : nat).

Definition is_some {A : Type} (o : option A) : bool := match o with Some _ => true | None => false end.

Fixpoint map_spec (inserted : list (K * V)) (ops : list map_op) : list (K * V) * list map_result :=
  match ops with
  | [] => (inserted, [])
  | MEmpty :: rest => let '(i, rs) := map_spec [] rest in (i, MUnit :: rs)
  | MCollect l :: rest => let '(i, rs) := map_spec (rev l) rest in (i, MUnit :: rs)
  | MInsert k v :: rest =>
      let '(i, rs) := map_spec ((k, v) :: inserted) rest in (i, MOption (lookup k inserted) :: rs)
  | MGet k :: rest => let '(i, rs) := map_spec inserted rest in (i, MOption (lookup k inserted) :: rs)
  | MContainsKey k :: rest =>
      let '(i, rs) := map_spec inserted rest in (i, MBool (is_some (lookup k inserted)) :: rs)
  | MContainsKeyValue k v :: rest =>
      let '(i, rs) := map_spec inserted rest in
      (i, MBool (match lookup k inserted with Some w => veqb w v | None => false end) :: rs)
  | MLen :: rest => let '(i, rs) := map_spec inserted rest in (i, MInt (length (latest inserted)) :: rs)
  end.

Fixpoint map_run (khash : K -> N) (t : table K V) (ops : list map_op) : outcome (table K V * list map_result) :=
  match ops with
  | [] => Returned (t, [])
  | op :: rest =>
      bind (match op with
            | MEmpty => Returned (tab_new, MUnit)
            | MCollect l => bind (map_from_iter keqb khash l) (fun t' => Returned (t', MUnit))
            | MInsert k v => bind (map_insert keqb khash t k v) (fun r => Returned (fst r, MOption (snd r)))
            | MGet k => bind (map_get keqb khash t k) (fun r => Returned (t, MOption r))
            | MContainsKey k => bind (map_contains_key keqb khash t k) (fun b => Returned (t, MBool b))
            | MContainsKeyValue k v =>
                bind (map_contains_key_value keqb khash veqb t k v) (fun b => Returned (t, MBool b))
            | MLen => Returned (t, MInt (tab_len t))
            end) (fun '(t', r) =>
      bind (map_run khash t' rest) (fun '(t'', rs) => Returned (t'', r :: rs)))
  end.
End MapSpec.

Arguments set_op K : clear implicits.
Arguments map_op K V : clear implicits.
Arguments map_result V : clear implicits.

(** ** Shape of a table *)
Section Shape.
Context {K V : Type} (khash : K -> N).

Definition occupied (bs : list (option (entry K V))) (i : nat) : Prop := exists e, nth_error bs i = Some (Some e).

(** The buckets visited from the home bucket [h mod capacity] before reaching bucket [i], in order,
    cyclically: [d] of them. *)
Definition probe_distance (capacity : nat) (h : N) (i d : nat) : Prop :=
  d < capacity /\ i = (N.to_nat (h mod N.of_nat capacity) + d) mod capacity.

Definition well_shaped (t : table K V) : Prop :=
  let capacity := length (buckets t) in
  (** the capacity is zero, or a power of two with a free bucket *)
  (capacity = 0 \/ ((exists k, 3 <= k /\ capacity = 2 ^ k) /\ exists i, nth_error (buckets t) i = Some None)) /\
  (** every stored entry carries the hash of its key, and every bucket between its home bucket and its
      own is occupied, so a probe reaches it *)
  (forall i e, nth_error (buckets t) i = Some (Some e) ->
     e_hash e = khash (e_key e) /\
     exists d, probe_distance capacity (e_hash e) i d /\
       forall j, j < d -> occupied (buckets t) ((N.to_nat (e_hash e mod N.of_nat capacity) + j) mod capacity)).
End Shape.
