(** Model of the open-addressing hash tables of [src/std/prelude/hash_collections.fer].

    Simplifications, shared by all definitions below:
    - [int] quantities that count buckets or entries ([capacity], [len], [index], [remaining]) are
      natural numbers: a table would have to exceed 2^60 buckets before the 64-bit arithmetic of the
      source could wrap.
    - Arrays of buckets are lists (the ring buffer that implements them is modelled separately in
      [ArrayModel.v]); an out-of-range [buckets[index]] is the explicit outcome [OutOfBounds].
    - The key type is arbitrary, with its [==] ([keqb]) and its [value_hash] ([khash]) as parameters.
    - A set slot is an entry whose value is [tt].
    - A [loop] without exit is the explicit outcome [Loops]; it is reported when a probe has looked at
      one more bucket than the table has, at which point the program state repeats. *)
From Coq Require Import NArith List Bool Arith.
From Verif Require Import ListUtil.
Import ListNotations.

Inductive outcome (A : Type) : Type :=
| Returned (a : A)
| OutOfBounds
| Loops.
Arguments Returned {A} _.
Arguments OutOfBounds {A}.
Arguments Loops {A}.

Definition bind {A B : Type} (x : outcome A) (f : A -> outcome B) : outcome B :=
  match x with Returned a => f a | OutOfBounds => OutOfBounds | Loops => Loops end.

Section Table.
Context {K V : Type} (keqb : K -> K -> bool) (khash : K -> N).

(** hash_collections.fer L13-19 [HashSetSlot], L196-204 [HashMapEntry]. *)
Record entry : Type := mkEntry { e_hash : N; e_key : K; e_val : V }.

(** hash_collections.fer L22-28 [HashSet], L253-260 [HashMap]. *)
Record table : Type := mkTable { buckets : list (option entry); tlen : nat }.

(** hash_collections.fer L42-47 [hash_set_new], L275-281 [hash_map_new]. *)
Definition tab_new : table := mkTable [] 0.

(** hash_collections.fer L495-497. [slot_hash as int] reinterprets the 64 bits ([hash.rs] L206-208),
    and [bit_and] with the non-negative [capacity - 1] does not depend on the sign. *)
Definition bucket_index (slot_hash : N) (capacity : nat) : nat :=
  N.to_nat (N.land slot_hash (N.of_nat (capacity - 1))).

(** hash_collections.fer L524, L573: [bit_and(index + 1, capacity - 1)]. *)
Definition next_index (index capacity : nat) : nat :=
  N.to_nat (N.land (N.of_nat (index + 1)) (N.of_nat (capacity - 1))).

(** hash_collections.fer L499-505. *)
Definition empty_buckets (capacity : nat) : list (option entry) := repeat None capacity.

(** hash_collections.fer L510-525: the loop of [hash_collection_insert_entry]. *)
Fixpoint insert_loop (fuel : nat) (bs : list (option entry)) (index : nat) (e : entry)
  : outcome (list (option entry)) :=
  match fuel with
  | O => Loops
  | S f =>
      match nth_error bs index with
      | None => OutOfBounds
      | Some (Some existing) =>
          if (e_hash existing =? e_hash e)%N && keqb (e_key existing) (e_key e)
          then Returned (upd bs index (Some e))
          else insert_loop f bs (next_index index (length bs)) e
      | Some None => Returned (upd bs index (Some e))
      end
  end.

(** hash_collections.fer L507-526 [hash_collection_insert_entry] (the returned index is unused by
    every caller and dropped). *)
Definition insert_entry (bs : list (option entry)) (e : entry) : outcome (list (option entry)) :=
  insert_loop (S (length bs)) bs (bucket_index (e_hash e) (length bs)) e.

(** hash_collections.fer L531-538: the loop of [hash_collection_rehash]. *)
Fixpoint rehash_loop (old new : list (option entry)) : outcome (list (option entry)) :=
  match old with
  | [] => Returned new
  | Some e :: rest => bind (insert_entry new e) (rehash_loop rest)
  | None :: rest => rehash_loop rest new
  end.

(** hash_collections.fer L528-540. *)
Definition rehash (t : table) (new_capacity : nat) : outcome table :=
  bind (rehash_loop (buckets t) (empty_buckets new_capacity)) (fun bs => Returned (mkTable bs (tlen t))).

(** hash_collections.fer L542-549. *)
Definition reserve_for_insert (t : table) : outcome table :=
  let capacity := length (buckets t) in
  if capacity <=? 0 then rehash t 8
  else if capacity * 2 <=? (tlen t + 1) * 3 then rehash t (capacity * 2)
  else Returned t.

(** hash_collections.fer L559-575: the loop of [hash_collection_find_index_with_hash]. *)
Fixpoint find_loop (remaining : nat) (bs : list (option entry)) (index : nat) (h : N) (k : K)
  : outcome (option nat) :=
  match remaining with
  | O => Returned None
  | S r =>
      match nth_error bs index with
      | None => OutOfBounds
      | Some (Some e) =>
          if (e_hash e =? h)%N && keqb (e_key e) k then Returned (Some index)
          else find_loop r bs (next_index index (length bs)) h k
      | Some None => Returned None
      end
  end.

(** hash_collections.fer L551-576. *)
Definition find_index (t : table) (h : N) (k : K) : outcome (option nat) :=
  let capacity := length (buckets t) in
  if capacity <=? 0 then Returned None
  else find_loop capacity (buckets t) (bucket_index h capacity) h k.

(** hash_collections.fer L284-313 [map_insert]. *)
Definition map_insert (t : table) (k : K) (v : V) : outcome (table * option V) :=
  let h := khash k in
  bind (find_index t h k) (fun existing =>
  match existing with
  | None =>
      bind (reserve_for_insert t) (fun t1 =>
      bind (insert_entry (buckets t1) (mkEntry h k v)) (fun bs =>
      Returned (mkTable bs (tlen t1 + 1), None)))
  | Some index =>
      match nth_error (buckets t) index with
      | None => OutOfBounds
      | Some (Some e) =>
          Returned (mkTable (upd (buckets t) index (Some (mkEntry h k v))) (tlen t), Some (e_val e))
      | Some None => Returned (t, None)
      end
  end).

(** hash_collections.fer L316-330 [map_get]. *)
Definition map_get (t : table) (k : K) : outcome (option V) :=
  bind (find_index t (khash k) k) (fun r =>
  match r with
  | None => Returned None
  | Some index =>
      match nth_error (buckets t) index with
      | None => OutOfBounds
      | Some (Some e) => Returned (Some (e_val e))
      | Some None => Returned None
      end
  end).

(** hash_collections.fer L333-345 [map_contains_key]. *)
Definition map_contains_key (t : table) (k : K) : outcome bool :=
  bind (map_get t k) (fun r => Returned (match r with Some _ => true | None => false end)).

(** hash_collections.fer L348-357 [map_contains_key_value]; [veqb] is the [==] of the value type. *)
Definition map_contains_key_value (veqb : V -> V -> bool) (t : table) (k : K) (v : V) : outcome bool :=
  bind (map_get t k) (fun r => Returned (match r with Some existing => veqb existing v | None => false end)).

(** hash_collections.fer L109-116, L402-410 [len]. *)
Definition tab_len (t : table) : nat := tlen t.

(** hash_collections.fer L80-94 and L372-386: [next] of the set and map iterators, on the iterator
    state (buckets, index). *)
Fixpoint iter_next_loop (fuel : nat) (bs : list (option entry)) (index : nat) : outcome (option entry * nat) :=
  match fuel with
  | O => Loops
  | S f =>
      if length bs <=? index then Returned (None, index)
      else match nth_error bs index with
           | None => OutOfBounds
           | Some (Some e) => Returned (Some e, index + 1)
           | Some None => iter_next_loop f bs (index + 1)
           end
  end.
Definition iter_next (bs : list (option entry)) (index : nat) : outcome (option entry * nat) :=
  iter_next_loop (S (length bs)) bs index.

(** A [for] loop over the collection ([src/desugar/expr.rs] L445-520): [iter] starts at index 0
    (hash_collections.fer L101-106, L394-399), then [next] is called until it returns [None]. The fuel
    bounds the number of calls. *)
Fixpoint iterate_from (fuel : nat) (bs : list (option entry)) (index : nat) : outcome (list entry) :=
  match fuel with
  | O => Loops
  | S f =>
      bind (iter_next bs index) (fun r =>
      match r with
      | (None, _) => Returned []
      | (Some e, index') => bind (iterate_from f bs index') (fun es => Returned (e :: es))
      end)
  end.
Definition iterate (t : table) : outcome (list entry) :=
  iterate_from (S (length (buckets t))) (buckets t) 0.

(** hash_collections.fer L578-589 [hash_collection_eq]: [contain_fn] is applied to each item of the
    left collection in iteration order. *)
Fixpoint all_contained (contain_fn : entry -> outcome bool) (es : list entry) : outcome bool :=
  match es with
  | [] => Returned true
  | e :: rest => bind (contain_fn e) (fun b => if negb b then Returned false else all_contained contain_fn rest)
  end.
Definition collection_eq (contain_fn : table -> entry -> outcome bool) (left right : table) : outcome bool :=
  if negb (tlen left =? tlen right) then Returned false
  else bind (iterate left) (all_contained (contain_fn right)).

(** hash_collections.fer L459-461 (map equality), L359-365 [hash_map_contains_entry]. The map iterator
    yields (key, value) pairs; here the item is the entry itself, of which only key and value are read. *)
Definition map_eq (veqb : V -> V -> bool) (left right : table) : outcome bool :=
  collection_eq (fun t e => map_contains_key_value veqb t (e_key e) (e_val e)) left right.

(** hash_collections.fer L439-450: collecting an iterator of pairs into a map. *)
Fixpoint map_extend (t : table) (l : list (K * V)) : outcome table :=
  match l with
  | [] => Returned t
  | (k, v) :: rest => bind (map_insert t k v) (fun r => map_extend (fst r) rest)
  end.
Definition map_from_iter (l : list (K * V)) : outcome table := map_extend tab_new l.
End Table.

Arguments entry K V : clear implicits.
Arguments table K V : clear implicits.

Section Set_.
Context {K : Type} (keqb : K -> K -> bool) (khash : K -> N).

(** hash_collections.fer L50-65 [set_insert]. *)
Definition set_insert (t : table K unit) (v : K) : outcome (table K unit * bool) :=
  let h := khash v in
  bind (find_index keqb t h v) (fun r =>
  match r with
  | Some _ => Returned (t, false)
  | None =>
      bind (reserve_for_insert keqb t) (fun t1 =>
      bind (insert_entry keqb (buckets t1) (mkEntry h v tt)) (fun bs =>
      Returned (mkTable bs (tlen t1 + 1), true)))
  end).

(** hash_collections.fer L68-74 [set_contains]. *)
Definition set_contains (t : table K unit) (v : K) : outcome bool :=
  bind (find_index keqb t (khash v) v) (fun r =>
  Returned (match r with Some _ => true | None => false end)).

(** hash_collections.fer L161-163 (set equality). *)
Definition set_eq (left right : table K unit) : outcome bool :=
  collection_eq (fun t e => set_contains t (e_key e)) left right.

(** hash_collections.fer L142-153: collecting an iterator into a set. *)
Fixpoint set_extend (t : table K unit) (l : list K) : outcome (table K unit) :=
  match l with
  | [] => Returned t
  | v :: rest => bind (set_insert t v) (fun r => set_extend (fst r) rest)
  end.
Definition set_from_iter (l : list K) : outcome (table K unit) := set_extend tab_new l.
End Set_.
