(** Model of hashing and structural equality of values.

    Sources: [src/std/hash.rs] (hasher and unordered hasher), [src/std/math.rs], [src/std/logic.rs],
    [src/std/string.rs], [src/std/core.rs] (primitive types), [src/std/value.rs] (derived [eq] and
    [hash] of tuples, records and variants), [src/std/prelude/array.fer] and
    [src/std/prelude/hash_collections.fer] (arrays, sets, maps).

    64-bit words are [N] below 2^64; strings are byte lists. *)
From Coq Require Import NArith ZArith List Bool Arith.
From Verif Require Import HashTabModel.
Import ListNotations.
Open Scope N_scope.

Definition w64 (x : N) : N := x mod 2 ^ 64.

(** [u64::rotate_left(17)]. *)
Definition rotl17 (x : N) : N := w64 (N.lor (N.shiftl x 17) (N.shiftr x 47)).

(** hash.rs L105-116 [mix_word]. *)
Definition mix_word (state word : N) : N :=
  let x := rotl17 (w64 (word + 0x9e3779b97f4a7c15)) in
  let s := N.lxor state x in
  let s := w64 (s * 0xbf58476d1ce4e5b9) in
  let s := N.lxor s (N.shiftr s 32) in
  let s := w64 (s * 0x94d049bb133111eb) in
  N.lxor s (N.shiftr s 29).

(** hash.rs L118-125 [final_mix]. *)
Definition final_mix (x : N) : N :=
  let x := N.lxor x (N.shiftr x 30) in
  let x := w64 (x * 0xbf58476d1ce4e5b9) in
  let x := N.lxor x (N.shiftr x 27) in
  let x := w64 (x * 0x94d049bb133111eb) in
  N.lxor x (N.shiftr x 31).

(** hash.rs L58-66: [Hasher::new], [finish]. The hasher is its state word. *)
Definition hasher_new : N := 0x6e624eb7a3c9b5c1.
Definition hasher_finish (state : N) : N := final_mix state.
(** hash.rs L68-101: the writers. *)
Definition write_u64 (state x : N) : N := mix_word state x.
Definition write_isize (state : N) (x : Z) : N := write_u64 state (Z.to_N (x mod 2 ^ 64)).
Definition write_bool (state : N) (b : bool) : N := write_u64 state (if b then 1 else 0).
Definition write_bytes (state : N) (bytes : list N) : N :=
  fold_left write_u64 bytes (write_u64 state (N.of_nat (length bytes))).
Definition write_hash (state h : N) : N := write_u64 state h.

(** hash.rs L131-164 [UnorderedHasher]: sum, xor, count. *)
Definition unordered : Type := N * N * N.
Definition unordered_new : unordered := (0, 0, 0).
Definition unordered_add (u : unordered) (h : N) : unordered :=
  let '(sum, xor, count) := u in (w64 (sum + h), N.lxor xor h, w64 (count + 1)).
Definition unordered_finish (u : unordered) : N :=
  let '(sum, xor, count) := u in
  hasher_finish (write_u64 (write_u64 (write_u64 hasher_new sum) xor) count).

(** "hash_set" and "hash_map" as bytes. *)
Definition tag_hash_set : list N := [104; 97; 115; 104; 95; 115; 101; 116].
Definition tag_hash_map : list N := [104; 97; 115; 104; 95; 109; 97; 112].

(** hash_collections.fer L621-629 [hash_collection_hash], given the [value_hash] of each item in
    iteration order and the [len] field. *)
Definition collection_hash (tag : list N) (item_hashes : list N) (len : nat) (state : N) : N :=
  let state := write_bytes state tag in
  let acc := fold_left unordered_add item_hashes unordered_new in
  let state := write_hash state (unordered_finish acc) in
  write_isize state (Z.of_nat len).

(** hash_collections.fer L171-173 and L469-471: hashing a set and a map. The items of a map are
    (key, value) pairs, hashed by [item_hash]. *)
Definition set_hash {K} (khash : K -> N) (t : table K unit) (state : N) : outcome N :=
  bind (iterate t) (fun es =>
  Returned (collection_hash tag_hash_set (map (fun e => khash (e_key e)) es) (tlen t) state)).
Definition map_hash {K V} (item_hash : K * V -> N) (t : table K V) (state : N) : outcome N :=
  bind (iterate t) (fun es =>
  Returned (collection_hash tag_hash_map (map (fun e => item_hash (e_key e, e_val e)) es) (tlen t) state)).

(** ** Values
    Records are tuples (value.rs L1753-1758 hashes their fields in type order), named types are their
    shapes (L1764-1797). A variant carries its tag name and, unless the payload type is unit, a
    payload. A set or map is the list of its items in iteration order; C06-C10 relate such lists to the
    tables. Functions, subscripts and native iterators are not modelled (their [==] is constantly
    false, or they are not data). *)
Inductive value : Type :=
| VUnit
| VBool (b : bool)
| VInt (z : Z)
| VFloat (bits : N)
| VString (bytes : list N)
| VTuple (l : list value)
| VArray (l : list value)
| VVariant (tag : list N) (payload : option value)
| VSet (l : list value)
| VMap (l : list (value * value)).

(** Hash: core.rs L57 (unit), logic.rs L80-82, math.rs L297-303, string.rs L596-598, value.rs L1629-1820
    (products, variants), array.fer L40-51, hash_collections.fer L171-173, L469-471. *)
Fixpoint hashv (v : value) (state : N) {struct v} : N :=
  match v with
  | VUnit => state
  | VBool b => write_bool state b
  | VInt z => write_isize state z
  | VFloat bits => write_u64 state bits
  | VString bytes => write_bytes state bytes
  | VTuple l => fold_left (fun st x => hashv x st) l state
  | VArray l => fold_left (fun st x => hashv x st) l (write_isize state (Z.of_nat (length l)))
  | VVariant tag None => write_bytes state tag
  | VVariant tag (Some p) => hashv p (write_bytes state tag)
  | VSet l => collection_hash tag_hash_set (map (fun x => hasher_finish (hashv x hasher_new)) l) (length l) state
  | VMap l =>
      collection_hash tag_hash_map
        (map (fun p => match p with (k, w) => hasher_finish (hashv w (hashv k hasher_new)) end) l) (length l) state
  end.

(** hash_collections.fer L2-9. *)
Definition value_hash (v : value) : N := hasher_finish (hashv v hasher_new).

(** Equality of two finite doubles given by their bits ([lhs == rhs] on [f64], math.rs L305-307): the
    same bits, or both zeros. *)
Definition is_zero_bits (b : N) : bool := (b =? 0) || (b =? 2 ^ 63).
Definition float_eqb (a b : N) : bool := (a =? b) || (is_zero_bits a && is_zero_bits b).

Fixpoint forallb2 {A} (f : A -> A -> bool) (l r : list A) : bool :=
  match l, r with
  | [], [] => true
  | x :: l', y :: r' => f x y && forallb2 f l' r'
  | _, _ => false
  end.

Definition bytes_eqb : list N -> list N -> bool := forallb2 N.eqb.

(** Equality: math.rs L305-307, value.rs L1437-1627 (products left to right, variants by tag then
    payload), array.fer L5-20, hash_collections.fer L161-163, L459-461 with L578-589; membership in the
    right collection compares hashes, then keys ([find_index_with_hash], L566). [fuel] only bounds the
    nesting depth; see [eqv]. *)
Fixpoint eqvn (fuel : nat) (a b : value) : bool :=
  match fuel with
  | O => false
  | S f =>
      match a, b with
      | VUnit, VUnit => true
      | VBool x, VBool y => Bool.eqb x y
      | VInt x, VInt y => (x =? y)%Z
      | VFloat x, VFloat y => float_eqb x y
      | VString x, VString y => bytes_eqb x y
      | VTuple l, VTuple r => forallb2 (eqvn f) l r
      | VArray l, VArray r => (length l =? length r)%nat && forallb2 (eqvn f) l r
      | VVariant s p, VVariant t q =>
          bytes_eqb s t && match p, q with None, None => true | Some x, Some y => eqvn f x y | _, _ => false end
      | VSet l, VSet r =>
          (length l =? length r)%nat &&
          forallb (fun x => existsb (fun y => (value_hash y =? value_hash x) && eqvn f y x) r) l
      | VMap l, VMap r =>
          (length l =? length r)%nat &&
          forallb (fun p => match find (fun q => (value_hash (fst q) =? value_hash (fst p)) && eqvn f (fst q) (fst p)) r with
                            | Some q => eqvn f (snd q) (snd p)
                            | None => false
                            end) l
      | _, _ => false
      end
  end.

Fixpoint depth (v : value) : nat :=
  match v with
  | VTuple l | VArray l | VSet l => S (list_max (map depth l))
  | VVariant _ (Some p) => S (depth p)
  | VMap l => S (list_max (map (fun p => match p with (k, w) => Nat.max (depth k) (depth w) end) l))
  | _ => 1
  end.

(** [a == b]: enough fuel for both operands. *)
Definition eqv (a b : value) : bool := eqvn (Nat.max (depth a) (depth b)) a b.
