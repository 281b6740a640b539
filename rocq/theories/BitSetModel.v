(** Model of the dense bit set, src/containers.rs L30-L268.
    Words are [N] values (kept below 2^64 by the operations); [usize] indices are unbounded [N]. *)
From Coq Require Import NArith List Bool.
From Verif Require Import ListUtil.
Import ListNotations.
Open Scope N_scope.

(** src/containers.rs L31-L36 *)
Inductive bitset := BEmpty | BInline (bits : N) | BHeap (words : list N).

(** `!x` on u64 *)
Definition not64 (x : N) : N := N.lxor (N.ones 64) x.

(** src/containers.rs L264-L268 zeroed_words *)
Definition zeroed_words (len : nat) : list N := repeat 0 len.

(** src/containers.rs L43-L49 with_capacity *)
Definition bs_with_capacity (bits : N) : bitset :=
  if bits <=? 64 then BInline 0 else BHeap (zeroed_words (N.to_nat ((bits + 63) / 64))).

(** The two lines `let word = ..; let bit = ..;` shared by insert, remove and contains. *)
Definition word_of (index : N) : nat := N.to_nat (index / 64).
Definition bit_of (index : N) : N := N.shiftl 1 (index mod 64).

(** src/containers.rs L51-L78 insert.  `new_words[..old.len()].copy_from_slice(&old)` is the
    concatenation of the old words with the remaining zeros. *)
Definition bs_insert (s : bitset) (index : N) : bitset :=
  let word := word_of index in
  let bit := bit_of index in
  match s with
  | BEmpty => if Nat.eqb word 0 then BInline bit
              else BHeap (upd (zeroed_words (S word)) word bit)
  | BInline bits =>
      if Nat.eqb word 0 then BInline (N.lor bits bit)
      else let words := upd (zeroed_words (S word)) 0 bits in
           BHeap (upd words word (N.lor (nth word words 0) bit))
  | BHeap words =>
      if Nat.ltb word (length words) then BHeap (upd words word (N.lor (nth word words 0) bit))
      else let new_words := words ++ zeroed_words (S word - length words) in
           BHeap (upd new_words word (N.lor (nth word new_words 0) bit))
  end.

(** src/containers.rs L80-L93 remove *)
Definition bs_remove (s : bitset) (index : N) : bitset :=
  let word := word_of index in
  let bit := bit_of index in
  match s with
  | BEmpty => BEmpty
  | BInline bits => if Nat.eqb word 0 then BInline (N.land bits (not64 bit)) else BInline bits
  | BHeap words =>
      match nth_error words word with
      | Some w => BHeap (upd words word (N.land w (not64 bit)))
      | None => BHeap words
      end
  end.

(** src/containers.rs L95-L103 contains *)
Definition bs_contains (s : bitset) (index : N) : bool :=
  let word := word_of index in
  let bit := bit_of index in
  match s with
  | BEmpty => false
  | BInline bits => Nat.eqb word 0 && negb (N.land bits bit =? 0)
  | BHeap words => match nth_error words word with
                   | Some w => negb (N.land w bit =? 0)
                   | None => false
                   end
  end.

(** src/containers.rs L168-L177 nonzero_word_len (rposition of a nonzero word, plus one) *)
Fixpoint last_nonzero (words : list N) : nat :=
  match words with
  | [] => 0%nat
  | w :: t => match last_nonzero t with
              | O => if w =? 0 then 0%nat else 1%nat
              | S k => S (S k)
              end
  end.
Definition bs_nonzero_word_len (s : bitset) : nat :=
  match s with
  | BEmpty => 0%nat
  | BInline bits => if bits =? 0 then 0%nat else 1%nat
  | BHeap words => last_nonzero words
  end.

(** src/containers.rs L179-L191 word_at *)
Definition bs_word_at (s : bitset) (index : nat) : N :=
  match s with
  | BEmpty => 0
  | BInline bits => if Nat.eqb index 0 then bits else 0
  | BHeap words => match nth_error words index with Some w => w | None => 0 end
  end.

(** src/containers.rs L105-L107 is_empty *)
Definition bs_is_empty (s : bitset) : bool := Nat.eqb (bs_nonzero_word_len s) 0.

(** u64::count_ones *)
Fixpoint pos_count_ones (p : positive) : nat :=
  match p with xH => 1%nat | xO q => pos_count_ones q | xI q => S (pos_count_ones q) end.
Definition count_ones64 (w : N) : nat := match w with N0 => 0%nat | Npos p => pos_count_ones p end.

(** src/containers.rs L109-L115 len *)
Definition bs_len (s : bitset) : nat :=
  match s with
  | BEmpty => 0%nat
  | BInline bits => count_ones64 bits
  | BHeap words => fold_right (fun w acc => (count_ones64 w + acc)%nat) 0%nat words
  end.

(** Element-wise `*left |= *right` over zip: stops at the shorter operand, keeps the rest of the left. *)
Fixpoint or_zip (a b : list N) : list N :=
  match a, b with
  | x :: a', y :: b' => N.lor x y :: or_zip a' b'
  | _, _ => a
  end.

(** src/containers.rs L117-L142 union_with; [None] is the index-out-of-bounds panic of `a[0]`/`words[0]`
    on an empty heap slice. *)
Definition bs_union_with (s other : bitset) : option bitset :=
  match s, other with
  | _, BEmpty => Some s
  | BEmpty, _ => Some other
  | BInline a, BInline b => Some (BInline (N.lor a b))
  | BHeap a, BInline b =>
      match a with [] => None | h :: t => Some (BHeap (N.lor h b :: t)) end
  | BInline a, BHeap b =>
      match b with [] => None | h :: t => Some (BHeap (N.lor h a :: t)) end
  | BHeap a, BHeap b =>
      let a' := if Nat.ltb (length a) (length b)
                then a ++ zeroed_words (length b - length a) else a in
      Some (BHeap (or_zip a' b))
  end.

Fixpoint any_and (a b : list N) : bool :=
  match a, b with
  | x :: a', y :: b' => negb (N.land x y =? 0) || any_and a' b'
  | _, _ => false
  end.

(** src/containers.rs L144-L154 intersects; [None] as above *)
Definition bs_intersects (s other : bitset) : option bool :=
  match s, other with
  | BEmpty, _ | _, BEmpty => Some false
  | BInline a, BInline b => Some (negb (N.land a b =? 0))
  | BInline a, BHeap b | BHeap b, BInline a =>
      match b with [] => None | h :: _ => Some (negb (N.land a h =? 0)) end
  | BHeap a, BHeap b => Some (any_and a b)
  end.

(** src/containers.rs L194-L202 PartialEq *)
Definition bs_eq (s other : bitset) : bool :=
  let len := bs_nonzero_word_len s in
  if negb (Nat.eqb len (bs_nonzero_word_len other)) then false
  else forallb (fun index => bs_word_at s index =? bs_word_at other index) (seq 0 len).

(** src/containers.rs L206-L214 Hash: the sequence of values fed to the hasher. *)
Definition bs_hash_input (s : bitset) : list N :=
  let len := bs_nonzero_word_len s in
  N.of_nat len :: map (bs_word_at s) (seq 0 len).

(** u64::trailing_zeros *)
Fixpoint pos_trailing_zeros (p : positive) : N :=
  match p with xO q => N.succ (pos_trailing_zeros q) | _ => 0 end.
Definition trailing_zeros (w : N) : N := match w with N0 => 64 | Npos p => pos_trailing_zeros p end.

(** src/containers.rs L216-L225 DenseBitSetOnes *)
Inductive ones_iter := OInline (current : N) | OHeap (words : list N) (word_idx : nat) (current : N).

(** src/containers.rs L156-L166 iter_ones *)
Definition bs_iter_ones (s : bitset) : ones_iter :=
  match s with
  | BEmpty => OInline 0
  | BInline bits => OInline bits
  | BHeap words => OHeap words 0 (match words with w :: _ => w | [] => 0 end)
  end.

(** src/containers.rs L230-L259 next.  The `loop` advances [word_idx] up to the number of words, which is
    the fuel given below; running out of it (impossible, see the proofs) would stop the iteration. *)
Fixpoint ones_loop (fuel : nat) (words : list N) (word_idx : nat) (current : N) : option (N * ones_iter) :=
  if current =? 0 then
    match fuel with
    | O => None
    | S fuel' =>
        let word_idx := S word_idx in
        if Nat.leb (length words) word_idx then None
        else match nth_error words word_idx with
             | Some w => ones_loop fuel' words word_idx w
             | None => None
             end
    end
  else Some (N.of_nat word_idx * 64 + trailing_zeros current,
             OHeap words word_idx (N.land current (current - 1))).
Definition ones_next (it : ones_iter) : option (N * ones_iter) :=
  match it with
  | OInline current =>
      if current =? 0 then None
      else Some (trailing_zeros current, OInline (N.land current (current - 1)))
  | OHeap words word_idx current => ones_loop (S (length words)) words word_idx current
  end.
