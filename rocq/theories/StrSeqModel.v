(** Model of strings as sequences of user-perceived characters, [src/std/string.rs]: iteration, slicing, splitting,
    and [join] of the prelude.  The segmentation into grapheme clusters ([unicode-segmentation]) is an
    arbitrary function [seg].  A string is its list of Unicode scalar values, and offsets count them:
    the code counts the bytes of their UTF-8 encoding, which only changes the numbers. *)
From Coq Require Import List Bool Arith ZArith.
From Verif Require Import GraphModel NfcModel StrModel.
Import ListNotations.
Open Scope nat_scope.

(** [&string[start..end]] panics outside the string. *)
Definition str_slice (s : list Z) (a b : nat) : gres (list Z) :=
  if Nat.leb a b && Nat.leb b (length s) then Val (firstn (b - a) (skipn a s)) else Panics.
(** Indexing of a vector. *)
Definition vec_at (v : list nat) (i : nat) : gres nat := match nth_error v i with Some x => Val x | None => Panics end.

Fixpoint text_eqb (a b : list Z) : bool :=
  match a, b with
  | [], [] => true
  | x :: a, y :: b => Z.eqb x y && text_eqb a b
  | _, _ => false
  end.

Section Sequence.
Variable T : tables.
Variable seg : list Z -> list (list Z).

(** [grapheme_count], L191-193. *)
Definition grapheme_count (s : list Z) : nat := length (seg s).

(** [grapheme_indices], L318-320. *)
Fixpoint offsets (gs : list (list Z)) (at_ : nat) : list nat :=
  match gs with [] => [] | g :: gs => at_ :: offsets gs (at_ + length g) end.
Definition grapheme_indices (s : list Z) : list nat := offsets (seg s) 0.

(** [grapheme_boundaries], L322-326. *)
Definition grapheme_boundaries (s : list Z) : list nat := grapheme_indices s ++ [length s].

(** [normalize_index], L225-231. *)
Definition normalize_index (index len : Z) : nat :=
  if (index <? 0)%Z then Z.to_nat (Z.max (len + index) 0) else Nat.min (Z.to_nat index) (Z.to_nat len).

(** [slice], L207-223; [graphemes[start..end]] panics if [end] is outside. *)
Definition slice (s : list Z) (start end_ : Z) : gres (list Z) :=
  let graphemes := seg s in
  let len := Z.of_nat (length graphemes) in
  let start := normalize_index start len in
  let end_ := normalize_index end_ len in
  if Nat.leb end_ start then Val []
  else if Nat.leb end_ (length graphemes) then Val (List.concat (firstn (end_ - start) (skipn start graphemes)))
  else Panics.

(** [StringIterator], L440-444, L309-315 ([iter]) and L474-490 ([next]); [String::from] normalizes. *)
Record string_iterator := StringIterator { it_string : list Z; indices : list nat; position : nat }.
Definition iter (s : list Z) : string_iterator := StringIterator s (grapheme_indices s) 0.
Definition iter_next (it : string_iterator) : gres (option (list Z) * string_iterator) :=
  if Nat.ltb (position it) (length (indices it)) then
    let* start := vec_at (indices it) (position it) in
    let* end_ := if Nat.ltb (position it + 1) (length (indices it)) then vec_at (indices it) (position it + 1)
                 else Val (length (it_string it)) in
    let* part := str_slice (it_string it) start end_ in
    Val (Some (new T part), StringIterator (it_string it) (indices it) (position it + 1))
  else Val (None, it).

(** [StringSplitIterator], L493-501. *)
Record split_iterator := SplitIterator {
  sp_string : list Z; boundaries : list nat; separator : list Z; separator_grapheme_len : nat;
  next_start : nat; finished : bool }.

(** [split_iterator], L328-345; [None] is the failure for an empty separator. *)
Definition split_iter (s sep : list Z) : option split_iterator :=
  match sep with
  | [] => None
  | _ => Some (SplitIterator s (grapheme_boundaries s) sep (grapheme_count sep) 0 false)
  end.

(** [slice_grapheme_range], L506-514. *)
Definition slice_grapheme_range (it : split_iterator) (start end_ : nat) : gres (list Z) :=
  if Nat.leb end_ start then Val []
  else
    let* a := vec_at (boundaries it) start in
    let* b := vec_at (boundaries it) end_ in
    str_slice (sp_string it) a b.

(** [next_separator_start], L516-531. *)
Fixpoint scan (it : split_iterator) (candidates : list nat) : gres (option nat) :=
  match candidates with
  | [] => Val None
  | candidate_start :: rest =>
      let* start := vec_at (boundaries it) candidate_start in
      let* end_ := vec_at (boundaries it) (candidate_start + separator_grapheme_len it) in
      let* part := str_slice (sp_string it) start end_ in
      if text_eqb part (separator it) then Val (Some candidate_start) else scan it rest
  end.
Definition next_separator_start (it : split_iterator) : gres (option nat) :=
  let count := length (boundaries it) - 1 in
  if Nat.ltb (count - next_start it) (separator_grapheme_len it) then Val None
  else
    let last_candidate := count - separator_grapheme_len it in
    scan it (List.seq (next_start it) (S last_candidate - next_start it)).

(** [next], L556-574. *)
Definition split_next (it : split_iterator) : gres (option (list Z) * split_iterator) :=
  if finished it then Val (None, it)
  else
    let* found := next_separator_start it in
    match found with
    | Some separator_start =>
        let* part := slice_grapheme_range it (next_start it) separator_start in
        Val (Some part, SplitIterator (sp_string it) (boundaries it) (separator it) (separator_grapheme_len it)
               (separator_start + separator_grapheme_len it) (finished it))
    | None =>
        let* part := slice_grapheme_range it (next_start it) (length (boundaries it) - 1) in
        Val (Some part, SplitIterator (sp_string it) (boundaries it) (separator it) (separator_grapheme_len it)
               (next_start it) true)
    end.

(** [from_iter] of an array collects the items in order. *)
Fixpoint collect {I : Type} (next : I -> gres (option (list Z) * I)) (fuel : nat) (it : I) : gres (list (list Z)) :=
  match fuel with
  | O => OutOfFuel
  | S fuel =>
      let* (item, it) := next it in
      match item with
      | Some part => let* rest := collect next fuel it in Val (part :: rest)
      | None => Val []
      end
  end.

Definition characters (s : list Z) : gres (list (list Z)) := collect iter_next (S (grapheme_count s)) (iter s).

(** [split], [core_impls_dependent.fer] L77-84 and L176-180; [None] is the failure. *)
Definition split (s sep : list Z) : gres (option (list (list Z))) :=
  match split_iter s sep with
  | None => Val None
  | Some it => let* parts := collect split_next (S (S (grapheme_count s))) it in Val (Some parts)
  end.

(** [join], L54-73, on strings: [concat] is [string_concat]. *)
Definition join (parts : list (list Z)) (sep : list Z) : list Z :=
  match parts with
  | [] => []
  | first :: rest => fold_left (fun acc element => concat T (concat T acc sep) element) rest first
  end.
End Sequence.
