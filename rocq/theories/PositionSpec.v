(** What source positions mean, for C22. *)
From Coq Require Import List Bool Arith ZArith.
From Verif Require Import Utf8Model PositionModel.
Import ListNotations.
Open Scope nat_scope.

(** The byte offset after a text. *)
Definition offset (p : list Z) : nat := length (utf8 p).

(** [before text i p]: [p] is the text before byte [i]; if [i] lies inside a character, the text
    before that character; if it lies beyond the end, the whole text. *)
Definition before (text : list Z) (i : nat) (p : list Z) : Prop :=
  exists rest, text = p ++ rest /\ offset p <= i /\
    match rest with [] => True | c :: _ => i < offset (p ++ [c]) end.

(** Lines are counted by newlines, columns by the characters after the last newline, both from 1. *)
Definition line_after (p : list Z) : nat := S (count_occ Z.eq_dec p newline).
Definition column_after (p : list Z) (column : nat) : Prop :=
  exists line, column = S (length line) /\ ~ In newline line /\
    (p = line \/ exists earlier, p = earlier ++ newline :: line).

(** Editor positions: the sum of the sizes of the characters. *)
Definition position_after (e : encoding) (p : list Z) : nat :=
  list_sum (map (fun c => match e with
                          | UnicodeScalar => 1
                          | Utf16CodeUnit => if (c <? 65536)%Z then 1 else 2
                          end) p).

(** [covers l m]: the location [l] contains [m]. *)
Definition covers (l m : location) : Prop := source_id l = source_id m /\ start l <= start m /\ end_ m <= end_ l.
