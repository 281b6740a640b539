(** Unicode normalization form C, as the [unicode-normalization] crate computes it ([str::nfc]),
    over tables that stand for the Unicode character database.  Text is a list of Unicode scalar values.
    This is library code that [/repo] uses ([src/std/string.rs] L69-72, L101-103, L165-183). *)
From Coq Require Import List Bool Arith ZArith.
Import ListNotations.
Open Scope Z_scope.

(** The tables: full canonical decomposition (without Hangul syllables), combining class,
    primary composites (without Hangul), general category M ([is_combining_mark]). *)
Record tables : Type := Tables {
  decomposition : Z -> list Z;
  ccc : Z -> nat;
  primary : Z -> Z -> option Z;
  is_combining_mark : Z -> bool
}.

Section Nfc.
Variable T : tables.

(** Hangul syllables are decomposed and composed by arithmetic. *)
Definition s_base : Z := 44032.
Definition l_base : Z := 4352.
Definition v_base : Z := 4449.
Definition t_base : Z := 4519.

Definition decompose_char (c : Z) : list Z :=
  if (s_base <=? c) && (c <? s_base + 11172) then
    let i := c - s_base in
    let lv := [l_base + i / 588; v_base + (i mod 588) / 28] in
    if i mod 28 =? 0 then lv else lv ++ [t_base + i mod 28]
  else decomposition T c.

Definition compose_hangul (a b : Z) : option Z :=
  if (l_base <=? a) && (a <? l_base + 19) && (v_base <=? b) && (b <? v_base + 21) then
    Some (s_base + (a - l_base) * 588 + (b - v_base) * 28)
  else if (s_base <=? a) && (a <? s_base + 11172) && ((a - s_base) mod 28 =? 0) && (t_base <? b) && (b <? t_base + 28) then
    Some (a + (b - t_base))
  else None.

Definition compose (a b : Z) : option Z :=
  match compose_hangul a b with
  | Some c => Some c
  | None => primary T a b
  end.

(** Runs of characters with a combining class are sorted by it, stably. *)
Fixpoint insert (c : Z) (l : list Z) : list Z :=
  match l with
  | [] => [c]
  | d :: l => if Nat.leb (ccc T d) (ccc T c) then d :: insert c l else c :: d :: l
  end.
Definition sort (l : list Z) : list Z := fold_left (fun acc c => insert c acc) l [].
Fixpoint reorder (s pending : list Z) : list Z :=
  match s with
  | [] => sort pending
  | c :: s => if Nat.eqb (ccc T c) 0 then sort pending ++ c :: reorder s [] else reorder s (pending ++ [c])
  end.

(** The iterator of the crate: [composee] is the last starter, [buffer] what follows it, and
    [last] the combining class of the last character of the buffer. *)
Fixpoint recompose (s : list Z) (composee : option Z) (buffer : list Z) (last : option nat) : list Z :=
  match s with
  | [] => match composee with Some k => k :: buffer | None => buffer end
  | c :: s =>
      match composee with
      | None => if Nat.eqb (ccc T c) 0 then recompose s (Some c) [] None else c :: recompose s None [] None
      | Some k =>
          match last with
          | None =>
              match compose k c with
              | Some r => recompose s (Some r) buffer last
              | None =>
                  if Nat.eqb (ccc T c) 0 then k :: recompose s (Some c) [] None
                  else recompose s (Some k) (buffer ++ [c]) (Some (ccc T c))
              end
          | Some l =>
              if Nat.leb (ccc T c) l then
                if Nat.eqb (ccc T c) 0 then k :: buffer ++ recompose s (Some c) [] None
                else recompose s (Some k) (buffer ++ [c]) (Some (ccc T c))
              else
                match compose k c with
                | Some r => recompose s (Some r) buffer last
                | None => recompose s (Some k) (buffer ++ [c]) (Some (ccc T c))
                end
          end
      end
  end.

Definition nfc (s : list Z) : list Z := recompose (reorder (flat_map decompose_char s) []) None [] None.
End Nfc.
