(** UTF-8 text as Rust's [str] sees it.  Characters are Unicode scalar values, bytes are integers
    below 256.  These are functions of the Rust standard library, not of [/repo]. *)
From Coq Require Import List Bool Arith ZArith.
Import ListNotations.
Open Scope Z_scope.

(** [char::encode_utf8]. *)
Definition encode (c : Z) : list Z :=
  if c <? 128 then [c]
  else if c <? 2048 then [192 + c / 64; 128 + c mod 64]
  else if c <? 65536 then [224 + c / 4096; 128 + (c / 64) mod 64; 128 + c mod 64]
  else [240 + c / 262144; 128 + (c / 4096) mod 64; 128 + (c / 64) mod 64; 128 + c mod 64].

(** [char::len_utf8] and [char::len_utf16]. *)
Definition len_utf8 (c : Z) : nat :=
  if c <? 128 then 1%nat else if c <? 2048 then 2%nat else if c <? 65536 then 3%nat else 4%nat.
Definition len_utf16 (c : Z) : nat := if c <? 65536 then 1%nat else 2%nat.

(** The bytes of a text. *)
Definition utf8 (s : list Z) : list Z := flat_map encode s.

(** Continuation bytes; [str::is_char_boundary]. *)
Definition continuation (b : Z) : bool := (128 <=? b) && (b <? 192).
Definition is_char_boundary (bytes : list Z) (i : nat) : bool :=
  if Nat.eqb i 0 then true
  else if Nat.leb (length bytes) i then Nat.eqb i (length bytes)
  else negb (continuation (nth i bytes 0)).

(** [str::chars().count()]: the bytes that are not continuation bytes. *)
Definition count_chars (bytes : list Z) : nat := length (filter (fun b => negb (continuation b)) bytes).

(** Unicode scalar values. *)
Definition scalar (c : Z) : Prop := 0 <= c < 55296 \/ 57344 <= c < 1114112.
Definition newline : Z := 10.
