(** Specifications for C19 (string literals) and C21 (appending). *)
From Coq Require Import List Bool Arith ZArith.
From Verif Require Import NfcModel StrModel.
Import ListNotations.
Open Scope Z_scope.

(** Strings of the language are normalized. *)
Definition normalized (T : tables) (s : list Z) : Prop := nfc T s = s.

(** A character that never joins the text before it: its decomposition starts with a character of
    combining class 0 that is not the second part of any composite. *)
Definition never_joins (T : tables) (c : Z) : Prop :=
  exists d rest, decompose_char T c = d :: rest /\ ccc T d = 0%nat /\ forall k, compose T k d = None.

(** ** String literals *)

Definition digit (c d : Z) : Prop :=
  (48 <= c <= 57 /\ d = c - 48) \/ (97 <= c <= 102 /\ d = c - 97 + 10) \/ (65 <= c <= 70 /\ d = c - 65 + 10).
Inductive hex_value : list Z -> Z -> Prop :=
| hv_nil : hex_value [] 0
| hv_cons : forall c d l v, digit c d -> hex_value l v -> hex_value (c :: l) (d * 16 ^ Z.of_nat (length l) + v).

(** What the body of a well-formed literal denotes. *)
Inductive denotes : list Z -> list Z -> Prop :=
| dn_nil : denotes [] []
| dn_char : forall c l s, c <> 92 -> denotes l s -> denotes (c :: l) (c :: s)
| dn_escape : forall e c l s,
    In (e, c) [(110, 10); (116, 9); (114, 13); (92, 92); (34, 34); (48, 0)] -> denotes l s -> denotes (92 :: e :: l) (c :: s)
| dn_byte : forall h1 h2 v l s, hex_value [h1; h2] v -> denotes l s -> denotes (92 :: 120 :: h1 :: h2 :: l) (v :: s)
| dn_unicode : forall hex v l s, hex <> [] -> hex_value hex v -> (0 <= v < 55296 \/ 57344 <= v < 1114112) -> denotes l s ->
    denotes ([92; 117; 123] ++ hex ++ [125] ++ l) (v :: s).

(** Control characters, quote, backslash and closing brace. *)
Definition separator (c : Z) : Prop := 0 <= c < 32 \/ 127 <= c < 160 \/ c = 34 \/ c = 92 \/ c = 125.

(** Facts of the Unicode character database: ASCII characters are starters that do not decompose and
    are not the second part of a composite; the separators above take no part in composition at all. *)
Record regular (T : tables) : Prop := Regular {
  ascii_plain : forall c, 0 <= c < 128 -> decompose_char T c = [c] /\ ccc T c = 0%nat /\ forall k, compose T k c = None;
  separator_plain : forall c, separator c -> decompose_char T c = [c] /\ ccc T c = 0%nat /\
      (forall k, compose T k c = None) /\ forall k, compose T c k = None;
  separator_only : forall c d, separator c -> In c (decompose_char T d) -> d = c;
  separator_composite : forall a b c, compose T a b = Some c -> ~ separator c
}.

(** No newline, return or tab is followed by a character that could join a letter. *)
Definition no_joined_escape (T : tables) (s : list Z) : Prop :=
  forall p c d q, s = p ++ c :: d :: q -> c = 10 \/ c = 13 \/ c = 9 -> never_joins T d.

(** Reading back: the lexer takes the literal, whatever follows, and its value is the string. *)
Definition reads_as (T : tables) (literal s : list Z) : Prop :=
  forall rest, string_token (literal ++ rest) = Some (literal, rest) /\ string_literal T literal = Some s.
