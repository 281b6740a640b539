(** Model of strings: [src/std/string.rs] (building, inspection), [src/parser/escapes.rs] and the string
    token of [src/parser/parser.lalrpop].  A string is its list of characters. *)
From Coq Require Import List Bool Arith ZArith.
From Verif Require Import NfcModel.
Import ListNotations.
Open Scope Z_scope.

Section Strings.
Variable T : tables.

(** [String::new], [string.rs] L101-103; also [StaticStr::new], L68-72. *)
Definition new (s : list Z) : list Z := nfc T s.

(** [String::push_normalized], L165-183, and so [push_str] and [push_static_str]. *)
Definition push_normalized (s value : list Z) : list Z :=
  let needs_normalization := match value with c :: _ => is_combining_mark T c | [] => false end in
  if needs_normalization then nfc T (s ++ value) else s ++ value.

(** [String::concat], L185-187. *)
Definition concat (l r : list Z) : list Z := nfc T (l ++ r).
End Strings.

(** Characters. *)
Definition quote : Z := 34.
Definition backslash : Z := 92.
Definition open_brace : Z := 123.
Definition close_brace : Z := 125.

(** [char::is_control] of the standard library: general category Cc. *)
Definition is_control (c : Z) : bool := (c <? 32) || ((127 <=? c) && (c <? 160)).

(** The digits of [{:x}]; only used for control characters, which are below 160. *)
Definition hex_digit (d : Z) : Z := if d <? 10 then 48 + d else 87 + d.
Definition lower_hex (c : Z) : list Z := if c <? 16 then [hex_digit c] else [hex_digit (c / 16); hex_digit (c mod 16)].

(** The loop of [inspect_string], L643-659. *)
Definition inspect_char (c : Z) : list Z :=
  if c =? 34 then [92; 34]
  else if c =? 92 then [92; 92]
  else if c =? 10 then [92; 110]
  else if c =? 13 then [92; 114]
  else if c =? 9 then [92; 116]
  else if is_control c then [92; 117; 123] ++ lower_hex c ++ [125]
  else [c].
Definition inspect_string (T : tables) (s : list Z) : list Z :=
  new T ([quote] ++ flat_map inspect_char s ++ [quote]).

(** [char::to_digit(16)]. *)
Definition to_digit (c : Z) : option Z :=
  if (48 <=? c) && (c <? 58) then Some (c - 48)
  else if (97 <=? c) && (c <? 103) then Some (c - 87)
  else if (65 <=? c) && (c <? 71) then Some (c - 55)
  else None.

(** [from_str_radix(_, 16)] of an unsigned type with values up to [max]: digits with an optional [+]. *)
Fixpoint radix_loop (max : Z) (s : list Z) (acc : Z) : option Z :=
  match s with
  | [] => Some acc
  | c :: s =>
      match to_digit c with
      | Some d => let acc := acc * 16 + d in if max <? acc then None else radix_loop max s acc
      | None => None
      end
  end.
Definition from_str_radix (max : Z) (s : list Z) : option Z :=
  match s with
  | [] => None
  | [c] => if (c =? 43) || (c =? 45) then None else radix_loop max s 0
  | c :: s' => if c =? 43 then radix_loop max s' 0 else radix_loop max s 0
  end.

(** [char::from_u32]. *)
Definition from_u32 (c : Z) : option Z :=
  if (c <? 55296) || ((57344 <=? c) && (c <? 1114112)) then Some c else None.

(** The text up to a closing brace, and the text after it ([for h in chars.by_ref()], [escapes.rs] L46-52). *)
Fixpoint until_brace (s : list Z) : list Z * list Z :=
  match s with
  | [] => ([], [])
  | c :: s => if c =? close_brace then ([], s) else let (a, b) := until_brace s in (c :: a, b)
  end.

(** [apply_string_escapes], L10-88.  The loop consumes at least one character a round: its fuel is
    the length of the text. *)
Fixpoint escapes_loop (fuel : nat) (s : list Z) : option (list Z) :=
  match s with
  | [] => Some []
  | c :: s =>
      match fuel with
      | O => None
      | S fuel =>
          let next (out rest : list Z) := option_map (app out) (escapes_loop fuel rest) in
          if c =? backslash then
            match s with
            | [] => Some [backslash]
            | e :: s =>
                if e =? 110 then next [10] s
                else if e =? 116 then next [9] s
                else if e =? 114 then next [13] s
                else if e =? backslash then next [backslash] s
                else if e =? quote then next [quote] s
                else if e =? 48 then next [0] s
                else if e =? 120 then
                  let hex := firstn 2 s in
                  match from_str_radix 255 hex with
                  | Some byte => next [byte] (skipn 2 s)
                  | None => next (backslash :: 120 :: hex) (skipn 2 s)
                  end
                else if e =? 117 then
                  match s with
                  | [] => next [backslash; 117] []
                  | b :: s =>
                      if b =? open_brace then
                        let (hex, rest) := until_brace s in
                        let kept := [backslash; 117; open_brace] ++ hex ++ [close_brace] in
                        match from_str_radix 4294967295 hex with
                        | Some cp => match from_u32 cp with Some ch => next [ch] rest | None => next kept rest end
                        | None => next kept rest
                        end
                      else next [backslash; 117] s
                  end
                else next [backslash; e] s
            end
          else next [c] s
      end
  end.
Definition apply_string_escapes (s : list Z) : option (list Z) := escapes_loop (length s) s.

(** [StringToken], [parser.lalrpop] L1507: a quote, characters that are neither quote nor backslash or
    a backslash with any character but a newline, a quote.  The token and the text after it. *)
Fixpoint token_tail (s : list Z) : option (list Z * list Z) :=
  match s with
  | [] => None
  | c :: s =>
      if c =? quote then Some ([c], s)
      else if c =? backslash then
        match s with
        | d :: s => if d =? 10 then None else option_map (fun r => (c :: d :: fst r, snd r)) (token_tail s)
        | [] => None
        end
      else option_map (fun r => (c :: fst r, snd r)) (token_tail s)
  end.
Definition string_token (s : list Z) : option (list Z * list Z) :=
  match s with
  | c :: s => if c =? quote then option_map (fun r => (c :: fst r, snd r)) (token_tail s) else None
  | [] => None
  end.

(** [string_literal], [src/parser/helpers.rs] L284-288: the token without its first and last byte, unescaped. *)
Definition string_literal (T : tables) (token : list Z) : option (list Z) :=
  option_map (new T) (apply_string_escapes (removelast (tl token))).
