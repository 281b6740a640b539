(** Reading number literals: the tokens and productions [IntValue] and [UIntValue] of
    [src/parser/parser.lalrpop] L1483-1501, a suffix [.index] of an expression (L973-977),
    [parse_num], [parse_bin_int], [parse_hex_int] and [proj_or_float] of
    [src/parser/helpers.rs] L296-333, L357-376.

    A text is its list of characters.  The generated lexer takes the longest token that matches; the
    other tokens matter only in that none of them starts with a digit.  White space and comments
    between the tokens and further suffixes are left out.  The text of a float is handed to the
    standard library ([f64::from_str], which accepts every such text and rounds it to the nearest
    float); the model keeps the text. *)
From Coq Require Import List Bool ZArith.
From Verif Require Import Decimal.
Import ListNotations.
Open Scope Z_scope.

Definition is_digit (c : Z) : bool := (48 <=? c) && (c <? 58).
Definition is_bit (c : Z) : bool := (48 <=? c) && (c <? 50).
Definition is_hex (c : Z) : bool :=
  is_digit c || ((97 <=? c) && (c <? 103)) || ((65 <=? c) && (c <? 71)).

(** The longest prefix of such characters, and the rest. *)
Fixpoint take_while (p : Z -> bool) (s : list Z) : list Z * list Z :=
  match s with
  | [] => ([], [])
  | c :: s => if p c then let (a, b) := take_while p s in (c :: a, b) else ([], c :: s)
  end.

Inductive token := Decimal (text : list Z) | Binary (text : list Z) | Hexadecimal (text : list Z).

(** L1484: [[1-9][0-9]*|0]. *)
Definition decimal_token (s : list Z) : option (token * list Z) :=
  match s with
  | [] => None
  | c :: s =>
      if c =? 48 then Some (Decimal [c], s)
      else if is_digit c then let (a, b) := take_while is_digit s in Some (Decimal (c :: a), b)
      else None
  end.

(** L1488, L1492: [0b[01]+], [0x[0-9a-fA-F]+]. *)
Definition prefixed_token (letter : Z) (p : Z -> bool) (make : list Z -> token) (s : list Z) : option (token * list Z) :=
  match s with
  | z :: x :: s =>
      if (z =? 48) && (x =? letter) then
        match take_while p s with
        | ([], _) => None
        | (a, b) => Some (make (z :: x :: a), b)
        end
      else None
  | _ => None
  end.

(** The longest of the three. *)
Definition next_token (s : list Z) : option (token * list Z) :=
  match prefixed_token 98 is_bit Binary s with
  | Some r => Some r
  | None =>
      match prefixed_token 120 is_hex Hexadecimal s with
      | Some r => Some r
      | None => decimal_token s
      end
  end.

(** [char::to_digit]. *)
Definition to_digit (base c : Z) : option Z :=
  let d :=
    if (48 <=? c) && (c <? 58) then c - 48
    else if (97 <=? c) && (c <? 123) then c - 87
    else if (65 <=? c) && (c <? 91) then c - 55
    else base in
  if d <? base then Some d else None.

(** [from_str_radix] of the standard library for a type with values up to [max], on a text without a
    sign: checked multiplication and addition. *)
Fixpoint radix_loop (base max : Z) (s : list Z) (acc : Z) : option Z :=
  match s with
  | [] => Some acc
  | c :: s =>
      match to_digit base c with
      | None => None
      | Some d =>
          if max <? acc * base then None
          else if max <? acc * base + d then None
          else radix_loop base max s (acc * base + d)
      end
  end.
Definition from_str_radix (base max : Z) (s : list Z) : option Z :=
  match s with [] => None | _ => radix_loop base max s 0 end.

Definition int_max : Z := 9223372036854775807.
Definition uint_max : Z := 18446744073709551615.

(** [strip_prefix("0b").unwrap_or(s)], and with [0x]. *)
Definition strip_prefix (letter : Z) (s : list Z) : list Z :=
  match s with
  | z :: x :: r => if (z =? 48) && (x =? letter) then r else s
  | _ => s
  end.

(** [parse_num::<isize>], [parse_bin_int], [parse_hex_int].  [None]: too large. *)
Definition int_value (t : token) : option Z :=
  match t with
  | Decimal s => from_str_radix 10 int_max s
  | Binary s => from_str_radix 2 int_max (strip_prefix 98 s)
  | Hexadecimal s => from_str_radix 16 int_max (strip_prefix 120 s)
  end.

(** [format!("{}", n)]. *)
Definition display (n : Z) : list Z := map (Z.add 48) (digits n).

Inductive literal := Int (n : Z) | Float (text : list Z).

(** What reading gives: a literal and the rest of the text, an error, or no number at all. *)
Inductive reading := Read (l : literal) (rest : list Z) | TooLarge | NoNumber.

(** An integer token, and the suffix [.index] if there is one. *)
Definition read_number (s : list Z) : reading :=
  match next_token s with
  | None => NoNumber
  | Some (t, rest) =>
      match int_value t with
      | None => TooLarge
      | Some value =>
          match rest with
          | dot :: after =>
              if dot =? 46 then
                match next_token after with
                | Some (Decimal i, rest') =>
                    match from_str_radix 10 uint_max i with
                    | None => TooLarge
                    | Some index => Read (Float (display value ++ [46] ++ display index)) rest'
                    end
                | _ => Read (Int value) rest
                end
              else Read (Int value) rest
          | [] => Read (Int value) []
          end
      end
  end.
