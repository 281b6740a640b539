(** Format strings: [src/desugar/format_string.rs] L46-161 [variable_to_string],
    [emit_format_string_ast]; the token [FormattedString] of [src/parser/parser.lalrpop] L1509 and
    [formatted_string] of [src/parser/helpers.rs] L290-294.

    A text is its list of characters; positions in a text are counted in characters and spans in
    bytes, as in the code, where the captures of the regular expression are byte ranges.  The classes
    \p{L} and \p{N} of the [regex] crate are parameters.  The emitted block is a list of appends to a
    fresh string; [Value::to_string] of a variable is its text in the environment. *)
From Coq Require Import List Bool Arith ZArith.
From Verif Require Import NfcModel StrModel Utf8Model.
Import ListNotations.
Open Scope Z_scope.

Section Format.
Variables letter number : Z -> bool.

Definition name_start (c : Z) : bool := letter c || (c =? 95).
Definition name_part (c : Z) : bool := letter c || number c || (c =? 95).

(** How many characters the class takes at the start of the text. *)
Fixpoint run_length (s : list Z) : nat :=
  match s with
  | c :: s => if name_part c then S (run_length s) else O
  | [] => O
  end.

(** The regular expression of L80-81 at the start of a text: the length of the match.  The closing
    brace is in neither class, so the greedy repetition never gives anything back. *)
Definition match_at (s : list Z) : option nat :=
  match s with
  | o :: c :: s =>
      if (o =? open_brace) && name_start c then
        let n := run_length s in
        match nth_error s n with
        | Some e => if e =? close_brace then Some (n + 3)%nat else None
        | None => None
        end
      else None
  | _ => None
  end.

(** [captures_iter]: leftmost matches, each after the end of the one before. *)
Fixpoint captures (s : list Z) (i skip : nat) : list (nat * nat) :=
  match s with
  | [] => []
  | _ :: s' =>
      match skip with
      | S skip => captures s' (S i) skip
      | O =>
          match match_at s with
          | Some n => (i, i + n)%nat :: captures s' (S i) (n - 1)
          | None => captures s' (S i) O
          end
      end
  end.

Definition slice (s : list Z) (a b : nat) : list Z := firstn (b - a) (skipn a s).

(** The byte offset of a character. *)
Definition byte (s : list Z) (i : nat) : nat := length (utf8 (firstn i s)).

Inductive statement :=
| PushLiteral (text : list Z) (from until : nat)
| PushVariable (name : list Z) (from until : nat).

Inductive emitted := Emitted (l : list statement) | Undefined (from until : nat).

Fixpoint same_text (a b : list Z) : bool :=
  match a, b with
  | [], [] => true
  | x :: a, y :: b => (x =? y) && same_text a b
  | _, _ => false
  end.

(** L108-141, and the rest of the text, L143-154. *)
Fixpoint emit_loop (input : list Z) (start_pos : nat) (locals : list (list Z)) (caps : list (nat * nat))
    (last_end : nat) : emitted :=
  match caps with
  | [] =>
      Emitted
        (if (last_end <? length input)%nat then
           [PushLiteral (skipn last_end input) (start_pos + byte input last_end) (start_pos + length (utf8 input))]
         else [])
  | (match_start, match_end) :: caps =>
      let literal :=
        if (last_end <? match_start)%nat then
          [PushLiteral (slice input last_end match_start) (start_pos + byte input last_end)
             (start_pos + byte input match_start)]
        else [] in
      let name := slice input (match_start + 1) (match_end - 1) in
      let from := (start_pos + byte input match_start + 1)%nat in
      let until := (start_pos + byte input match_end - 1)%nat in
      if existsb (same_text name) (rev locals) then
        match emit_loop input start_pos locals caps match_end with
        | Emitted l => Emitted (literal ++ PushVariable name from until :: l)
        | r => r
        end
      else Undefined from until
  end.

(** L73-161; [span_start]: where the token starts. *)
Definition emit_format_string (input : list Z) (span_start : nat) (locals : list (list Z)) : emitted :=
  emit_loop input (span_start + 2) locals (captures input 0 0) 0.

(** helpers.rs L290-294: the token without its first two characters and its last. *)
Definition formatted_string (token : list Z) : option (list Z) :=
  apply_string_escapes (removelast (tl (tl token))).
End Format.

(** The emitted block: an empty string, the appends ([string_push_static_str], [string_push_str]), the
    string. *)
Definition push (T : tables) (env : list Z -> list Z) (s : list Z) (st : statement) : list Z :=
  match st with
  | PushLiteral text _ _ => push_normalized T s (new T text)
  | PushVariable name _ _ => push_normalized T s (env name)
  end.
Definition run_block (T : tables) (env : list Z -> list Z) (l : list statement) : list Z :=
  fold_left (push T env) l (new T []).
