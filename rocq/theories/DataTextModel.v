(** Model of the data text format: the renderer of [src/std/prelude/data_text.fer] and the parser of
    [src/std/data_text.rs].  The parser's position is the rest of the text; failures carry no message.
    [variant_case_storage] is a layout matter and left out.  The host recursion of the parser and
    of the renderer is not limited by the code (deep nesting overflows the host's stack); here it is unbounded. *)
From Coq Require Import List Bool Arith ZArith String Ascii.
From Verif Require Import GraphModel NfcModel StrModel StrSeqModel Decimal DataModel.
Import ListNotations.
Open Scope Z_scope.

(** Text of a string literal of the program. *)
Definition lit (s : string) : list Z := map (fun a => Z.of_N (N_of_ascii a)) (list_ascii_of_string s).

(** [to_string] of an int ([math.rs] L59-63). *)
Definition show_int (i : Z) : list Z :=
  if i <? 0 then 45 :: map (fun d => 48 + d) (digits (- i)) else map (fun d => 48 + d) (digits i).

(** Outcome of the parser. *)
Inductive res (A : Type) : Type := Ok (a : A) | Err | NoFuel.
Arguments Ok {A} a. Arguments Err {A}. Arguments NoFuel {A}.
Definition res_bind {A B : Type} (x : res A) (f : A -> res B) : res B :=
  match x with Ok a => f a | Err => Err | NoFuel => NoFuel end.
Notation "'let?' x ':=' m 'in' k" := (res_bind m (fun x => k)) (at level 200, x pattern, m at level 100, k at level 200).
Definition of_option {A : Type} (x : option A) : res A := match x with Some a => Ok a | None => Err end.

(** The order of strings: by the bytes of UTF-8, which is the order by scalar values. *)
Fixpoint text_leb (a b : list Z) : bool :=
  match a, b with
  | [], _ => true
  | _ :: _, [] => false
  | x :: a, y :: b => (x <? y) || ((x =? y) && text_leb a b)
  end.

(** [char::is_whitespace]: the White_Space characters of Unicode. *)
Definition is_whitespace (c : Z) : bool :=
  ((9 <=? c) && (c <=? 13)) || (c =? 32) || (c =? 133) || (c =? 160) || (c =? 5760) || ((8192 <=? c) && (c <=? 8202))
  || (c =? 8232) || (c =? 8233) || (c =? 8239) || (c =? 8287) || (c =? 12288).
Definition is_ascii_digit (c : Z) : bool := (48 <=? c) && (c <=? 57).
Definition is_ascii_alphabetic (c : Z) : bool := ((65 <=? c) && (c <=? 90)) || ((97 <=? c) && (c <=? 122)).

(** [data_text.rs] L432-434, L436-438. *)
Definition is_identifier_start (c : Z) : bool := (c =? 95) || is_ascii_alphabetic c.
Definition is_identifier_continue (c : Z) : bool := (c =? 95) || is_ascii_alphabetic c || is_ascii_digit c.

Section DataText.
Variable T : tables.
Variable seg : list Z -> list (list Z).
Variable F : Type.
(** [to_string] of a float, and [str::parse::<f64>] followed by the test [is_finite]. *)
Variable float_text : F -> list Z.
Variable float_read : list Z -> option F.

(** ** Rendering *)

(** [escape_data_text_string], [data_text.rs] L60-77, L85-87. *)
Definition escape_data_text_string (s : list Z) : list Z := new T ([34] ++ flat_map inspect_char s ++ [34]).

(** [data_text.fer] L1-3, L5-7: comparisons of strings. *)
Definition is_data_text_identifier_start (ch : list Z) : bool :=
  text_eqb ch (lit "_") || (text_leb (lit "a") ch && text_leb ch (lit "z")) || (text_leb (lit "A") ch && text_leb ch (lit "Z")).
Definition is_data_text_identifier_continue (ch : list Z) : bool :=
  is_data_text_identifier_start ch || (text_leb (lit "0") ch && text_leb ch (lit "9")).

(** L9-29. *)
Definition is_data_text_identifier (value : list Z) : bool :=
  match characters T seg value with
  | Val (first :: rest) => is_data_text_identifier_start first && forallb is_data_text_identifier_continue rest
  | _ => false
  end.

(** The loops [for i in 0..array_len(values)] that push a comma before each item but the first.
    An item is pushed piece by piece. *)
Fixpoint push_items (first : bool) (result : list Z) (items : list (list (list Z))) : list Z :=
  match items with
  | [] => result
  | pieces :: items =>
      let result := if first then result else push_normalized T result (lit ", ") in
      push_items false (fold_left (push_normalized T) pieces result) items
  end.
Definition singles (texts : list (list Z)) : list (list (list Z)) := map (fun t => [t]) texts.

(** L31-41. *)
Definition join_sequence (texts : list (list Z)) (open close : list Z) : list Z :=
  push_normalized T (push_items true open (singles texts)) close.

(** L43-57; also the shape of records and maps, L85-105 and L107-124. *)
Definition join_braces (open : list Z) (items : list (list (list Z))) : list Z :=
  let result := match items with
                | [] => open
                | _ => push_normalized T (push_items true (push_normalized T open (lit " ")) items) (lit " ")
                end in
  push_normalized T result (lit "}").

(** L59-71. *)
Definition tuple_to_text (texts : list (list Z)) : list Z :=
  let result := push_items true (lit "(") (singles texts) in
  let result := match texts with [_] => push_normalized T result (lit ",") | _ => result end in
  push_normalized T result (lit ")").

(** An entry of a record, L91-99, and of a map, L112-118. *)
Definition record_entry (name text : list Z) : list (list Z) :=
  [if is_data_text_identifier name then name else escape_data_text_string name; lit ": "; text].
Definition map_entry_text (key value : list Z) : list (list Z) := [key; lit " => "; value].

(** [to_data_text], L74-150; [None] is the panic for a variant name that is no identifier.
    The texts of the parts are computed before they are pushed. *)
Fixpoint to_data_text (v : data F) : option (list Z) :=
  let texts := fix texts (l : list (data F)) : option (list (list Z)) :=
    match l with
    | [] => Some []
    | v :: l => match to_data_text v, texts l with Some t, Some ts => Some (t :: ts) | _, _ => None end
    end in
  match v with
  | Null => Some (lit "null")
  | Unit => Some (lit "()")
  | Bool b => Some (if b then lit "true" else lit "false")
  | Int i => Some (show_int i)
  | Float f => Some (float_text f)
  | Str s => Some (escape_data_text_string s)
  | Array l => option_map (fun ts => join_sequence ts (lit "[") (lit "]")) (texts l)
  | Tuple l => option_map tuple_to_text (texts l)
  | Rec l =>
      let entries := fix entries (l : list (list Z * data F)) : option (list (list (list Z))) :=
        match l with
        | [] => Some []
        | (name, v) :: l => match to_data_text v, entries l with Some t, Some ts => Some (record_entry name t :: ts) | _, _ => None end
        end in
      option_map (join_braces (lit "{")) (entries l)
  | DSet l => option_map (fun ts => join_braces (push_normalized T (lit "set") (lit " {")) (singles ts)) (texts l)
  | DMap l =>
      let entries := fix entries (l : list (data F * data F)) : option (list (list (list Z))) :=
        match l with
        | [] => Some []
        | (k, v) :: l =>
            match to_data_text k, to_data_text v, entries l with
            | Some t, Some u, Some ts => Some (map_entry_text t u :: ts)
            | _, _, _ => None
            end
        end in
      option_map (join_braces (lit "map {")) (entries l)
  | Variant_ name payload =>
      if negb (is_data_text_identifier name) then None
      else
        match payload with
        | Unit => Some name
        | Tuple l => option_map (fun ts => push_normalized T (push_items true (push_normalized T name (lit "(")) (singles ts)) (lit ")")) (texts l)
        | _ => option_map (fun t => push_normalized T (push_normalized T (push_normalized T name (lit "(")) t) (lit ")")) (to_data_text payload)
        end
  end.

(** ** Parsing *)

(** [skip_ws_and_comments], [data_text.rs] L146-167, as one pass over the text. *)
Inductive skipping := Blank | Line | Block.
Fixpoint skip (m : skipping) (s : list Z) : res (list Z) :=
  match s with
  | [] => match m with Block => Err | _ => Ok [] end
  | c :: s' =>
      match m with
      | Blank =>
          if is_whitespace c then skip Blank s'
          else if c =? 47 then
            match s' with
            | d :: s'' => if d =? 47 then skip Line s'' else if d =? 42 then skip Block s'' else Ok s
            | [] => Ok s
            end
          else Ok s
      | Line => if c =? 10 then skip Blank s' else skip Line s'
      | Block =>
          match s' with
          | d :: s'' => if (c =? 42) && (d =? 47) then skip Blank s'' else skip Block s'
          | [] => Err
          end
      end
  end.

(** [consume_char], L124-131: the rest after the character, if it is there. *)
Definition consume (c : Z) (s : list Z) : option (list Z) :=
  match s with d :: s => if d =? c then Some s else None | [] => None end.
(** [expect_char], L133-139. *)
Definition expect (c : Z) (s : list Z) : res (list Z) := of_option (consume c s).

(** [while self.peek_char().is_some_and(p) { self.bump_char(); }]. *)
Fixpoint take_while (p : Z -> bool) (s : list Z) : list Z * list Z :=
  match s with
  | [] => ([], [])
  | c :: s' => if p c then let (a, b) := take_while p s' in (c :: a, b) else ([], s)
  end.

(** [parse_identifier], L339-353. *)
Definition parse_identifier (s : list Z) : res (list Z * list Z) :=
  let? s := skip Blank s in
  match s with
  | first :: s' => if is_identifier_start first then let (a, b) := take_while is_identifier_continue s' in Ok (first :: a, b) else Err
  | [] => Err
  end.

(** [parse_escape], L370-396. *)
Definition parse_escape (s : list Z) : res (Z * list Z) :=
  match s with
  | [] => Err
  | ch :: s =>
      if ch =? 34 then Ok (34, s)
      else if ch =? 92 then Ok (92, s)
      else if ch =? 110 then Ok (10, s)
      else if ch =? 114 then Ok (13, s)
      else if ch =? 116 then Ok (9, s)
      else if ch =? 117 then
        let? s := expect 123 s in
        let (digits, s) := take_while (fun c => negb (c =? 125)) s in
        let? s := expect 125 s in
        let? code := of_option (from_str_radix 4294967295 digits) in
        let? c := of_option (from_u32 code) in
        Ok (c, s)
      else Err
  end.

(** The loop of [parse_string], L355-368; at least one character a round. *)
Fixpoint string_loop (fuel : nat) (s : list Z) : res (list Z * list Z) :=
  match fuel with
  | O => NoFuel
  | S fuel =>
      match s with
      | [] => Err
      | ch :: s =>
          if ch =? 34 then Ok ([], s)
          else if ch =? 92 then
            let? (c, s) := parse_escape s in
            let? (out, s) := string_loop fuel s in
            Ok (c :: out, s)
          else
            let? (out, s) := string_loop fuel s in
            Ok (ch :: out, s)
      end
  end.
Definition parse_string (s : list Z) : res (list Z * list Z) :=
  let? s := expect 34 s in string_loop (S (List.length s)) s.

(** [str::parse::<isize>] of a text with at most a minus sign. *)
Definition in_isize (i : Z) : bool := (-9223372036854775808 <=? i) && (i <=? 9223372036854775807).
Definition parse_isize (s : list Z) : option Z :=
  let (negative, ds) := match s with c :: s' => if c =? 45 then (true, s') else (false, s) | [] => (false, s) end in
  match ds with
  | [] => None
  | _ =>
      if forallb is_ascii_digit ds then
        let v := digits_value (map (fun c => c - 48) ds) in
        let v := if negative then - v else v in
        if in_isize v then Some v else None
      else None
  end.

(** [parse_number], L398-430. *)
Definition parse_number (s : list Z) : res (data F * list Z) :=
  let (sign, s) := match consume 45 s with Some s => ([45], s) | None => ([], s) end in
  let (whole, s) := take_while is_ascii_digit s in
  let '(is_float, fraction, s) :=
    match consume 46 s with
    | Some s => let (ds, s) := take_while is_ascii_digit s in (true, 46 :: ds, s)
    | None => (false, [], s)
    end in
  let '(is_float, exponent, s) :=
    match s with
    | e :: s' =>
        if (e =? 101) || (e =? 69) then
          let '(esign, s') := match s' with c :: s'' => if (c =? 43) || (c =? 45) then ([c], s'') else ([], s') | [] => ([], s') end in
          let (ds, s') := take_while is_ascii_digit s' in
          (true, e :: esign ++ ds, s')
        else (is_float, [], s)
    | [] => (is_float, [], s)
    end in
  let text := sign ++ whole ++ fraction ++ exponent in
  if is_float then let? f := of_option (float_read text) in Ok (Float f, s)
  else let? i := of_option (parse_isize text) in Ok (Int i, s).

(** The loops of [parse_sequence] L246-263, [parse_object] L215-244, [parse_map_entries] L315-337 and of the
    tuple in [parse_paren_value] L199-212: items separated by commas up to [close], which is consumed. *)
Fixpoint separated {A : Type} (item : list Z -> res (A * list Z)) (close : Z) (fuel : nat) (s : list Z) : res (list A * list Z) :=
  match fuel with
  | O => NoFuel
  | S fuel =>
      let? s := skip Blank s in
      match consume close s with
      | Some s => Ok ([], s)
      | None =>
          let? (a, s) := item s in
          let? s := skip Blank s in
          match consume 44 s with
          | Some s => let? (l, s) := separated item close fuel s in Ok (a :: l, s)
          | None => let? s := expect close s in Ok ([a], s)
          end
      end
  end.

(** The loop for the arguments of a variant, L287-299. *)
Fixpoint arguments {A : Type} (item : list Z -> res (A * list Z)) (fuel : nat) (s : list Z) : res (list A * list Z) :=
  match fuel with
  | O => NoFuel
  | S fuel =>
      let? (a, s) := item s in
      let? s := skip Blank s in
      match consume 44 s with
      | Some s =>
          let? s := skip Blank s in
          match consume 41 s with
          | Some s => Ok ([a], s)
          | None => let? (l, s) := arguments item fuel s in Ok (a :: l, s)
          end
      | None => let? s := expect 41 s in Ok ([a], s)
      end
  end.

(** An item of [parse_object], L222-231; [data_record_entry] makes the name a string. *)
Definition object_entry (value : list Z -> res (data F * list Z)) (s : list Z) : res ((list Z * data F) * list Z) :=
  let? (name, s) :=
    match s with c :: _ => if c =? 34 then parse_string s else parse_identifier s | [] => parse_identifier s end in
  let? s := skip Blank s in
  let? s := expect 58 s in
  let? (v, s) := value s in
  Ok ((new T name, v), s).

(** An item of [parse_map_entries], L323-331. *)
Definition map_entry (value : list Z -> res (data F * list Z)) (s : list Z) : res ((data F * data F) * list Z) :=
  let? (k, s) := value s in
  let? s := skip Blank s in
  let? s := expect 61 s in
  let? s := expect 62 s in
  let? (v, s) := value s in
  Ok ((k, v), s).

(** [parse_paren_value], L188-213. *)
Definition parse_paren_value (value : list Z -> res (data F * list Z)) (fuel : nat) (s : list Z) : res (data F * list Z) :=
  let? s := expect 40 s in
  let? s := skip Blank s in
  match consume 41 s with
  | Some s => Ok (Unit, s)
  | None =>
      let? (first, s) := value s in
      let? s := skip Blank s in
      match consume 44 s with
      | None =>
          let? s := skip Blank s in
          let? s := expect 41 s in
          Ok (first, s)
      | Some s =>
          let? (rest, s) := separated value 41 fuel s in
          Ok (Tuple (first :: rest), s)
      end
  end.

(** [parse_identifier_value], L265-313. *)
Definition parse_identifier_value (value : list Z -> res (data F * list Z)) (fuel : nat) (s : list Z) : res (data F * list Z) :=
  let? (ident, s) := parse_identifier s in
  if text_eqb ident (lit "null") then Ok (Null, s)
  else if text_eqb ident (lit "true") then Ok (Bool true, s)
  else if text_eqb ident (lit "false") then Ok (Bool false, s)
  else if text_eqb ident (lit "set") then
    let? s := skip Blank s in
    let? s := expect 123 s in
    let? (l, s) := separated value 125 fuel s in
    Ok (DSet l, s)
  else if text_eqb ident (lit "map") then
    let? s := skip Blank s in
    let? s := expect 123 s in
    let? (l, s) := separated (map_entry value) 125 fuel s in
    Ok (DMap l, s)
  else
    let? s := skip Blank s in
    match consume 40 s with
    | Some s =>
        let? s := skip Blank s in
        match consume 41 s with
        | Some s => Ok (Variant_ (new T ident) Unit, s)
        | None =>
            let? (args, s) := arguments value fuel s in
            let payload := match args with [Rec l] => Rec l | _ => Tuple args end in
            Ok (Variant_ (new T ident) payload, s)
        end
    | None => Ok (Variant_ (new T ident) Unit, s)
    end.

(** [parse_value], L169-186. *)
Fixpoint parse_value (fuel : nat) (s : list Z) : res (data F * list Z) :=
  match fuel with
  | O => NoFuel
  | S fuel =>
      let? s := skip Blank s in
      match s with
      | [] => Err
      | c :: s' =>
          if c =? 34 then let? (t, s) := parse_string s in Ok (Str (new T t), s)
          else if c =? 91 then let? (l, s) := separated (parse_value fuel) 93 fuel s' in Ok (Array l, s)
          else if c =? 40 then parse_paren_value (parse_value fuel) fuel s
          else if c =? 123 then let? (l, s) := separated (object_entry (parse_value fuel)) 125 fuel s' in Ok (Rec l, s)
          else if (c =? 45) || is_ascii_digit c then parse_number s
          else if is_identifier_start c then parse_identifier_value (parse_value fuel) fuel s
          else Err
      end
  end.

(** [parse], L102-110. *)
Definition parse_data_text (s : list Z) : res (data F) :=
  let? (v, r) := parse_value (S (List.length s)) s in
  let? r := skip Blank r in
  match r with [] => Ok v | _ => Err end.
End DataText.
