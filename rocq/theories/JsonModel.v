(** Model of the JSON format: the renderer of [src/std/prelude/json.fer] and the reader of [src/std/json.rs].
    The events come from the crate [json_event_parser], whose source is not part of the repository: its event
    reader is written here from RFC 8259 (a pushdown automaton over the text), with unpaired surrogate
    escapes as errors.  Failures carry no message.  The host's recursion is unbounded here. *)
From Coq Require Import List Bool Arith ZArith String.
From Verif Require Import NfcModel StrModel DataModel DataTextModel.
Import ListNotations.
Open Scope Z_scope.

(** ** Rendering *)

(** The loop of [escape_json_string], [json.rs] L34-51; control characters are below 160, so the four
    digits of [{:04x}] start with two zeros. *)
Definition json_char (c : Z) : list Z :=
  if c =? 34 then [92; 34]
  else if c =? 92 then [92; 92]
  else if c =? 10 then [92; 110]
  else if c =? 13 then [92; 114]
  else if c =? 9 then [92; 116]
  else if c =? 8 then [92; 98]
  else if c =? 12 then [92; 102]
  else if is_control c then [92; 117; 48; 48; hex_digit (c / 16); hex_digit (c mod 16)]
  else [c].
Definition escape_json_string (T : tables) (s : list Z) : list Z := new T ([34] ++ flat_map json_char s ++ [34]).

Section Render.
Variable T : tables.
Variable F : Type.
Variable float_text : F -> list Z.

(** The loops [for i in 0..array_len(a)] that push a comma after each item but the last.
    An item is pushed piece by piece. *)
Fixpoint push_list (result : list Z) (items : list (list (list Z))) : list Z :=
  match items with
  | [] => result
  | pieces :: items =>
      let result := fold_left (push_normalized T) pieces result in
      match items with [] => result | _ => push_list (push_normalized T result (lit ",")) items end
  end.

(** [sequence_to_json], [json.fer] L1-11; the same shape for records and maps. *)
Definition json_list (open : list Z) (items : list (list (list Z))) (close : list Z) : list Z :=
  push_normalized T (push_list open items) close.

(** [f":{value}"]: the pieces are pushed to an empty string ([desugar/format_string.rs] L108-150). *)
Definition json_field (name value : list Z) : list (list Z) :=
  [escape_json_string T name; push_normalized T (push_normalized T [] (lit ":")) value].
Definition json_pair (key value : list Z) : list (list Z) := [lit "["; key; lit ","; value; lit "]"].

(** [to_json], L14-66. *)
Fixpoint to_json (v : data F) : list Z :=
  match v with
  | Null => lit "null"
  | Unit => lit "null"
  | Bool b => if b then lit "true" else lit "false"
  | Int i => show_int i
  | Float f => float_text f
  | Str s => escape_json_string T s
  | Array l | Tuple l | DSet l => json_list (lit "[") (map (fun v => [to_json v]) l) (lit "]")
  | Rec l => json_list (lit "{") (map (fun e => json_field (fst e) (to_json (snd e))) l) (lit "}")
  | DMap l => json_list (lit "[") (map (fun e => json_pair (to_json (fst e)) (to_json (snd e))) l) (lit "]")
  | Variant_ name payload =>
      let result := push_normalized T (lit "{""type"":") (escape_json_string T name) in
      let result :=
        match payload with
        | Unit => result
        | _ => push_normalized T (push_normalized T result (lit ",""data"":")) (to_json payload)
        end in
      push_normalized T result (lit "}")
  end.
End Render.

(** ** The event reader, after RFC 8259 *)

Inductive event :=
| ENull | EBool (b : bool) | ENumber (text : list Z) | EString (s : list Z)
| EStartArray | EEndArray | EStartObject | EEndObject | EKey (s : list Z) | EEof.

Definition json_space (c : Z) : bool := (c =? 32) || (c =? 9) || (c =? 10) || (c =? 13).
Fixpoint blank (s : list Z) : list Z :=
  match s with c :: s' => if json_space c then blank s' else s | [] => [] end.

(** Section 6: numbers.  At least one digit. *)
Definition some_digits (s : list Z) : option (list Z * list Z) :=
  match take_while is_ascii_digit s with ([], _) => None | (ds, r) => Some (ds, r) end.
Definition json_whole (s : list Z) : option (list Z * list Z) :=
  match s with
  | c :: s' => if c =? 48 then Some ([48], s') else some_digits s
  | [] => None
  end.
Definition json_fraction (s : list Z) : option (list Z * list Z) :=
  match consume 46 s with
  | Some s => option_map (fun '(ds, r) => (46 :: ds, r)) (some_digits s)
  | None => Some ([], s)
  end.
Definition json_exponent (s : list Z) : option (list Z * list Z) :=
  match s with
  | e :: s' =>
      if (e =? 101) || (e =? 69) then
        match s' with
        | c :: s'' =>
            if (c =? 43) || (c =? 45) then option_map (fun '(ds, r) => (e :: c :: ds, r)) (some_digits s'')
            else option_map (fun '(ds, r) => (e :: ds, r)) (some_digits s')
        | [] => None
        end
      else Some ([], s)
  | [] => Some ([], s)
  end.
Definition json_number (s : list Z) : option (list Z * list Z) :=
  let (sign, s) := match consume 45 s with Some s => ([45], s) | None => ([], s) end in
  match json_whole s with
  | None => None
  | Some (whole, s) =>
      match json_fraction s with
      | None => None
      | Some (fraction, s) =>
          match json_exponent s with
          | None => None
          | Some (exponent, s) => Some (sign ++ whole ++ fraction ++ exponent, s)
          end
      end
  end.

(** Section 7: strings. *)
Definition hex4 (s : list Z) : option (Z * list Z) :=
  match s with
  | a :: b :: c :: d :: s =>
      match to_digit a, to_digit b, to_digit c, to_digit d with
      | Some a, Some b, Some c, Some d => Some (((a * 16 + b) * 16 + c) * 16 + d, s)
      | _, _, _, _ => None
      end
  | _ => None
  end.
Definition json_unicode (s : list Z) : option (Z * list Z) :=
  match hex4 s with
  | None => None
  | Some (u, s) =>
      if (55296 <=? u) && (u <? 56320) then
        match s with
        | x :: y :: s =>
            if (x =? 92) && (y =? 117) then
              match hex4 s with
              | Some (w, s) => if (56320 <=? w) && (w <? 57344) then Some (65536 + (u - 55296) * 1024 + (w - 56320), s) else None
              | None => None
              end
            else None
        | _ => None
        end
      else if (56320 <=? u) && (u <? 57344) then None
      else Some (u, s)
  end.
Definition json_escape (s : list Z) : option (Z * list Z) :=
  match s with
  | [] => None
  | c :: s =>
      if (c =? 34) || (c =? 92) || (c =? 47) then Some (c, s)
      else if c =? 98 then Some (8, s)
      else if c =? 102 then Some (12, s)
      else if c =? 110 then Some (10, s)
      else if c =? 114 then Some (13, s)
      else if c =? 116 then Some (9, s)
      else if c =? 117 then json_unicode s
      else None
  end.
(** After the opening quote; at least one character a round. *)
Fixpoint json_string (fuel : nat) (s : list Z) : res (list Z * list Z) :=
  match fuel with
  | O => NoFuel
  | S fuel =>
      match s with
      | [] => Err
      | c :: s =>
          if c =? 34 then Ok ([], s)
          else if c =? 92 then
            let? (x, s) := of_option (json_escape s) in
            let? (out, s) := json_string fuel s in
            Ok (x :: out, s)
          else if c <? 32 then Err
          else
            let? (out, s) := json_string fuel s in
            Ok (c :: out, s)
      end
  end.
Definition json_text (s : list Z) : res (list Z * list Z) := json_string (S (List.length s)) s.

Fixpoint prefix (p s : list Z) : option (list Z) :=
  match p, s with
  | [], _ => Some s
  | x :: p, y :: s => if x =? y then prefix p s else None
  | _ :: _, [] => None
  end.

(** What the reader expects, innermost first: a value; the first item of an array or its end; the rest of an
    array; the first key of an object or its end; the value of a key; the rest of an object. *)
Inductive expects := Element | FirstItem | MoreItems | FirstKey | Member | MoreKeys.
Definition reader : Type := list expects * list Z.

(** Section 3: a value, after blanks; [k] is expected after it. *)
Definition value_event (k : list expects) (s : list Z) : res (event * reader) :=
  match s with
  | [] => Err
  | c :: s' =>
      if c =? 34 then let? (t, r) := json_text s' in Ok (EString t, (k, r))
      else if c =? 91 then Ok (EStartArray, (FirstItem :: k, s'))
      else if c =? 123 then Ok (EStartObject, (FirstKey :: k, s'))
      else if (c =? 45) || is_ascii_digit c then let? (t, r) := of_option (json_number s) in Ok (ENumber t, (k, r))
      else
        match prefix (lit "true") s, prefix (lit "false") s, prefix (lit "null") s with
        | Some r, _, _ => Ok (EBool true, (k, r))
        | _, Some r, _ => Ok (EBool false, (k, r))
        | _, _, Some r => Ok (ENull, (k, r))
        | None, None, None => Err
        end
  end.
(** A key, after blanks. *)
Definition key_event (k : list expects) (s : list Z) : res (event * reader) :=
  let? s := expect 34 s in
  let? (t, r) := json_text s in
  Ok (EKey t, (Member :: k, r)).

Definition parse_next (rd : reader) : res (event * reader) :=
  let (stack, s) := rd in
  let s := blank s in
  match stack with
  | [] => match s with [] => Ok (EEof, ([], [])) | _ => Err end
  | Element :: k => value_event k s
  | FirstItem :: k =>
      match consume 93 s with
      | Some r => Ok (EEndArray, (k, r))
      | None => value_event (MoreItems :: k) s
      end
  | MoreItems :: k =>
      match consume 93 s with
      | Some r => Ok (EEndArray, (k, r))
      | None => let? s := expect 44 s in value_event (MoreItems :: k) (blank s)
      end
  | FirstKey :: k =>
      match consume 125 s with
      | Some r => Ok (EEndObject, (k, r))
      | None => key_event k s
      end
  | Member :: k => let? s := expect 58 s in value_event (MoreKeys :: k) (blank s)
  | MoreKeys :: k =>
      match consume 125 s with
      | Some r => Ok (EEndObject, (k, r))
      | None => let? s := expect 44 s in key_event k (blank s)
      end
  end.

(** ** Reading *)

(** Outcome: a value, a failure the program sees, a host panic. *)
Inductive outcome (A : Type) : Type := Done (a : A) | Fails | HostPanic | Exhausted.
Arguments Done {A} a. Arguments Fails {A}. Arguments HostPanic {A}. Arguments Exhausted {A}.
Definition out_bind {A B : Type} (x : outcome A) (f : A -> outcome B) : outcome B :=
  match x with Done a => f a | Fails => Fails | HostPanic => HostPanic | Exhausted => Exhausted end.
Notation "'let!' x ':=' m 'in' k" := (out_bind m (fun x => k)) (at level 200, x pattern, m at level 100, k at level 200).
(** [next_event], [json.rs] L53-60. *)
Definition next_event (rd : reader) : outcome (event * reader) :=
  match parse_next rd with Ok x => Done x | Err => Fails | NoFuel => Exhausted end.

Section Read.
Variable T : tables.
Variable F : Type.
Variable float_read : list Z -> option F.

(** [ParseResult], L62-68. *)
Inductive presult := PValue (v : data F) | PKey (s : list Z) | PEndArray | PEndObject.

(** The loop of the case [StartArray], L95-105. *)
Fixpoint array_items (stream : reader -> outcome (presult * reader)) (fuel : nat) (rd : reader) : outcome (list (data F) * reader) :=
  match fuel with
  | O => Exhausted
  | S fuel =>
      let! (item, rd) := stream rd in
      match item with
      | PValue v => let! (l, rd) := array_items stream fuel rd in Done (v :: l, rd)
      | PKey _ => HostPanic
      | PEndArray => Done ([], rd)
      | PEndObject => HostPanic
      end
  end.

(** The loop of the case [StartObject], L108-123.  The key is made a string twice. *)
Fixpoint object_fields (stream : reader -> outcome (presult * reader)) (fuel : nat) (rd : reader)
    : outcome (list (list Z * data F) * reader) :=
  match fuel with
  | O => Exhausted
  | S fuel =>
      let! (key_or_end, rd) := stream rd in
      match key_or_end with
      | PValue _ => HostPanic
      | PKey k =>
          let! (item, rd) := stream rd in
          match item with
          | PValue v => let! (l, rd) := object_fields stream fuel rd in Done ((new T k, v) :: l, rd)
          | _ => HostPanic
          end
      | PEndArray => HostPanic
      | PEndObject => Done ([], rd)
      end
  end.

(** What [parse_json_stream] does with an event, L75-131. *)
Definition on_event (stream : reader -> outcome (presult * reader)) (fuel : nat) (ev : event) (rd : reader) : outcome (presult * reader) :=
  match ev with
  | ENull => Done (PValue Null, rd)
  | EBool b => Done (PValue (Bool b), rd)
  | ENumber n =>
      match parse_isize n with
      | Some i => Done (PValue (Int i), rd)
      | None => match float_read n with Some f => Done (PValue (Float f), rd) | None => Fails end
      end
  | EString s => Done (PValue (Str (new T s)), rd)
  | EStartArray => let! (l, rd) := array_items stream fuel rd in Done (PValue (Array l), rd)
  | EEndArray => Done (PEndArray, rd)
  | EStartObject => let! (l, rd) := object_fields stream fuel rd in Done (PValue (Rec l), rd)
  | EEndObject => Done (PEndObject, rd)
  | EKey s => Done (PKey (new T s), rd)
  | EEof => HostPanic
  end.

(** [parse_json_stream], L70-132. *)
Fixpoint parse_json_stream (fuel : nat) (rd : reader) : outcome (presult * reader) :=
  match fuel with
  | O => Exhausted
  | S fuel =>
      let! (ev, rd) := next_event rd in
      on_event (parse_json_stream fuel) fuel ev rd
  end.

(** [parse_json], L134-148. *)
Definition parse_json (s : list Z) : outcome (data F) :=
  let! (value, rd) := parse_json_stream (S (List.length s)) ([Element], s) in
  let! (ev, rd) := next_event rd in
  match ev with
  | EEof => match value with PValue v => Done v | _ => HostPanic end
  | _ => HostPanic
  end.
End Read.
Arguments PValue {F} v. Arguments PKey {F} s. Arguments PEndArray {F}. Arguments PEndObject {F}.
