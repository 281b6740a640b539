(** Model of source positions: [src/parser/location.rs] and [src/ide/position_index_lookup.rs].
    A source text is its list of characters; offsets are byte offsets into its UTF-8 form.
    Simplification: [usize] and [u32] offsets are natural numbers (texts shorter than 4 GiB). *)
From Coq Require Import List Bool Arith ZArith.
From Verif Require Import GraphModel Utf8Model.
Import ListNotations.
Open Scope nat_scope.

(** [SourceEntry], [location.rs] L233-240, without its name. *)
Record source_entry : Type := SourceEntry { source : list Z; line_starts : list nat }.

(** [str::char_indices]: characters with their byte offsets, from offset [i]. *)
Fixpoint char_indices (s : list Z) (i : nat) : list (nat * Z) :=
  match s with
  | [] => []
  | c :: s => (i, c) :: char_indices s (i + len_utf8 c)
  end.

(** [SourceEntry::new], L242-257. *)
Definition new (text : list Z) : source_entry :=
  SourceEntry (utf8 text)
    (fold_left (fun starts ic => if Z.eqb (snd ic) newline then starts ++ [S (fst ic)] else starts)
               (char_indices text 0) [0]).

(** [floor_char_boundary], L267-273. *)
Fixpoint floor_from (bytes : list Z) (i : nat) : gres nat :=
  if is_char_boundary bytes i then Val i
  else match i with O => Panics | S i => floor_from bytes i end.
Definition floor_char_boundary (e : source_entry) (i : nat) : gres nat :=
  floor_from (source e) (Nat.min i (length (source e))).

(** [ceil_char_boundary], L275-281; the loop runs at most to the end of the text. *)
Fixpoint ceil_from (fuel : nat) (bytes : list Z) (i : nat) : gres nat :=
  match fuel with
  | O => OutOfFuel
  | S fuel => if is_char_boundary bytes i then Val i else ceil_from fuel bytes (S i)
  end.
Definition ceil_char_boundary (e : source_entry) (i : nat) : gres nat :=
  ceil_from (S (length (source e))) (source e) (Nat.min i (length (source e))).

(** Slicing a [str]: panics if an end is not on a character boundary, or if the ends are in the wrong order. *)
Definition slice (bytes : list Z) (a b : nat) : gres (list Z) :=
  if Nat.leb a b && is_char_boundary bytes a && is_char_boundary bytes b
  then Val (firstn (b - a) (skipn a bytes)) else Panics.

(** [get_snippet], L283-289. *)
Definition get_snippet (e : source_entry) (a b : nat) : gres (list Z) :=
  let* a := floor_char_boundary e a in
  let* b := ceil_char_boundary e (Nat.max b a) in
  slice (source e) a b.

(** [slice::binary_search] of the standard library: [Found] or the place to insert. *)
Inductive search_result : Type := Found (i : nat) | Missing (i : nat).
Fixpoint search_loop (fuel : nat) (l : list nat) (x base size : nat) : gres nat :=
  if Nat.leb size 1 then Val base
  else match fuel with
       | O => OutOfFuel
       | S fuel =>
           let half := size / 2 in
           let mid := base + half in
           let* y := rd l mid in
           search_loop fuel l x (if Nat.ltb x y then base else mid) (size - half)
       end.
Definition binary_search (l : list nat) (x : nat) : gres search_result :=
  if Nat.eqb (length l) 0 then Val (Missing 0)
  else
    let* base := search_loop (length l) l x 0 (length l) in
    let* y := rd l base in
    Val (if Nat.eqb y x then Found base else Missing (if Nat.ltb y x then S base else base)).

(** [get_line_column], L292-313. *)
Definition get_line_column (e : source_entry) (i : nat) : gres (nat * nat) :=
  if Nat.ltb (length (source e)) i then Panics
  else
    let* i := floor_char_boundary e i in
    let* r := binary_search (line_starts e) i in
    let line := match r with Found k => S k | Missing k => k end in
    match line with
    | O => Panics
    | S k =>
        let* start := rd (line_starts e) k in
        let* s := slice (source e) start i in
        Val (line, S (count_chars s))
    end.

(** [PositionEncoding] and [PositionIndexLookup], [position_index_lookup.rs] L18-33. *)
Inductive encoding : Type := UnicodeScalar | Utf16CodeUnit.
Record lookup : Type := Lookup { indices : list nat; end_index : nat }.

(** [fill] of a range of a vector: panics if the range is not in it. *)
Definition fill (l : list nat) (a n x : nat) : gres (list nat) :=
  if Nat.leb (a + n) (length l) then Val (firstn a l ++ repeat x n ++ skipn (a + n) l) else Panics.

(** [PositionIndexLookup::new], L35-49. *)
Definition units (e : encoding) (c : Z) : nat :=
  match e with UnicodeScalar => 1 | Utf16CodeUnit => len_utf16 c end.
Fixpoint fill_all (e : encoding) (chars : list (nat * Z)) (l : list nat) (index : nat) : gres lookup :=
  match chars with
  | [] => Val (Lookup l index)
  | (i, c) :: chars =>
      let* l := fill l i (len_utf8 c) index in
      fill_all e chars l (index + units e c)
  end.
Definition new_lookup (text : list Z) (e : encoding) : gres lookup :=
  fill_all e (char_indices text 0) (repeat 0 (length (utf8 text))) 0.

(** [byte_to_position], L52-58. *)
Definition byte_to_position (l : lookup) (i : nat) : gres nat :=
  if Nat.ltb i (length (indices l)) then rd (indices l) i else Val (end_index l).

(** [Location], L61-66, and [Location::fuse], L90-113. *)
Record location : Type := Location { start : nat; end_ : nat; source_id : nat }.
Fixpoint fuse_loop (locations : list location) (id : option nat) (a : option nat) (b : nat) : gres (option location) :=
  match locations with
  | [] =>
      match id, a with
      | Some id, Some a => if Nat.ltb b a then Panics else Val (Some (Location a b id))
      | _, _ => Val None
      end
  | l :: locations =>
      if match id with Some i => negb (Nat.eqb (source_id l) i) | None => false end then Panics
      else fuse_loop locations (Some (match id with Some i => i | None => source_id l end))
             (Some (match a with Some a => Nat.min a (start l) | None => start l end)) (Nat.max b (end_ l))
  end.
(** The initial start, [u32::MAX], is [None] here: it is at least every start. *)
Definition fuse (locations : list location) : gres (option location) := fuse_loop locations None None 0.
