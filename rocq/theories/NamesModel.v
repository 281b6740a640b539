(** Model of the generated names of type, mutability and effect variables, [src/format.rs] L183-220, and
    of the choice of display names, [src/types/type_scheme.rs] L798-886.  Texts are lists of code points. *)
From Coq Require Import ZArith List Bool.
From Verif Require Import Decimal.
Import ListNotations.
Open Scope Z_scope.

Definition text : Type := list Z.
Definition text_eqb (a b : text) : bool := if list_eq_dec Z.eq_dec a b then true else false.

Inductive named (A : Type) : Type :=
| Named (a : A)
| Overflows    (** a [u32] addition overflows in a build with overflow checks *)
| OutOfFuel.
Arguments Named {A} _.
Arguments Overflows {A}.
Arguments OutOfFuel {A}.

Definition two32 : Z := 4294967296.

(** [char::from_u32(c).unwrap_or('_')] *)
Definition char_or_underscore (c : Z) : Z :=
  if ((0 <=? c) && (c <? 0xD800)) || ((0xE000 <=? c) && (c <=? 0x10FFFF)) then c else 95.

(** The decimal notation of [n]. *)
Definition decimal (n : Z) : text := map (fun d => 48 + d) (digits n).

(** format.rs L183-195 [type_variable_index_to_string].  [checked]: whether the build has overflow checks;
    without them [first + index] wraps. *)
Definition type_variable_index_to_string (checked : bool) (index first last : Z) (fallback : text) : named text :=
  if checked && (two32 <=? first + index) then Overflows
  else
    let unicode_char := (first + index) mod two32 in
    if unicode_char <=? last then Named [char_or_underscore unicode_char]
    else Named (fallback ++ decimal (unicode_char - last)).
(** L197-199, L201-203 *)
Definition type_variable_index_to_string_greek (checked : bool) (index : Z) : named text :=
  type_variable_index_to_string checked index 0x3B1 0x3C9 [84].
Definition type_variable_index_to_string_latin (checked : bool) (index : Z) : named text :=
  type_variable_index_to_string checked index 65 89 [90].

(** L205-219 [type_variable_subscript]; [result.insert(0, c)] is [c :: result]. *)
Fixpoint subscript_loop (fuel : nat) (index : Z) (result : text) : named text :=
  match fuel with
  | O => OutOfFuel
  | S f =>
      if 0 <? index then
        let digit := index mod 10 in
        subscript_loop f (index / 10) (0x2080 + digit :: result)
      else Named result
  end.
Definition type_variable_subscript (index : Z) : named text :=
  if index =? 0 then Named [0x2080] else subscript_loop 33 index [].

(** ** Display names *)
Section Display.
(** The candidate name of an index: latin letters for types, ["e" + subscript] for effects. *)
Variable candidate : Z -> named text.
Variable checked : bool.

(** type_scheme.rs L818-827, L866-875: the first free candidate from [index] on. *)
Fixpoint pick (fuel : nat) (used : list text) (index : Z) : named text :=
  match fuel with
  | O => OutOfFuel
  | S f =>
      match candidate index with
      | Named name =>
          if existsb (text_eqb name) used then
            if checked && (two32 <=? index + 1) then Overflows else pick f used ((index + 1) mod two32)
          else Named name
      | Overflows => Overflows
      | OutOfFuel => OutOfFuel
      end
  end.

(** [names.get(q)] on an association list. *)
Fixpoint name_of (names : list (Z * text)) (q : Z) : option text :=
  match names with
  | [] => None
  | (k, n) :: rest => if k =? q then Some n else name_of rest q
  end.

(** L813-828, L861-876: the loop over the sorted quantifiers. *)
Fixpoint choose (quantifiers : list Z) (names : list (Z * text)) (used : list text) : named (list (Z * text)) :=
  match quantifiers with
  | [] => Named names
  | q :: rest =>
      match name_of names q with
      | Some _ => choose rest names used
      | None =>
          match pick (S (length used)) used q with
          | Named name => choose rest ((q, name) :: names) (name :: used)
          | Overflows => Overflows
          | OutOfFuel => OutOfFuel
          end
      end
  end.

(** L806-812 (types: only source parameters that are quantified get an entry; [only] is
    [ty_quantifiers.contains]) and L855-860 (effects: all of them do; [only] is constantly true). *)
Fixpoint source_names (only : Z -> bool) (index : Z) (params : list text) : list (Z * text) :=
  match params with
  | [] => []
  | name :: rest => if only index then (index, name) :: source_names only (index + 1) rest else source_names only (index + 1) rest
  end.
Definition display_names (only : Z -> bool) (sorted_quantifiers : list Z) (params : list text) : named (list (Z * text)) :=
  choose sorted_quantifiers (source_names only 0 params) params.
End Display.

(** L798-830 [display_ty_var_names_with_source_params]. *)
Definition display_ty_var_names (checked : bool) (sorted_quantifiers : list Z) (params : list text) : named (list (Z * text)) :=
  display_names (type_variable_index_to_string_latin checked) checked (fun i => existsb (Z.eqb i) sorted_quantifiers) sorted_quantifiers params.
(** L848-878 [display_eff_var_names_with_source_params]. *)
Definition display_eff_var_names (checked : bool) (sorted_quantifiers : list Z) (params : list text) : named (list (Z * text)) :=
  display_names (fun i => match type_variable_subscript i with Named s => Named (101 :: s) | Overflows => Overflows | OutOfFuel => OutOfFuel end)
    checked (fun _ => true) sorted_quantifiers params.
