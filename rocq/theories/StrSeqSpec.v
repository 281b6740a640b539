(** Specification of strings as sequences of characters (grapheme clusters). *)
From Coq Require Import List Arith ZArith.
From Verif Require Import NfcModel.
Import ListNotations.
Open Scope nat_scope.

(** A segmentation cuts the text into non-empty clusters. *)
Definition segments (seg : list Z -> list (list Z)) (s : list Z) : Prop :=
  List.concat (seg s) = s /\ ~ In [] (seg s).

(** All substrings are normalized: Unicode guarantees this of every normalized string. *)
Definition all_normalized (T : tables) (s : list Z) : Prop := forall p m q, s = p ++ m ++ q -> nfc T m = m.

(** The [k] clusters at position [p] of [gs] spell [sep]. *)
Definition spelled (k : nat) (sep : list Z) (gs : list (list Z)) (p : nat) : Prop :=
  p + k <= length gs /\ List.concat (firstn k (skipn p gs)) = sep.

(** The parts of a left-to-right scan for [sep], which has [k] clusters. *)
Inductive parts_of (k : nat) (sep : list Z) : list (list Z) -> list (list Z) -> Prop :=
| po_last : forall gs, (forall p, ~ spelled k sep gs p) -> parts_of k sep gs [List.concat gs]
| po_part : forall gs p parts, spelled k sep gs p -> (forall q, q < p -> ~ spelled k sep gs q) ->
    parts_of k sep (skipn (p + k) gs) parts -> parts_of k sep gs (List.concat (firstn p gs) :: parts).

(** The text with the separator between the parts. *)
Fixpoint joined (sep : list Z) (parts : list (list Z)) : list Z :=
  match parts with
  | [] => []
  | [p] => p
  | p :: rest => p ++ sep ++ joined sep rest
  end.

(** Positions from the start, or from the end if negative, clamped. *)
Definition resolved (len : nat) (i : Z) : nat :=
  Z.to_nat (Z.min (Z.max (if (i <? 0)%Z then Z.of_nat len + i else i) 0) (Z.of_nat len)).
