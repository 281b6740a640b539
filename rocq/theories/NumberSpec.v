(** What number literals denote (C57). *)
From Coq Require Import List ZArith.
Import ListNotations.
Open Scope Z_scope.

(** The three ways of writing an integer. *)
Inductive base := Ten | Two | Sixteen.

Definition radix (b : base) : Z := match b with Ten => 10 | Two => 2 | Sixteen => 16 end.

(** The character [c] is the digit [d]. *)
Inductive digit_char : base -> Z -> Z -> Prop :=
| numeric : forall b d, 0 <= d < 10 -> d < radix b -> digit_char b (48 + d) d
| lower : forall d, 10 <= d < 16 -> digit_char Sixteen (97 + (d - 10)) d
| upper : forall d, 10 <= d < 16 -> digit_char Sixteen (65 + (d - 10)) d.

(** The number with the given digits: each counts as much as its place. *)
Fixpoint number (r : Z) (ds : list Z) : Z :=
  match ds with
  | [] => 0
  | d :: ds => d * r ^ Z.of_nat (length ds) + number r ds
  end.

(** No digit, or a single zero, or no zero in front. *)
Definition no_leading_zero (ds : list Z) : Prop := ds = [0] \/ exists d ds', ds = d :: ds' /\ d <> 0.

(** [text] writes the digits [ds] in the base: with its prefix, or, in base ten, without a leading
    zero. *)
Inductive spells : base -> list Z -> list Z -> Prop :=
| spells_ten : forall cs ds, Forall2 (digit_char Ten) cs ds -> no_leading_zero ds -> spells Ten cs ds
| spells_two : forall cs ds, Forall2 (digit_char Two) cs ds -> ds <> [] -> spells Two ([48; 98] ++ cs) ds
| spells_sixteen : forall cs ds, Forall2 (digit_char Sixteen) cs ds -> ds <> [] ->
    spells Sixteen ([48; 120] ++ cs) ds.

(** What follows does not belong to the numeral: no further digit, and no point with a digit after it. *)
Definition no_digit_first (b : base) (rest : list Z) : Prop :=
  match rest with
  | [] => True
  | c :: _ => forall d, ~ digit_char b c d
  end.

Definition ends_here (b : base) (rest : list Z) : Prop :=
  no_digit_first b rest /\
  match rest with
  | [] => True
  | c :: after => c <> 98 /\ c <> 120 /\ (c = 46 -> no_digit_first Ten after)
  end.
