(** C57: number literals. *)
From Coq Require Import List Bool ZArith Lia.
From Verif Require Import NumberModel NumberSpec NumberProofs.
Import ListNotations.
Open Scope Z_scope.

(** An integer literal in base ten, two or sixteen denotes the number its digits spell, and is
    refused if that number does not fit. *)
Theorem C57_integer : forall b s ds rest, spells b s ds -> ends_here b rest ->
  read_number (s ++ rest) =
  if 2 ^ 63 <=? number (radix b) ds then TooLarge else Read (Int (number (radix b) ds)) rest.
Proof. exact integer_literal. Qed.
Print Assumptions C57_integer.

Example C57_integer_hex : (* 0x7fFFFFFFFFFFFFFF and a bracket *)
  let cs := [55; 102] ++ repeat 70 14 in
  let ds := 7 :: repeat 15 15 in
  spells Sixteen ([48; 120] ++ cs) ds /\
  number 16 ds = 2 ^ 63 - 1 /\
  read_number (([48; 120] ++ cs) ++ [41]) = Read (Int 9223372036854775807) [41].
Proof.
  split; [|split; vm_compute; reflexivity]. apply spells_sixteen; [|discriminate].
  constructor; [apply (numeric Sixteen 7); cbn; lia|]. constructor; [apply (lower 15); lia|].
  cbn [repeat]. repeat (constructor; [apply (upper 15); lia|]). constructor.
Qed.

(** A float literal is the number whose text is the literal: the whole part, the point, the
    fraction.  Missing: fractions with a leading zero, see below. *)
Theorem C57_float_partial : forall a da b db rest, spells Ten a da -> spells Ten b db -> ends_here Ten rest ->
  read_number (a ++ [46] ++ b ++ rest) =
  if (2 ^ 63 <=? number 10 da) || (2 ^ 64 <=? number 10 db) then TooLarge
  else Read (Float (a ++ [46] ++ b)) rest.
Proof. exact float_literal. Qed.
Print Assumptions C57_float_partial.

Example C57_float_case : (* 10.25 *)
  spells Ten [49; 48] [1; 0] /\ spells Ten [50; 53] [2; 5] /\
  read_number [49; 48; 46; 50; 53] = Read (Float [49; 48; 46; 50; 53]) [].
Proof.
  split; [|split; [|vm_compute; reflexivity]];
    (apply spells_ten; [|right; eexists; eexists; split; [reflexivity|lia]]);
    (constructor; [|constructor; [|constructor]]);
    match goal with |- digit_char _ ?c _ => apply (numeric Ten (c - 48)); cbn; lia end.
Qed.

(** A fraction that starts with a zero is cut after that zero: what follows is left over, so the text
    is not one literal.  In particular [1.05] is not. *)
Theorem C57_leading_zero_refuted :
  (forall a da c rest, spells Ten a da -> (exists d, digit_char Ten c d) ->
     exists r, read_number (a ++ [46; 48; c] ++ rest) = r /\
       match r with
       | Read _ left_over => left_over = c :: rest
       | TooLarge => 2 ^ 63 <= number 10 da
       | NoNumber => False
       end) /\
  read_number [49; 46; 48; 53] = Read (Float [49; 46; 48]) [53].
Proof.
  split; [|vm_compute; reflexivity]. intros a da c rest A D. apply (cut_fraction a da); [exact A|].
  apply (class_ok Ten). exact D.
Qed.
Print Assumptions C57_leading_zero_refuted.

(** A fraction with more digits than the largest index is refused: 0.18446744073709551616. *)
Theorem C57_long_fraction_refuted :
  read_number ([48; 46] ++ display (2 ^ 64)) = TooLarge.
Proof. vm_compute. reflexivity. Qed.
Print Assumptions C57_long_fraction_refuted.

(** Every integer but the least is written by a literal, with a minus sign if it is negative; the least
    is not: no literal denotes its opposite. *)
Theorem C57_least_integer_refuted :
  (forall n, Z.abs n < 2 ^ 63 -> read_number (display (Z.abs n)) = Read (Int (Z.abs n)) []) /\
  (forall s n rest, read_number s = Read (Int n) rest -> - n <> - 2 ^ 63).
Proof.
  split.
  - intros n H. apply every_other_written. lia.
  - intros s n rest H. apply read_range in H. lia.
Qed.
Print Assumptions C57_least_integer_refuted.

(** A whole part in another base: 0x10.5 is 16.5. *)
Example C57_hexadecimal_float : read_number [48; 120; 49; 48; 46; 53] = Read (Float [49; 54; 46; 53]) [].
Proof. vm_compute. reflexivity. Qed.

(** A method call on an integer: 12.min is the integer and what follows it. *)
Example C57_integer_method :
  ends_here Ten [46; 109; 105; 110] /\
  read_number [49; 50; 46; 109; 105; 110] = Read (Int 12) [46; 109; 105; 110].
Proof.
  split; [|vm_compute; reflexivity]. assert (N : forall c d, c < 48 \/ 57 < c -> ~ digit_char Ten c d).
  { intros c d C H. destruct (digit_cases _ _ _ H) as (_ & _ & [(K & L)|(K & _)]); [|discriminate].
    pose proof (proj1 (digit_cases _ _ _ H)). lia. }
  split; [intros d; apply N; lia|]. repeat split; try lia. intros _ d. apply N. lia.
Qed.
