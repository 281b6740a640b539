From Coq Require Import List Bool ZArith Lia.
From Verif Require Import Decimal NumberModel NumberSpec.
Import ListNotations.
Open Scope Z_scope.

Lemma digit_cases : forall b c d, digit_char b c d ->
  0 <= d < radix b /\ NumberModel.to_digit (radix b) c = Some d /\
  (c = 48 + d /\ d < 10 \/ b = Sixteen /\ 10 <= d < 16 /\ (c = 87 + d \/ c = 55 + d)).
Proof.
  intros b c d H. destruct H as [b d H L|d H|d H].
  - split; [lia|]. split; [|left; lia]. unfold to_digit.
    replace ((48 <=? 48 + d) && (48 + d <? 58)) with true by lia. replace (48 + d - 48) with d by lia.
    destruct (Z.ltb_spec d (radix b)); [reflexivity|lia].
  - cbn [radix]. split; [lia|]. split; [|right; split; [reflexivity|lia]]. unfold to_digit.
    replace ((48 <=? 97 + (d - 10)) && (97 + (d - 10) <? 58)) with false by lia.
    replace ((97 <=? 97 + (d - 10)) && (97 + (d - 10) <? 123)) with true by lia.
    replace (97 + (d - 10) - 87) with d by lia. destruct (Z.ltb_spec d 16); [reflexivity|lia].
  - cbn [radix]. split; [lia|]. split; [|right; split; [reflexivity|lia]]. unfold to_digit.
    replace ((48 <=? 65 + (d - 10)) && (65 + (d - 10) <? 58)) with false by lia.
    replace ((97 <=? 65 + (d - 10)) && (65 + (d - 10) <? 123)) with false by lia.
    replace ((65 <=? 65 + (d - 10)) && (65 + (d - 10) <? 91)) with true by lia.
    replace (65 + (d - 10) - 55) with d by lia. destruct (Z.ltb_spec d 16); [reflexivity|lia].
Qed.

Definition class (b : base) : Z -> bool := match b with Ten => is_digit | Two => is_bit | Sixteen => is_hex end.

Lemma class_ok : forall b c, class b c = true <-> exists d, digit_char b c d.
Proof.
  intros b c. split.
  - intros H. destruct b; cbn [class] in H.
    + unfold is_digit in H. exists (c - 48). replace c with (48 + (c - 48)) at 1 by lia. constructor; cbn [radix]; lia.
    + unfold is_bit in H. exists (c - 48). replace c with (48 + (c - 48)) at 1 by lia. constructor; cbn [radix]; lia.
    + unfold is_hex, is_digit in H. apply orb_true_iff in H. destruct H as [H|H]; [apply orb_true_iff in H; destruct H as [H|H]|].
      * exists (c - 48). replace c with (48 + (c - 48)) at 1 by lia. constructor; cbn [radix]; lia.
      * exists (c - 87). replace c with (97 + (c - 87 - 10)) at 1 by lia. constructor; lia.
      * exists (c - 55). replace c with (65 + (c - 55 - 10)) at 1 by lia. constructor; lia.
  - intros (d & H). destruct (digit_cases _ _ _ H) as (R & _ & [(-> & L)|(-> & L & E)]).
    + destruct b; cbn [class radix] in *; unfold is_hex, is_digit, is_bit; try lia.
    + cbn [class]. unfold is_hex, is_digit. lia.
Qed.

Lemma take_while_ok : forall b cs ds rest, Forall2 (digit_char b) cs ds ->
  match rest with [] => True | c :: _ => forall d, ~ digit_char b c d end ->
  take_while (class b) (cs ++ rest) = (cs, rest).
Proof.
  intros b cs ds rest H E. induction H as [|c d cs ds X H IH].
  - cbn [app]. destruct rest as [|c rest]; [reflexivity|]. cbn [take_while].
    destruct (class b c) eqn:K; [|reflexivity]. apply class_ok in K. destruct K as (d & K). destruct (E d K).
  - cbn [app take_while]. assert (class b c = true) as -> by (apply class_ok; eauto). rewrite IH. reflexivity.
Qed.

Lemma number_app : forall r ds d, number r (ds ++ [d]) = number r ds * r + d.
Proof.
  induction ds as [|x ds IH]; intros d; [cbn [app number length]; lia|].
  cbn [app number]. rewrite IH, app_length. cbn [length]. rewrite Nat2Z.inj_add. cbn [Z.of_nat].
  change (Z.of_nat 1) with 1. rewrite Z.pow_add_r by lia. rewrite Z.pow_1_r. ring.
Qed.

Lemma number_nonneg : forall b ds, Forall (fun d => 0 <= d < radix b) ds -> 0 <= number (radix b) ds.
Proof.
  intros b ds H. induction H as [|d ds D H IH]; [cbn [number]; lia|]. cbn [number].
  assert (0 < radix b) by (destruct b; cbn; lia). assert (0 < radix b ^ Z.of_nat (length ds)) by (apply Z.pow_pos_nonneg; lia).
  nia.
Qed.

Lemma digits_in_range : forall b cs ds, Forall2 (digit_char b) cs ds -> Forall (fun d => 0 <= d < radix b) ds.
Proof.
  intros b cs ds H. induction H as [|c d cs ds X H IH]; constructor; [|exact IH]. apply (digit_cases _ _ _ X).
Qed.

Lemma radix_loop_ok : forall b max cs ds, Forall2 (digit_char b) cs ds -> forall pre, Forall (fun d => 0 <= d < radix b) pre ->
  number (radix b) pre <= max ->
  radix_loop (radix b) max cs (number (radix b) pre) =
  if max <? number (radix b) (pre ++ ds) then None else Some (number (radix b) (pre ++ ds)).
Proof.
  intros b max cs ds H. induction H as [|c d cs ds X H IH]; intros pre P L.
  - cbn [radix_loop]. rewrite app_nil_r. destruct (Z.ltb_spec max (number (radix b) pre)); [lia|reflexivity].
  - cbn [radix_loop]. destruct (digit_cases _ _ _ X) as (R & -> & _). rewrite <- number_app.
    assert (P' : Forall (fun d => 0 <= d < radix b) (pre ++ [d])) by (apply Forall_app; split; [exact P|]; constructor; [exact R|constructor]).
    replace (pre ++ d :: ds) with ((pre ++ [d]) ++ ds) by (rewrite <- app_assoc; reflexivity).
    assert (G : number (radix b) (pre ++ [d]) <= number (radix b) ((pre ++ [d]) ++ ds)).
    { assert (GE : forall q, Forall (fun d => 0 <= d < radix b) q -> forall l, Forall (fun d => 0 <= d < radix b) l ->
        number (radix b) q <= number (radix b) (q ++ l)).
      { intros q Q l. revert q Q. induction l as [|y l IHl]; intros q Q F; [rewrite app_nil_r; lia|].
        replace (q ++ y :: l) with ((q ++ [y]) ++ l) by (rewrite <- app_assoc; reflexivity).
        transitivity (number (radix b) (q ++ [y])).
        - rewrite number_app. pose proof (number_nonneg b q Q). pose proof (Forall_inv F) as Y; cbv beta in Y.
          assert (1 < radix b) by (destruct b; cbn; lia). nia.
        - apply IHl; [|apply (Forall_inv_tail F)]. apply Forall_app. split; [exact Q|]. constructor; [apply (Forall_inv F)|constructor]. }
      apply GE; [exact P'|]. apply digits_in_range with (1 := H). }
    pose proof (number_app (radix b) pre d) as N.
    destruct (Z.ltb_spec max (number (radix b) pre * radix b)) as [M|M].
    + destruct (Z.ltb_spec max (number (radix b) ((pre ++ [d]) ++ ds))); [reflexivity|lia].
    + destruct (Z.ltb_spec max (number (radix b) (pre ++ [d]))) as [M2|M2].
      * destruct (Z.ltb_spec max (number (radix b) ((pre ++ [d]) ++ ds))); [reflexivity|lia].
      * apply IH; [exact P'|exact M2].
Qed.

Lemma from_str_radix_ok : forall b max cs ds, 0 <= max -> Forall2 (digit_char b) cs ds -> ds <> [] ->
  from_str_radix (radix b) max cs =
  if max <? number (radix b) ds then None else Some (number (radix b) ds).
Proof.
  intros b max cs ds M H N. unfold from_str_radix. destruct cs as [|c cs].
  - inversion H; subst. destruct (N eq_refl).
  - apply (radix_loop_ok b max _ _ H []); [constructor|cbn [number]; lia].
Qed.

(** The token of a numeral. *)
Definition token_of (b : base) (s : list Z) : token :=
  match b with Ten => Decimal s | Two => Binary s | Sixteen => Hexadecimal s end.

Lemma next_token_ok : forall b s ds rest, spells b s ds ->
  match rest with [] => True | c :: _ => c <> 98 /\ c <> 120 /\ (b = Ten /\ ds = [0] \/ forall d, ~ digit_char b c d) end ->
  next_token (s ++ rest) = Some (token_of b s, rest).
Proof.
  intros b s ds rest H E. unfold next_token. destruct H as [cs ds F Z0|cs ds F N|cs ds F N]; cbn [token_of].
  - assert (P : forall letter p mk, letter = 98 \/ letter = 120 -> prefixed_token letter p mk (cs ++ rest) = None).
    { intros letter p mk L. destruct F as [|c d cs ds X F].
      - destruct Z0 as [Z0|(d & l & Z0 & _)]; discriminate.
      - cbn [app prefixed_token]. destruct (cs ++ rest) as [|x r] eqn:R; [reflexivity|].
        destruct ((c =? 48) && (x =? letter)) eqn:K; [|reflexivity]. exfalso. apply andb_true_iff in K. destruct K as (K1 & K2).
        apply Z.eqb_eq in K1, K2. subst c x. destruct F as [|c' d' cs ds X' F].
        + cbn [app] in R. subst rest. destruct E as (E1 & E2 & _). lia.
        + cbn [app] in R. injection R as -> R. destruct (digit_cases _ _ _ X') as (_ & _ & [(K & L2)|(K & _)]); [lia|discriminate]. }
    rewrite (P 98 is_bit Binary), (P 120 is_hex Hexadecimal) by auto. clear P.
    destruct F as [|c d cs ds X F]; [destruct Z0 as [Z0|(d & l & Z0 & _)]; discriminate|].
    destruct (digit_cases _ _ _ X) as (R & _ & [(K & L2)|(K & _)]); [|discriminate]. cbn [radix] in R.
    cbn [app decimal_token]. destruct Z0 as [Z0|(d0 & l & Z0 & N)].
    + injection Z0 as -> ->. inversion F; subst. cbn [app]. replace (48 + 0 =? 48) with true by reflexivity. reflexivity.
    + injection Z0 as <- <-. replace (c =? 48) with false by lia. replace (is_digit c) with true by (unfold is_digit; lia).
      change is_digit with (class Ten). rewrite (take_while_ok Ten cs ds rest F); [reflexivity|].
      destruct rest as [|x rest]; [exact I|]. destruct E as (_ & _ & [(_ & E)|E]); [|exact E]. injection E as -> _. lia.
  - destruct rest as [|x rest].
    + rewrite app_nil_r. cbn [app prefixed_token]. change ((48 =? 48) && (98 =? 98)) with true. cbv iota.
      pose proof (take_while_ok Two cs ds [] F I) as T. rewrite app_nil_r in T. cbn [class] in T. rewrite T.
      destruct cs; [inversion F; subst; destruct (N eq_refl)|reflexivity].
    + cbn [app prefixed_token]. change ((48 =? 48) && (98 =? 98)) with true. cbv iota.
      destruct E as (_ & _ & [(E & _)|E]); [discriminate|].
      pose proof (take_while_ok Two cs ds (x :: rest) F E) as T. cbn [class] in T. rewrite T.
      destruct cs; [inversion F; subst; destruct (N eq_refl)|reflexivity].
  - cbn [app]. cbn [prefixed_token]. change ((48 =? 48) && (120 =? 98)) with false. cbv iota.
    change ((48 =? 48) && (120 =? 120)) with true. cbv iota.
    assert (T : take_while is_hex (cs ++ rest) = (cs, rest)).
    { apply (take_while_ok Sixteen cs ds rest F). destruct rest as [|x rest]; [exact I|].
      destruct E as (_ & _ & [(E & _)|E]); [discriminate|exact E]. }
    rewrite T. destruct cs; [inversion F; subst; destruct (N eq_refl)|reflexivity].
Qed.

Lemma spells_digits : forall b s ds, spells b s ds -> ds <> [].
Proof.
  intros b s ds H. destruct H as [cs ds F Z0|cs ds F N|cs ds F N]; auto. destruct Z0 as [->|(d & l & -> & _)]; discriminate.
Qed.

Lemma int_value_ok : forall b s ds, spells b s ds ->
  int_value (token_of b s) = if int_max <? number (radix b) ds then None else Some (number (radix b) ds).
Proof.
  intros b s ds H. pose proof (spells_digits _ _ _ H) as N. destruct H as [cs ds F Z0|cs ds F _|cs ds F _]; cbn [token_of int_value app].
  - apply (from_str_radix_ok Ten); [unfold int_max; lia|exact F|exact N].
  - apply (from_str_radix_ok Two); [unfold int_max; lia|exact F|exact N].
  - apply (from_str_radix_ok Sixteen); [unfold int_max; lia|exact F|exact N].
Qed.

Lemma no_token : forall s, no_digit_first Ten s -> next_token s = None.
Proof.
  intros [|c s] H; [reflexivity|]. cbn [no_digit_first] in H.
  assert (D : is_digit c = false) by (destruct (is_digit c) eqn:D; [apply (class_ok Ten) in D; destruct D as (d & D); destruct (H d D)|reflexivity]).
  unfold is_digit in D. unfold next_token, prefixed_token, decimal_token. replace (c =? 48) with false by lia. cbn [andb].
  unfold is_digit. rewrite D. destruct s; reflexivity.
Qed.

(** An integer literal denotes the number it spells, or is too large. *)
Lemma integer_literal : forall b s ds rest, spells b s ds -> ends_here b rest ->
  read_number (s ++ rest) =
  if 2 ^ 63 <=? number (radix b) ds then TooLarge else Read (Int (number (radix b) ds)) rest.
Proof.
  intros b s ds rest H E. unfold read_number. rewrite (next_token_ok b s ds rest H).
  - rewrite (int_value_ok b s ds H). unfold int_max.
    replace (2 ^ 63 <=? number (radix b) ds) with (9223372036854775807 <? number (radix b) ds) by (change (2 ^ 63) with 9223372036854775808; lia).
    destruct (9223372036854775807 <? number (radix b) ds); [reflexivity|]. destruct rest as [|c rest]; [reflexivity|].
    destruct E as (_ & _ & _ & E). destruct (Z.eqb_spec c 46) as [->|]; [|reflexivity]. rewrite (no_token rest (E eq_refl)). reflexivity.
  - destruct rest as [|c rest]; [exact I|]. destruct E as (E3 & E1 & E2 & _). auto.
Qed.

(** Numerals without leading zeros are what is displayed. *)
Lemma number_value : forall ds, number 10 ds = digits_value ds.
Proof.
  induction ds as [|d ds IH] using rev_ind; [reflexivity|]. rewrite number_app, IH. unfold digits_value. rewrite fold_left_app. reflexivity.
Qed.

Lemma same_length_unique : forall l l', length l = length l' ->
  Forall (fun d => 0 <= d <= 9) l -> Forall (fun d => 0 <= d <= 9) l' -> number 10 l = number 10 l' -> l = l'.
Proof.
  induction l as [|d l IH] using rev_ind; intros l' L A B E.
  - destruct l'; [reflexivity|discriminate].
  - destruct l' as [|d' l' _] using rev_ind; [rewrite app_length in L; cbn in L; lia|].
    rewrite !app_length in L. cbn [length] in L. rewrite !number_app in E. apply Forall_app in A, B.
    destruct A as (A & A'), B as (B & B'). apply Forall_inv in A', B'.
    assert (d = d') as <- by lia. assert (number 10 l = number 10 l') by lia. rewrite (IH l'); auto. lia.
Qed.

Lemma number_bounds : forall d l, 0 < d <= 9 -> Forall (fun d => 0 <= d <= 9) l ->
  10 ^ Z.of_nat (length l) <= number 10 (d :: l) < 10 ^ Z.of_nat (S (length l)).
Proof.
  intros d l D H. cbn [number].
  assert (U : 0 <= number 10 l < 10 ^ Z.of_nat (length l)).
  { induction H as [|x l X H IH]; [cbn; lia|]. cbn [number length]. rewrite Nat2Z.inj_succ, Z.pow_succ_r by lia. nia. }
  rewrite Nat2Z.inj_succ, Z.pow_succ_r by lia. nia.
Qed.

Lemma canonical_unique : forall l l', no_leading_zero l -> no_leading_zero l' ->
  Forall (fun d => 0 <= d <= 9) l -> Forall (fun d => 0 <= d <= 9) l' -> number 10 l = number 10 l' -> l = l'.
Proof.
  assert (W : forall d l, d <> 0 -> Forall (fun d => 0 <= d <= 9) (d :: l) ->
    10 ^ Z.of_nat (length l) <= number 10 (d :: l) < 10 ^ Z.of_nat (S (length l)) /\ 0 < 10 ^ Z.of_nat (length l)).
  { intros d l D F. split; [|apply Z.pow_pos_nonneg; lia]. apply number_bounds; [pose proof (Forall_inv F) as Y; cbv beta in Y; lia|apply (Forall_inv_tail F)]. }
  intros l l' [->|(d & k & -> & D)] [->|(d' & k' & -> & D')] A B E.
  - reflexivity.
  - destruct (W d' k' D' B) as (W1 & W2). change (number 10 [0]) with 0 in E. lia.
  - destruct (W d k D A) as (W1 & W2). rewrite E in W1. cbn [number length] in W1. lia.
  - destruct (W d k D A) as (W1 & W2), (W d' k' D' B) as (W3 & W4). apply same_length_unique; auto. cbn [length]. f_equal.
    destruct (lt_eq_lt_dec (length k) (length k')) as [[L|L]|L]; auto; exfalso.
    + assert (10 ^ Z.of_nat (S (length k)) <= 10 ^ Z.of_nat (length k')) by (apply Z.pow_le_mono_r; lia). lia.
    + assert (10 ^ Z.of_nat (S (length k')) <= 10 ^ Z.of_nat (length k)) by (apply Z.pow_le_mono_r; lia). lia.
Qed.

Lemma digits_canonical : forall n, 0 <= n -> no_leading_zero (digits n).
Proof.
  intros n H. destruct (digits_head n H) as (d & l & E & Z0). rewrite E. destruct (Z.eq_dec d 0) as [->|N].
  - destruct (Z0 eq_refl) as (_ & ->). left. reflexivity.
  - right. eauto.
Qed.

Lemma ten_digits : forall cs ds, Forall2 (digit_char Ten) cs ds ->
  Forall (fun d => 0 <= d <= 9) ds /\ cs = map (Z.add 48) ds.
Proof.
  intros cs ds H. induction H as [|c d cs ds X H IH]; [split; [constructor|reflexivity]|].
  destruct IH as (A & ->), (digit_cases _ _ _ X) as (R & _ & [(K & L)|(K & _)]); [|discriminate].
  cbn [radix] in R. split; [constructor; [lia|exact A]|]. cbn [map]. rewrite K. reflexivity.
Qed.

Lemma display_spelled : forall cs ds, spells Ten cs ds -> display (number 10 ds) = cs.
Proof.
  intros cs ds H. inversion H as [cs' ds' F Z0| |]; subst. destruct (ten_digits _ _ F) as (A & ->). unfold display. f_equal.
  assert (0 <= number 10 ds) by (apply (number_nonneg Ten); apply digits_in_range with (1 := F)).
  apply canonical_unique; auto using digits_canonical, digits_range. rewrite number_value, digits_ok; auto.
Qed.

Lemma display_spells : forall n, 0 <= n -> spells Ten (display n) (digits n) /\ number 10 (digits n) = n.
Proof.
  intros n H. split; [|rewrite number_value; apply digits_ok; exact H]. constructor; [|apply digits_canonical; exact H].
  unfold display. pose proof (digits_range n H) as R. induction R as [|d l D R IH]; constructor; [|exact IH].
  constructor; cbn [radix]; lia.
Qed.

(** A float literal is read as its own text. *)
Lemma float_literal : forall a da b db rest, spells Ten a da -> spells Ten b db -> ends_here Ten rest ->
  read_number (a ++ [46] ++ b ++ rest) =
  if (2 ^ 63 <=? number 10 da) || (2 ^ 64 <=? number 10 db) then TooLarge
  else Read (Float (a ++ [46] ++ b)) rest.
Proof.
  intros a da b db rest A B E. unfold read_number.
  rewrite (next_token_ok Ten a da _ A).
  2: { cbn [app]. repeat split; try lia. right. intros d D. destruct (digit_cases _ _ _ D) as (R & _ & [(K & L)|(K & _)]); [lia|discriminate]. }
  rewrite (int_value_ok Ten a da A). cbn [radix]. unfold int_max.
  replace (2 ^ 63 <=? number 10 da) with (9223372036854775807 <? number 10 da) by (change (2 ^ 63) with 9223372036854775808; lia).
  destruct (9223372036854775807 <? number 10 da); [reflexivity|]. cbn [app orb]. change (46 =? 46) with true. cbv iota.
  rewrite (next_token_ok Ten b db rest B).
  2: { destruct rest as [|c rest]; [exact I|]. destruct E as (E3 & E1 & E2 & _). auto. }
  cbn [token_of]. inversion B as [cs ds F Z0| |]; subst.
  pose proof (from_str_radix_ok Ten uint_max b db ltac:(unfold uint_max; lia) F (spells_digits _ _ _ B)) as P. cbn [radix] in P.
  rewrite P. unfold uint_max.
  replace (2 ^ 64 <=? number 10 db) with (18446744073709551615 <? number 10 db) by (change (2 ^ 64) with 18446744073709551616; lia).
  destruct (18446744073709551615 <? number 10 db); [reflexivity|].
  rewrite (display_spelled _ _ A), (display_spelled _ _ B). reflexivity.
Qed.

(** A fraction with a leading zero is cut after the zero. *)
Lemma cut_fraction : forall a da c rest, spells Ten a da -> is_digit c = true ->
  exists r, read_number (a ++ [46; 48; c] ++ rest) = r /\
    match r with Read _ left_over => left_over = c :: rest | TooLarge => 2 ^ 63 <= number 10 da | NoNumber => False end.
Proof.
  intros a da c rest A C. exists (read_number (a ++ [46; 48; c] ++ rest)). split; [reflexivity|].
  pose proof (proj1 (class_ok Ten c) C) as (d & D).
  assert (Z48 : spells Ten [48] [0]).
  { constructor; [|left; reflexivity]. constructor; [|constructor]. apply (numeric Ten 0); cbn [radix]; lia. }
  unfold read_number. rewrite (next_token_ok Ten a da _ A).
  2: { cbn [app]. repeat split; try lia. right. intros x X. destruct (digit_cases _ _ _ X) as (R & _ & [(K & L)|(K & _)]); [lia|discriminate]. }
  rewrite (int_value_ok Ten a da A). cbn [radix]. unfold int_max.
  destruct (Z.ltb_spec 9223372036854775807 (number 10 da)); [change (2 ^ 63) with 9223372036854775808; lia|].
  cbn [app]. change (46 =? 46) with true. cbv iota. change (48 :: c :: rest) with ([48] ++ c :: rest).
  rewrite (next_token_ok Ten [48] [0] (c :: rest) Z48).
  2: { destruct (digit_cases _ _ _ D) as (R & _ & [(K & L)|(K & _)]); [|discriminate]. cbn [radix] in R. repeat split; try lia. left. auto. }
  cbn [token_of]. change (from_str_radix 10 uint_max [48]) with (Some 0). reflexivity.
Qed.

(** What is read is never negative nor above the largest integer. *)
Lemma radix_loop_range : forall base max s acc n, 0 <= base -> 0 <= acc -> acc <= max -> radix_loop base max s acc = Some n -> 0 <= n <= max.
Proof.
  intros base max s. induction s as [|c s IH]; intros acc n B A M H; cbn [radix_loop] in H.
  - injection H as <-. lia.
  - destruct (to_digit base c) as [d|] eqn:D; [|discriminate].
    assert (0 <= d).
    { unfold to_digit in D. match type of D with (if ?x <? _ then _ else _) = _ => remember x as y eqn:Y; destruct (y <? base); [|discriminate] end.
      injection D as <-. subst y. destruct ((48 <=? c) && (c <? 58)) eqn:?; [lia|]. destruct ((97 <=? c) && (c <? 123)) eqn:?; [lia|].
      destruct ((65 <=? c) && (c <? 91)) eqn:?; lia. }
    destruct (max <? acc * base); [discriminate|]. destruct (Z.ltb_spec max (acc * base + d)); [discriminate|].
    apply IH in H; [exact H|exact B|nia|lia].
Qed.

Lemma int_value_range : forall t n, int_value t = Some n -> 0 <= n < 2 ^ 63.
Proof.
  assert (G : forall base s n, 0 <= base -> from_str_radix base int_max s = Some n -> 0 <= n < 2 ^ 63).
  { intros base s n B H. unfold from_str_radix in H. destruct s; [discriminate|].
    apply radix_loop_range in H; [change (2 ^ 63) with 9223372036854775808; unfold int_max in H; lia|exact B|lia|unfold int_max; lia]. }
  intros [s|s|s] n H; cbn [int_value] in H; apply G in H; auto; lia.
Qed.

Lemma read_range : forall s n rest, read_number s = Read (Int n) rest -> 0 <= n < 2 ^ 63.
Proof.
  intros s n rest H. unfold read_number in H. destruct (next_token s) as [(t & r)|]; [|discriminate].
  destruct (int_value t) as [v|] eqn:V; [|discriminate]. apply int_value_range in V.
  destruct r as [|c r]; [injection H as <- _; exact V|]. destruct (c =? 46); [|injection H as <- _; exact V].
  destruct (next_token r) as [([i|i|i] & r')|]; try (injection H as <- _; exact V).
  destruct (from_str_radix 10 uint_max i); discriminate.
Qed.

Lemma every_other_written : forall n, 0 <= n < 2 ^ 63 -> read_number (display n) = Read (Int n) [].
Proof.
  intros n H. destruct (display_spells n) as (S1 & N); [lia|].
  pose proof (integer_literal Ten _ _ [] S1 (conj I I)) as L. rewrite app_nil_r in L. rewrite L. cbn [radix]. rewrite N.
  destruct (Z.leb_spec (2 ^ 63) n); [lia|reflexivity].
Qed.
