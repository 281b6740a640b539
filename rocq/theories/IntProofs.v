From Coq Require Import ZArith Bool List Lia.
From Verif Require Import MachInt IntModel.
Open Scope Z_scope.

Ltac consts := unfold in_int, int_min, int_max, two63, two64 in *;
  change (2 ^ 63) with 9223372036854775808 in *;
  change (2 ^ 64) with 18446744073709551616 in *.

Lemma wrap64_range : forall z, in_int (wrap64 z).
Proof.
  intros z. unfold wrap64. consts.
  pose proof (Z.mod_pos_bound (z + 9223372036854775808) 18446744073709551616 ltac:(lia)). lia.
Qed.

Lemma wrap64_cong : forall z, exists k, wrap64 z = z + k * two64.
Proof.
  intros z. unfold wrap64.
  exists (- ((z + two63) / two64)).
  pose proof (Z.div_mod (z + two63) two64 ltac:(consts; lia)). consts. lia.
Qed.

Lemma wrap64_id : forall z, in_int z -> wrap64 z = z.
Proof. intros z H. unfold wrap64. consts. rewrite Z.mod_small by lia. lia. Qed.

Lemma wrap64_unique : forall z r, in_int r -> (exists k, r = z + k * two64) -> wrap64 z = r.
Proof.
  intros z r Hr [k Hk]. destruct (wrap64_cong z) as [k' Hk'].
  pose proof (wrap64_range z) as Hw. consts. nia.
Qed.

Lemma wrap64_mod : forall z, (wrap64 z) mod two64 = z mod two64.
Proof.
  intros z. destruct (wrap64_cong z) as [k Hk]. rewrite Hk. apply Z.mod_add. consts; lia.
Qed.

Lemma to_u64_range : forall z, 0 <= to_u64 z < two64.
Proof. intros. unfold to_u64. apply Z.mod_pos_bound. consts; lia. Qed.

Lemma wrap64_testbit : forall z i, 0 <= i < 64 -> Z.testbit (wrap64 z) i = Z.testbit z i.
Proof.
  intros z i Hi.
  rewrite <- (Z.mod_pow2_bits_low (wrap64 z) 64 i) by lia.
  rewrite <- (Z.mod_pow2_bits_low z 64 i) by lia.
  change (2 ^ 64) with two64. now rewrite wrap64_mod.
Qed.

Lemma to_u64_testbit : forall z i, 0 <= i < 64 -> Z.testbit (to_u64 z) i = Z.testbit z i.
Proof. intros. unfold to_u64, two64. apply Z.mod_pow2_bits_low. lia. Qed.

Lemma to_u64_testbit_high : forall z i, 64 <= i -> Z.testbit (to_u64 z) i = false.
Proof. intros. unfold to_u64, two64. apply Z.mod_pow2_bits_high. lia. Qed.

(** Every bit from 63 up is the sign bit. *)
Lemma int_high_bits : forall z i, in_int z -> 63 <= i -> Z.testbit z i = (z <? 0).
Proof.
  intros z i Hz Hi. destruct (Z.ltb_spec z 0).
  - apply Z.bits_above_log2_neg; [lia|].
    destruct (Z.eq_dec (Z.pred (- z)) 0) as [E|E]; [rewrite E; simpl; lia|].
    apply Z.log2_lt_pow2; [lia|].
    assert (2 ^ 63 <= 2 ^ i) by (apply Z.pow_le_mono_r; lia). consts; lia.
  - destruct (Z.eq_dec z 0) as [->|E]; [apply Z.bits_0|].
    apply Z.bits_above_log2; [lia|]. apply Z.log2_lt_pow2; [lia|].
    assert (2 ^ 63 <= 2 ^ i) by (apply Z.pow_le_mono_r; lia). consts; lia.
Qed.

Lemma int_ext : forall a b, in_int a -> in_int b ->
  (forall i, 0 <= i < 64 -> Z.testbit a i = Z.testbit b i) -> a = b.
Proof.
  intros a b Ha Hb H. apply Z.bits_inj'. intros i Hi.
  destruct (Z_lt_dec i 64); [apply H; lia|].
  rewrite int_high_bits by (auto; lia). rewrite <- (int_high_bits a 63) by (auto; lia).
  rewrite H by lia. rewrite int_high_bits by (auto; lia).
  rewrite (int_high_bits b i) by (auto; lia). reflexivity.
Qed.

Lemma signed_range : forall z,
  (exists s, forall i, 63 <= i -> Z.testbit z i = s) -> in_int z.
Proof.
  intros z [s Hs].
  assert (E : wrap64 z = z).
  { apply Z.bits_inj'. intros i Hi. destruct (Z_lt_dec i 64).
    - apply wrap64_testbit; lia.
    - rewrite int_high_bits by (try apply wrap64_range; lia).
      rewrite <- (int_high_bits _ 63) by (try apply wrap64_range; lia).
      rewrite wrap64_testbit by lia. rewrite !Hs by lia. reflexivity. }
  rewrite <- E. apply wrap64_range.
Qed.

Lemma land_range : forall a b, in_int a -> in_int b -> in_int (Z.land a b).
Proof.
  intros. apply signed_range. exists ((a <? 0) && (b <? 0)). intros i Hi.
  rewrite Z.land_spec, !int_high_bits by (auto; lia). reflexivity.
Qed.
Lemma lor_range : forall a b, in_int a -> in_int b -> in_int (Z.lor a b).
Proof.
  intros. apply signed_range. exists ((a <? 0) || (b <? 0)). intros i Hi.
  rewrite Z.lor_spec, !int_high_bits by (auto; lia). reflexivity.
Qed.
Lemma lxor_range : forall a b, in_int a -> in_int b -> in_int (Z.lxor a b).
Proof.
  intros. apply signed_range. exists (xorb (a <? 0) (b <? 0)). intros i Hi.
  rewrite Z.lxor_spec, !int_high_bits by (auto; lia). reflexivity.
Qed.
Lemma lnot_range : forall a, in_int a -> in_int (Z.lnot a).
Proof.
  intros. apply signed_range. exists (negb (a <? 0)). intros i Hi.
  rewrite Z.lnot_spec, !int_high_bits by (auto; lia). reflexivity.
Qed.

(** ** division *)

Lemma quot_range : forall a b, in_int a -> in_int b -> b <> 0 ->
  ~ (a = int_min /\ b = -1) -> in_int (Z.quot a b).
Proof.
  intros a b Ha Hb Hz Hn.
  assert (Hq : Z.abs (Z.quot a b) <= Z.abs a).
  { rewrite <- Z.quot_abs by lia. apply Z.quot_le_upper_bound; nia. }
  assert (Hs : Z.abs b <> 1 -> 2 * Z.abs (Z.quot a b) <= Z.abs a).
  { intro. rewrite <- Z.quot_abs by lia.
    pose proof (Z.mul_quot_le (Z.abs a) (Z.abs b) ltac:(lia) ltac:(lia)).
    assert (0 <= Z.abs a ÷ Z.abs b) by (apply Z.quot_pos; lia). nia. }
  destruct (Z.eq_dec (Z.abs b) 1) as [E|E].
  - assert (b = 1 \/ b = -1) as [->| ->] by lia.
    + rewrite Z.quot_1_r. auto.
    + replace (-1) with (- (1)) by lia. rewrite Z.quot_opp_r, Z.quot_1_r by lia.
      consts. lia.
  - specialize (Hs E). consts. lia.
Qed.

Lemma rust_div_spec : forall a b, b <> 0 -> ~ (a = int_min /\ b = -1) ->
  rust_div a b = Done (Z.quot a b) /\ rust_rem a b = Done (Z.rem a b).
Proof.
  intros a b Hb Hn. unfold rust_div, rust_rem.
  destruct (Z.eqb_spec b 0); [lia|].
  destruct (Z.eqb_spec a int_min); destruct (Z.eqb_spec b (-1)); simpl; auto; tauto.
Qed.

Lemma rust_div_euclid_spec : forall a b, in_int a -> in_int b -> b <> 0 ->
  ~ (a = int_min /\ b = -1) ->
  exists q r, rust_div_euclid a b = Done q /\ rust_rem_euclid a b = Done r /\
    a = b * q + r /\ 0 <= r < Z.abs b /\ in_int q /\ in_int r.
Proof.
  intros a b Ha Hb Hz Hn.
  destruct (rust_div_spec a b Hz Hn) as [Hd Hr].
  unfold rust_div_euclid, rust_rem_euclid. rewrite Hd, Hr.
  pose proof (Z.quot_rem a b Hz) as Hqr.
  pose proof (Z.rem_bound_abs a b Hz) as Hrb.
  pose proof (quot_range a b Ha Hb Hz Hn) as Hqrange.
  destruct (Z.ltb_spec (Z.rem a b) 0) as [Hneg|Hpos].
  - assert (Hw : wrap64 (Z.rem a b + wrap64 (Z.abs b)) = Z.rem a b + Z.abs b).
    { apply wrap64_unique; [consts; lia|]. destruct (wrap64_cong (Z.abs b)) as [k Hk].
      exists (- k). rewrite Hk. lia. }
    rewrite Hw.
    eexists _, _. split; [reflexivity|]. split; [reflexivity|].
    assert (in_int (Z.rem a b + Z.abs b)) by (consts; lia).
    pose proof (Z.rem_bound_abs a b Hz).
    assert (Hq1 : Z.abs b <> 1 \/ Z.abs b = 1) by lia.
    destruct Hq1 as [Hq1|Hq1].
    2:{ assert (Z.rem a b = 0) by lia. lia. }
    assert (Hs : 2 * Z.abs (Z.quot a b) <= Z.abs a).
    { rewrite <- Z.quot_abs by lia.
      pose proof (Z.mul_quot_le (Z.abs a) (Z.abs b) ltac:(lia) ltac:(lia)).
      assert (0 <= Z.abs a ÷ Z.abs b) by (apply Z.quot_pos; lia). nia. }
    destruct (Z.ltb_spec 0 b).
    + split; [lia|]. split; [lia|]. split; [consts; lia|assumption].
    + split; [lia|]. split; [lia|]. split; [consts; lia|assumption].
  - eexists _, _. split; [reflexivity|]. split; [reflexivity|].
    split; [lia|]. split; [lia|]. split; [assumption|consts; lia].
Qed.

(** ** shifts *)

Lemma clamp_small : forall s, 0 <= s -> s <= u32_max -> clamp_to_u32 s = s.
Proof.
  intros s H1 H2. unfold clamp_to_u32, to_u64, u32_max in *. consts.
  change (2 ^ 32) with 4294967296 in *.
  destruct (Z.leb_spec s 0); [lia|]. rewrite Z.mod_small by lia. lia.
Qed.

Lemma clamp_big : forall s, in_int s -> u32_max <= s -> clamp_to_u32 s = u32_max.
Proof.
  intros s H1 H2. unfold clamp_to_u32, to_u64, u32_max in *. consts.
  change (2 ^ 32) with 4294967296 in *.
  destruct (Z.leb_spec s 0); [lia|]. rewrite Z.mod_small by lia. lia.
Qed.

Lemma clamp_neg_small : forall s, - u32_max <= s < 0 -> clamped_negated_shift_to_u32 s = - s.
Proof.
  intros s H. unfold clamped_negated_shift_to_u32.
  destruct (Z.eqb_spec s int_min) as [E|E].
  - unfold u32_max in H. consts. change (2 ^ 32) with 4294967296 in *. lia.
  - apply clamp_small; lia.
Qed.

Lemma shl_testbit : forall v s i, 0 <= s -> 0 <= i < 64 ->
  Z.testbit (wrapping_shl v s) i = if i <? s mod 64 then false else Z.testbit v (i - s mod 64).
Proof.
  intros v s i Hs Hi. unfold wrapping_shl. rewrite wrap64_testbit by lia.
  pose proof (Z.mod_pos_bound s 64 ltac:(lia)).
  destruct (Z.ltb_spec i (s mod 64)).
  - apply Z.shiftl_spec_low. lia.
  - rewrite Z.shiftl_spec by lia. reflexivity.
Qed.

Lemma shr_testbit : forall v s i, 0 <= i ->
  Z.testbit (wrapping_shr v s) i = Z.testbit v (i + s mod 64).
Proof.
  intros v s i Hi. unfold wrapping_shr. apply Z.shiftr_spec. lia.
Qed.

Lemma shr_range : forall v s, in_int v -> in_int (wrapping_shr v s).
Proof.
  intros v s Hv. apply signed_range. exists (v <? 0). intros i Hi.
  rewrite shr_testbit by lia. apply int_high_bits; auto.
  pose proof (Z.mod_pos_bound s 64 ltac:(lia)). lia.
Qed.

Lemma rotl_testbit : forall v s i, 0 <= i < 64 ->
  Z.testbit (rust_rotate_left v s) i = Z.testbit v ((i - s) mod 64).
Proof.
  intros v s i Hi. unfold rust_rotate_left. set (k := s mod 64).
  assert (Hk : 0 <= k < 64) by (apply Z.mod_pos_bound; lia).
  rewrite wrap64_testbit by lia. rewrite Z.lor_spec.
  rewrite Z.shiftr_spec by lia.
  assert (Em : (i - s) mod 64 = (i - k) mod 64).
  { unfold k. rewrite Zminus_mod_idemp_r. reflexivity. }
  rewrite Em.
  destruct (Z_lt_dec i k).
  - rewrite Z.shiftl_spec_low by lia. simpl.
    replace ((i - k) mod 64) with (i + (64 - k)).
    + apply to_u64_testbit. lia.
    + symmetry. rewrite <- (Z.mod_add (i - k) 1 64) by lia. rewrite Z.mod_small by lia. lia.
  - rewrite Z.shiftl_spec by lia. rewrite (Z.mod_small (i - k)) by lia.
    rewrite to_u64_testbit by lia. rewrite to_u64_testbit_high by lia. apply orb_false_r.
Qed.

Lemma rotr_testbit : forall v s i, 0 <= i < 64 ->
  Z.testbit (rust_rotate_right v s) i = Z.testbit v ((i + s) mod 64).
Proof.
  intros v s i Hi. unfold rust_rotate_right. set (k := s mod 64).
  assert (Hk : 0 <= k < 64) by (apply Z.mod_pos_bound; lia).
  rewrite wrap64_testbit by lia. rewrite Z.lor_spec.
  rewrite Z.shiftr_spec by lia.
  assert (Em : (i + s) mod 64 = (i + k) mod 64).
  { unfold k. rewrite Zplus_mod_idemp_r. reflexivity. }
  rewrite Em.
  destruct (Z_lt_dec (i + k) 64).
  - rewrite (Z.mod_small (i + k)) by lia. rewrite to_u64_testbit by lia.
    destruct (Z.eq_dec k 0).
    + rewrite Z.shiftl_spec_low by lia. apply orb_false_r.
    + rewrite Z.shiftl_spec_low by lia. apply orb_false_r.
  - rewrite to_u64_testbit_high by lia. simpl.
    rewrite Z.shiftl_spec by lia.
    replace ((i + k) mod 64) with (i - (64 - k)).
    + apply to_u64_testbit. lia.
    + symmetry. rewrite <- (Z.mod_add (i + k) (-1) 64) by lia. rewrite Z.mod_small by lia. lia.
Qed.

(** The effective rotation count. *)
Definition eff_count (s : Z) : Z :=
  if s <? 0 then - clamped_negated_shift_to_u32 s else clamp_to_u32 s.

Lemma eff_count_small : forall s, - u32_max <= s <= u32_max -> eff_count s = s.
Proof.
  intros s H. unfold eff_count. destruct (Z.ltb_spec s 0).
  - rewrite clamp_neg_small by lia. lia.
  - apply clamp_small; lia.
Qed.

Lemma rotate_left_testbit : forall v s i, 0 <= i < 64 ->
  Z.testbit (rotate_left v s) i = Z.testbit v ((i - eff_count s) mod 64).
Proof.
  intros v s i Hi. unfold rotate_left, eff_count. destruct (Z.ltb_spec s 0).
  - rewrite rotr_testbit by lia. f_equal. f_equal. lia.
  - apply rotl_testbit. lia.
Qed.

Lemma rotate_right_testbit : forall v s i, 0 <= i < 64 ->
  Z.testbit (rotate_right v s) i = Z.testbit v ((i + eff_count s) mod 64).
Proof.
  intros v s i Hi. unfold rotate_right, eff_count. destruct (Z.ltb_spec s 0).
  - rewrite rotl_testbit by lia. f_equal. 
  - apply rotr_testbit. lia.
Qed.

Lemma rotate_left_range : forall v s, in_int (rotate_left v s).
Proof. intros. unfold rotate_left, rust_rotate_left, rust_rotate_right.
  destruct (s <? 0); apply wrap64_range. Qed.
Lemma rotate_right_range : forall v s, in_int (rotate_right v s).
Proof. intros. unfold rotate_right, rust_rotate_left, rust_rotate_right.
  destruct (s <? 0); apply wrap64_range. Qed.

(** ** single bits *)

Lemma bit_range : forall p, in_int (bit p).
Proof.
  intros. unfold bit. destruct (p <? 0); [consts; lia|].
  cbv zeta. destruct (_ <? 64); [apply wrap64_range|consts; lia].
Qed.

Lemma bit_testbit : forall p i, in_int p -> 0 <= i < 64 -> Z.testbit (bit p) i = (i =? p).
Proof.
  intros p i Hp Hi. unfold bit. destruct (Z.ltb_spec p 0).
  - rewrite Z.bits_0. symmetry. apply Z.eqb_neq. lia.
  - cbv zeta. destruct (Z_lt_dec u32_max p).
    + rewrite clamp_big by (auto; lia). change (u32_max <? 64) with false. cbv iota.
      rewrite Z.bits_0. symmetry. apply Z.eqb_neq. unfold u32_max in *.
      change (2^32) with 4294967296 in *. lia.
    + rewrite clamp_small by lia. destruct (Z.ltb_spec p 64).
      * rewrite wrap64_testbit by lia. rewrite Z.shiftl_1_l, Z.pow2_bits_eqb by lia.
        rewrite Z.eqb_sym. reflexivity.
      * rewrite Z.bits_0. symmetry. apply Z.eqb_neq. lia.
Qed.

Lemma bit_out : forall p, in_int p -> ~ (0 <= p < 64) -> bit p = 0.
Proof.
  intros p Hp Hn. apply int_ext; [apply bit_range|consts; lia|].
  intros i Hi. rewrite bit_testbit by auto. rewrite Z.bits_0. apply Z.eqb_neq. lia.
Qed.

Lemma popcount_lnot : forall n v, (Z.of_nat n <= 64) ->
  popcount n (to_u64 v) + popcount n (to_u64 (Z.lnot v)) = Z.of_nat n.
Proof.
  induction n; intros v Hn; [reflexivity|].
  cbn [popcount]. rewrite !to_u64_testbit by lia. rewrite Z.lnot_spec by lia.
  specialize (IHn v ltac:(lia)). destruct (Z.testbit v (Z.of_nat n)); cbn [negb Z.b2z]; lia.
Qed.

(** The set-bit positions of [v] below [n], as a list. *)
Fixpoint bits_below (n : nat) (v : Z) : list nat :=
  match n with
  | O => nil
  | S m => if Z.testbit v (Z.of_nat m) then m :: bits_below m v else bits_below m v
  end.

Lemma popcount_length : forall n v, popcount n v = Z.of_nat (length (bits_below n v)).
Proof.
  induction n; intros v; [reflexivity|]. cbn [popcount bits_below].
  rewrite IHn. destruct (Z.testbit v (Z.of_nat n)); cbn [length Z.b2z]; lia.
Qed.

Lemma bits_below_spec : forall n v i, In i (bits_below n v) <-> (i < n)%nat /\ Z.testbit v (Z.of_nat i) = true.
Proof.
  induction n; intros v i; cbn [bits_below].
  - split; [intros []|lia].
  - destruct (Z.testbit v (Z.of_nat n)) eqn:E; cbn [In]; rewrite IHn; split.
    + intros [<-|[]]; [split; auto|]; split; auto; lia.
    + intros [Hlt Hb]. destruct (Nat.eq_dec n i); [left; auto|right; split; auto; lia].
    + intros []; split; auto; lia.
    + intros [Hlt Hb]. split; auto. assert (i <> n) by (intros ->; congruence). lia.
Qed.

Lemma bits_below_nodup : forall n v, NoDup (bits_below n v).
Proof.
  induction n; intros v; cbn [bits_below]; [constructor|].
  destruct (Z.testbit v (Z.of_nat n)); auto. constructor; auto.
  rewrite bits_below_spec. lia.
Qed.

From Verif Require Import IntSpec.

Lemma represents_wrap : forall z, represents (wrap64 z) z.
Proof.
  intros z. split; [|apply wrap64_cong].
  pose proof (wrap64_range z) as H. consts. lia.
Qed.

Lemma int_arith_represents : forall a b, in_int a -> in_int b ->
  represents (int_add a b) (a + b) /\ represents (int_sub a b) (a - b) /\
  represents (int_mul a b) (a * b) /\ represents (int_neg a) (- a).
Proof. intros. unfold int_add, int_sub, int_mul, int_neg. repeat split; apply represents_wrap. Qed.

Lemma abs_signum_spec : forall c a, in_int a ->
  (a <> int_min -> int_abs c a = Done (Z.abs a)) /\ int_signum a = Z.sgn a.
Proof.
  intros c a Ha. split.
  - intros Hm. unfold int_abs. destruct (Z.ltb_spec a 0).
    + destruct (Z.eqb_spec a int_min); [tauto|]. simpl. f_equal.
      rewrite wrap64_id by (consts; lia). lia.
    + f_equal. lia.
  - unfold int_signum. destruct (Z.ltb_spec a 0); [|destruct (Z.eqb_spec a 0)].
    + symmetry. apply Z.sgn_neg. lia.
    + subst. reflexivity.
    + symmetry. apply Z.sgn_pos. lia.
Qed.

Lemma abs_min_bad : exists a, in_int a /\ int_abs true a = HostPanic /\ exists r, int_abs false a = Done r /\ r < 0.
Proof.
  exists int_min. split; [consts; lia|]. split; [reflexivity|]. exists int_min. split; [reflexivity|consts; lia].
Qed.

Lemma trunc_div_quot : forall n d, d <> 0 -> trunc_div n d (Z.quot n d) (Z.rem n d).
Proof.
  intros n d Hd. split; [apply Z.quot_rem; auto|]. split; [apply Z.rem_bound_abs; auto|].
  destruct (Z.eq_dec (Z.rem n d) 0); [left; auto|right]. apply Z.rem_sign_nz; auto.
Qed.

Lemma rem_range : forall n d, in_int n -> in_int d -> d <> 0 -> in_int (Z.rem n d).
Proof.
  intros n d Hn Hd Hz. pose proof (Z.rem_bound_abs n d Hz).
  destruct (Z_le_dec 0 n).
  - pose proof (Z.rem_nonneg n d Hz l). consts; lia.
  - pose proof (Z.rem_nonpos n d Hz ltac:(lia)). consts; lia.
Qed.

Lemma division_spec : forall n d, in_int n -> in_int d ->
  (d = 0 -> idiv n d = Fails DivisionByZero /\ irem n d = Fails RemainderByZero /\
            idiv_euclid n d = Fails DivisionByZero /\ imod n d = Fails RemainderByZero) /\
  (d <> 0 -> ~ (n = int_min /\ d = -1) ->
     (exists q r, idiv n d = Done q /\ irem n d = Done r /\ trunc_div n d q r /\ in_int q /\ in_int r) /\
     (exists q r, idiv_euclid n d = Done q /\ imod n d = Done r /\ euclid_div n d q r /\ in_int q /\ in_int r)).
Proof.
  intros n d Hn Hd. split.
  - intros ->. repeat split.
  - intros Hz Hm. unfold idiv, irem, idiv_euclid, imod.
    destruct (Z.eqb_spec d 0); [lia|]. destruct (rust_div_spec n d Hz Hm) as [E1 E2]. split.
    + exists (Z.quot n d), (Z.rem n d). split; [auto|]. split; [auto|].
      split; [apply trunc_div_quot; auto|]. split; [apply quot_range; auto|apply rem_range; auto].
    + destruct (rust_div_euclid_spec n d Hn Hd Hz Hm) as (q & r & H1 & H2 & H3 & H4 & H5 & H6).
      exists q, r. unfold euclid_div. tauto.
Qed.

Lemma division_panics_iff : forall n d, in_int n -> in_int d ->
  (idiv n d = HostPanic <-> n = int_min /\ d = -1) /\
  (irem n d = HostPanic <-> n = int_min /\ d = -1) /\
  (idiv_euclid n d = HostPanic <-> n = int_min /\ d = -1) /\
  (imod n d = HostPanic <-> n = int_min /\ d = -1).
Proof.
  intros n d Hn Hd. destruct (division_spec n d Hn Hd) as [Hz Hnz].
  destruct (Z.eq_dec d 0) as [E|E].
  - destruct (Hz E) as (H1 & H2 & H3 & H4). rewrite H1, H2, H3, H4.
    repeat split; try discriminate; intros []; lia.
  - assert (D : (n = int_min /\ d = -1) \/ ~ (n = int_min /\ d = -1)) by lia.
    destruct D as [[-> ->]|D].
    + repeat split; reflexivity.
    + destruct (Hnz E D) as [(q & r & H1 & H2 & _) (q' & r' & H3 & H4 & _)].
      rewrite H1, H2, H3, H4. repeat split; try discriminate; tauto.
Qed.

Lemma division_statement_false : ~ (forall n d, in_int n -> in_int d ->
  (d = 0 -> idiv n d = Fails DivisionByZero /\ irem n d = Fails RemainderByZero /\
            idiv_euclid n d = Fails DivisionByZero /\ imod n d = Fails RemainderByZero) /\
  (d <> 0 ->
     (exists q r, idiv n d = Done q /\ irem n d = Done r /\ exists q', trunc_div n d q' r /\ represents q q') /\
     (exists q r, idiv_euclid n d = Done q /\ imod n d = Done r /\ exists q', euclid_div n d q' r /\ represents q q'))).
Proof.
  intros H. destruct (H int_min (-1) ltac:(consts; lia) ltac:(consts; lia)) as [_ H2].
  destruct (H2 ltac:(lia)) as [(q & r & H3 & _) _]. discriminate H3.
Qed.

Lemma range_conv : forall z, in_int z -> - 2 ^ 63 <= z < 2 ^ 63.
Proof. intros. consts. lia. Qed.

Lemma bitwise_spec : forall a b, in_int a -> in_int b ->
  word_is (bit_and a b) (fun i => bit_at a i && bit_at b i) /\
  word_is (bit_or a b) (fun i => bit_at a i || bit_at b i) /\
  word_is (bit_xor a b) (fun i => xorb (bit_at a i) (bit_at b i)) /\
  word_is (bit_not a) (fun i => negb (bit_at a i)).
Proof.
  intros a b Ha Hb. unfold word_is, bit_at, bit_and, bit_or, bit_xor, bit_not.
  split; [|split; [|split]]; (split; [apply range_conv|intros i Hi]).
  - apply land_range; auto.
  - apply Z.land_spec.
  - apply lor_range; auto.
  - apply Z.lor_spec.
  - apply lxor_range; auto.
  - apply Z.lxor_spec.
  - apply lnot_range; auto.
  - apply Z.lnot_spec. lia.
Qed.

Lemma single_bit_spec : forall v p, in_int v -> in_int p ->
  word_is (bit p) (fun i => i =? p) /\
  word_is (set_bit v p) (fun i => (i =? p) || bit_at v i) /\
  word_is (clear_bit v p) (fun i => negb (i =? p) && bit_at v i) /\
  test_bit v p = ((0 <=? p) && (p <? 64) && bit_at v p).
Proof.
  intros v p Hv Hp. pose proof (bit_range p) as Hb.
  assert (Hs := fun i Hi => bit_testbit p i Hp Hi).
  unfold word_is, bit_at, set_bit, clear_bit.
  split; [|split; [|split]].
  - split; [apply range_conv; auto|auto].
  - split; [apply range_conv; apply lor_range; auto|]. intros i Hi.
    rewrite Z.lor_spec, Hs by lia. apply orb_comm.
  - split; [apply range_conv; apply land_range; auto; apply lnot_range; auto|]. intros i Hi.
    rewrite Z.land_spec, Z.lnot_spec, Hs by lia. apply andb_comm.
  - unfold test_bit.
    assert (D : (0 <= p < 64) \/ ~ (0 <= p < 64)) by lia. destruct D as [D|D].
    + replace ((0 <=? p) && (p <? 64)) with true
        by (symmetry; apply andb_true_intro; split; [apply Z.leb_le|apply Z.ltb_lt]; lia).
      simpl. destruct (Z.testbit v p) eqn:E.
      * destruct (Z.eqb_spec (Z.land v (bit p)) 0) as [E0|]; [|reflexivity].
        assert (F : Z.testbit (Z.land v (bit p)) p = true)
          by (rewrite Z.land_spec, E, Hs by lia; apply Z.eqb_refl).
        rewrite E0, Z.bits_0 in F. discriminate.
      * replace (Z.land v (bit p)) with 0; [reflexivity|].
        apply int_ext; [consts; lia|apply land_range; auto|]. intros i Hi.
        rewrite Z.bits_0, Z.land_spec, Hs by lia. destruct (Z.eqb_spec i p); [subst; rewrite E|rewrite andb_false_r]; reflexivity.
    + rewrite bit_out by auto. rewrite Z.land_0_r. simpl.
      destruct (Z.leb_spec 0 p); destruct (Z.ltb_spec p 64); simpl; try reflexivity; lia.
Qed.

Lemma map_of_nat_nodup : forall l, NoDup l -> NoDup (map Z.of_nat l).
Proof.
  induction 1; simpl; constructor; auto. rewrite in_map_iff. intros (y & Hy & Hin).
  apply Nat2Z.inj in Hy. subst. auto.
Qed.

Lemma counts_popcount : forall v f, (forall i, 0 <= i < 64 -> Z.testbit v i = f i) ->
  counts f (popcount 64 v).
Proof.
  intros v f Hf. exists (map Z.of_nat (bits_below 64 v)). split; [|split].
  - apply map_of_nat_nodup, bits_below_nodup.
  - intros i. rewrite in_map_iff. split.
    + intros (x & <- & Hx). apply bits_below_spec in Hx as [Hlt Hx]. split; [lia|].
      rewrite <- Hf by lia. auto.
    + intros [Hi Hx]. exists (Z.to_nat i). split; [lia|]. apply bits_below_spec. split; [lia|].
      rewrite Z2Nat.id by lia. rewrite Hf by lia. auto.
  - rewrite map_length. apply popcount_length.
Qed.

Lemma count_spec : forall v, in_int v ->
  counts (bit_at v) (count_ones v) /\ counts (fun i => negb (bit_at v i)) (count_zeros v) /\
  count_ones v + count_zeros v = 64.
Proof.
  intros v Hv. split; [|split].
  - apply counts_popcount. intros. apply to_u64_testbit. lia.
  - apply counts_popcount. intros. rewrite to_u64_testbit by lia. apply Z.lnot_spec. lia.
  - unfold count_ones, count_zeros. rewrite popcount_lnot by lia. reflexivity.
Qed.

Lemma min63_bit : forall v i, in_int v -> 0 <= i -> Z.testbit v (Z.min 63 i) = Z.testbit v i.
Proof.
  intros v i Hv Hi. destruct (Z_le_dec i 63); [f_equal; lia|].
  rewrite !int_high_bits by (auto; lia). reflexivity.
Qed.

Lemma shl_word : forall v s, in_int v -> 0 <= s <= 63 ->
  word_is (wrapping_shl v s) (fun i => if i - s <? 0 then false else bit_at v (Z.min 63 (i - s))).
Proof.
  intros v s Hv Hs. split; [apply range_conv; apply wrap64_range|]. intros i Hi.
  unfold bit_at. rewrite shl_testbit by lia. rewrite (Z.mod_small s) by lia.
  destruct (Z.ltb_spec i s); destruct (Z.ltb_spec (i - s) 0); try lia; auto.
  symmetry. apply min63_bit; auto; lia.
Qed.

Lemma shr_word : forall v s, in_int v -> 0 <= s <= 63 ->
  word_is (wrapping_shr v s) (fun i => if i + s <? 0 then false else bit_at v (Z.min 63 (i + s))).
Proof.
  intros v s Hv Hs. split; [apply range_conv; apply shr_range; auto|]. intros i Hi.
  unfold bit_at. rewrite shr_testbit by lia. rewrite (Z.mod_small s) by lia.
  destruct (Z.ltb_spec (i + s) 0); try lia. symmetry. apply min63_bit; auto; lia.
Qed.

Lemma word_is_ext : forall r f g, (forall i, 0 <= i < 64 -> f i = g i) -> word_is r f -> word_is r g.
Proof. intros r f g H [H1 H2]. split; auto. intros. rewrite H2, H; auto. Qed.

Lemma shift_spec : forall v s, in_int v -> -63 <= s <= 63 ->
  word_is (shift_left v s) (fun i => if i - s <? 0 then false else bit_at v (Z.min 63 (i - s))) /\
  word_is (shift_right v s) (fun i => if i + s <? 0 then false else bit_at v (Z.min 63 (i + s))).
Proof.
  intros v s Hv Hs. unfold shift_left, shift_right.
  assert (U : u32_max = 4294967295) by reflexivity.
  destruct (Z.ltb_spec s 0).
  - rewrite clamp_neg_small by lia. split.
    + eapply word_is_ext; [|apply shr_word; auto; lia]. intros i Hi. simpl.
      replace (i + - s) with (i - s) by lia. reflexivity.
    + eapply word_is_ext; [|apply shl_word; auto; lia]. intros i Hi. simpl.
      replace (i - - s) with (i + s) by lia. reflexivity.
  - rewrite clamp_small by lia. split; [apply shl_word|apply shr_word]; auto; lia.
Qed.

Lemma shift_big_bad :
  (exists v s, in_int v /\ in_int s /\ 64 <= s < 2 ^ 32 /\ shift_left v s = v /\ v <> 0) /\
  (exists v s, in_int v /\ in_int s /\ 2 ^ 32 <= s /\ shift_left v s <> 0) /\
  ~ (forall v s, in_int v -> in_int s ->
  word_is (shift_left v s) (fun i => if i - s <? 0 then false else bit_at v (Z.min 63 (i - s))) /\
  word_is (shift_right v s) (fun i => if i + s <? 0 then false else bit_at v (Z.min 63 (i + s)))).
Proof.
  split; [|split].
  - exists 1, 64. repeat split; try (vm_compute; congruence).
  - exists 1, 4294967296. repeat split; try (vm_compute; congruence).
  - intros H. destruct (H 1 64 ltac:(consts; lia) ltac:(consts; lia)) as [[_ H1] _].
    specialize (H1 0 ltac:(lia)). vm_compute in H1. discriminate.
Qed.

Lemma rotate_spec : forall v s, in_int v -> - (2 ^ 32 - 1) <= s <= 2 ^ 32 - 1 ->
  word_is (rotate_left v s) (fun i => bit_at v ((i - s) mod 64)) /\
  word_is (rotate_right v s) (fun i => bit_at v ((i + s) mod 64)).
Proof.
  intros v s Hv Hs. assert (E : eff_count s = s) by (apply eff_count_small; exact Hs).
  split; (split; [apply range_conv|intros i Hi]).
  - apply rotate_left_range.
  - unfold bit_at. rewrite rotate_left_testbit by lia. rewrite E. reflexivity.
  - apply rotate_right_range.
  - unfold bit_at. rewrite rotate_right_testbit by lia. rewrite E. reflexivity.
Qed.

Lemma rotate_inverse : forall v s, in_int v -> in_int s ->
  rotate_right (rotate_left v s) s = v /\ rotate_left (rotate_right v s) s = v.
Proof.
  intros v s Hv Hs. split; (apply int_ext; [apply rotate_right_range || apply rotate_left_range|auto|]);
    intros i Hi.
  - rewrite rotate_right_testbit, rotate_left_testbit by (auto; apply Z.mod_pos_bound; lia).
    rewrite Zminus_mod_idemp_l. replace (i + eff_count s - eff_count s) with i by lia.
    rewrite Z.mod_small by lia. reflexivity.
  - rewrite rotate_left_testbit, rotate_right_testbit by (auto; apply Z.mod_pos_bound; lia).
    rewrite Zplus_mod_idemp_l. replace (i - eff_count s + eff_count s) with i by lia.
    rewrite Z.mod_small by lia. reflexivity.
Qed.

Lemma rotate_big_bad : exists v s, in_int v /\ in_int s /\ s mod 64 = 0 /\ rotate_left v s <> v.
Proof. exists 1, 4294967296. repeat split; vm_compute; congruence. Qed.
