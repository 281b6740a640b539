From Coq Require Import ZArith Reals Lra Lia Bool Psatz.
From Flocq Require Import Core IEEE754.BinarySingleNaN.
From Flocq Require Plus_error.
From Verif Require Import FloatModel FloatSpec.

Notation fexp64 := (SpecFloat.fexp 53 1024).

Lemma fexp_same : forall e, fexp64 e = FLT_exp (-1074) 53 e.
Proof. intros. reflexivity. Qed.

Lemma largest_eq : largest = (bpow radix2 1024 - bpow radix2 (1024 - 53))%R.
Proof.
  unfold largest. change (1024 - 53)%Z with 971%Z. replace 1024%Z with (53 + 971)%Z by reflexivity.
  rewrite bpow_plus. replace (bpow radix2 53) with (IZR (2 ^ 53)) by reflexivity.
  rewrite minus_IZR. ring.
Qed.

Lemma number_bound : forall v, (- largest <= number v <= largest)%R.
Proof.
  intros v. pose proof (abs_B2R_le_emax_minus_prec 53 1024 _ v) as H. rewrite <- largest_eq in H.
  apply Rabs_le_inv in H. exact H.
Qed.

Lemma number_max : number max_f64 = largest /\ is_finite max_f64 = true.
Proof.
  split; [|reflexivity]. unfold number, max_f64, Bmax_float. rewrite B2R_SF2B. unfold SF2R, F2R.
  cbn [Fnum Fexp cond_Zopp]. unfold largest. reflexivity.
Qed.

Lemma largest_pos : (0 < largest)%R.
Proof. unfold largest. apply Rmult_lt_0_compat; [apply IZR_lt; reflexivity|apply bpow_gt_0]. Qed.

Lemma saturate_in : forall r, (- largest <= r <= largest)%R -> saturate r = r.
Proof. intros r [A B]. unfold saturate. rewrite Rmin_right by lra. apply Rmax_right. lra. Qed.

Lemma saturate_high : forall r, (largest <= r)%R -> saturate r = largest.
Proof.
  intros r A. unfold saturate. pose proof largest_pos. rewrite Rmin_left by lra. apply Rmax_right. lra.
Qed.

Lemma saturate_low : forall r, (r <= - largest)%R -> saturate r = (- largest)%R.
Proof.
  intros r A. unfold saturate. pose proof largest_pos. rewrite Rmin_right by lra. apply Rmax_left. lra.
Qed.

Lemma largest_lt : (largest < bpow radix2 1024)%R.
Proof. rewrite largest_eq. pose proof (bpow_gt_0 radix2 (1024 - 53)). lra. Qed.

Lemma new_saturating_finite : forall v, is_finite v = true -> new_saturating v = Done v.
Proof. intros v F. unfold new_saturating, new. rewrite F. reflexivity. Qed.

Lemma new_saturating_inf : forall s,
  new_saturating (B754_infinity s) = Done (if s then Bopp max_f64 else max_f64).
Proof. intros [|]; reflexivity. Qed.

Lemma is_inf : forall (v : f64) s, B2SF v = binary_overflow 53 1024 mode_NE s -> v = B754_infinity s.
Proof. intros v s H. apply B2SF_inj. rewrite H. reflexivity. Qed.

Lemma infinite_gives : forall (s : bool) (r : R), (bpow radix2 1024 <= Rabs (nearest r))%R ->
  (if s then (nearest r <= 0)%R else (0 <= nearest r)%R) -> gives (new_saturating (B754_infinity s)) r.
Proof.
  intros s r B S. pose proof largest_lt as L. pose proof largest_pos as P. rewrite new_saturating_inf.
  destruct number_max as [M F]. destruct s; eexists; (split; [reflexivity|]).
  - split; [unfold is_float; rewrite is_finite_Bopp; exact F|]. unfold number in *. rewrite B2R_Bopp, M.
    rewrite Rabs_left1 in B by exact S. symmetry. apply saturate_low. lra.
  - split; [exact F|]. rewrite M. rewrite Rabs_pos_eq in B by exact S. symmetry. apply saturate_high. lra.
Qed.

Lemma finite_gives : forall v r, is_finite v = true -> number v = nearest r -> gives (new_saturating v) r.
Proof.
  intros v r F E. rewrite new_saturating_finite by exact F. exists v. split; [reflexivity|].
  split; [exact F|]. rewrite <- E. symmetry. apply saturate_in, number_bound.
Qed.

Lemma nearest_pos : forall r, (0 <= r)%R -> (0 <= nearest r)%R.
Proof. intros r H. unfold nearest. apply round_ge_generic; auto with typeclass_instances. apply generic_format_0. Qed.

Lemma nearest_neg : forall r, (r <= 0)%R -> (nearest r <= 0)%R.
Proof. intros r H. unfold nearest. apply round_le_generic; auto with typeclass_instances. apply generic_format_0. Qed.

Lemma sign_number : forall v : f64, if Bsign v then (number v <= 0)%R else (0 <= number v)%R.
Proof.
  intros v. destruct v as [s|s| |s m e H]; cbn.
  1-2: destruct s; lra.
  - lra.
  - destruct s; [apply F2R_le_0|apply F2R_ge_0]; cbn; lia.
Qed.

Lemma sign_nonzero : forall v : f64, number v <> 0%R -> if Bsign v then (number v < 0)%R else (0 < number v)%R.
Proof. intros v N. pose proof (sign_number v) as S. destruct (Bsign v); lra. Qed.

Lemma add_ok : forall x y, is_float x -> is_float y -> gives (add_float x y) (number x + number y).
Proof.
  intros x y Fx Fy. unfold add_float. pose proof (Bplus_correct 53 1024 _ _ mode_NE x y Fx Fy) as H.
  change (round radix2 fexp64 (round_mode mode_NE) (B2R x + B2R y))
    with (nearest (number x + number y)) in H.
  destruct (Rlt_bool_spec (Rabs (nearest (number x + number y))) (bpow radix2 1024)) as [L|L].
  - destruct H as (E & F & _). apply finite_gives; assumption.
  - destruct H as [E S]. apply is_inf in E. rewrite E. apply infinite_gives; [exact L|].
    pose proof (sign_number x) as Sx. pose proof (sign_number y) as Sy. rewrite <- S in Sy.
    destruct (Bsign x); [apply nearest_neg|apply nearest_pos]; lra.
Qed.

Lemma sub_ok : forall x y, is_float x -> is_float y -> gives (sub_float x y) (number x - number y).
Proof.
  intros x y Fx Fy. unfold sub_float. pose proof (Bminus_correct 53 1024 _ _ mode_NE x y Fx Fy) as H.
  change (round radix2 fexp64 (round_mode mode_NE) (B2R x - B2R y))
    with (nearest (number x - number y)) in H.
  destruct (Rlt_bool_spec (Rabs (nearest (number x - number y))) (bpow radix2 1024)) as [L|L].
  - destruct H as (E & F & _). apply finite_gives; assumption.
  - destruct H as [E S]. apply is_inf in E. rewrite E. apply infinite_gives; [exact L|].
    pose proof (sign_number x) as Sx. pose proof (sign_number y) as Sy.
    destruct (Bsign x), (Bsign y); try discriminate; [apply nearest_neg|apply nearest_pos]; lra.
Qed.

Lemma mul_ok : forall x y, is_float x -> is_float y -> gives (mul_float x y) (number x * number y).
Proof.
  intros x y Fx Fy. unfold mul_float. pose proof (Bmult_correct 53 1024 _ _ mode_NE x y) as H.
  change (round radix2 fexp64 (round_mode mode_NE) (B2R x * B2R y))
    with (nearest (number x * number y)) in H.
  destruct (Rlt_bool_spec (Rabs (nearest (number x * number y))) (bpow radix2 1024)) as [L|L].
  - destruct H as (E & F & _). rewrite Fx, Fy in F. apply finite_gives; assumption.
  - apply is_inf in H. rewrite H. apply infinite_gives; [exact L|].
    pose proof (sign_number x) as Sx. pose proof (sign_number y) as Sy.
    destruct (Bsign x), (Bsign y); cbn [xorb]; [apply nearest_pos|apply nearest_neg|apply nearest_neg|apply nearest_pos]; nra.
Qed.

Lemma equal_ok : forall x y, is_float x -> is_float y -> equal_float x y = true <-> number x = number y.
Proof.
  intros x y Fx Fy. unfold equal_float. rewrite Beqb_correct by assumption.
  unfold number. destruct (Req_bool_spec (B2R x) (B2R y)) as [E|E]; split; intros H; try reflexivity; try discriminate; [exact E|contradiction].
Qed.

Lemma div_zero : forall x y, is_float y -> number y = 0%R -> div_float x y = Failed DivisionByZero.
Proof.
  intros x y F Z. unfold div_float. replace (Beqb y (B754_zero false)) with true; [reflexivity|].
  symmetry. apply (equal_ok y (B754_zero false)); [exact F|reflexivity|exact Z].
Qed.

Lemma div_ok : forall x y, is_float x -> is_float y -> number y <> 0%R ->
  gives (div_float x y) (number x / number y).
Proof.
  intros x y Fx Fy N. unfold div_float. destruct (Beqb y (B754_zero false)) eqn:Q.
  { exfalso. apply N. apply (equal_ok y (B754_zero false)); [exact Fy|reflexivity|exact Q]. }
  pose proof (Bdiv_correct 53 1024 _ _ mode_NE x y N) as H.
  change (round radix2 fexp64 (round_mode mode_NE) (B2R x / B2R y))
    with (nearest (number x / number y)) in H.
  destruct (Rlt_bool_spec (Rabs (nearest (number x / number y))) (bpow radix2 1024)) as [L|L].
  - destruct H as (E & F & _). rewrite Fx in F. apply finite_gives; assumption.
  - apply is_inf in H. rewrite H. apply infinite_gives; [exact L|].
    pose proof (sign_number x) as Sx. pose proof (sign_nonzero y N) as Sy. unfold Rdiv.
    destruct (Bsign x), (Bsign y); cbn [xorb];
      [apply nearest_pos|apply nearest_neg|apply nearest_neg|apply nearest_pos];
      first [pose proof (Rinv_lt_0_compat _ Sy)|pose proof (Rinv_0_lt_compat _ Sy)]; nra.
Qed.

Lemma sqrt_ok : forall x, is_float x -> (0 <= number x)%R ->
  gives_exactly (sqrt_float x) (nearest (sqrt (number x))).
Proof.
  intros x F P. unfold sqrt_float. destruct (Bsqrt_correct 53 1024 _ _ mode_NE x) as (E & G & _).
  assert (FS : is_finite (Bsqrt mode_NE x) = true).
  { rewrite G. destruct x as [s|s| |s m e B]; try discriminate; [reflexivity|]. destruct s; [|reflexivity].
    exfalso. assert (H : (number (B754_finite true m e B) < 0)%R) by (apply F2R_lt_0; reflexivity). lra. }
  unfold new. rewrite FS. eexists. split; [reflexivity|]. split; [exact FS|exact E].
Qed.

Lemma sqrt_negative : forall x, is_float x -> (number x < 0)%R -> sqrt_float x = Failed InvalidArgument.
Proof.
  intros x F P. unfold sqrt_float. destruct (Bsqrt_correct 53 1024 _ _ mode_NE x) as (_ & G & _).
  assert (FS : is_finite (Bsqrt mode_NE x) = false).
  { rewrite G. destruct x as [s|s| |s m e B]; try discriminate; [cbn in P; lra|]. destruct s; [reflexivity|].
    exfalso. assert (H : (0 < number (B754_finite false m e B))%R) by (apply F2R_gt_0; reflexivity). lra. }
  unfold new. rewrite FS. reflexivity.
Qed.

Lemma neg_ok : forall x, is_float x -> gives_exactly (neg_float x) (- number x).
Proof.
  intros x F. unfold neg_float, new. rewrite is_finite_Bopp, F. eexists. split; [reflexivity|].
  split; [unfold is_float; rewrite is_finite_Bopp; exact F|apply B2R_Bopp].
Qed.

Lemma abs_ok : forall x, is_float x -> gives_exactly (abs_float x) (Rabs (number x)).
Proof.
  intros x F. eexists. split; [reflexivity|].
  split; [unfold is_float; rewrite is_finite_Babs; exact F|apply B2R_Babs].
Qed.

Lemma signum_ok : forall x, is_float x ->
  gives_exactly (signum_float x) (if Bsign x then -1 else 1)%R.
Proof.
  intros x F. unfold signum_float. replace (is_nan x) with false by (destruct x; try discriminate; reflexivity).
  eexists. split; [reflexivity|]. unfold is_sign_negative, number, is_float. destruct (Bsign x).
  - rewrite is_finite_Bopp, B2R_Bopp, Bone_correct. split; [apply is_finite_Bone|lra].
  - split; [apply is_finite_Bone|apply Bone_correct].
Qed.

Lemma compare_ok : forall x y, is_float x -> is_float y ->
  compare_float x y = Done (Rcompare (number x) (number y)).
Proof. intros x y Fx Fy. unfold compare_float. rewrite Bcompare_correct by assumption. reflexivity. Qed.

(** ** Integers *)

Lemma round_FIX : forall rnd r, round radix2 (FIX_exp 0) rnd r = IZR (rnd r).
Proof.
  intros rnd r. unfold round, scaled_mantissa, cexp, FIX_exp, F2R. cbn. rewrite !Rmult_1_r. reflexivity.
Qed.

Lemma trunc_nearby : forall md v, Btrunc (Bnearbyint (prec := 53) (emax := 1024) md v) = round_mode md (number v).
Proof.
  intros md v. apply eq_IZR. rewrite Btrunc_correct by reflexivity.
  destruct (Bnearbyint_correct 53 1024 _ md v) as (E & _ & _).
  rewrite E, !round_FIX, Ztrunc_IZR. reflexivity.
Qed.

Lemma nearby_finite : forall md (v : f64), is_float v -> is_finite (Bnearbyint md v) = true.
Proof. intros md v F. destruct (Bnearbyint_correct 53 1024 _ md v) as (_ & E & _). rewrite E. exact F. Qed.

Lemma as_int_ok : forall v, is_float v -> as_int v = nearest_int (Btrunc v).
Proof. intros [s|s| |s m e B] F; try discriminate; reflexivity. Qed.

Lemma rounded : forall md v, is_float v ->
  as_int (Bnearbyint md v) = nearest_int (round_mode md (number v)).
Proof. intros md v F. rewrite as_int_ok by (apply nearby_finite; exact F). rewrite trunc_nearby. reflexivity. Qed.

Lemma half_away_eq : forall r, ZnearestA r = half_away r.
Proof.
  assert (POS : forall r, (0 <= r)%R -> ZnearestA r = Zfloor (r + / 2)).
  { intros r P. assert (F : (0 <= Zfloor r)%Z) by (apply Zfloor_lub; exact P).
    pose proof (Zfloor_lb r) as L. pose proof (Zfloor_ub r) as U. unfold Znearest.
    destruct (Rcompare_spec (r - IZR (Zfloor r)) (/ 2)) as [H|H|H].
    - symmetry. apply Zfloor_imp. rewrite plus_IZR. lra.
    - replace (Zle_bool 0 (Zfloor r)) with true by (symmetry; apply Z.leb_le; exact F).
      rewrite Zceil_floor_neq by lra. symmetry. apply Zfloor_imp. rewrite !plus_IZR. lra.
    - rewrite Zceil_floor_neq by lra. symmetry. apply Zfloor_imp. rewrite !plus_IZR. lra. }
  intros r. unfold half_away. destruct (Rle_bool_spec 0 r) as [P|P]; [apply POS; exact P|].
  rewrite <- (Ropp_involutive r) at 1. rewrite Znearest_opp.
  assert (Q : Znearest (fun x => negb (Zle_bool 0 (- (x + 1)))) (- r) = ZnearestA (- r)).
  { unfold Znearest. assert (F : (0 <= Zfloor (- r))%Z) by (apply Zfloor_lub; lra).
    replace (Zle_bool 0 (Zfloor (- r))) with true by (symmetry; apply Z.leb_le; exact F).
    replace (Zle_bool 0 (- (Zfloor (- r) + 1))) with false; [reflexivity|].
    symmetry. apply Z.leb_gt. lia. }
  rewrite Q, POS by lra. unfold Zceil. do 2 f_equal. ring.
Qed.

Lemma integer_part_eq : forall r, Ztrunc r = integer_part r.
Proof.
  intros r. unfold integer_part. destruct (Rle_bool_spec 0 r) as [P|P].
  - apply Ztrunc_floor. exact P.
  - apply Ztrunc_ceil. lra.
Qed.

Lemma round_ok : forall v, is_float v -> round_float v = nearest_int (half_away (number v)).
Proof. intros v F. unfold round_float. rewrite rounded by exact F. cbn [round_mode]. rewrite half_away_eq. reflexivity. Qed.

Lemma floor_ok : forall v, is_float v -> floor_float v = nearest_int (Zfloor (number v)).
Proof. intros v F. unfold floor_float. rewrite rounded by exact F. reflexivity. Qed.

Lemma ceil_ok : forall v, is_float v -> ceil_float v = nearest_int (Zceil (number v)).
Proof. intros v F. unfold ceil_float. rewrite rounded by exact F. reflexivity. Qed.

Lemma trunc_ok : forall v, is_float v -> saturating_trunc v = nearest_int (integer_part (number v)).
Proof.
  intros v F. unfold saturating_trunc, num_cast. rewrite nearby_finite by exact F. rewrite trunc_nearby.
  cbn [round_mode]. pose proof (sign_number v) as S. unfold is_sign_negative.
  change int_min with smallest_int. change int_max with largest_int. unfold nearest_int.
  assert (B : (if Bsign v then Ztrunc (number v) <= 0 else 0 <= Ztrunc (number v))%Z).
  { destruct (Bsign v); [rewrite Ztrunc_ceil by exact S; apply Zceil_glb; exact S|].
    rewrite Ztrunc_floor by exact S. apply Zfloor_lub. exact S. }
  rewrite <- integer_part_eq. set (t := Ztrunc (number v)) in *. clearbody t.
  assert (L : smallest_int = (-9223372036854775808)%Z) by reflexivity.
  assert (H : largest_int = 9223372036854775807%Z) by reflexivity.
  destruct (smallest_int <=? t)%Z eqn:A; destruct (t <=? largest_int)%Z eqn:C; cbn [andb];
    rewrite ?Z.leb_le, ?Z.leb_gt in *; destruct (Bsign v); lia.
Qed.

Lemma nearest_exact : forall n, (Z.abs n <= 2 ^ 53)%Z -> nearest (IZR n) = IZR n.
Proof.
  intros n B. unfold nearest. apply round_generic; [auto with typeclass_instances|].
  destruct (Z.eq_dec (Z.abs n) (2 ^ 53)) as [E|E].
  - assert (G : generic_format radix2 (FLT_exp (-1074) 53) (bpow radix2 53)).
    { apply generic_format_FLT_bpow; [reflexivity|lia]. }
    change (bpow radix2 53) with (IZR (2 ^ 53)) in G. rewrite <- E in G. rewrite abs_IZR in G.
    unfold Rabs in G. destruct (Rcase_abs (IZR n)); [|exact G].
    rewrite <- (Ropp_involutive (IZR n)). apply generic_format_opp. exact G.
  - apply generic_format_FLT. exists (Float radix2 n 0); [unfold F2R; cbn; lra|cbn; lia|cbn; lia].
Qed.

Lemma of_int_ok : forall n, is_int n -> is_finite (of_int n) = true /\ number (of_int n) = nearest (IZR n).
Proof.
  intros n B. pose proof (binary_normalize_correct 53 1024 _ _ mode_NE n 0 false) as H.
  cbv zeta in H. replace (F2R {| Fnum := n; Fexp := 0 |}) with (IZR n) in H by (unfold F2R; cbn; lra).
  change (round radix2 fexp64 (round_mode mode_NE) (IZR n)) with (nearest (IZR n)) in H.
  assert (L : (Rabs (nearest (IZR n)) < bpow radix2 1024)%R).
  { apply Rle_lt_trans with (bpow radix2 63); [|apply bpow_lt; reflexivity].
    unfold nearest. apply abs_round_le_generic; [auto with typeclass_instances..| |].
    - apply generic_format_FLT_bpow; [reflexivity|lia].
    - rewrite <- abs_IZR. change (bpow radix2 63) with (IZR (2 ^ 63)). apply IZR_le.
      destruct B as [B1 B2]. unfold smallest_int, largest_int in *. lia. }
  apply Rlt_bool_true in L. rewrite L in H. destruct H as (E & F & _). split; assumption.
Qed.

Lemma int_to_float_ok : forall n, is_int n -> gives_exactly (isize_to_float n) (nearest (IZR n)).
Proof.
  intros n B. destruct (of_int_ok n B) as [F E]. unfold isize_to_float, new. rewrite F.
  eexists. split; [reflexivity|]. split; assumption.
Qed.

Lemma cast_ok : forall n, is_int n -> saturating_cast_int_to_float n = isize_to_float n.
Proof.
  intros n B. destruct (of_int_ok n B) as [F E]. unfold isize_to_float, saturating_cast_int_to_float, new.
  rewrite new_saturating_finite by exact F. rewrite F. reflexivity.
Qed.

(** ** Laws *)

Lemma number_format : forall v : f64, generic_format radix2 (FLT_exp (-1074) 53) (number v).
Proof. intros v. exact (generic_format_B2R 53 1024 v). Qed.

Lemma saturate_zero : forall r, saturate r = 0%R -> r = 0%R.
Proof.
  intros r H. pose proof largest_pos as P. unfold saturate in H.
  destruct (Rle_lt_dec largest r); [rewrite Rmin_left in H by lra; rewrite Rmax_right in H by lra; lra|].
  rewrite Rmin_right in H by lra. destruct (Rle_lt_dec (- largest) r).
  - rewrite Rmax_right in H by lra. exact H.
  - rewrite Rmax_left in H by lra. lra.
Qed.

Lemma sub_zero : forall x y v, is_float x -> is_float y -> sub_float x y = Done v ->
  (number v = 0%R <-> number x = number y).
Proof.
  intros x y v Fx Fy D. destruct (sub_ok x y Fx Fy) as (w & E & _ & N). rewrite D in E. injection E as <-.
  rewrite N. split; intros H.
  - apply saturate_zero in H. destruct (Req_dec (number x - number y) 0) as [Z|Z]; [lra|]. exfalso.
    revert H. unfold nearest, Rminus. apply Plus_error.round_plus_neq_0; auto with typeclass_instances.
    + apply number_format.
    + apply generic_format_opp, number_format.
  - rewrite H, Rminus_diag_eq by reflexivity. unfold nearest. rewrite round_0 by auto with typeclass_instances.
    apply saturate_in. pose proof largest_pos. lra.
Qed.

Lemma saturate_mono : forall a b, (a <= b)%R -> (saturate a <= saturate b)%R.
Proof. intros a b H. unfold saturate. apply Rle_max_compat_l, Rle_min_compat_l. exact H. Qed.

Lemma nearest_mono : forall a b, (a <= b)%R -> (nearest a <= nearest b)%R.
Proof. intros a b H. unfold nearest. apply round_le; auto with typeclass_instances. Qed.

Lemma gives_mono : forall o o' v v' r r', gives o r -> gives o' r' -> o = Done v -> o' = Done v' ->
  (r <= r')%R -> (number v <= number v')%R.
Proof.
  intros o o' v v' r r' (w & E & _ & N) (w' & E' & _ & N') D D' H. rewrite D in E. rewrite D' in E'.
  injection E as <-. injection E' as <-. rewrite N, N'. apply saturate_mono, nearest_mono, H.
Qed.
