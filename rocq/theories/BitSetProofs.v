From Coq Require Import NArith List Bool Arith Lia Sorting.Sorted ZArith Znumtheory.
From Verif Require Import ListUtil BitSetModel BitSetSpec.
Import ListNotations.
Open Scope N_scope.

Local Arguments N.testbit : simpl never.
Local Arguments N.land : simpl never.
Local Arguments N.lor : simpl never.
Local Arguments N.modulo : simpl never.

Definition small (w : N) := w < 2 ^ 64.
Definition wf (s : bitset) : Prop :=
  match s with BEmpty => True | BInline b => small b | BHeap ws => Forall small ws /\ ws <> [] end.

Lemma small_bits : forall w, small w <-> forall j, 64 <= j -> N.testbit w j = false.
Proof.
  intros w. unfold small. split; intros H.
  - intros j Hj. destruct (N.eq_dec w 0) as [->|Hz]; [apply N.bits_0|].
    apply N.bits_above_log2. apply N.log2_lt_pow2 in H; lia.
  - destruct (N.eq_dec w 0) as [->|Hz]; [reflexivity|]. apply N.log2_lt_pow2; [lia|].
    destruct (N.lt_ge_cases (N.log2 w) 64) as [|Hge]; auto.
    exfalso. specialize (H _ Hge). rewrite N.bit_log2 in H by auto. discriminate.
Qed.

Lemma shiftl1_testbit : forall b j, N.testbit (N.shiftl 1 b) j = (j =? b).
Proof.
  intros. rewrite N.shiftl_1_l. destruct (N.eqb_spec j b) as [->|Hn].
  - apply N.pow2_bits_true.
  - apply N.pow2_bits_false. auto.
Qed.

Lemma bit_of_testbit : forall i j, N.testbit (bit_of i) j = (j =? i mod 64).
Proof. intros. apply shiftl1_testbit. Qed.

Lemma mod64 : forall i, i mod 64 < 64.
Proof. intros. apply N.mod_lt. discriminate. Qed.

Lemma land_bit : forall w i, negb (N.land w (bit_of i) =? 0) = N.testbit w (i mod 64).
Proof.
  intros w i. destruct (N.testbit w (i mod 64)) eqn:E.
  - destruct (N.eqb_spec (N.land w (bit_of i)) 0) as [E0|]; auto.
    assert (F : N.testbit (N.land w (bit_of i)) (i mod 64) = true)
      by (rewrite N.land_spec, E, bit_of_testbit, N.eqb_refl; reflexivity).
    rewrite E0, N.bits_0 in F. discriminate.
  - replace (N.land w (bit_of i)) with 0; auto. apply N.bits_inj. intros j.
    rewrite N.bits_0, N.land_spec, bit_of_testbit.
    destruct (N.eqb_spec j (i mod 64)); [subst; rewrite E|rewrite andb_false_r]; auto.
Qed.

Lemma word_at_heap : forall ws k, bs_word_at (BHeap ws) k = nth k ws 0.
Proof.
  intros. simpl. destruct (nth_error ws k) eqn:E.
  - symmetry. apply (nth_error_nth ws k 0 E).
  - symmetry. apply nth_overflow. apply nth_error_None. auto.
Qed.

Lemma contains_spec : forall s i, bs_contains s i = N.testbit (bs_word_at s (word_of i)) (i mod 64).
Proof.
  intros [|b|ws] i; simpl.
  - symmetry. apply N.bits_0.
  - destruct (Nat.eqb (word_of i) 0); simpl; [apply land_bit|symmetry; apply N.bits_0].
  - destruct (nth_error ws (word_of i)); [apply land_bit|symmetry; apply N.bits_0].
Qed.

Lemma bit_of_small : forall i, small (bit_of i).
Proof.
  intros. apply small_bits. intros j Hj. rewrite bit_of_testbit. pose proof (mod64 i).
  apply N.eqb_neq. lia.
Qed.

Lemma lor_small : forall a b, small a -> small b -> small (N.lor a b).
Proof.
  intros a b Ha Hb. rewrite small_bits in *. intros. rewrite N.lor_spec, Ha, Hb; auto.
Qed.

Lemma land_small : forall a b, small a -> small (N.land a b).
Proof. intros a b Ha. rewrite small_bits in *. intros. rewrite N.land_spec, Ha; auto. Qed.

Lemma zero_small : small 0.
Proof. reflexivity. Qed.

Lemma zeroed_small : forall n, Forall small (zeroed_words n).
Proof. intros. unfold zeroed_words. induction n; simpl; constructor; auto using zero_small. Qed.

Lemma nth_small : forall ws k, Forall small ws -> small (nth k ws 0).
Proof.
  intros ws k H. destruct (Nat.lt_ge_cases k (length ws)).
  - rewrite Forall_forall in H. apply H. apply nth_In. auto.
  - rewrite nth_overflow by auto. apply zero_small.
Qed.

Lemma word_at_small : forall s k, wf s -> small (bs_word_at s k).
Proof.
  intros [|b|ws] k H.
  - apply zero_small.
  - simpl. destruct (Nat.eqb k 0); [auto|apply zero_small].
  - rewrite word_at_heap. apply nth_small. apply H.
Qed.

Lemma upd_nonnil : forall A (l : list A) i x, l <> [] -> upd l i x <> [].
Proof. destruct l, i; simpl; congruence. Qed.

Lemma insert_wf : forall s i, wf s -> wf (bs_insert s i).
Proof.
  intros s i H. pose proof (bit_of_small i). destruct s as [|b|ws]; unfold bs_insert; cbn zeta.
  - destruct (Nat.eqb _ _); simpl; auto. split.
    + apply (Forall_upd _ _ (zeroed_words (S (word_of i)))); auto using zeroed_small.
    + apply (upd_nonnil _ (zeroed_words (S (word_of i)))). discriminate.
  - destruct (Nat.eqb _ _); [apply lor_small; auto|]. split.
    + apply Forall_upd; [apply Forall_upd; auto using zeroed_small|].
      apply lor_small; auto. apply nth_small. apply Forall_upd; auto using zeroed_small.
    + apply upd_nonnil, upd_nonnil. discriminate.
  - destruct H as [H1 H2]. destruct (Nat.ltb_spec (word_of i) (length ws)); split.
    + apply Forall_upd; auto. apply lor_small; auto using nth_small.
    + apply upd_nonnil; auto.
    + apply Forall_upd; [apply Forall_app; auto using zeroed_small|].
      apply lor_small; auto. apply nth_small. apply Forall_app; auto using zeroed_small.
    + apply upd_nonnil. destruct ws; [congruence|discriminate].
Qed.

Lemma remove_wf : forall s i, wf s -> wf (bs_remove s i).
Proof.
  intros s i H. destruct s as [|b|ws]; simpl; auto.
  - destruct (Nat.eqb _ _); simpl; auto using land_small.
  - destruct (nth_error ws (word_of i)) eqn:E; auto. destruct H as [H1 H2]. split.
    + apply Forall_upd; auto. apply land_small. rewrite Forall_forall in H1. eapply H1, nth_error_In; eauto.
    + apply upd_nonnil; auto.
Qed.

Lemma nth_zeroed : forall k n, nth k (zeroed_words n) 0 = 0.
Proof. intros. apply nth_repeat_any. Qed.

Lemma nth_app_zeroed : forall ws k n, nth k (ws ++ zeroed_words n) 0 = nth k ws 0.
Proof.
  intros. destruct (Nat.lt_ge_cases k (length ws)).
  - apply app_nth1; auto.
  - rewrite app_nth2 by auto. rewrite nth_zeroed, nth_overflow; auto.
Qed.

Lemma insert_bits : forall s i k j,
  N.testbit (bs_word_at (bs_insert s i) k) j =
  N.testbit (bs_word_at s k) j || (Nat.eqb k (word_of i) && (j =? i mod 64)).
Proof.
  intros s i k j. rewrite <- bit_of_testbit. destruct s as [|b|ws]; unfold bs_insert; cbn zeta.
  - destruct (Nat.eqb_spec (word_of i) 0) as [E|E].
    + rewrite E. simpl. rewrite ?N.bits_0. destruct (Nat.eqb k 0); simpl; auto using N.bits_0.
    + rewrite word_at_heap. rewrite nth_upd. rewrite (Nat.eqb_sym k).
      assert (L : Nat.ltb (word_of i) (length (zeroed_words (S (word_of i)))) = true)
        by (apply Nat.ltb_lt; unfold zeroed_words; rewrite repeat_length; lia).
      rewrite L, nth_zeroed. simpl bs_word_at. rewrite ?N.bits_0.
      destruct (Nat.eqb (word_of i) k); simpl; auto using N.bits_0.
  - destruct (Nat.eqb_spec (word_of i) 0) as [E|E].
    + rewrite E. simpl. destruct (Nat.eqb k 0); simpl.
      * apply N.lor_spec.
      * rewrite ?N.bits_0. auto.
    + rewrite word_at_heap. rewrite !nth_upd, !upd_length. rewrite (Nat.eqb_sym k).
      assert (L : length (zeroed_words (S (word_of i))) = S (word_of i))
        by (unfold zeroed_words; rewrite repeat_length; lia).
      rewrite L, !nth_zeroed.
      assert (L1 : Nat.ltb (word_of i) (S (word_of i)) = true) by (apply Nat.ltb_lt; lia).
      assert (L0 : Nat.ltb 0 (S (word_of i)) = true) by (apply Nat.ltb_lt; lia).
      rewrite L1, L0. simpl bs_word_at. rewrite (Nat.eqb_sym k 0).
      destruct (Nat.eqb_spec (word_of i) k) as [<-|]; simpl.
      * destruct (Nat.eqb_spec 0 (word_of i)); [lia|]. rewrite N.lor_spec. auto.
      * rewrite orb_false_r. auto.
  - destruct (Nat.ltb_spec (word_of i) (length ws)) as [Hl|Hl]; rewrite !word_at_heap, nth_upd.
    + rewrite (Nat.eqb_sym k). assert (L1 : Nat.ltb (word_of i) (length ws) = true) by (apply Nat.ltb_lt; lia).
      rewrite L1. destruct (Nat.eqb_spec (word_of i) k) as [<-|]; simpl.
      * apply N.lor_spec.
      * rewrite orb_false_r; auto.
    + rewrite (Nat.eqb_sym k).
      assert (L1 : Nat.ltb (word_of i) (length (ws ++ zeroed_words (S (word_of i) - length ws))) = true)
        by (apply Nat.ltb_lt; rewrite app_length; unfold zeroed_words; rewrite repeat_length; lia).
      rewrite L1, !nth_app_zeroed. destruct (Nat.eqb_spec (word_of i) k) as [<-|]; simpl.
      * apply N.lor_spec.
      * rewrite orb_false_r; auto.
Qed.

Lemma land_not64 : forall w b j, small w ->
  N.testbit (N.land w (not64 b)) j = N.testbit w j && negb (N.testbit b j).
Proof.
  intros w b j H. rewrite N.land_spec. unfold not64. rewrite N.lxor_spec.
  destruct (N.lt_ge_cases j 64).
  - rewrite N.ones_spec_low by lia. destruct (N.testbit w j), (N.testbit b j); auto.
  - rewrite small_bits in H. rewrite H by auto. reflexivity.
Qed.

Lemma remove_bits : forall s i k j, wf s ->
  N.testbit (bs_word_at (bs_remove s i) k) j =
  N.testbit (bs_word_at s k) j && negb (Nat.eqb k (word_of i) && (j =? i mod 64)).
Proof.
  intros s i k j H. rewrite <- bit_of_testbit. destruct s as [|b|ws]; unfold bs_remove; cbn zeta.
  - simpl. rewrite ?N.bits_0. auto.
  - destruct (Nat.eqb_spec (word_of i) 0) as [E|E].
    + rewrite E. simpl. destruct (Nat.eqb k 0); simpl.
      * apply land_not64; auto.
      * rewrite ?N.bits_0. auto.
    + simpl. destruct (Nat.eqb_spec k 0); [subst|rewrite ?N.bits_0; auto].
      destruct (Nat.eqb_spec 0 (word_of i)); [lia|]. simpl. rewrite andb_true_r. auto.
  - destruct H as [H1 _]. destruct (nth_error ws (word_of i)) as [w|] eqn:E; rewrite !word_at_heap.
    + assert (Hl : (word_of i < length ws)%nat) by (apply nth_error_Some; congruence).
      rewrite nth_upd, (Nat.eqb_sym k). apply Nat.ltb_lt in Hl. rewrite Hl.
      destruct (Nat.eqb_spec (word_of i) k) as [<-|]; simpl.
      * apply nth_error_nth with (d := 0) in E. rewrite E. apply land_not64.
        rewrite <- E. apply nth_small; auto.
      * rewrite andb_true_r; auto.
    + apply nth_error_None in E. destruct (Nat.eqb_spec k (word_of i)) as [->|]; simpl.
      * rewrite nth_overflow by auto. rewrite ?N.bits_0. auto.
      * rewrite andb_true_r; auto.
Qed.

Lemma or_zip_nth : forall a b k, (length b <= length a)%nat ->
  nth k (or_zip a b) 0 = N.lor (nth k a 0) (nth k b 0).
Proof.
  induction a as [|x a IH]; intros b k H.
  - destruct b; [|simpl in H; lia]. simpl. destruct k; auto.
  - destruct b as [|y b]; simpl.
    + destruct k; rewrite N.lor_0_r; auto.
    + destruct k; auto. apply IH. simpl in H. lia.
Qed.

Lemma or_zip_small : forall a b, Forall small a -> Forall small b -> Forall small (or_zip a b).
Proof.
  induction a as [|x a IH]; intros b Ha Hb; simpl; auto.
  destruct b as [|y b]; auto. inversion Ha; inversion Hb; subst. constructor; auto using lor_small.
Qed.

Lemma or_zip_nonnil : forall a b, a <> [] -> or_zip a b <> [].
Proof. destruct a, b; simpl; congruence. Qed.

Lemma union_ok : forall s o, wf s -> wf o -> exists u, bs_union_with s o = Some u /\ wf u /\
  forall k j, N.testbit (bs_word_at u k) j = N.testbit (bs_word_at s k) j || N.testbit (bs_word_at o k) j.
Proof.
  intros s o Hs Ho. destruct s as [|a|a], o as [|b|b].
  - exists BEmpty. repeat split.
  - exists (BInline b). split; [reflexivity|split; [exact Ho|]]. intros. simpl bs_word_at. rewrite ?N.bits_0; auto.
  - exists (BHeap b). split; [reflexivity|split; [exact Ho|]]. intros. rewrite word_at_heap. simpl bs_word_at. rewrite ?N.bits_0; auto.
  - exists (BInline a). split; [reflexivity|split; [exact Hs|]]. intros. simpl bs_word_at. rewrite ?N.bits_0, ?orb_false_r; auto.
  - exists (BInline (N.lor a b)). split; [reflexivity|split; [apply lor_small; auto|]]. intros. simpl.
    destruct (Nat.eqb k 0); [apply N.lor_spec|rewrite ?N.bits_0; auto].
  - destruct Ho as [Ho1 Ho2]. destruct b as [|h t]; [congruence|].
    exists (BHeap (N.lor h a :: t)). inversion Ho1; subst. split; [reflexivity|split; [split; [|discriminate]|]].
    + constructor; auto using lor_small.
    + intros. rewrite !word_at_heap. simpl bs_word_at. destruct k; simpl.
      * rewrite N.lor_spec, orb_comm; auto.
      * rewrite ?N.bits_0. auto.
  - exists (BHeap a). split; [reflexivity|split; [exact Hs|]]. intros. rewrite word_at_heap. simpl bs_word_at. rewrite ?N.bits_0, ?orb_false_r; auto.
  - destruct Hs as [Hs1 Hs2]. destruct a as [|h t]; [congruence|].
    exists (BHeap (N.lor h b :: t)). inversion Hs1; subst. split; [reflexivity|split; [split; [|discriminate]|]].
    + constructor; auto using lor_small.
    + intros. rewrite !word_at_heap. simpl bs_word_at. destruct k; simpl.
      * rewrite N.lor_spec; auto.
      * rewrite ?N.bits_0, ?orb_false_r. auto.
  - destruct Hs as [Hs1 Hs2], Ho as [Ho1 Ho2]. unfold bs_union_with. cbn zeta. eexists. split; [reflexivity|].
    destruct (Nat.ltb_spec (length a) (length b)).
    + split; [split|].
      * apply or_zip_small; auto. apply Forall_app; auto using zeroed_small.
      * apply or_zip_nonnil. destruct a; [congruence|discriminate].
      * intros. rewrite !word_at_heap, or_zip_nth, nth_app_zeroed, N.lor_spec; auto.
        rewrite app_length. unfold zeroed_words. rewrite repeat_length. lia.
    + split; [split|].
      * apply or_zip_small; auto.
      * apply or_zip_nonnil; auto.
      * intros. rewrite !word_at_heap, or_zip_nth, N.lor_spec; auto.
Qed.

(** From word/bit coordinates to indices. *)
Lemma coord_eq : forall i j, (Nat.eqb (word_of i) (word_of j) && (i mod 64 =? j mod 64)) = (i =? j).
Proof.
  intros i j. unfold word_of. destruct (N.eqb_spec i j) as [->|Hn].
  - rewrite Nat.eqb_refl, N.eqb_refl. auto.
  - apply andb_false_iff. destruct (Nat.eqb_spec (N.to_nat (i / 64)) (N.to_nat (j / 64))) as [E|]; auto.
    right. apply N.eqb_neq. intros E2. apply N2Nat.inj in E. apply Hn.
    rewrite (N.div_mod i 64), (N.div_mod j 64) by discriminate. congruence.
Qed.

Lemma coord_word : forall k b, b < 64 -> word_of (N.of_nat k * 64 + b) = k /\ (N.of_nat k * 64 + b) mod 64 = b.
Proof.
  intros k b H. unfold word_of. split.
  - rewrite N.div_add_l by discriminate. rewrite N.div_small by auto. lia.
  - rewrite N.add_comm, N.mod_add by discriminate. apply N.mod_small; auto.
Qed.

Lemma with_capacity_ok : forall n, wf (bs_with_capacity n) /\ forall k, bs_word_at (bs_with_capacity n) k = 0.
Proof.
  intros n. unfold bs_with_capacity. destruct (N.leb_spec n 64).
  - split; [apply zero_small|]. intros. simpl. destruct (Nat.eqb k 0); auto.
  - split; [split|].
    + apply zeroed_small.
    + assert (1 <= (n + 63) / 64) by (apply N.div_le_lower_bound; lia).
      unfold zeroed_words. destruct (N.to_nat ((n + 63) / 64)) eqn:E; [lia|discriminate].
    + intros. rewrite word_at_heap. apply nth_zeroed.
Qed.

Lemma run_ok : forall h, exists s, run h = Some s /\ wf s /\ forall i, bs_contains s i = true <-> member h i.
Proof.
  induction h as [|n|h (s & E & W & C) i|h (s & E & W & C) i|h1 (s1 & E1 & W1 & C1) h2 (s2 & E2 & W2 & C2)]; simpl.
  - exists BEmpty. repeat split; simpl; try discriminate; tauto.
  - exists (bs_with_capacity n). destruct (with_capacity_ok n) as [W Z]. repeat split; auto; try tauto.
    rewrite contains_spec, Z, N.bits_0. discriminate.
  - rewrite E. eexists. split; [reflexivity|]. split; [apply insert_wf; auto|]. intros j.
    rewrite contains_spec, insert_bits, <- contains_spec, coord_eq, orb_true_iff, C, N.eqb_eq. tauto.
  - rewrite E. eexists. split; [reflexivity|]. split; [apply remove_wf; auto|]. intros j.
    rewrite contains_spec, remove_bits, <- contains_spec, coord_eq, andb_true_iff, C, negb_true_iff, N.eqb_neq by auto. tauto.
  - rewrite E1, E2. destruct (union_ok s1 s2 W1 W2) as (u & Eu & Wu & Bu). exists u. split; auto. split; auto.
    intros i. rewrite contains_spec, Bu, <- !contains_spec, orb_true_iff, C1, C2. tauto.
Qed.

(** Lowest set bit. *)
Fixpoint clear_lowest (p : positive) : N :=
  match p with xH => 0 | xI q => Npos (xO q) | xO q => 2 * clear_lowest q end.

Lemma land_pred : forall p, N.land (Npos p) (Npos p - 1) = clear_lowest p.
Proof.
  induction p.
  - replace (N.pos p~1 - 1) with (N.pos p~0) by lia. apply N.bits_inj. intros j. rewrite N.land_spec. simpl clear_lowest.
    destruct (N.eq_dec j 0) as [->|]; [reflexivity|].
    replace j with (N.succ (N.pred j)) by lia.
    change (N.pos p~1) with (2 * N.pos p + 1). change (N.pos p~0) with (2 * N.pos p).
    rewrite N.testbit_odd_succ, N.testbit_even_succ by lia. apply andb_diag.
  - cbn [clear_lowest]. rewrite <- IHp. replace (N.pos p~0 - 1) with (2 * (N.pos p - 1) + 1) by lia.
    change (N.pos p~0) with (2 * N.pos p). apply N.bits_inj. intros j.
    rewrite N.land_spec. destruct (N.eq_dec j 0) as [->|].
    + rewrite !N.testbit_even_0. auto.
    + replace j with (N.succ (N.pred j)) by lia.
      rewrite N.testbit_odd_succ, !N.testbit_even_succ, N.land_spec by lia. auto.
  - reflexivity.
Qed.

Lemma tz_spec : forall p, N.testbit (Npos p) (pos_trailing_zeros p) = true /\
  (forall j, j < pos_trailing_zeros p -> N.testbit (Npos p) j = false) /\
  (forall j, N.testbit (clear_lowest p) j = N.testbit (Npos p) j && negb (j =? pos_trailing_zeros p)).
Proof.
  induction p as [p _|p (I1 & I2 & I3)|].
  - split; [reflexivity|]. split; [simpl; intros; lia|]. intros j. cbn [pos_trailing_zeros clear_lowest].
    destruct (N.eq_dec j 0) as [->|]; [reflexivity|].
    destruct (N.eqb_spec j 0); [congruence|]. rewrite andb_true_r.
    replace j with (N.succ (N.pred j)) by lia.
    change (N.pos p~1) with (2 * N.pos p + 1). change (N.pos p~0) with (2 * N.pos p).
    rewrite N.testbit_odd_succ, N.testbit_even_succ by lia. auto.
  - cbn [pos_trailing_zeros clear_lowest]. change (N.pos p~0) with (2 * N.pos p). split; [|split].
    + rewrite N.testbit_even_succ by lia. auto.
    + intros j Hj. destruct (N.eq_dec j 0) as [->|]; [apply N.testbit_even_0|].
      replace j with (N.succ (N.pred j)) by lia. rewrite N.testbit_even_succ by lia. apply I2. lia.
    + intros j. destruct (N.eq_dec j 0) as [->|].
      * rewrite !N.testbit_even_0. auto.
      * replace j with (N.succ (N.pred j)) by lia. rewrite !N.testbit_even_succ, I3 by lia. f_equal. f_equal.
        destruct (N.eqb_spec (N.pred j) (pos_trailing_zeros p)), (N.eqb_spec (N.succ (N.pred j)) (N.succ (pos_trailing_zeros p))); auto; lia.
  - split; [reflexivity|]. split; [simpl; intros; lia|]. intros j. cbn [clear_lowest pos_trailing_zeros].
    rewrite ?N.bits_0. destruct (N.eqb_spec j 0); [subst; reflexivity|]. rewrite andb_true_r.
    symmetry. apply N.bits_above_log2. simpl. lia.
Qed.

Lemma count_clear : forall p, pos_count_ones p = S (count_ones64 (clear_lowest p)).
Proof.
  induction p; simpl; auto. rewrite IHp. destruct (clear_lowest p); reflexivity.
Qed.

Lemma next_ext : forall a b l, ones_next a = ones_next b -> yields a l -> yields b l.
Proof.
  intros a b l E H. inversion H; subst.
  - apply yields_end. congruence.
  - eapply yields_item; eauto. congruence.
Qed.

Definition after (words : list N) (idx : nat) (i : N) : Prop :=
  (idx < word_of i)%nat /\ N.testbit (nth (word_of i) words 0) (i mod 64) = true.

(** Consuming the current word, whatever comes after it. *)
Lemma word_yields : forall c (mk : N -> ones_iter) (base : N) rest,
  small c ->
  (forall c, c <> 0 -> ones_next (mk c) = Some (base + trailing_zeros c, mk (N.land c (c - 1)))) ->
  yields (mk 0) rest ->
  exists l, yields (mk c) (l ++ rest) /\ StronglySorted N.lt l /\ length l = count_ones64 c /\
    (forall i, In i l <-> base <= i /\ N.testbit c (i - base) = true).
Proof.
  intros c mk base rest Hc Hn Hr. remember (count_ones64 c) as n eqn:En.
  revert c Hc En. induction n as [|n IH]; intros c Hc En.
  - destruct c as [|p]; [|simpl in En; rewrite count_clear in En; discriminate].
    exists []. split; [auto|]. split; [constructor|]. split; auto.
    intros i. rewrite ?N.bits_0. simpl. intuition congruence.
  - destruct c as [|p]; [discriminate|]. simpl in En. rewrite count_clear in En. injection En as En.
    destruct (tz_spec p) as (T1 & T2 & T3).
    assert (Hs : small (clear_lowest p)).
    { rewrite <- land_pred. apply land_small. auto. }
    destruct (IH _ Hs En) as (l & Y & S & L & M).
    exists (base + pos_trailing_zeros p :: l). split; [|split; [|split]].
    + simpl. eapply yields_item; [apply Hn; discriminate|]. rewrite land_pred. auto.
    + constructor; auto. apply Forall_forall. intros x Hx. apply M in Hx as [Hx1 Hx2].
      rewrite T3 in Hx2. apply andb_prop in Hx2 as [Hx2 Hx3].
      destruct (N.lt_ge_cases (x - base) (pos_trailing_zeros p)) as [Hlt|Hge].
      * rewrite (T2 _ Hlt) in Hx2. discriminate.
      * apply negb_true_iff, N.eqb_neq in Hx3. lia.
    + simpl. congruence.
    + intros i. simpl. rewrite M, T3, andb_true_iff, negb_true_iff, N.eqb_neq. split.
      * intros [<-|[H1 [H2 H3]]]; split; auto; try lia.
        replace (base + pos_trailing_zeros p - base) with (pos_trailing_zeros p) by lia. auto.
      * intros [H1 H2]. destruct (N.eq_dec (i - base) (pos_trailing_zeros p)); [left; lia|right; tauto].
Qed.

Lemma loop_zero : forall f words idx, (length words - idx < f)%nat ->
  ones_loop f words idx 0 = if Nat.leb (length words) (S idx) then None
                            else ones_loop (pred f) words (S idx) (nth (S idx) words 0).
Proof.
  intros f words idx H. destruct f; [lia|]. cbn [ones_loop]. change (0 =? 0) with true. cbn beta iota zeta.
  cbn [Init.Nat.pred]. destruct (Nat.leb_spec (length words) (S idx)); auto.
  destruct (nth_error words (S idx)) eqn:E.
  - apply nth_error_nth with (d := 0) in E. rewrite E. auto.
  - apply nth_error_None in E. lia.
Qed.

Lemma loop_fuel : forall n f1 f2 words idx c, (length words - idx <= n)%nat ->
  (length words - idx < f1)%nat -> (length words - idx < f2)%nat ->
  ones_loop f1 words idx c = ones_loop f2 words idx c.
Proof.
  induction n; intros f1 f2 words idx c Hn H1 H2.
  - destruct (N.eq_dec c 0) as [->|Hc].
    + rewrite !loop_zero by auto. destruct (Nat.leb_spec (length words) (S idx)); auto. lia.
    + apply N.eqb_neq in Hc. destruct f1, f2; simpl; rewrite Hc; auto.
  - destruct (N.eq_dec c 0) as [->|Hc].
    + rewrite !loop_zero by auto. destruct (Nat.leb_spec (length words) (S idx)); auto.
      apply IHn; lia.
    + apply N.eqb_neq in Hc. destruct f1, f2; simpl; rewrite Hc; auto.
Qed.

Lemma heap_next_zero : forall words idx, (S idx < length words)%nat ->
  ones_next (OHeap words idx 0) = ones_next (OHeap words (S idx) (nth (S idx) words 0)).
Proof.
  intros words idx H. unfold ones_next. rewrite loop_zero by lia.
  destruct (Nat.leb_spec (length words) (S idx)); [lia|].
  apply loop_fuel with (n := length words); simpl; lia.
Qed.

Definition ones_sum (ws : list N) : nat := fold_right (fun w acc => (count_ones64 w + acc)%nat) 0%nat ws.

Lemma skipn_sum : forall ws idx, (idx < length ws)%nat ->
  ones_sum (skipn idx ws) = (count_ones64 (nth idx ws 0%N) + ones_sum (skipn (S idx) ws))%nat.
Proof.
  induction ws as [|w ws IH]; intros idx H; simpl in H; [lia|].
  destruct idx; [reflexivity|]. cbn [skipn nth]. rewrite IH by lia. reflexivity.
Qed.

Lemma StronglySorted_app : forall (a b : list N), StronglySorted N.lt a -> StronglySorted N.lt b ->
  (forall x y, In x a -> In y b -> x < y) -> StronglySorted N.lt (a ++ b).
Proof.
  induction a; simpl; auto. intros b Ha Hb H. inversion Ha; subst. constructor.
  - apply IHa; auto.
  - apply Forall_app. split; auto. apply Forall_forall. intros. apply H; auto.
Qed.

Lemma word_of_lt : forall i j, (word_of i < word_of j)%nat -> i < j.
Proof.
  intros i j H. unfold word_of in H. assert (i / 64 < j / 64) by lia.
  destruct (N.lt_ge_cases i j); auto. pose proof (N.div_le_mono j i 64 ltac:(lia) ltac:(lia)). lia.
Qed.

Lemma heap_yields : forall n words idx, Forall small words -> (idx < length words)%nat ->
  (length words - idx <= n)%nat ->
  exists l, yields (OHeap words idx (nth idx words 0)) l /\ StronglySorted N.lt l /\
    length l = ones_sum (skipn idx words) /\
    forall i, In i l <-> (idx <= word_of i)%nat /\ N.testbit (nth (word_of i) words 0) (i mod 64) = true.
Proof.
  induction n; intros words idx Hw Hi Hn; [lia|].
  assert (R : exists rest, yields (OHeap words idx 0) rest /\ StronglySorted N.lt rest /\
    length rest = ones_sum (skipn (S idx) words) /\ forall i, In i rest <-> after words idx i).
  { destruct (Nat.lt_ge_cases (S idx) (length words)) as [H|H].
    - destruct (IHn words (S idx) Hw H ltac:(lia)) as (l & Y & S & L & M). exists l. split; [|split; [|split]]; auto.
      eapply next_ext; [|apply Y]. symmetry. apply heap_next_zero. auto.
    - exists []. split; [|split; [constructor|split]].
      + apply yields_end. unfold ones_next. rewrite loop_zero by lia. destruct (Nat.leb_spec (length words) (S idx)); [auto|lia].
      + rewrite skipn_all2 by lia. reflexivity.
      + intros i. simpl. split; [tauto|]. intros [H1 H2]. rewrite nth_overflow, N.bits_0 in H2 by lia. discriminate. }
  destruct R as (rest & Yr & Sr & Lr & Mr).
  assert (Hsm : small (nth idx words 0)) by (apply nth_small; auto).
  destruct (word_yields (nth idx words 0) (OHeap words idx) (N.of_nat idx * 64) rest Hsm) as (l & Y & S & L & M); auto.
  { intros c Hc. unfold ones_next. cbn [ones_loop]. apply N.eqb_neq in Hc. rewrite Hc. reflexivity. }
  assert (K : forall i, In i l <-> word_of i = idx /\ N.testbit (nth idx words 0) (i mod 64) = true).
  { intros i. rewrite M. split.
    - intros [H1 H2]. assert (Hlt : i - N.of_nat idx * 64 < 64).
      { destruct (N.lt_ge_cases (i - N.of_nat idx * 64) 64); auto.
        rewrite small_bits in Hsm. rewrite Hsm in H2 by auto. discriminate. }
      destruct (coord_word idx _ Hlt) as [C1 C2].
      replace (N.of_nat idx * 64 + (i - N.of_nat idx * 64)) with i in C1, C2 by lia.
      split; auto. rewrite C2. auto.
    - intros [H1 H2]. unfold word_of in H1.
      assert (E : i = 64 * (i / 64) + i mod 64) by (apply N.div_mod; discriminate).
      assert (Q : N.of_nat idx = i / 64) by lia. rewrite Q. clear - E H2. generalize dependent (i mod 64). generalize (i / 64). intros q r E H2. split; [lia|].
      replace (i - q * 64) with r by lia. auto. }
  exists (l ++ rest). split; [auto|]. split; [|split].
  - apply StronglySorted_app; auto. intros x y Hx Hy. apply K in Hx as [Hx _]. apply Mr in Hy as [Hy _].
    apply word_of_lt. lia.
  - rewrite app_length, L, Lr, (skipn_sum words idx) by auto. reflexivity.
  - intros i. rewrite in_app_iff, K, Mr. unfold after. split.
    + intros [[H1 H2]|[H1 H2]]; split; try lia; auto. rewrite H1. auto.
    + intros [H1 H2]. destruct (Nat.eq_dec (word_of i) idx) as [E|]; [left; split; auto; rewrite <- E; auto|right; split; auto; lia].
Qed.

Lemma iter_ok : forall s, wf s -> exists l, yields (bs_iter_ones s) l /\
  enumerates l (fun i => bs_contains s i = true) /\ bs_len s = length l.
Proof.
  intros s W. destruct s as [|b|ws].
  - exists []. split; [apply yields_end; reflexivity|]. split; [|reflexivity]. split; [constructor|].
    intros. simpl. intuition discriminate.
  - destruct (word_yields b OInline 0 [] W) as (l & Y & S & L & M).
    { intros c Hc. cbn [ones_next]. apply N.eqb_neq in Hc. rewrite Hc. auto. }
    { apply yields_end. reflexivity. }
    rewrite app_nil_r in Y. exists l. split; auto. split; [split; auto|auto].
    intros i. rewrite M, contains_spec. rewrite N.sub_0_r. simpl. split.
    + intros [_ H]. assert (Hlt : i < 64).
      { destruct (N.lt_ge_cases i 64); auto. simpl in W. rewrite small_bits in W. rewrite W in H by auto. discriminate. }
      unfold word_of. rewrite N.div_small, N.mod_small by auto. simpl. auto.
    + intros H. split; [lia|]. destruct (Nat.eqb_spec (word_of i) 0) as [E|].
      * unfold word_of in E. assert (i / 64 = 0) by lia.
        assert (E2 : i = 64 * (i / 64) + i mod 64) by (apply N.div_mod; discriminate).
        replace i with (i mod 64) by lia. auto.
      * rewrite N.bits_0 in H. discriminate.
  - destruct W as [W1 W2]. destruct ws as [|w ws]; [congruence|].
    destruct (heap_yields _ (w :: ws) 0 W1 ltac:(simpl; lia) (le_n _)) as (l & Y & S & L & M).
    exists l. split; auto. split; [split; auto|auto].
    intros i. rewrite M, contains_spec, word_at_heap. intuition lia.
Qed.

Lemma last_nonzero_spec : forall ws, (forall k, (last_nonzero ws <= k)%nat -> nth k ws 0 = 0) /\
  (last_nonzero ws = 0%nat \/ nth (pred (last_nonzero ws)) ws 0 <> 0).
Proof.
  induction ws as [|w ws [I1 I2]]; simpl.
  - split; [intros; destruct k; auto|auto].
  - destruct (last_nonzero ws) eqn:E.
    + destruct (N.eqb_spec w 0).
      * split; auto. intros [|k] _; auto. apply I1. lia.
      * split; [|right; simpl; auto]. intros [|k] H; [lia|]. apply I1. lia.
    + split; [|right; simpl; destruct I2; [discriminate|auto]].
      intros [|k] H; [lia|]. apply I1. lia.
Qed.

Lemma nonzero_len_spec : forall s, (forall k, (bs_nonzero_word_len s <= k)%nat -> bs_word_at s k = 0) /\
  (bs_nonzero_word_len s = 0%nat \/ bs_word_at s (pred (bs_nonzero_word_len s)) <> 0).
Proof.
  intros [|b|ws].
  - simpl. auto.
  - simpl. destruct (N.eqb_spec b 0).
    + split; auto. intros. destruct (Nat.eqb k 0); auto.
    + split; [|right; simpl; auto]. intros k H. destruct (Nat.eqb_spec k 0); [lia|auto].
  - destruct (last_nonzero_spec ws) as [H1 H2]. split.
    + intros. rewrite word_at_heap. apply H1. auto.
    + rewrite word_at_heap. auto.
Qed.

Lemma words_contains : forall a b, wf a -> wf b ->
  ((forall k, bs_word_at a k = bs_word_at b k) <-> forall i, bs_contains a i = true <-> bs_contains b i = true).
Proof.
  intros a b Wa Wb. split.
  - intros H i. rewrite !contains_spec, H. tauto.
  - intros H k. apply N.bits_inj. intros j. destruct (N.lt_ge_cases j 64) as [Hj|Hj].
    + specialize (H (N.of_nat k * 64 + j)). rewrite !contains_spec in H.
      destruct (coord_word k j Hj) as [K1 K2]. rewrite K1, K2 in H.
      apply eq_true_iff_eq. exact H.
    + pose proof (word_at_small a k Wa) as Ha. pose proof (word_at_small b k Wb) as Hb.
      rewrite small_bits in Ha, Hb. rewrite Ha, Hb; auto.
Qed.

Lemma words_len : forall a b, (forall k, bs_word_at a k = bs_word_at b k) -> bs_nonzero_word_len a = bs_nonzero_word_len b.
Proof.
  intros a b H. destruct (nonzero_len_spec a) as [A1 A2], (nonzero_len_spec b) as [B1 B2].
  destruct (lt_eq_lt_dec (bs_nonzero_word_len a) (bs_nonzero_word_len b)) as [[L|]|L]; auto.
  - destruct B2 as [B2|B2]; [lia|]. exfalso. apply B2. rewrite <- H. apply A1. lia.
  - destruct A2 as [A2|A2]; [lia|]. exfalso. apply A2. rewrite H. apply B1. lia.
Qed.

Lemma eq_words : forall a b, bs_eq a b = true <-> forall k, bs_word_at a k = bs_word_at b k.
Proof.
  intros a b. unfold bs_eq. destruct (Nat.eqb_spec (bs_nonzero_word_len a) (bs_nonzero_word_len b)) as [E|E]; simpl.
  - rewrite forallb_forall. split.
    + intros H k. destruct (Nat.lt_ge_cases k (bs_nonzero_word_len a)).
      * apply N.eqb_eq, H, in_seq. lia.
      * destruct (nonzero_len_spec a) as [A1 _], (nonzero_len_spec b) as [B1 _]. rewrite A1, B1 by lia. auto.
    + intros H k _. apply N.eqb_eq. auto.
  - split; [discriminate|]. intros H. exfalso. apply E, words_len. auto.
Qed.

Lemma map_seq_eq : forall (f g : nat -> N) n, map f (seq 0 n) = map g (seq 0 n) <-> forall k, (k < n)%nat -> f k = g k.
Proof.
  intros f g n. split.
  - intros H k Hk. assert (E : nth_error (map f (seq 0 n)) k = nth_error (map g (seq 0 n)) k) by congruence.
    assert (E2 : nth_error (seq 0 n) k = Some k).
    { rewrite nth_error_nth' with (d := 0%nat) by (rewrite seq_length; lia). rewrite seq_nth by lia. auto. }
    erewrite !map_nth_error in E by eauto. congruence.
  - intros H. apply map_ext_in. intros k Hk. apply in_seq in Hk. apply H. lia.
Qed.

Lemma hash_words : forall a b, bs_hash_input a = bs_hash_input b <-> forall k, bs_word_at a k = bs_word_at b k.
Proof.
  intros a b. unfold bs_hash_input. cbn zeta. split.
  - intros H. injection H as H1 H2. assert (E : bs_nonzero_word_len a = bs_nonzero_word_len b) by lia.
    rewrite <- E in H2. rewrite map_seq_eq in H2. intros k.
    destruct (Nat.lt_ge_cases k (bs_nonzero_word_len a)); auto.
    destruct (nonzero_len_spec a) as [A1 _], (nonzero_len_spec b) as [B1 _]. rewrite A1, B1 by lia. auto.
  - intros H. rewrite (words_len a b H). f_equal. apply map_seq_eq. auto.
Qed.

Lemma bitset_refines : forall h, exists s, run h = Some s /\
  (forall i, bs_contains s i = true <-> member h i) /\
  (bs_is_empty s = true <-> forall i, ~ member h i) /\
  exists l, yields (bs_iter_ones s) l /\ enumerates l (member h) /\ bs_len s = length l.
Proof.
  intros h. destruct (run_ok h) as (s & E & W & C). exists s. split; auto. split; auto. split.
  - assert (X : bs_is_empty s = true <-> forall k, bs_word_at s k = bs_word_at BEmpty k).
    { rewrite <- eq_words. unfold bs_is_empty, bs_eq. simpl.
      destruct (Nat.eqb_spec (bs_nonzero_word_len s) 0) as [Z|Z]; simpl; [rewrite Z; tauto|tauto]. }
    rewrite X, words_contains by (simpl; auto). split.
    + intros H i Hi. apply C in Hi. apply H in Hi. discriminate.
    + intros H i. split; [|discriminate]. intros Hi. apply C in Hi. exfalso. eapply H; eauto.
  - destruct (iter_ok s W) as (l & Y & [S M] & L). exists l. split; auto. split; auto. split; auto.
    intros i. rewrite M. apply C.
Qed.

Lemma bitset_equality : forall h1 h2 s1 s2, run h1 = Some s1 -> run h2 = Some s2 ->
  (bs_eq s1 s2 = true <-> forall i, member h1 i <-> member h2 i) /\
  (bs_hash_input s1 = bs_hash_input s2 <-> bs_eq s1 s2 = true).
Proof.
  intros h1 h2 s1 s2 E1 E2. destruct (run_ok h1) as (x & Ex & W1 & C1), (run_ok h2) as (y & Ey & W2 & C2).
  replace x with s1 in * by congruence. replace y with s2 in * by congruence. split.
  - rewrite eq_words, words_contains by auto. split; intros H i; specialize (H i); specialize (C1 i); specialize (C2 i); tauto.
  - rewrite hash_words, eq_words. tauto.
Qed.

Lemma land_nonzero : forall a b, negb (N.land a b =? 0) = true <-> exists j, N.testbit a j = true /\ N.testbit b j = true.
Proof.
  intros a b. rewrite negb_true_iff, N.eqb_neq. split.
  - intros H. exists (N.log2 (N.land a b)). apply andb_prop. rewrite <- N.land_spec. apply N.bit_log2. auto.
  - intros (j & Ha & Hb) E. assert (F : N.testbit (N.land a b) j = true) by (rewrite N.land_spec, Ha, Hb; auto).
    rewrite E, N.bits_0 in F. discriminate.
Qed.

Lemma any_and_spec : forall a b, any_and a b = true <-> exists k j, N.testbit (nth k a 0) j = true /\ N.testbit (nth k b 0) j = true.
Proof.
  induction a as [|x a IH]; intros b; simpl.
  - split; [discriminate|]. intros (k & j & H & _). destruct k; rewrite N.bits_0 in H; discriminate.
  - destruct b as [|y b].
    + split; [discriminate|]. intros (k & j & _ & H). destruct k; simpl in H; rewrite N.bits_0 in H; discriminate.
    + rewrite orb_true_iff, land_nonzero, IH. split.
      * intros [(j & H)|(k & j & H)]; [exists 0%nat, j|exists (S k), j]; auto.
      * intros ([|k] & j & H); [left; exists j|right; exists k, j]; auto.
Qed.

Lemma intersects_ok : forall s o, wf s -> wf o -> exists b, bs_intersects s o = Some b /\
  (b = true <-> exists k j, N.testbit (bs_word_at s k) j = true /\ N.testbit (bs_word_at o k) j = true).
Proof.
  intros s o Hs Ho. destruct s as [|a|a], o as [|b|b]; simpl bs_intersects;
    try (exists false; split; [reflexivity|]; split; [discriminate|]; intros (k & j & H1 & H2); simpl in H1, H2;
         try (rewrite N.bits_0 in H1; discriminate); rewrite N.bits_0 in H2; discriminate).
  - eexists. split; [reflexivity|]. rewrite land_nonzero. split.
    + intros (j & H). exists 0%nat, j. auto.
    + intros (k & j & H1 & H2). simpl in *. destruct (Nat.eqb k 0); [exists j; auto|rewrite N.bits_0 in H1; discriminate].
  - destruct Ho as [Ho1 Ho2]. destruct b as [|h t]; [congruence|]. eexists. split; [reflexivity|]. rewrite land_nonzero. split.
    + intros (j & H). exists 0%nat, j. auto.
    + intros (k & j & H1 & H2). simpl in H1. destruct k; simpl in H1; [exists j; auto|rewrite N.bits_0 in H1; discriminate].
  - destruct Hs as [Hs1 Hs2]. destruct a as [|h t]; [congruence|]. eexists. split; [reflexivity|]. rewrite land_nonzero. split.
    + intros (j & H). exists 0%nat, j. simpl. tauto.
    + intros (k & j & H1 & H2). simpl in H2. destruct k; simpl in H2; [exists j; simpl in H1; auto|rewrite N.bits_0 in H2; discriminate].
  - eexists. split; [reflexivity|]. rewrite any_and_spec. split; intros (k & j & H); exists k, j; rewrite !word_at_heap in *; auto.
Qed.

Lemma bitset_intersects : forall h1 h2 s1 s2, run h1 = Some s1 -> run h2 = Some s2 ->
  exists b, bs_intersects s1 s2 = Some b /\ (b = true <-> exists i, member h1 i /\ member h2 i).
Proof.
  intros h1 h2 s1 s2 E1 E2. destruct (run_ok h1) as (x & Ex & W1 & C1), (run_ok h2) as (y & Ey & W2 & C2).
  replace x with s1 in * by congruence. replace y with s2 in * by congruence.
  destruct (intersects_ok s1 s2 W1 W2) as (b & Eb & Hb). exists b. split; auto. rewrite Hb. split.
  - intros (k & j & H1 & H2). assert (Hj : j < 64).
    { destruct (N.lt_ge_cases j 64) as [|Hj]; auto. pose proof (word_at_small s1 k W1) as Hs. rewrite small_bits in Hs.
      rewrite Hs in H1 by auto. discriminate. }
    destruct (coord_word k j Hj) as [K1 K2]. exists (N.of_nat k * 64 + j). rewrite <- C1, <- C2, !contains_spec, K1, K2. auto.
  - intros (i & H1 & H2). apply C1 in H1. apply C2 in H2. rewrite contains_spec in *. eauto.
Qed.
