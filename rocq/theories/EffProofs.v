From Coq Require Import NArith List Bool Arith Lia Sorting.Sorted.
From Verif Require Import ListUtil BitSetModel BitSetSpec BitSetProofs EffModel EffSpec.
Import ListNotations.
Open Scope N_scope.

Local Arguments N.testbit : simpl never.
Local Arguments N.land : simpl never.
Local Arguments N.lor : simpl never.
Local Arguments N.shiftl : simpl never.
Local Arguments inline_vars : simpl never.
Local Opaque inline_vars.

Notation sorted := (StronglySorted N.lt).

(** ** Primitive bits *)
Definition pvalid (b : N) : Prop := forall j, 3 <= j -> N.testbit b j = false.

Lemma land_shift : forall b j, negb (N.land b (N.shiftl 1 j) =? 0) = N.testbit b j.
Proof.
  intros b j. apply eq_true_iff_eq. rewrite land_nonzero. split.
  - intros (k & H1 & H2). rewrite shiftl1_testbit in H2. apply N.eqb_eq in H2. subst. auto.
  - intros H. exists j. rewrite shiftl1_testbit, N.eqb_refl. auto.
Qed.

Lemma prim_bit_rank : forall p, prim_bit p = N.shiftl 1 (prim_rank p).
Proof. destruct p; reflexivity. Qed.

Lemma prims_contains_spec : forall b p, prims_contains b p = N.testbit b (prim_rank p).
Proof. intros. unfold prims_contains. rewrite prim_bit_rank. apply land_shift. Qed.

Lemma prim_rank_inj : forall p q, prim_rank p = prim_rank q -> p = q.
Proof. destruct p, q; simpl; congruence. Qed.

Lemma prims_insert_spec : forall b p q, prims_contains (prims_insert b p) q = true <-> q = p \/ prims_contains b q = true.
Proof.
  intros. rewrite !prims_contains_spec. unfold prims_insert. rewrite prim_bit_rank, N.lor_spec, shiftl1_testbit, orb_true_iff, N.eqb_eq.
  split; [intros [|H]; auto; apply prim_rank_inj in H; auto|intros [->|]; auto].
Qed.

Lemma pvalid_0 : pvalid 0.
Proof. intros j _. apply N.bits_0. Qed.

Lemma pvalid_insert : forall b p, pvalid b -> pvalid (prims_insert b p).
Proof.
  intros b p H j Hj. unfold prims_insert. rewrite prim_bit_rank, N.lor_spec, shiftl1_testbit, H by auto.
  simpl. apply N.eqb_neq. destruct p; simpl; lia.
Qed.

Lemma pvalid_lor : forall a b, pvalid a -> pvalid b -> pvalid (N.lor a b).
Proof. intros a b Ha Hb j Hj. rewrite N.lor_spec, Ha, Hb; auto. Qed.

Lemma pvalid_ext : forall a b, pvalid a -> pvalid b -> (forall p, prims_contains a p = true <-> prims_contains b p = true) -> a = b.
Proof.
  intros a b Ha Hb H. apply N.bits_inj. intros j. destruct (N.lt_ge_cases j 3) as [Hj|Hj].
  - assert (E : exists p, prim_rank p = j) by (assert (j = 0 \/ j = 1 \/ j = 2) as [->|[->| ->]] by lia; [exists Read|exists Write|exists Fallible]; reflexivity).
    destruct E as [p <-]. specialize (H p). rewrite !prims_contains_spec in H. apply eq_true_iff_eq. auto.
  - rewrite Ha, Hb; auto.
Qed.

Lemma prims_iter_in : forall b p, In p (prims_iter b) <-> prims_contains b p = true.
Proof. intros. unfold prims_iter. rewrite filter_In. split; [tauto|]. intros; split; auto. destruct p; simpl; auto. Qed.

Lemma prims_zero : forall b, pvalid b -> (b = 0 <-> forall p, prims_contains b p = false).
Proof.
  intros b H. split.
  - intros ->. intros. rewrite prims_contains_spec. apply N.bits_0.
  - intros E. apply pvalid_ext; auto using pvalid_0. intros p. rewrite E. rewrite prims_contains_spec, N.bits_0. tauto.
Qed.

(** ** Inline variables *)
Lemma clear_step : forall p, small (Npos p) ->
  N.land (Npos p) (N.land (N.shiftl (not64 1) (pos_trailing_zeros p)) (N.ones 64)) = clear_lowest p.
Proof.
  intros p Hs. destruct (tz_spec p) as (T1 & T2 & T3). apply N.bits_inj. intros j.
  rewrite T3, !N.land_spec. destruct (N.lt_ge_cases j 64) as [Hj|Hj].
  - rewrite N.ones_spec_low by lia. rewrite andb_true_r.
    destruct (N.lt_ge_cases j (pos_trailing_zeros p)) as [Hl|Hl].
    + rewrite T2 by auto. auto.
    + rewrite N.shiftl_spec_high by lia. unfold not64. rewrite N.lxor_spec, N.ones_spec_low by lia.
      change 1 with (N.shiftl 1 0). rewrite shiftl1_testbit. destruct (N.testbit (N.pos p) j); auto. simpl.
      destruct (N.eqb_spec (j - pos_trailing_zeros p) 0), (N.eqb_spec j (pos_trailing_zeros p)); auto; lia.
  - rewrite small_bits in Hs. rewrite Hs by auto. auto.
Qed.

Lemma tz_small : forall p, small (Npos p) -> pos_trailing_zeros p < 64.
Proof.
  intros p Hs. destruct (tz_spec p) as (T1 & _). destruct (N.lt_ge_cases (pos_trailing_zeros p) 64); auto.
  rewrite small_bits in Hs. rewrite Hs in T1 by auto. discriminate.
Qed.

Lemma count_small : forall c, small c -> (count_ones64 c <= 64)%nat.
Proof.
  intros c Hs. destruct (word_yields c OInline 0 [] Hs) as (l & _ & S & L & M).
  { intros d Hd. cbn [ones_next]. apply N.eqb_neq in Hd. rewrite Hd. reflexivity. }
  { apply yields_end. reflexivity. }
  rewrite <- L. assert (I : (length l <= length (map N.of_nat (seq 0 64)))%nat).
  { apply NoDup_incl_length.
    - clear - S. induction S; constructor; auto. intros Hin. rewrite Forall_forall in H. apply H in Hin. lia.
    - intros x Hx. apply M in Hx as [_ Hx]. rewrite N.sub_0_r in Hx. apply in_map_iff. exists (N.to_nat x). split; [lia|].
      apply in_seq. split; [lia|]. destruct (N.lt_ge_cases x 64); [lia|]. rewrite small_bits in Hs. rewrite Hs in Hx by auto. discriminate. }
  rewrite map_length, seq_length in I. auto.
Qed.

Lemma inline_loop : forall f c, small c -> (count_ones64 c <= f)%nat ->
  sorted (inline_vars_loop f c) /\ (forall i, In i (inline_vars_loop f c) <-> N.testbit c i = true) /\
  length (inline_vars_loop f c) = count_ones64 c.
Proof.
  induction f; intros c Hs Hf.
  - destruct c as [|p]; [|simpl in Hf; rewrite count_clear in Hf; lia]. simpl. split; [constructor|]. split; auto.
    intros. rewrite N.bits_0. intuition discriminate.
  - destruct c as [|p].
    + simpl. split; [constructor|]. split; auto. intros. rewrite N.bits_0. intuition discriminate.
    + pose proof (tz_small p Hs). destruct (tz_spec p) as (T1 & T2 & T3).
      cbn [inline_vars_loop trailing_zeros]. destruct (N.eqb_spec (pos_trailing_zeros p) 64); [lia|].
      rewrite clear_step by auto.
      assert (Hs2 : small (clear_lowest p)) by (rewrite <- land_pred; apply land_small; auto).
      simpl in Hf. rewrite count_clear in Hf. destruct (IHf _ Hs2 ltac:(lia)) as (I1 & I2 & I3).
      split; [|split].
      * constructor; auto. apply Forall_forall. intros x Hx. apply I2 in Hx. rewrite T3 in Hx.
        apply andb_prop in Hx as [Hx1 Hx2]. apply negb_true_iff, N.eqb_neq in Hx2.
        destruct (N.lt_ge_cases x (pos_trailing_zeros p)) as [Hl|]; [|lia]. rewrite T2 in Hx1 by auto. discriminate.
      * intros i. cbn [In]. rewrite I2, T3, andb_true_iff, negb_true_iff, N.eqb_neq.
        split; [intros [<-|]; tauto|]. intros H1. destruct (N.eq_dec i (pos_trailing_zeros p)); [left; auto|right; auto].
      * cbn [length count_ones64]. rewrite I3, (count_clear p). auto.
Qed.

Lemma inline_vars_ok : forall c, small c ->
  sorted (inline_vars c) /\ (forall i, In i (inline_vars c) <-> N.testbit c i = true) /\ length (inline_vars c) = count_ones64 c.
Proof. intros. Local Transparent inline_vars. apply inline_loop; auto using count_small. Qed.
Local Opaque inline_vars.

(** ** Sorted variable lists *)
Lemma bsearch_in : forall l v, sorted l -> ((exists i, binary_search l v = inl i) <-> In v l).
Proof.
  induction l as [|h t IH]; simpl; intros v H.
  - split; [intros [i E]; discriminate|tauto].
  - inversion H; subst. destruct (N.ltb_spec h v) as [Hlt|Hge].
    + specialize (IH v H2). destruct (binary_search t v) eqn:E.
      * split; [intros; right; apply IH; eauto|eauto].
      * split; [intros [i Ei]; discriminate|]. intros [->|Hin]; [lia|]. apply IH in Hin as [i Ei]. discriminate.
    + destruct (N.eqb_spec h v) as [->|Hn]; [split; eauto|].
      split; [intros [i E]; discriminate|]. intros [->|Hin]; [tauto|].
      rewrite Forall_forall in H3. apply H3 in Hin. lia.
Qed.

Lemma contains_bsearch : forall l v, sorted l -> (match binary_search l v with inl _ => true | inr _ => false end = true <-> In v l).
Proof.
  intros l v H. rewrite <- (bsearch_in l v H). destruct (binary_search l v); split; eauto; try discriminate. intros [? ?]; discriminate.
Qed.

Lemma vec_insert_ok : forall l v i, sorted l -> binary_search l v = inr i ->
  sorted (vec_insert l i v) /\ forall x, In x (vec_insert l i v) <-> x = v \/ In x l.
Proof.
  induction l as [|h t IH]; simpl; intros v i H E.
  - injection E as <-. simpl. split; [repeat constructor|]. intuition auto.
  - inversion H; subst. destruct (N.ltb_spec h v) as [Hlt|Hge].
    + destruct (binary_search t v) as [|j] eqn:E2; [discriminate|]. injection E as <-. simpl.
      destruct (IH v j H2 E2) as [I1 I2]. split.
      * constructor; auto. apply Forall_forall. intros x Hx. apply I2 in Hx as [->|Hx]; auto. rewrite Forall_forall in H3; auto.
      * intros x. rewrite I2. tauto.
    + destruct (N.eqb_spec h v); [discriminate|]. injection E as <-. simpl. split; [|intuition auto].
      constructor; auto. constructor; [lia|]. rewrite Forall_forall in *. intros x Hx. apply H3 in Hx. lia.
Qed.

Lemma insert_variable_ok : forall l v, sorted l ->
  sorted (insert_variable l v) /\ forall x, In x (insert_variable l v) <-> x = v \/ In x l.
Proof.
  intros l v H. unfold insert_variable. destruct (binary_search l v) eqn:E.
  - split; auto. intros x. split; auto. intros [->|]; auto. apply bsearch_in; eauto.
  - apply vec_insert_ok; auto.
Qed.

Lemma fold_insert_ok : forall vs l, sorted l ->
  sorted (fold_left insert_variable vs l) /\ forall x, In x (fold_left insert_variable vs l) <-> In x vs \/ In x l.
Proof.
  induction vs as [|v vs IH]; simpl; intros l H.
  - split; auto. tauto.
  - destruct (insert_variable_ok l v H) as [S1 S2]. destruct (IH _ S1) as [I1 I2]. split; auto.
    intros x. rewrite I2, S2. intuition auto.
Qed.

Lemma merge_nil_l : forall r, merge_vars [] r = r.
Proof. induction r; simpl; auto. f_equal. auto. Qed.
Lemma merge_nil_r : forall l, merge_vars l [] = l.
Proof. induction l; simpl; auto. f_equal. auto. Qed.
Lemma merge_cons : forall a l b r, merge_vars (a :: l) (b :: r) =
  if a <? b then a :: merge_vars l (b :: r) else if b <? a then b :: merge_vars (a :: l) r else a :: merge_vars l r.
Proof. reflexivity. Qed.

Lemma sorted_cons : forall a l, sorted (a :: l) <-> sorted l /\ forall x, In x l -> a < x.
Proof.
  intros. split; intros H.
  - inversion H; subst. rewrite Forall_forall in H3. auto.
  - destruct H. constructor; auto. apply Forall_forall. auto.
Qed.

Lemma merge_ok : forall l r, sorted l -> sorted r ->
  sorted (merge_vars l r) /\ forall x, In x (merge_vars l r) <-> In x l \/ In x r.
Proof.
  induction l as [|a l IHl]; intros r.
  - intros _ Hr. rewrite merge_nil_l. split; auto. simpl. tauto.
  - induction r as [|b r IHr]; intros Hl Hr.
    + rewrite merge_nil_r. split; auto. simpl. tauto.
    + rewrite merge_cons. pose proof Hl as Hl'. pose proof Hr as Hr'.
      apply sorted_cons in Hl' as [Hl1 Hl2]. apply sorted_cons in Hr' as [Hr1 Hr2].
      destruct (N.ltb_spec a b) as [Hab|Hab]; [|destruct (N.ltb_spec b a) as [Hba|Hba]].
      * destruct (IHl (b :: r) Hl1 Hr) as [I1 I2]. split.
        -- apply sorted_cons. split; auto. intros x Hx. apply I2 in Hx as [Hx|[<-|Hx]]; auto. apply Hr2 in Hx. lia.
        -- intros x. simpl. rewrite I2. simpl. tauto.
      * destruct (IHr Hl Hr1) as [I1 I2]. split.
        -- apply sorted_cons. split; auto. intros x Hx. apply I2 in Hx as [[<-|Hx]|Hx]; auto. apply Hl2 in Hx. lia.
        -- intros x. cbn [In]. rewrite I2. cbn [In]. tauto.
      * assert (a = b) by lia. subst b. destruct (IHl r Hl1 Hr1) as [I1 I2]. split.
        -- apply sorted_cons. split; auto. intros x Hx. apply I2 in Hx as [Hx|Hx]; auto.
        -- intros x. simpl. rewrite I2. tauto.
Qed.

Lemma extend_variables_ok : forall l o, sorted l -> sorted o ->
  sorted (extend_variables l o) /\ forall x, In x (extend_variables l o) <-> In x l \/ In x o.
Proof.
  intros l o Hl Ho. destruct o as [|a [|b o]]; destruct l as [|c l]; simpl extend_variables; try (split; auto; simpl; tauto).
  - destruct (insert_variable_ok (c :: l) a Hl) as [I1 I2]. split; auto. intros x. rewrite I2. simpl. intuition auto.
  - exact (merge_ok (c :: l) (a :: b :: o) Hl Ho).
Qed.

Notation wsorted := (StronglySorted N.le).
Lemma sort_insert_ok : forall v l, wsorted l -> wsorted (sort_insert v l) /\ forall x, In x (sort_insert v l) <-> x = v \/ In x l.
Proof.
  induction l as [|h t IH]; simpl; intros H.
  - split; [repeat constructor|]. intuition auto.
  - inversion H; subst. destruct (N.leb_spec v h).
    + split; [|simpl; intuition auto]. constructor; auto. constructor; auto. rewrite Forall_forall in *. intros x Hx. apply H3 in Hx. lia.
    + destruct (IH H2) as [I1 I2]. split.
      * constructor; auto. rewrite Forall_forall in *. intros x Hx. apply I2 in Hx as [->|Hx]; auto. lia.
      * intros x. simpl. rewrite I2. tauto.
Qed.

Lemma sort_ok : forall l, wsorted (sort_vars l) /\ forall x, In x (sort_vars l) <-> In x l.
Proof.
  induction l as [|h t [I1 I2]]; simpl.
  - split; [constructor|tauto].
  - destruct (sort_insert_ok h _ I1) as [J1 J2]. split; auto. intros x. rewrite J2, I2. intuition auto.
Qed.

Lemma dedup_ok : forall l, wsorted l -> sorted (dedup l) /\ forall x, In x (dedup l) <-> In x l.
Proof.
  induction l as [|a t IH]; intros H.
  - simpl. split; [constructor|tauto].
  - destruct t as [|b t].
    + simpl. split; [repeat constructor|tauto].
    + inversion H; subst. destruct (IH H2) as [I1 I2]. change (dedup (a :: b :: t)) with (if a =? b then dedup (b :: t) else a :: dedup (b :: t)).
      destruct (N.eqb_spec a b) as [->|Hn].
      * split; auto. intros x. rewrite I2. simpl. intuition auto.
      * split.
        -- apply sorted_cons. split; auto. intros x Hx. apply I2 in Hx. rewrite Forall_forall in H3.
           assert (a < b) by (specialize (H3 b (or_introl eq_refl)); lia).
           destruct Hx as [<-|Hx]; auto. inversion H2; subst. rewrite Forall_forall in H6. apply H6 in Hx. lia.
        -- intros x. change (In x (a :: dedup (b :: t))) with (a = x \/ In x (dedup (b :: t))). rewrite I2. simpl. tauto.
Qed.

Lemma sorted_ext : forall a b, sorted a -> sorted b -> (forall x, In x a <-> In x b) -> a = b.
Proof.
  induction a as [|x a IH]; intros b Ha Hb H.
  - destruct b as [|y b]; auto. exfalso. apply (H y). left. auto.
  - destruct b as [|y b]; [exfalso; apply (H x); left; auto|].
    apply sorted_cons in Ha as [Ha1 Ha2], Hb as [Hb1 Hb2].
    assert (x = y).
    { assert (Hx : In x (y :: b)) by (apply H; left; auto). assert (Hy : In y (x :: a)) by (apply H; left; auto).
      destruct Hx as [|Hx]; auto. destruct Hy as [|Hy]; auto. apply Hb2 in Hx. apply Ha2 in Hy. lia. }
    subst y. f_equal. apply IH; auto. intros z. split; intros Hz.
    + assert (In z (x :: b)) as [<-|]; auto. { apply H. right. auto. } apply Ha2 in Hz. lia.
    + assert (In z (x :: a)) as [<-|]; auto. { apply H. right. auto. } apply Hb2 in Hz. lia.
Qed.

(** ** Canonical forms *)
Definition canonical (e : efftype) : Prop :=
  match e with
  | EInline p v => pvalid p /\ small v
  | EHeap p l => pvalid p /\ sorted l /\ exists x, In x l /\ 64 <= x
  end.

Lemma contains_var_inline : forall p v x, small v -> eff_contains_variable (EInline p v) x = N.testbit v x.
Proof.
  intros p v x H. simpl. unfold inline_var_bit. destruct (N.ltb_spec x 64).
  - apply land_shift.
  - rewrite small_bits in H. rewrite H; auto.
Qed.

Lemma vars_ok : forall e, canonical e -> sorted (eff_variables e) /\
  (forall x, In x (eff_variables e) <-> mem e (Variable_ x)) /\ length (eff_variables e) = eff_variables_len e.
Proof.
  intros [p v|p l] H; simpl in *.
  - destruct H as [_ H]. destruct (inline_vars_ok v H) as (I1 & I2 & I3). repeat split; auto.
    + intros Hx. unfold mem, eff_contains. rewrite contains_var_inline by auto. apply I2; auto.
    + intros Hx. unfold mem, eff_contains in Hx. rewrite contains_var_inline in Hx by auto. apply I2; auto.
  - destruct H as (_ & H & _). repeat split; auto; unfold mem; simpl; intros Hx; apply contains_bsearch in Hx || apply contains_bsearch; auto.
Qed.

Lemma canonical_pvalid : forall e, canonical e -> pvalid (eff_primitives e).
Proof. destruct e; simpl; tauto. Qed.

Lemma canonical_ext : forall a b, canonical a -> canonical b -> (forall x, mem a x <-> mem b x) -> a = b.
Proof.
  intros a b Ha Hb H.
  assert (Ep : eff_primitives a = eff_primitives b).
  { apply pvalid_ext; auto using canonical_pvalid. intros p. apply (H (Primitive p)). }
  destruct (vars_ok a Ha) as (A1 & A2 & _), (vars_ok b Hb) as (B1 & B2 & _).
  assert (Ev : eff_variables a = eff_variables b).
  { apply sorted_ext; auto. intros x. rewrite A2, B2. apply H. }
  destruct a as [p v|p l], b as [q w|q m]; simpl in Ep, Ev; subst q.
  - f_equal. apply N.bits_inj. intros j. apply eq_true_iff_eq.
    destruct Ha as [_ Ha], Hb as [_ Hb].
    destruct (inline_vars_ok v Ha) as (_ & I2 & _), (inline_vars_ok w Hb) as (_ & J2 & _). rewrite <- I2, <- J2, Ev. tauto.
  - exfalso. destruct Ha as [_ Ha], Hb as (_ & _ & x & Hx & Hge). rewrite <- Ev in Hx. apply inline_vars_ok in Hx; auto.
    rewrite small_bits in Ha. rewrite Ha in Hx by auto. discriminate.
  - exfalso. destruct Hb as [_ Hb], Ha as (_ & _ & x & Hx & Hge). rewrite Ev in Hx. apply inline_vars_ok in Hx; auto.
    rewrite small_bits in Hb. rewrite Hb in Hx by auto. discriminate.
  - congruence.
Qed.

Lemma shiftl1_small : forall v, v < 64 -> small (N.shiftl 1 v).
Proof. intros v H. apply small_bits. intros j Hj. rewrite shiftl1_testbit. apply N.eqb_neq. lia. Qed.

Lemma insert_primitive_ok : forall e p, canonical e -> canonical (eff_insert_primitive e p) /\
  forall x, mem (eff_insert_primitive e p) x <-> x = Primitive p \/ mem e x.
Proof.
  intros e p H. destruct e as [b v|b l]; simpl in H.
  - split; [simpl; destruct H; split; auto using pvalid_insert|]. intros [q|y]; unfold mem; simpl.
    + rewrite prims_insert_spec. intuition (auto; try congruence).
    + intuition (auto; discriminate).
  - split; [simpl; destruct H as (H1 & H2 & H3); auto using pvalid_insert|]. intros [q|y]; unfold mem; simpl.
    + rewrite prims_insert_spec. intuition (auto; try congruence).
    + intuition (auto; discriminate).
Qed.

Lemma insert_var_ok : forall e v, canonical e -> canonical (eff_insert_variable e v) /\
  forall x, mem (eff_insert_variable e v) x <-> x = Variable_ v \/ mem e x.
Proof.
  intros e v H. destruct e as [b w|b l]; simpl in H; unfold eff_insert_variable.
  - destruct H as [Hp Hw]. unfold inline_var_bit. destruct (N.ltb_spec v 64) as [Hv|Hv].
    + assert (Hs : small (N.lor w (N.shiftl 1 v))) by (apply lor_small; auto using shiftl1_small).
      split; [simpl; auto|]. intros [q|y]; unfold mem, eff_contains.
      * simpl. intuition (auto; discriminate).
      * rewrite !contains_var_inline by auto. rewrite N.lor_spec, shiftl1_testbit, orb_true_iff, N.eqb_eq.
        intuition (auto; try congruence).
    + destruct (inline_vars_ok w Hw) as (I1 & I2 & _). destruct (insert_variable_ok _ v I1) as [J1 J2]. split.
      * simpl. split; auto. split; auto. exists v. split; auto. apply J2. auto.
      * intros [q|y]; unfold mem, eff_contains.
        -- simpl. intuition (auto; discriminate).
        -- rewrite contains_var_inline by auto. simpl. rewrite contains_bsearch by auto. rewrite J2, I2.
           intuition (auto; try congruence).
  - destruct H as (Hp & Hl & z & Hz & Hge). destruct (insert_variable_ok l v Hl) as [J1 J2]. split.
    + simpl. split; auto. split; auto. exists z. split; auto. apply J2. auto.
    + intros [q|y]; unfold mem; simpl.
      * intuition (auto; discriminate).
      * rewrite !contains_bsearch by auto. rewrite J2. intuition (auto; try congruence).
Qed.

Lemma insert_ok : forall e y, canonical e -> canonical (eff_insert e y) /\
  forall x, mem (eff_insert e y) x <-> x = y \/ mem e x.
Proof. intros e [p|v] H; simpl; [apply insert_primitive_ok|apply insert_var_ok]; auto. Qed.

Lemma prims_lor : forall a b p, prims_contains (N.lor a b) p = true <-> prims_contains a p = true \/ prims_contains b p = true.
Proof. intros. rewrite !prims_contains_spec, N.lor_spec, orb_true_iff. tauto. Qed.

Lemma union_ok : forall a b, canonical a -> canonical b -> canonical (eff_union a b) /\
  forall x, mem (eff_union a b) x <-> mem a x \/ mem b x.
Proof.
  intros a b Ha Hb. destruct a as [p v|p l], b as [q w|q m]; simpl in Ha, Hb.
  - destruct Ha as [Ha1 Ha2], Hb as [Hb1 Hb2]. assert (Hs : small (N.lor v w)) by (apply lor_small; auto). split.
    + simpl. auto using pvalid_lor.
    + intros [r|y]; unfold mem, eff_contains; simpl eff_union; simpl eff_primitives.
      * apply prims_lor.
      * rewrite !contains_var_inline by auto. rewrite N.lor_spec, orb_true_iff. tauto.
  - destruct Ha as [Ha1 Ha2], Hb as (Hb1 & Hb2 & z & Hz & Hge).
    destruct (inline_vars_ok v Ha2) as (I1 & I2 & _). destruct (extend_variables_ok _ _ I1 Hb2) as [J1 J2]. split.
    + simpl. split; auto using pvalid_lor. split; auto. exists z. split; auto. apply J2. auto.
    + intros [r|y]; unfold mem, eff_contains; simpl eff_union; simpl eff_primitives.
      * apply prims_lor.
      * rewrite !contains_var_inline by auto. simpl. rewrite !contains_bsearch by auto. rewrite J2, I2. tauto.
  - destruct Hb as [Hb1 Hb2], Ha as (Ha1 & Ha2 & z & Hz & Hge).
    destruct (inline_vars_ok w Hb2) as (I1 & I2 & _). destruct (fold_insert_ok (inline_vars w) l Ha2) as [J1 J2]. split.
    + simpl. split; auto using pvalid_lor. split; auto. exists z. split; auto. apply J2. auto.
    + intros [r|y]; unfold mem, eff_contains; simpl eff_union; simpl eff_primitives.
      * apply prims_lor.
      * rewrite !contains_var_inline by auto. simpl. rewrite !contains_bsearch by auto.
        unfold extend_variables_from_bits. rewrite J2, I2. tauto.
  - destruct Ha as (Ha1 & Ha2 & z & Hz & Hge), Hb as (Hb1 & Hb2 & z' & Hz' & Hge').
    destruct (extend_variables_ok _ _ Ha2 Hb2) as [J1 J2]. split.
    + simpl. split; auto using pvalid_lor. split; auto. exists z. split; auto. apply J2. auto.
    + intros [r|y]; unfold mem, eff_contains; simpl eff_union; simpl eff_primitives.
      * apply prims_lor.
      * simpl. rewrite !contains_bsearch by auto. rewrite J2. tauto.
Qed.

Lemma empty_ok : canonical eff_empty /\ forall x, ~ mem eff_empty x.
Proof.
  split; [split; [apply pvalid_0|apply zero_small]|]. intros [p|v]; unfold mem.
  - simpl. rewrite prims_contains_spec, N.bits_0. discriminate.
  - unfold eff_contains, eff_empty. rewrite contains_var_inline by apply zero_small. rewrite N.bits_0. discriminate.
Qed.

Lemma multiple_primitive_ok : forall l b, pvalid b -> pvalid (fold_left prims_insert l b) /\
  forall p, prims_contains (fold_left prims_insert l b) p = true <-> In p l \/ prims_contains b p = true.
Proof.
  induction l as [|q l IH]; simpl; intros b H; [split; auto; tauto|].
  destruct (IH (prims_insert b q) (pvalid_insert _ _ H)) as [I1 I2]. split; auto.
  intros p. rewrite I2, prims_insert_spec. intuition auto.
Qed.

(** ** from_iter *)
Definition fi_inv (st : N * N * list N) (seen : list effect) : Prop :=
  let '(prims, bits, heap) := st in
  pvalid prims /\ small bits /\ (forall p, prims_contains prims p = true <-> In (Primitive p) seen) /\
  match heap with
  | [] => forall v, N.testbit bits v = true <-> In (Variable_ v) seen
  | _ => (forall v, In v heap <-> In (Variable_ v) seen) /\ exists z, In z heap /\ 64 <= z
  end.

Lemma fi_step : forall st seen x, fi_inv st seen -> fi_inv (from_iter_step st x) (seen ++ [x]).
Proof.
  intros [[prims bits] heap] seen x (Hp & Hb & Hpc & Hh). destruct x as [p|v].
  - simpl. split; [apply pvalid_insert; auto|]. split; auto. split.
    + intros q. rewrite prims_insert_spec, Hpc, in_app_iff. simpl. intuition (auto; congruence).
    + destruct heap.
      * intros v. rewrite Hh, in_app_iff. simpl. intuition discriminate.
      * destruct Hh as [H1 H2]. split; auto. intros v. rewrite H1, in_app_iff. simpl. intuition discriminate.
  - assert (Hpc' : forall q, prims_contains prims q = true <-> In (Primitive q) (seen ++ [Variable_ v])).
    { intros q. rewrite Hpc, in_app_iff. simpl. intuition discriminate. }
    simpl. unfold inline_var_bit. destruct (N.ltb_spec v 64) as [Hv|Hv].
    + destruct heap as [|h heap].
      * split; auto. split; [apply lor_small; auto using shiftl1_small|]. split; auto.
        intros w. rewrite N.lor_spec, shiftl1_testbit, orb_true_iff, Hh, N.eqb_eq, in_app_iff. simpl. intuition (auto; congruence).
      * destruct Hh as [H1 (z & Hz & Hge)]. split; auto. split; auto. split; auto. simpl app. split.
        -- intros w. rewrite in_app_iff, <- H1. change (h :: heap ++ [v]) with ((h :: heap) ++ [v]). rewrite in_app_iff. simpl. intuition (auto; congruence).
        -- exists z. split; auto. change (h :: heap ++ [v]) with ((h :: heap) ++ [v]). apply in_app_iff. auto.
    + split; auto. split; auto. split; auto.
      assert (X : forall base, (forall w, In w base <-> In (Variable_ w) seen) ->
                match base ++ [v] with
                | [] => forall v0, N.testbit bits v0 = true <-> In (Variable_ v0) (seen ++ [Variable_ v])
                | _ :: _ => (forall v0, In v0 (base ++ [v]) <-> In (Variable_ v0) (seen ++ [Variable_ v])) /\
                            exists z, In z (base ++ [v]) /\ 64 <= z
                end).
      { intros base HB. destruct (base ++ [v]) eqn:E; [destruct base; discriminate|]. rewrite <- E. split.
        - intros w. rewrite !in_app_iff, HB. simpl. intuition (auto; congruence).
        - exists v. split; auto. apply in_app_iff. simpl. auto. }
      destruct heap as [|h heap].
      * apply X. intros w. destruct (inline_vars_ok bits Hb) as (_ & I2 & _). rewrite I2. apply Hh.
      * apply X. apply Hh.
Qed.

Lemma fi_fold : forall l st seen, fi_inv st seen -> fi_inv (fold_left from_iter_step l st) (seen ++ l).
Proof.
  induction l as [|x l IH]; simpl; intros st seen H.
  - rewrite app_nil_r. auto.
  - specialize (IH _ _ (fi_step st seen x H)). rewrite <- app_assoc in IH. auto.
Qed.

Lemma from_iter_ok : forall l, canonical (eff_from_iter l) /\ forall x, mem (eff_from_iter l) x <-> In x l.
Proof.
  intros l. unfold eff_from_iter.
  assert (I0 : fi_inv (0, 0, []) []).
  { simpl. repeat split; try tauto; try apply pvalid_0; try apply zero_small.
    - rewrite prims_contains_spec, N.bits_0. discriminate.
    - rewrite N.bits_0. discriminate. }
  pose proof (fi_fold l _ _ I0) as F. simpl app in F. destruct (fold_left from_iter_step l (0, 0, [])) as [[prims bits] heap].
  destruct F as (Hp & Hb & Hpc & Hh). destruct heap as [|h heap].
  - split; [simpl; auto|]. intros [p|v]; unfold mem, eff_contains.
    + simpl. apply Hpc.
    + rewrite contains_var_inline by auto. apply Hh.
  - destruct Hh as [H1 (z & Hz & Hge)]. destruct (sort_ok (h :: heap)) as [S1 S2]. destruct (dedup_ok _ S1) as [D1 D2].
    remember (dedup (sort_vars (h :: heap))) as d. split.
    + simpl. split; auto. split; auto. exists z. split; auto. apply D2, S2. auto.
    + intros [p|v]; unfold mem; simpl.
      * apply Hpc.
      * rewrite contains_bsearch by auto. rewrite D2, S2. apply H1.
Qed.

Lemma inline_prims_ok : forall p, pvalid p -> canonical (EInline p 0) /\
  forall x, mem (EInline p 0) x <-> exists q, x = Primitive q /\ prims_contains p q = true.
Proof.
  intros p H. split; [split; auto; apply zero_small|]. intros [q|v]; unfold mem, eff_contains.
  - simpl. split; [eauto|]. intros (r & E & Hr). injection E as ->. auto.
  - rewrite contains_var_inline by apply zero_small. rewrite N.bits_0. split; [discriminate|]. intros (r & E & _). discriminate.
Qed.

Lemma single_variable_ok : forall v, canonical (eff_single_variable v) /\ forall x, mem (eff_single_variable v) x <-> x = Variable_ v.
Proof.
  intros v. unfold eff_single_variable, inline_var_bit. destruct (N.ltb_spec v 64) as [Hv|Hv].
  - pose proof (shiftl1_small v Hv) as Hs. split; [split; auto; apply pvalid_0|]. intros [q|y]; unfold mem, eff_contains.
    + simpl. rewrite prims_contains_spec, N.bits_0. split; discriminate.
    + rewrite contains_var_inline by auto. rewrite shiftl1_testbit, N.eqb_eq. split; congruence.
  - split.
    + simpl. split; [apply pvalid_0|]. split; [repeat constructor|]. exists v. auto.
    + intros [q|y]; unfold mem, eff_contains.
      * simpl. rewrite prims_contains_spec, N.bits_0. split; discriminate.
      * transitivity (In y [v]); [apply (contains_bsearch [v] y); repeat constructor|]. simpl. split; [intros [|[]]; congruence|intros E; injection E; auto].
Qed.

(** ** Observers on canonical values *)
Lemma count_prims : forall b, pvalid b -> prims_len b = length (prims_iter b).
Proof.
  intros b H. assert (Hb : b < 8).
  { destruct (N.eq_dec b 0) as [->|Hz]; [reflexivity|]. change 8 with (2 ^ 3). apply N.log2_lt_pow2; [lia|].
    destruct (N.lt_ge_cases (N.log2 b) 3) as [|Hge]; auto. specialize (H _ Hge). rewrite N.bit_log2 in H by auto. discriminate. }
  assert (b = 0 \/ b = 1 \/ b = 2 \/ b = 3 \/ b = 4 \/ b = 5 \/ b = 6 \/ b = 7)
    as [->|[->|[->|[->|[->|[->|[->| ->]]]]]]] by lia; reflexivity.
Qed.

Lemma vars_len_zero : forall e, canonical e -> (eff_variables_len e = 0%nat <-> forall v, ~ mem e (Variable_ v)).
Proof.
  intros e H. destruct (vars_ok e H) as (_ & M & L). rewrite <- L. split.
  - intros E v Hv. apply M in Hv. destruct (eff_variables e); [auto|discriminate].
  - intros Hn. destruct (eff_variables e) as [|v l] eqn:E; auto. exfalso. apply (Hn v). apply M. left. auto.
Qed.

Lemma prims_empty : forall e, canonical e -> ((eff_primitives e =? 0) = true <-> forall p, ~ mem e (Primitive p)).
Proof.
  intros e H. rewrite N.eqb_eq, (prims_zero _ (canonical_pvalid e H)). unfold mem. simpl.
  split; intros E p; specialize (E p); [congruence|destruct (prims_contains _ p); congruence].
Qed.

Lemma is_empty_ok : forall e, canonical e -> (eff_is_empty e = true <-> forall x, ~ mem e x).
Proof.
  intros e H. unfold eff_is_empty. rewrite andb_true_iff, (prims_empty e H), Nat.eqb_eq, (vars_len_zero e H). split.
  - intros [H1 H2] [p|v]; auto.
  - intros Hn. split; intros; apply Hn.
Qed.

Lemma has_variables_ok : forall e, canonical e -> (eff_has_variables e = true <-> exists v, mem e (Variable_ v)).
Proof.
  intros e H. unfold eff_has_variables. rewrite negb_true_iff, Nat.eqb_neq, (vars_len_zero e H).
  destruct (vars_ok e H) as (_ & M & L). split.
  - intros Hn. destruct (eff_variables e) as [|v l] eqn:E.
    + exfalso. apply Hn. intros v Hv. apply M in Hv. destruct Hv.
    + exists v. apply M. left. auto.
  - intros (v & Hv) Hn. apply (Hn v Hv).
Qed.

Lemma iter_in : forall e, canonical e -> forall x, In x (eff_iter e) <-> mem e x.
Proof.
  intros e H x. unfold eff_iter. rewrite in_app_iff, !in_map_iff. destruct (vars_ok e H) as (_ & M & _). split.
  - intros [(p & <- & Hp)|(v & <- & Hv)].
    + apply prims_iter_in in Hp. exact Hp.
    + apply M. auto.
  - destruct x as [p|v]; intros Hx.
    + left. exists p. split; auto. apply prims_iter_in. exact Hx.
    + right. exists v. split; auto. apply M. auto.
Qed.

Lemma iter_sorted : forall e, canonical e -> StronglySorted before (eff_iter e).
Proof.
  intros e H. unfold eff_iter. destruct (vars_ok e H) as (S & _ & _).
  assert (SV : StronglySorted before (map Variable_ (eff_variables e))).
  { clear - S. induction S; simpl; constructor; auto. apply Forall_forall. intros x Hx. apply in_map_iff in Hx as (v & <- & Hv).
    rewrite Forall_forall in H. simpl. auto. }
  assert (FV : forall p, Forall (before (Primitive p)) (map Variable_ (eff_variables e))).
  { intros p. apply Forall_forall. intros x Hx. apply in_map_iff in Hx as (v & <- & Hv). destruct p; simpl; auto. }
  unfold prims_iter, primitive_effects. simpl filter.
  destruct (prims_contains _ Read), (prims_contains _ Write), (prims_contains _ Fallible); simpl;
    repeat first [exact SV|apply FV|constructor|exact I|reflexivity].
Qed.

Lemma as_single_ok : forall e, canonical e -> forall x, eff_as_single e = Some x <-> (forall y, mem e y <-> y = x).
Proof.
  intros e H x. pose proof (iter_in e H) as M. unfold eff_as_single. destruct (vars_ok e H) as (S & MV & L).
  rewrite (count_prims _ (canonical_pvalid e H)), <- L. unfold eff_iter in M.
  assert (NDp : NoDup (prims_iter (eff_primitives e))).
  { unfold prims_iter. apply NoDup_filter. unfold primitive_effects. repeat constructor; simpl; intuition discriminate. }
  assert (NDv : NoDup (eff_variables e)).
  { clear - S. induction S; constructor; auto. intros Hin. rewrite Forall_forall in H. apply H in Hin. lia. }
  set (ps := prims_iter (eff_primitives e)) in *. set (vs := eff_variables e) in *.
  assert (G : (forall y, mem e y <-> y = x) <-> map Primitive ps ++ map Variable_ vs = [x]).
  { assert (ND : NoDup (map Primitive ps ++ map Variable_ vs)).
    { assert (A : forall A B (f : A -> B) l, (forall a b, f a = f b -> a = b) -> NoDup l -> NoDup (map f l)).
      { clear. intros A B f l Hf Hn. induction Hn; simpl; constructor; auto. rewrite in_map_iff. intros (y & E & Hy). apply Hf in E. subst. auto. }
      clear - NDp NDv A. induction ps as [|p ps IH]; simpl.
      - apply A; auto. congruence.
      - inversion NDp; subst. constructor; auto. rewrite in_app_iff, !in_map_iff. intros [(q & E & Hq)|(v & E & _)]; congruence. }
    split.
    - intros E. assert (Hx : In x (map Primitive ps ++ map Variable_ vs)) by (apply M, E; auto).
      destruct (map Primitive ps ++ map Variable_ vs) as [|a [|b r]].
      + destruct Hx.
      + destruct Hx as [->|[]]; auto.
      + exfalso. assert (a = x) by (apply E, M; simpl; auto). assert (b = x) by (apply E, M; simpl; auto). subst.
        inversion ND; subst. apply H2. left. auto.
    - intros E y. rewrite <- M, E. simpl. intuition auto. }
  rewrite G. destruct ps as [|p [|q ps]], vs as [|v [|w vs]]; simpl; split; intros E; try discriminate; congruence.
Qed.

Lemma to_single_variable_ok : forall e, canonical e -> forall v, eff_to_single_variable e = Some v <-> (forall y, mem e y <-> y = Variable_ v).
Proof.
  intros e H v. rewrite <- as_single_ok by auto. unfold eff_to_single_variable, eff_as_single.
  rewrite (count_prims _ (canonical_pvalid e H)). destruct (N.eqb_spec (eff_primitives e) 0) as [E|E]; simpl.
  - rewrite E. simpl. destruct (eff_variables_len e) as [|[|n]]; simpl; try (split; discriminate).
    destruct (eff_variables e); simpl; split; congruence.
  - assert (NZ : prims_iter (eff_primitives e) <> []).
    { intros Z. apply E. apply prims_zero; [apply canonical_pvalid; auto|]. intros p.
      destruct (prims_contains (eff_primitives e) p) eqn:C; auto. apply prims_iter_in in C. rewrite Z in C. destruct C. }
    destruct (prims_iter (eff_primitives e)) as [|p [|q l]]; [congruence| |]; simpl; destruct (eff_variables_len e); split; discriminate.
Qed.

Lemma inst_fold : forall s, (forall v t, subst_get s v = Some t -> canonical t) -> forall vs acc, canonical acc ->
  let r := fold_left (fun acc v => match subst_get s v with Some t => eff_union acc t | None => eff_insert acc (Variable_ v) end) vs acc in
  canonical r /\ forall x, mem r x <-> mem acc x \/ exists v, In v vs /\ match subst_get s v with Some t => mem t x | None => x = Variable_ v end.
Proof.
  intros s Hs. induction vs as [|v vs IH]; intros acc Ha; simpl.
  - split; auto. intros x. split; auto. intros [|(v & [] & _)]; auto.
  - destruct (subst_get s v) as [t|] eqn:E.
    + destruct (union_ok acc t Ha (Hs _ _ E)) as [U1 U2]. destruct (IH _ U1) as [I1 I2]. split; auto.
      intros x. rewrite I2, U2. split.
      * intros [[|]|(w & Hw & Hm)]; [auto|right; exists v; rewrite E; auto|right; exists w; auto].
      * intros [|(w & [<-|Hw] & Hm)]; [auto|rewrite E in Hm; auto|right; exists w; auto].
    + destruct (insert_ok acc (Variable_ v) Ha) as [U1 U2]. destruct (IH _ U1) as [I1 I2]. split; auto.
      intros x. simpl eff_insert in *. rewrite I2, U2. split.
      * intros [[|]|(w & Hw & Hm)]; [right; exists v; rewrite E; auto|auto|right; exists w; auto].
      * intros [|(w & [<-|Hw] & Hm)]; [auto|rewrite E in Hm; auto|right; exists w; auto].
Qed.

Lemma instantiate_ok : forall a s, canonical a -> (forall v t, subst_get s v = Some t -> canonical t) ->
  canonical (eff_instantiate a s) /\ forall x, mem (eff_instantiate a s) x <->
     (exists p, x = Primitive p /\ mem a x) \/
     (exists v, mem a (Variable_ v) /\ match subst_get s v with Some t => mem t x | None => x = Variable_ v end).
Proof.
  intros a s Ha Hs. destruct (vars_ok a Ha) as (_ & MV & _).
  assert (Same : (forall v, mem a (Variable_ v) -> subst_get s v = None) -> forall x, mem a x <->
     (exists p, x = Primitive p /\ mem a x) \/
     (exists v, mem a (Variable_ v) /\ match subst_get s v with Some t => mem t x | None => x = Variable_ v end)).
  { intros N x. split.
    - intros Hx. destruct x as [p|v]; [left; eauto|right]. exists v. split; auto. rewrite (N v Hx). auto.
    - intros [(p & _ & Hx)|(v & Hv & Hx)]; auto. rewrite (N v Hv) in Hx. subst. auto. }
  unfold eff_instantiate.
  destruct (eff_is_empty a || match s with [] => true | _ :: _ => false end || negb (eff_has_variable_in_substitution a s)) eqn:C.
  - split; auto. apply Same. intros v Hv. apply orb_prop in C as [C|C]; [apply orb_prop in C as [C|C]|].
    + apply (is_empty_ok a Ha) with (x := Variable_ v) in C. tauto.
    + destruct s; [auto|discriminate].
    + apply negb_true_iff in C. destruct (subst_get s v) as [t|] eqn:E; auto. exfalso.
      unfold eff_has_variable_in_substitution in C. rewrite <- not_true_iff_false in C. apply C.
      apply existsb_exists. exists v. rewrite E. split; auto. apply MV. auto.
  - clear C. destruct (eff_as_single a) as [[p|v]|] eqn:ES.
    2:{ pose proof (proj1 (as_single_ok a Ha _) ES) as M. destruct (subst_get s v) as [t|] eqn:E.
        - split; [eauto|]. intros x. split.
          + intros Hx. right. exists v. rewrite E. split; auto. apply M. auto.
          + intros [(p & -> & Hx)|(w & Hw & Hx)]; [apply M in Hx; discriminate|].
            apply M in Hw. injection Hw as ->. rewrite E in Hx. auto.
        - split; auto. apply Same. intros w Hw. apply M in Hw. congruence. }
    all: destruct (inline_prims_ok (eff_primitives a) (canonical_pvalid a Ha)) as [P1 P2];
         destruct (inst_fold s Hs (eff_variables a) _ P1) as [F1 F2]; split; [exact F1|];
         intros x; rewrite F2, P2; split.
    all: try (intros [(q & -> & Hq)|(w & Hw & Hx)]; [left; exists q; split; auto|right; exists w; split; auto; apply MV; auto]).
    all: intros [(q & -> & Hq)|(w & Hw & Hx)]; [left; exists q; split; auto|right; exists w; split; auto; apply MV; auto].
Qed.

Lemma reachable_canonical : forall e, reachable e -> canonical e.
Proof.
  induction 1.
  - apply empty_ok.
  - apply insert_ok, empty_ok.
  - apply inline_prims_ok. apply pvalid_insert, pvalid_0.
  - apply single_variable_ok.
  - apply inline_prims_ok. apply multiple_primitive_ok, pvalid_0.
  - apply from_iter_ok.
  - apply insert_ok; auto.
  - apply union_ok; auto.
  - apply instantiate_ok; auto.
Qed.

(** ** Theorems *)
Lemma eff_canonical : forall a b, reachable a -> reachable b -> ((forall x, mem a x <-> mem b x) <-> a = b).
Proof.
  intros a b Ha Hb. split.
  - apply canonical_ext; apply reachable_canonical; auto.
  - intros ->. tauto.
Qed.

Lemma eff_constructors : forall x y p v l lp,
  ~ mem eff_empty x /\
  (mem (eff_single y) x <-> x = y) /\
  (mem (eff_single_primitive p) x <-> x = Primitive p) /\
  (mem (eff_single_variable v) x <-> x = Variable_ v) /\
  (mem (eff_multiple_primitive lp) x <-> exists q, x = Primitive q /\ In q lp) /\
  (mem (eff_from_iter l) x <-> In x l).
Proof.
  intros. destruct empty_ok as [E1 E2]. split; [auto|]. split; [|split; [|split; [|split]]].
  - unfold eff_single. destruct (insert_ok eff_empty y E1) as [_ I]. rewrite I. specialize (E2 x). tauto.
  - unfold eff_single_primitive. destruct (inline_prims_ok (prims_insert 0 p)) as [_ I]; [apply pvalid_insert, pvalid_0|].
    rewrite I. split.
    + intros (q & -> & Hq). apply prims_insert_spec in Hq as [->|Hq]; auto. rewrite prims_contains_spec, N.bits_0 in Hq. discriminate.
    + intros ->. exists p. split; auto. apply prims_insert_spec. auto.
  - apply single_variable_ok.
  - unfold eff_multiple_primitive. destruct (multiple_primitive_ok lp 0 pvalid_0) as [M1 M2].
    destruct (inline_prims_ok _ M1) as [_ I]. rewrite I. split; intros (q & -> & Hq); exists q; (split; [auto|]).
    + apply M2 in Hq as [|Hq]; auto. rewrite prims_contains_spec, N.bits_0 in Hq. discriminate.
    + apply M2. auto.
  - apply from_iter_ok.
Qed.

Lemma eff_insert_union : forall a b x y, reachable a -> reachable b ->
  (mem (eff_insert a y) x <-> x = y \/ mem a x) /\
  (mem (eff_union a b) x <-> mem a x \/ mem b x).
Proof.
  intros a b x y Ha Hb. apply reachable_canonical in Ha, Hb. split; [apply insert_ok; auto|apply union_ok; auto].
Qed.

Lemma eff_instantiate_spec : forall a s x, reachable a -> (forall v t, subst_get s v = Some t -> reachable t) ->
  (mem (eff_instantiate a s) x <->
     (exists p, x = Primitive p /\ mem a x) \/
     (exists v, mem a (Variable_ v) /\
        match subst_get s v with Some t => mem t x | None => x = Variable_ v end)).
Proof.
  intros a s x Ha Hs. apply instantiate_ok; [apply reachable_canonical; auto|]. intros. apply reachable_canonical. eauto.
Qed.

Lemma eff_iteration : forall a, reachable a ->
  StronglySorted before (eff_iter a) /\ (forall x, In x (eff_iter a) <-> mem a x) /\
  (eff_is_empty a = true <-> forall x, ~ mem a x) /\
  (eff_has_variables a = true <-> exists v, mem a (Variable_ v)) /\
  (eff_is_only_vars a = true <-> forall p, ~ mem a (Primitive p)).
Proof.
  intros a H. apply reachable_canonical in H. split; [apply iter_sorted; auto|]. split; [apply iter_in; auto|].
  split; [apply is_empty_ok; auto|]. split; [apply has_variables_ok; auto|apply prims_empty; auto].
Qed.

Lemma eff_subset_single : forall a b, reachable a -> reachable b ->
  (eff_is_subset_of a b = true <-> (forall v, ~ mem a (Variable_ v)) /\ forall x, mem a x -> mem b x) /\
  (forall x, eff_as_single a = Some x <-> forall y, mem a y <-> y = x) /\
  (forall v, eff_to_single_variable a = Some v <-> forall y, mem a y <-> y = Variable_ v).
Proof.
  intros a b Ha Hb. apply reachable_canonical in Ha, Hb. split; [|split; [apply as_single_ok; auto|apply to_single_variable_ok; auto]].
  unfold eff_is_subset_of. destruct (eff_has_variables a) eqn:E.
  - apply has_variables_ok in E as (v & Hv); auto. split; [discriminate|]. intros [Hn _]. exfalso. apply (Hn v Hv).
  - assert (Hn : forall v, ~ mem a (Variable_ v)).
    { intros v Hv. rewrite <- not_true_iff_false in E. apply E. apply has_variables_ok; eauto. }
    rewrite forallb_forall. split.
    + intros H. split; auto. intros [p|v] Hx; [|exfalso; eapply Hn; eauto]. apply H, prims_iter_in. exact Hx.
    + intros [_ H] p Hp. apply prims_iter_in in Hp. apply H. exact Hp.
Qed.

Lemma effect_compare_eq : forall x y, effect_compare x y = Eq <-> x = y.
Proof.
  intros [p|v] [q|w]; simpl; try (split; discriminate); rewrite N.compare_eq_iff.
  - split; [intros H; apply prim_rank_inj in H; congruence|congruence].
  - split; congruence.
Qed.
Lemma effect_compare_opp : forall x y, effect_compare y x = CompOpp (effect_compare x y).
Proof. intros [p|v] [q|w]; simpl; auto; apply N.compare_antisym. Qed.
Lemma effect_compare_trans : forall x y z, effect_compare x y = Lt -> effect_compare y z = Lt -> effect_compare x z = Lt.
Proof.
  intros [p|v] [q|w] [r|u]; simpl; auto; try discriminate; rewrite !N.compare_lt_iff; lia.
Qed.

Lemma lex_eq : forall a b, lex_compare a b = Eq <-> a = b.
Proof.
  induction a as [|x a IH]; intros [|y b]; simpl; try (split; (reflexivity || discriminate)).
  destruct (effect_compare x y) eqn:E.
  - apply effect_compare_eq in E. subst. rewrite IH. split; congruence.
  - split; [discriminate|]. intros H. injection H as -> ->. assert (X : effect_compare y y = Eq) by (apply effect_compare_eq; auto). congruence.
  - split; [discriminate|]. intros H. injection H as -> ->. assert (X : effect_compare y y = Eq) by (apply effect_compare_eq; auto). congruence.
Qed.
Lemma lex_opp : forall a b, lex_compare b a = CompOpp (lex_compare a b).
Proof.
  induction a as [|x a IH]; intros [|y b]; simpl; auto. rewrite (effect_compare_opp x y).
  destruct (effect_compare x y); simpl; auto.
Qed.
Lemma lex_trans : forall a b c, lex_compare a b = Lt -> lex_compare b c = Lt -> lex_compare a c = Lt.
Proof.
  induction a as [|x a IH]; intros [|y b] [|z c]; simpl; auto; try discriminate.
  destruct (effect_compare x y) eqn:E1; try discriminate.
  - apply effect_compare_eq in E1. subst. destruct (effect_compare y z); try discriminate; eauto.
  - intros _. destruct (effect_compare y z) eqn:E2; try discriminate.
    + apply effect_compare_eq in E2. subst. rewrite E1. auto.
    + rewrite (effect_compare_trans _ _ _ E1 E2). auto.
Qed.

Lemma eff_ordering : forall a b c, reachable a -> reachable b -> reachable c ->
  (eff_compare a b = Eq <-> a = b) /\ eff_compare b a = CompOpp (eff_compare a b) /\
  (eff_compare a b = Lt -> eff_compare b c = Lt -> eff_compare a c = Lt).
Proof.
  intros a b c Ha Hb Hc. unfold eff_compare. split; [|split; [apply lex_opp|apply lex_trans]].
  rewrite lex_eq. split; [|congruence]. intros E. apply eff_canonical; auto. intros x.
  rewrite <- !iter_in by (apply reachable_canonical; auto). rewrite E. tauto.
Qed.
