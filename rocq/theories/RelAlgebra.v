(** Affine forms and predicates are exact modulo 2^64. *)
From Coq Require Import NArith ZArith List Bool Lia Setoid Morphisms.
From Verif Require Import MachInt IntProofs RelModel RelSpec.
Import ListNotations.
Open Scope Z_scope.

Definition cg (a b : Z) : Prop := exists k, a = b + k * two64.
#[global] Instance cg_equiv : Equivalence cg.
Proof.
  split.
  - intro a. exists 0. lia.
  - intros a b [k H]. exists (- k). lia.
  - intros a b c [k H] [j G]. exists (k + j). lia.
Qed.
#[global] Instance cg_add : Proper (cg ==> cg ==> cg) Z.add.
Proof. intros a b [k H] c d [j G]. exists (k + j). lia. Qed.
#[global] Instance cg_opp : Proper (cg ==> cg) Z.opp.
Proof. intros a b [k H]. exists (- k). lia. Qed.
#[global] Instance cg_sub : Proper (cg ==> cg ==> cg) Z.sub.
Proof. intros a b [k H] c d [j G]. exists (k - j). lia. Qed.
#[global] Instance cg_mul : Proper (cg ==> cg ==> cg) Z.mul.
Proof. intros a b [k H] c d [j G]. exists (k * d + b * j + k * j * two64). subst. ring. Qed.
Lemma cg_wrap : forall z, cg (wrap64 z) z.
Proof. intro z. destruct (wrap64_cong z) as [k H]. exists k. exact H. Qed.
Lemma wrap_cg : forall a b, cg a b -> wrap64 a = wrap64 b.
Proof.
  intros a b H. apply wrap64_unique; [apply wrap64_range|].
  assert (G : cg (wrap64 b) a) by (rewrite (cg_wrap b), H; reflexivity). exact G.
Qed.
Lemma cg_of_wrap : forall a b, wrap64 a = wrap64 b -> cg a b.
Proof. intros a b H. rewrite <- (cg_wrap a), <- (cg_wrap b), H. reflexivity. Qed.
Lemma wrap_small : forall z, -9223372036854775808 <= z <= 9223372036854775807 -> wrap64 z = z.
Proof. intros z H. apply wrap64_id. unfold in_int, int_min, int_max, two63. change (2 ^ 63) with 9223372036854775808. lia. Qed.
Lemma wrap_bounds : forall z, -9223372036854775808 <= wrap64 z <= 9223372036854775807.
Proof. intro z. pose proof (wrap64_range z) as H. unfold in_int, int_min, int_max, two63 in H. change (2 ^ 63) with 9223372036854775808 in H. lia. Qed.
Lemma wrap_wrap : forall z, wrap64 (wrap64 z) = wrap64 z.
Proof. intro z. apply wrap_small, wrap_bounds. Qed.

Section Env.
Variable e : N -> Z.
Fixpoint sum (ts : list (N * Z)) : Z := match ts with [] => 0 | (s, c) :: ts => c * e s + sum ts end.
Definition raw (a : affine) : Z := constant a + sum (terms a).
Definition ev (a : affine) : Z := wrap64 (raw a).

Lemma sum_add_term : forall ts s c, cg (sum (add_term ts s c)) (sum ts + c * e s).
Proof.
  induction ts as [|[s' c'] ts IH]; intros s c; cbn [add_term sum].
  - exists 0. lia.
  - destruct (N.eqb_spec s s') as [->|ne]; [|destruct (N.ltb s s')]; cbn [sum].
    + rewrite (cg_wrap (c' + c)). exists 0. ring.
    + exists 0. ring.
    + rewrite IH. exists 0. ring.
Qed.
Lemma sum_filter : forall ts, sum (filter (fun t => negb (snd t =? 0)) ts) = sum ts.
Proof.
  induction ts as [|[s c] ts IH]; cbn [filter sum snd]; [reflexivity|].
  destruct (Z.eqb_spec c 0) as [->|ne]; cbn [negb sum]; rewrite IH; lia.
Qed.
Lemma sum_fold_add : forall ts acc, cg (sum (fold_left (fun ts t => add_term ts (fst t) (snd t)) ts acc)) (sum acc + sum ts).
Proof.
  induction ts as [|[s c] ts IH]; intro acc; cbn [fold_left sum fst snd].
  - exists 0. lia.
  - rewrite IH, sum_add_term. exists 0. ring.
Qed.
Lemma raw_add : forall a b c, aadd a b = Some c -> cg (raw c) (raw a + raw b).
Proof.
  intros a b c. unfold aadd. destruct (_ <=? MAX_TERMS)%nat; [|discriminate]. intros [= <-].
  unfold raw. cbn [constant terms]. rewrite sum_filter, cg_wrap, sum_fold_add. exists 0. ring.
Qed.
Lemma sum_scale : forall ts f, cg (sum (map (fun t => (fst t, wrap64 (snd t * f))) ts)) (sum ts * f).
Proof.
  induction ts as [|[s c] ts IH]; intro f; cbn [map sum fst snd].
  - exists 0. lia.
  - rewrite IH, (cg_wrap (c * f)). exists 0. ring.
Qed.
Lemma raw_scale : forall a f, cg (raw (scale a f)) (raw a * f).
Proof.
  intros a f. unfold scale. destruct (Z.eqb_spec f 0) as [->|ne].
  - exists 0. unfold raw, aconst. cbn. lia.
  - unfold raw. cbn [constant terms]. rewrite cg_wrap, sum_scale. exists 0. ring.
Qed.
Lemma raw_sub : forall a b c, asub a b = Some c -> cg (raw c) (raw a - raw b).
Proof. intros a b c H. unfold asub in H. rewrite (raw_add _ _ _ H), raw_scale. exists 0. ring. Qed.
Lemma as_constant_raw : forall a z, as_constant a = Some z -> raw a = z.
Proof. intros a z. unfold as_constant, raw. destruct (terms a); [|discriminate]. intros [= <-]. cbn. lia. Qed.
Lemma raw_mul : forall a b c, amul a b = Some c -> cg (raw c) (raw a * raw b).
Proof.
  intros a b c. unfold amul.
  destruct (as_constant a) as [f|] eqn:Ea.
  - intros [= <-]. rewrite raw_scale, (as_constant_raw _ _ Ea). exists 0. ring.
  - destruct (as_constant b) as [f|] eqn:Eb; [|discriminate].
    intros [= <-]. rewrite raw_scale, (as_constant_raw _ _ Eb). exists 0. ring.
Qed.
Lemma cg_ev : forall a, cg (ev a) (raw a).
Proof. intro a. apply cg_wrap. Qed.

Lemma ev_add : forall a b c, aadd a b = Some c -> ev c = wrap64 (ev a + ev b).
Proof. intros a b c H. apply wrap_cg. rewrite (raw_add _ _ _ H), !cg_ev. reflexivity. Qed.
Lemma ev_sub : forall a b c, asub a b = Some c -> ev c = wrap64 (ev a - ev b).
Proof. intros a b c H. apply wrap_cg. rewrite (raw_sub _ _ _ H), !cg_ev. reflexivity. Qed.
Lemma ev_mul : forall a b c, amul a b = Some c -> ev c = wrap64 (ev a * ev b).
Proof. intros a b c H. apply wrap_cg. rewrite (raw_mul _ _ _ H), !cg_ev. reflexivity. Qed.
Lemma ev_scale : forall a f, ev (scale a f) = wrap64 (ev a * f).
Proof. intros a f. apply wrap_cg. rewrite raw_scale, cg_ev. reflexivity. Qed.
Lemma ev_const : forall z, ev (aconst z) = wrap64 z.
Proof. intro z. unfold ev, raw, aconst. cbn. f_equal. lia. Qed.
Lemma ev_symbol : forall s, wrap64 (e s) = e s -> ev (asymbol s) = e s.
Proof. intros s H. unfold ev, raw, asymbol. cbn [constant terms sum]. rewrite <- H at 2. f_equal. lia. Qed.
Lemma ev_range : forall a, -9223372036854775808 <= ev a <= 9223372036854775807.
Proof. intro a. apply wrap_bounds. Qed.
Lemma ev_wrap : forall a, wrap64 (ev a) = ev a.
Proof. intro a. apply wrap_wrap. Qed.

(** ** Predicates *)
Definition compares (c : comparison_kind) (d : Z) : bool :=
  match c with Less => d <? 0 | LessOrEqual => d <=? 0 | Equal => d =? 0 | NotEqual => negb (d =? 0) end.
Definition holds (p : predicate) : bool := compares (comparison_of p) (ev (difference p)).

Lemma holds_between : forall l c r p, between l c r = Some p -> holds p = compares c (wrap64 (ev l - ev r)).
Proof.
  intros l c r p. unfold between. destruct (asub l r) as [d|] eqn:E; [|discriminate]. intros [= <-].
  unfold holds. cbn [comparison_of difference]. rewrite (ev_sub _ _ _ E). reflexivity.
Qed.
Lemma wrap_neg : forall d, -9223372036854775808 < d <= 9223372036854775807 -> wrap64 (d * -1) = - d.
Proof. intros d H. rewrite wrap_small by lia. lia. Qed.
Lemma holds_negated : forall p, holds p = false -> holds (negated p) = true.
Proof.
  intros [d c]. unfold holds, negated. cbn [comparison_of difference].
  pose proof (ev_range d) as B.
  destruct c; cbn [comparison_of difference compares]; rewrite ?ev_scale.
  - intro H. apply Z.ltb_ge in H. rewrite wrap_neg by lia. apply Z.leb_le. lia.
  - intro H. apply Z.leb_gt in H. rewrite wrap_neg by lia. apply Z.ltb_lt. lia.
  - intro H. rewrite H. reflexivity.
  - intro H. apply negb_false_iff in H. exact H.
Qed.
(** A form with no terms is a machine integer when it was built so. *)
Lemma is_certain_holds : forall p b, wrap64 (constant (difference p)) = constant (difference p) -> is_certain p = Some b -> holds p = b.
Proof.
  intros [d c] b W. unfold is_certain, holds. cbn [comparison_of difference] in *.
  destruct (as_constant d) as [z|] eqn:E; [|discriminate]. intros [= <-].
  pose proof (as_constant_raw _ _ E) as R. unfold ev. rewrite R.
  assert (z = constant d) as -> by (unfold as_constant in E; destruct (terms d); congruence).
  rewrite W. destruct c; reflexivity.
Qed.
Lemma entails_holds : forall p goal, entails p goal = true -> holds p = true -> holds goal = true.
Proof.
  intros [d c] [g k]. unfold entails, holds. cbn [comparison_of difference].
  destruct (asub g d) as [o|] eqn:E; [|discriminate].
  destruct (as_constant o) as [z|] eqn:Z; [|discriminate].
  assert (G : ev g = wrap64 (ev d + z)).
  { apply wrap_cg. rewrite cg_ev. pose proof (raw_sub _ _ _ E) as R. rewrite (as_constant_raw _ _ Z) in R. rewrite R. exists 0. ring. }
  pose proof (ev_range d) as B.
  destruct (kind_eqb c k && (z =? 0)) eqn:K.
  - apply andb_true_iff in K. destruct K as [K ->%Z.eqb_eq].
    assert (c = k) as -> by (destruct c, k; try discriminate K; reflexivity).
    intros _ H. rewrite G, Z.add_0_r, ev_wrap. exact H.
  - destruct c; try discriminate. destruct k; try discriminate.
    + intros [->%Z.eqb_eq| ->%Z.eqb_eq]%orb_true_iff H; cbn [compares] in *; apply Z.ltb_lt in H; apply Z.leb_le; rewrite G, wrap_small; lia.
    + intros ->%Z.eqb_eq H. cbn [compares] in *. apply Z.ltb_lt in H. rewrite G, Z.add_0_r, ev_wrap.
      apply negb_true_iff, Z.eqb_neq. lia.
Qed.
Lemma between_wrapped : forall l c r p, between l c r = Some p -> wrap64 (constant (difference p)) = constant (difference p).
Proof.
  intros l c r p. unfold between, asub, aadd. destruct (_ <=? MAX_TERMS)%nat; [|discriminate].
  intros [= <-]. cbn [difference constant]. apply wrap_wrap.
Qed.
Lemma implies_holds : forall st goal, wrap64 (constant (difference goal)) = constant (difference goal) ->
  (forall p, In p (known st) -> holds p = true) -> implies st goal = true -> holds goal = true.
Proof.
  intros st goal W K. unfold implies. destruct (is_certain goal) as [b|] eqn:C.
  - intros ->. apply (is_certain_holds _ _ W C).
  - intros (p & I & H)%existsb_exists. apply (entails_holds _ _ H (K _ I)).
Qed.
Lemma proves_between : forall st l c r, (forall p, In p (known st) -> holds p = true) ->
  proves st (between l c r) = true -> compares c (wrap64 (ev l - ev r)) = true.
Proof.
  intros st l c r K H. unfold proves in H. destruct (between l c r) as [p|] eqn:E; [|discriminate].
  rewrite <- (holds_between _ _ _ _ E). apply (implies_holds st); [eapply between_wrapped; eassumption|exact K|exact H].
Qed.

(** ** The decision *)
Lemma decide_ok : forall st i l n, (forall p, In p (known st) -> holds p = true) ->
  decide_forms st i l = Some n -> 0 <= ev l -> ~ (ev i = int_min /\ ev l = 0) ->
  resolve (ev i) (ev l) = Some match n with NonNegative => ev i | Negative => wrap64 (ev l + ev i) end.
Proof.
  intros st i l n K D L C. unfold decide_forms in D.
  pose proof (ev_range i) as Bi. pose proof (ev_range l) as Bl.
  unfold int_min, two63 in C. change (2 ^ 63) with 9223372036854775808 in C.
  destruct (proves st (between (aconst 0) LessOrEqual i) && proves st (between i Less l)) eqn:P.
  - injection D as <-. apply andb_true_iff in P. destruct P as [P Q].
    apply (proves_between _ _ _ _ K) in P. apply (proves_between _ _ _ _ K) in Q. cbn [compares] in P, Q.
    rewrite ev_const in P. change (wrap64 0) with 0 in P. apply Z.leb_le in P. apply Z.ltb_lt in Q.
    assert (N : 0 <= ev i \/ ev i = -9223372036854775808).
    { destruct (Z.eq_dec (ev i) (-9223372036854775808)) as [|ne]; [right; assumption|left].
      rewrite wrap_small in P by lia. lia. }
    destruct N as [N|N].
    + rewrite wrap_small in Q by lia. unfold resolve.
      assert ((0 <=? ev i) && (ev i <? ev l) = true) as -> by (apply andb_true_iff; split; [apply Z.leb_le|apply Z.ltb_lt]; lia).
      reflexivity.
    + exfalso. rewrite N in *.
      assert (wrap64 (-9223372036854775808 - ev l) = 9223372036854775808 - ev l) as W.
      { rewrite <- (wrap_small (9223372036854775808 - ev l)) by lia. apply wrap_cg. exists (-1).
        unfold two64. change (2 ^ 64) with 18446744073709551616. lia. }
      rewrite W in Q. lia.
  - destruct (aadd l i) as [o|] eqn:A; [|discriminate].
    destruct (proves st (between i Less (aconst 0)) && proves st (between (aconst 0) LessOrEqual o) && proves st (between o Less l)) eqn:Q; [|discriminate].
    injection D as <-. apply andb_true_iff in Q. destruct Q as [Q Q3]. apply andb_true_iff in Q. destruct Q as [Q1 Q2].
    apply (proves_between _ _ _ _ K) in Q1. apply (proves_between _ _ _ _ K) in Q2. apply (proves_between _ _ _ _ K) in Q3.
    cbn [compares] in Q1, Q2, Q3. rewrite ev_const in Q1, Q2. change (wrap64 0) with 0 in Q1, Q2.
    apply Z.ltb_lt in Q1. apply Z.leb_le in Q2.
    rewrite wrap_small in Q1 by lia.
    assert (O : ev o = ev l + ev i) by (rewrite (ev_add _ _ _ A); apply wrap_small; lia).
    rewrite O in Q2. rewrite wrap_small in Q2 by lia.
    unfold resolve. assert ((0 <=? ev i) && (ev i <? ev l) = false) as -> by (apply andb_false_iff; left; apply Z.leb_gt; lia).
    assert ((- ev l <=? ev i) && (ev i <? 0) = true) as -> by (apply andb_true_iff; split; [apply Z.leb_le|apply Z.ltb_lt]; lia).
    rewrite wrap_small by lia. reflexivity.
Qed.
End Env.

(** ** Symbols of forms *)
Definition aids (a : affine) : list N := map fst (terms a).
Lemma add_term_ids : forall ts s c x, In x (map fst (add_term ts s c)) -> In x (map fst ts) \/ x = s.
Proof.
  induction ts as [|[s' c'] ts IH]; intros s c x; cbn [add_term map fst].
  - intros [->|[]]. right. reflexivity.
  - destruct (N.eqb s s') eqn:E; [|destruct (N.ltb s s')]; cbn [map fst In].
    + intro H. left. exact H.
    + intros [->|H]; [right; reflexivity|left; exact H].
    + intros [->|H]; [left; left; reflexivity|]. destruct (IH _ _ _ H) as [G| ->]; [left; right; exact G|right; reflexivity].
Qed.
Lemma aadd_ids : forall a b c x, aadd a b = Some c -> In x (aids c) -> In x (aids a) \/ In x (aids b).
Proof.
  intros a b c x. unfold aadd. destruct (_ <=? MAX_TERMS)%nat; [|discriminate]. intros [= <-]. unfold aids. cbn [terms].
  intro H. apply in_map_iff in H. destruct H as (t & <- & H). apply filter_In in H. destruct H as [H _].
  apply (in_map fst) in H. revert H. generalize (terms a) as acc. generalize (terms b) as ts.
  induction ts as [|[s c] ts IH]; intros acc H; cbn [fold_left fst snd] in H; [left; exact H|].
  apply IH in H. destruct H as [H|H]; [|right; right; exact H].
  apply add_term_ids in H. destruct H as [H| ->]; [left; exact H|right; left; reflexivity].
Qed.
Lemma scale_ids : forall a f x, In x (aids (scale a f)) -> In x (aids a).
Proof.
  intros a f x. unfold scale. destruct (f =? 0); [intros []|]. unfold aids. cbn [terms]. rewrite map_map. cbn [fst]. intro H. exact H.
Qed.
Lemma asub_ids : forall a b c x, asub a b = Some c -> In x (aids c) -> In x (aids a) \/ In x (aids b).
Proof. intros a b c x H I. unfold asub in H. destruct (aadd_ids _ _ _ _ H I) as [G|G]; [left; exact G|right; apply (scale_ids _ _ _ G)]. Qed.
Lemma amul_ids : forall a b c x, amul a b = Some c -> In x (aids c) -> In x (aids a) \/ In x (aids b).
Proof.
  intros a b c x. unfold amul. destruct (as_constant a); [|destruct (as_constant b); [|discriminate]]; intros [= <-] H; apply scale_ids in H; tauto.
Qed.
Definition pids (p : predicate) : list N := aids (difference p).
Lemma between_ids : forall l c r p x, between l c r = Some p -> In x (pids p) -> In x (aids l) \/ In x (aids r).
Proof.
  intros l c r p x. unfold between. destruct (asub l r) as [d|] eqn:E; [|discriminate]. intros [= <-]. apply (asub_ids _ _ _ _ E).
Qed.
Lemma negated_ids : forall p x, In x (pids (negated p)) -> In x (pids p).
Proof. intros [d []] x; unfold pids, negated; cbn [comparison_of difference]; try apply scale_ids; intro H; exact H. Qed.

(** Only the symbols of a form matter to its value. *)
Lemma ev_ext : forall e e' a, (forall x, In x (aids a) -> e x = e' x) -> ev e a = ev e' a.
Proof.
  intros e e' a H. unfold ev, raw. f_equal. f_equal. unfold aids in H.
  revert H. induction (terms a) as [|[s c] ts IH]; intro H; cbn [sum]; [reflexivity|].
  rewrite (H s) by (left; reflexivity). rewrite IH; [reflexivity|]. intros x I. apply H. right. exact I.
Qed.
Lemma holds_ext : forall e e' p, (forall x, In x (pids p) -> e x = e' x) -> holds e p = holds e' p.
Proof. intros e e' p H. unfold holds. rewrite (ev_ext e e'); [reflexivity|exact H]. Qed.

(** Equality tests. *)
Lemma lex_eq : forall a b, lex a b = Eq -> a = Eq /\ b = Eq.
Proof. intros [] b; cbn; intro H; try discriminate. split; [reflexivity|exact H]. Qed.
Lemma terms_compare_eq : forall a b, terms_compare a b = Eq -> a = b.
Proof.
  induction a as [|[s c] a IH]; intros [|[s' c'] b]; cbn [terms_compare]; intro H; try discriminate; [reflexivity|].
  apply lex_eq in H. destruct H as [->%N.compare_eq H]. apply lex_eq in H. destruct H as [->%Z.compare_eq H]. rewrite (IH _ H). reflexivity.
Qed.
Lemma pred_compare_eq : forall p q, pred_compare p q = Eq -> p = q.
Proof.
  intros [[a ts] c] [[b us] d]. unfold pred_compare. cbn [difference constant terms comparison_of]. intro H.
  apply lex_eq in H. destruct H as [->%Z.compare_eq H]. apply lex_eq in H. destruct H as [->%terms_compare_eq H].
  apply Z.compare_eq in H. destruct c, d; try discriminate H; reflexivity.
Qed.
Lemma affine_eqb_eq : forall a b, affine_eqb a b = true -> a = b.
Proof.
  intros [c ts] [d us]. unfold affine_eqb. cbn [constant terms]. intros [->%Z.eqb_eq H]%andb_true_iff.
  destruct (terms_compare ts us) eqn:E; try discriminate. rewrite (terms_compare_eq _ _ E). reflexivity.
Qed.
Lemma pred_eqb_eq : forall p q, pred_eqb p q = true -> p = q.
Proof.
  intros [a c] [b d]. unfold pred_eqb. cbn [difference comparison_of]. intros [->%affine_eqb_eq H]%andb_true_iff.
  destruct c, d; try discriminate H; reflexivity.
Qed.
Lemma preds_eqb_eq : forall ps qs, preds_eqb ps qs = true -> ps = qs.
Proof.
  induction ps as [|p ps IH]; intros [|q qs]; cbn [preds_eqb]; intro H; try discriminate; [reflexivity|].
  apply andb_true_iff in H. destruct H as [->%pred_eqb_eq H]. rewrite (IH _ H). reflexivity.
Qed.
Lemma fact_eqb_eq : forall f g, fact_eqb f g = true -> f = g.
Proof.
  intros [a|a b|p|ps|v ps] [c|c d|q|qs|w qs]; cbn [fact_eqb]; intro H; try discriminate.
  - rewrite (affine_eqb_eq _ _ H). reflexivity.
  - apply andb_true_iff in H. destruct H as [->%affine_eqb_eq ->%affine_eqb_eq]. reflexivity.
  - rewrite (pred_eqb_eq _ _ H). reflexivity.
  - rewrite (preds_eqb_eq _ _ H). reflexivity.
  - apply andb_true_iff in H. destruct H as [->%N.eqb_eq ->%preds_eqb_eq]. reflexivity.
Qed.
