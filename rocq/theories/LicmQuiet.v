(** What the operations around the moved call leave alone. *)
From Coq Require Import List Bool Arith Lia.
From Verif Require Import LicmModel LicmSpec LicmStatic LicmRoots LicmLoops LicmFind LicmWays LicmSim LicmShape.
Import ListNotations.

Section Quiet.
Variables (dominates : nat -> nat -> bool) (will_return trivial : nat -> bool) (f : func).
Variables (h : hoist) (l : natural_loop) (cop aop : operation) (ins : list operand) (r : reg) (a : site) (ty : nat).
Hypothesis VF : verified f.
Hypothesis DR : dominance_right f dominates.
Hypothesis K : facts dominates will_return trivial f h l cop aop ins r a ty.

Let SSA : NoDup (results f) := proj1 VF.
Let p := target h.
Let i := insertion h.
Let G := k_loop _ _ _ _ _ _ _ _ _ _ _ _ K.

Lemma p_is : p = preheader l.
Proof. exact (k_target _ _ _ _ _ _ _ _ _ _ _ _ K). Qed.
Lemma p_out : ~ In p (blocks l).
Proof. rewrite p_is. apply (g_outside _ _ G). Qed.
Lemma later_p : forall b, In b (blocks l) -> preheader l < b.
Proof. intros b J. rewrite <- p_is. apply (k_later _ _ _ _ _ _ _ _ _ _ _ _ K b J). Qed.

Lemma out_rooted : rooted f (Reg r) (RAlloca r).
Proof.
  apply (rooted_cell f a aop r (k_alloca _ _ _ _ _ _ _ _ _ _ _ _ K) (k_result _ _ _ _ _ _ _ _ _ _ _ _ K)).
  left. exists ty. exact (k_kind _ _ _ _ _ _ _ _ _ _ _ _ K).
Qed.
Lemma inputs_differ : forall o x, In o ins -> rooted f o x -> x <> RAlloca r.
Proof.
  intros o x J R. destruct (k_inputs _ _ _ _ _ _ _ _ _ _ _ _ K o J) as (y & Ry & N & _). rewrite (root_unique f SSA _ _ R _ Ry). exact N.
Qed.

Lemma occurs_at : forall b bl k op, nth_error f b = Some bl -> nth_error (block_operations bl) k = Some op -> occurs f op.
Proof.
  intros b bl k op B N. unfold block_operations in N. destruct (Nat.lt_ge_cases k (length (ops bl))) as [Lk|Lk].
  - rewrite nth_error_app1 in N by exact Lk. apply (occurs_op f op (b, k)). exists bl. auto.
  - rewrite nth_error_app2 in N by exact Lk. destruct (term bl) as [t|o y n|o y n|o y| | |] eqn:T;
      destruct (k - length (ops bl)) as [|[|j]]; cbn in N; try discriminate; injection N as <-.
    + eapply occurs_invoke; eauto.
    + eapply occurs_yield; eauto.
Qed.
Lemma uses_at : forall b bl k op z, nth_error f b = Some bl -> nth_error (block_operations bl) k = Some op ->
  In (Reg z) (operands op) -> uses f z (b, k).
Proof.
  intros b bl k op z B N J. unfold block_operations in N. destruct (Nat.lt_ge_cases k (length (ops bl))) as [Lk|Lk].
  - rewrite nth_error_app1 in N by exact Lk. apply (uses_op f z (b, k) op); [exists bl; auto|exact J].
  - rewrite nth_error_app2 in N by exact Lk. destruct (term bl) as [t|o y n|o y n|o y| | |] eqn:T;
      destruct (k - length (ops bl)) as [|[|j]] eqn:Q; cbn in N; try discriminate; injection N as <-;
      replace k with (length (ops bl)) by lia; apply uses_term; try exact B; rewrite T; cbn [term_operands]; exact J.
Qed.
Lemma operands_at : forall bl k op o, nth_error (block_operations bl) k = Some op -> In o (operands op) ->
  In o (flat_map operands (ops bl) ++ term_operands (term bl)).
Proof.
  intros bl k op o N J. apply in_app_iff. unfold block_operations in N. apply nth_error_In, in_app_iff in N. destruct N as [N|N].
  - left. apply in_flat_map. exists op. auto.
  - right. destruct (term bl); cbn in N; try contradiction; destruct N as [<-|[]]; exact J.
Qed.
Lemma inner_at : forall bl k op z, nth_error (block_operations bl) k = Some op -> result op = Some z -> nth_error (inner bl) k = Some op.
Proof.
  intros bl k op z N R. unfold block_operations in N. unfold inner. destruct (Nat.lt_ge_cases k (length (ops bl))) as [Lk|Lk].
  - rewrite nth_error_app1 in * by exact Lk. exact N.
  - rewrite nth_error_app2 in * by exact Lk. destruct (term bl); try exact N.
    destruct (k - length (ops bl)) as [|[|j]]; cbn in N; try discriminate. injection N as <-. discriminate.
Qed.
Lemma defined_at : forall b bl k op z s op', nth_error f b = Some bl -> nth_error (block_operations bl) k = Some op ->
  result op = Some z -> operation_at f s op' -> result op' = Some z -> s = (b, k) /\ op' = op.
Proof.
  intros b bl k op z [b' k'] op' B N R (bl' & B' & N') R'. cbn [fst snd] in *. pose proof (inner_at _ _ _ _ N R) as I.
  destruct (one_definition f z b' k' bl' op' b k bl op SSA B' (op_inner _ _ _ N') R' B I R) as [-> ->].
  split; [reflexivity|]. rewrite B in B'. injection B' as <-. apply op_inner in N'. congruence.
Qed.
Lemma root_defined : forall o x, rooted f o x -> forall y, x = RAlloca y \/ x = RDict y ->
  exists s op, operation_at f s op /\ result op = Some y.
Proof.
  intros o x R. induction R as [q|s op z A Rz Q|s op z A Rz Q|s op z n base rest x A Rz Q O B IH]; intros y [E|E];
    try discriminate; try (injection E as <-; exists s, op; auto); apply IH; auto.
Qed.

Lemma placed_early : forall w0 o z, walk f 0 w0 (preheader l) -> placed dominates f p i o -> o = Reg z ->
  exists d op, operation_at f d op /\ result op = Some z /\ early l i w0 d.
Proof.
  intros w0 o z W [P _] E. destruct (P z E) as (d & op & A & R & [[E1 E2]|[E1 E2]]).
  - exists d, op. split; [exact A|]. split; [exact R|]. right. split; [rewrite E1; apply p_is|exact E2].
  - exists d, op. split; [exact A|]. split; [exact R|]. left. rewrite p_is in E1, E2. exact (DR _ _ E1 E2 w0 W).
Qed.

(** After the new place of the call, or in the loop. *)
Definition region (b k : nat) : Prop := (In b (blocks l) /\ (b, k) <> call_site h /\ (b, k) <> a) \/ (b = p /\ i <= k).

Lemma region_late : forall w0 b k, free l w0 -> region b k -> ~ early l i w0 (b, k).
Proof.
  intros w0 b k F Rg Ea. destruct (early_not f l i G w0 _ F Ea) as [N1 N2]. cbn [fst snd] in *.
  destruct Rg as [(J & _)|(-> & L)]; [contradiction|]. pose proof (N2 p_is). lia.
Qed.

Lemma region_quiet : forall w0 b bl k op, walk f 0 w0 (preheader l) -> free l w0 -> region b k ->
  nth_error f b = Some bl -> nth_error (block_operations bl) k = Some op -> quiet f ins r op.
Proof.
  intros w0 b bl k op W F Rg B N. pose proof (region_late w0 b k F Rg) as Late.
  assert (Nr : result op <> Some r).
  { intros R. destruct (defined_at b bl k op r a aop B N R (k_alloca _ _ _ _ _ _ _ _ _ _ _ _ K) (k_result _ _ _ _ _ _ _ _ _ _ _ _ K)) as [Ea _].
    destruct (k_moved _ _ _ _ _ _ _ _ _ _ _ _ K) as [[J S]|[J S]].
    - destruct Rg as [(_ & _ & Q)|(-> & _)]; [congruence|]. apply p_out. rewrite Ea in J. exact J.
    - destruct Rg as [(Jb & _)|(-> & L)]; [apply J; rewrite Ea; exact Jb|].
      destruct (placed_early w0 (Reg r) r W (k_output _ _ _ _ _ _ _ _ _ _ _ _ K S) eq_refl) as (d & op' & A & R' & Ed).
      destruct (one_site _ _ _ _ _ _ SSA A R' (k_alloca _ _ _ _ _ _ _ _ _ _ _ _ K) (k_result _ _ _ _ _ _ _ _ _ _ _ _ K)) as [-> _].
      apply Late. rewrite <- Ea. exact Ed. }
  split; [eapply occurs_at; eauto|]. split; [|split; [exact Nr|split]].
  - intros [(o & Wo & Ro)|(y & Ry & [Ey|Ey])]; [| |discriminate].
    + destruct Rg as [(J & Q & _)|(-> & L)].
      * apply Q. eapply (k_only _ _ _ _ _ _ _ _ _ _ _ _ K); eauto.
      * eapply (k_private _ _ _ _ _ _ _ _ _ _ _ _ K); [exact B|apply p_out| |exact Ro]. eapply operands_at; [exact N|]. apply written_operand. exact Wo.
    + apply Nr. congruence.
  - intros o x Jo Rx [(w & Ww & Rw)|(y & Ry & Ey)].
    + destruct Rg as [(J & Q & _)|(-> & L)].
      * destruct (k_inputs _ _ _ _ _ _ _ _ _ _ _ _ K o Jo) as (x' & Rx' & _ & H). rewrite (root_unique f SSA _ _ Rx _ Rx') in Rw.
        exact (H b k bl op w J B N Ww Rw).
      * destruct (k_placed _ _ _ _ _ _ _ _ _ _ _ _ K o Jo) as [_ H]. pose proof (H bl k op w x B N Ww Rw Rx). fold i in H0. lia.
    + destruct (root_defined _ _ Rx y Ey) as (s0 & op0 & A0 & R0).
      destruct (defined_at b bl k op y s0 op0 B N Ry A0 R0) as [E0 _].
      destruct o as [z|q|q|q]; [|inversion Rx; subst; destruct Ey; discriminate|inversion Rx|inversion Rx].
      destruct (placed_early w0 (Reg z) z W (k_placed _ _ _ _ _ _ _ _ _ _ _ _ K _ Jo) eq_refl) as (d & opd & A & Rd & Ed).
      apply Late. rewrite <- E0. destruct (root_made f VF (Reg z) x Rx z y s0 op0 d opd eq_refl Ey A0 R0 A Rd) as [->|P]; [exact Ed|].
      eapply passed_early; eauto.
  - intros z Jz Rz. destruct (placed_early w0 (Reg z) z W (k_placed _ _ _ _ _ _ _ _ _ _ _ _ K _ Jz) eq_refl) as (d & opd & A & Rd & Ed).
    destruct (defined_at b bl k op z d opd B N Rz A Rd) as [-> _]. exact (Late Ed).
Qed.

(** The allocation has not been passed on some way. *)
Definition fresh (b k : nat) : Prop := exists w, walk f 0 w b /\ ~ In (fst a) w /\ (b = fst a -> k <= snd a).

Lemma fresh_not_used : forall b k z, fresh b k -> rooted f (Reg z) (RAlloca r) -> ~ uses f z (b, k).
Proof.
  intros b k z (w & W & N & L) R U.
  destruct (root_passed f VF (Reg z) _ R z r a aop (b, k) eq_refl (or_introl eq_refl)
    (k_alloca _ _ _ _ _ _ _ _ _ _ _ _ K) (k_result _ _ _ _ _ _ _ _ _ _ _ _ K) U) as [_ P].
  destruct (P w W) as [J|[E1 E2]]; [contradiction|]. cbn [fst snd] in *. assert (k <= snd a) by (apply L; congruence). lia.
Qed.
Lemma fresh_blind : forall b bl k op, fresh b k -> nth_error f b = Some bl -> nth_error (block_operations bl) k = Some op -> blind f r op.
Proof.
  intros b bl k op Fr B N o J. assert (X : ~ rooted f o (RAlloca r)).
  { intros R. destruct o as [z|q|q|q]; [|inversion R|inversion R|inversion R]. eapply fresh_not_used; eauto. eapply uses_at; eauto. }
  split; [exact X|]. intros ->. apply X, out_rooted.
Qed.
Lemma private_blind : forall b bl k op, ~ In b (blocks l) -> nth_error f b = Some bl -> nth_error (block_operations bl) k = Some op -> blind f r op.
Proof.
  intros b bl k op Nb B N o J. assert (X : ~ rooted f o (RAlloca r)).
  { eapply (k_private _ _ _ _ _ _ _ _ _ _ _ _ K); eauto. eapply operands_at; eauto. }
  split; [exact X|]. intros ->. apply X, out_rooted.
Qed.
Lemma private_untouched : forall b bl k op, ~ In b (blocks l) -> nth_error f b = Some bl -> nth_error (block_operations bl) k = Some op ->
  ~ touches f op (RAlloca r) \/ (op = aop /\ alloca_site h = None).
Proof.
  intros b bl k op Nb B N. destruct (result op) as [z|] eqn:R.
  - destruct (Nat.eq_dec z r) as [->|Nz].
    + right. destruct (defined_at b bl k op r a aop B N R (k_alloca _ _ _ _ _ _ _ _ _ _ _ _ K) (k_result _ _ _ _ _ _ _ _ _ _ _ _ K)) as [Ea Eo].
      split; [congruence|]. destruct (k_moved _ _ _ _ _ _ _ _ _ _ _ _ K) as [[J _]|[_ S]]; [|exact S]. rewrite Ea in J. contradiction.
    + left. intros [(o & Wo & Ro)|(y & Ry & [Ey|Ey])]; [|congruence|discriminate].
      destruct (private_blind b bl k op Nb B N o (written_operand _ _ Wo)) as [X _]. contradiction.
  - left. intros [(o & Wo & Ro)|(y & Ry & _)]; [|congruence].
    destruct (private_blind b bl k op Nb B N o (written_operand _ _ Wo)) as [X _]. contradiction.
Qed.
End Quiet.
