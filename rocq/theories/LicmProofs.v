(** The function with the call moved runs alike. *)
From Coq Require Import List Bool Arith Lia.
From Verif Require Import LicmModel LicmSpec LicmStatic LicmRoots LicmLoops LicmFind LicmWays LicmSim LicmShape LicmQuiet.
Import ListNotations.

Section Run.
Variables (dominates : nat -> nat -> bool) (will_return trivial : nat -> bool) (f : func).
Variables (h : hoist) (l : natural_loop) (cop aop : operation) (ins : list operand) (r : reg) (a : site) (ty : nat).
Hypothesis VF : verified f.
Hypothesis DR : dominance_right f dominates.
Hypothesis K : facts dominates will_return trivial f h l cop aop ins r a ty.
Variables V E : Type.
Variable M : machine V E.
Hypothesis HM : honest V E M will_return trivial f.
Variables (regs0 : registers V) (c0 : cells V).
Hypothesis PR : prepared V E M will_return trivial f h regs0 c0.

Notation cells := (cells V).
Notation registers := (registers V).
Notation run_op := (run_op V E M).
Notation run_ops := (run_ops V E M).
Notation out := (RAlloca r).
Notation arrives := (arrives V E M f regs0 c0).
Definition moved : Prop := alloca_site h = Some a.
Notation outside := (outside V r moved).
Notation first := (first V E M f cop ins r moved).
Notation later := (later V E M f cop ins r moved).
Notation matches := (matches V E).
Notation rel := (registers -> cells -> registers -> cells -> Prop).

Lemma moved_cases : (moved /\ In (fst a) (blocks l)) \/ (~ moved /\ alloca_site h = None /\ ~ In (fst a) (blocks l)).
Proof.
  unfold moved. destruct (k_moved _ _ _ _ _ _ _ _ _ _ _ _ K) as [[J S]|[J S]]; [left; auto|right].
  split; [rewrite S; discriminate|auto].
Qed.

Lemma cop_occurs : occurs f cop.
Proof. eapply occurs_op. exact (k_call _ _ _ _ _ _ _ _ _ _ _ _ K). Qed.
Lemma cop_operands : exists g, operands cop = Function g :: ins ++ [Reg r].
Proof. destruct (k_pure _ _ _ _ _ _ _ _ _ _ _ _ K) as (c & g & _ & _ & _ & _ & _ & _ & _ & O & _). exists g. exact O. Qed.
Lemma cop_result : result cop = None.
Proof.
  destruct (k_pure _ _ _ _ _ _ _ _ _ _ _ _ K) as (c & g & Kc & _ & Vr & _). destruct VF as (_ & H & _).
  eapply H; [exact (k_call _ _ _ _ _ _ _ _ _ _ _ _ K)|exact Kc|exact Vr].
Qed.
Lemma aop_occurs : occurs f aop.
Proof. eapply occurs_op. exact (k_alloca _ _ _ _ _ _ _ _ _ _ _ _ K). Qed.

(** ** Lists of operations *)

Definition lmatches (Q : rel) (s s' : step V E) : Prop :=
  match s with
  | Bad _ _ => True
  | Next _ _ t r1 c1 => exists r1' c1', s' = Next V E t r1' c1' /\ Q r1 c1 r1' c1'
  | Failure _ _ t c1 => exists c1', s' = Failure V E t c1' /\ agree V (eq out) c1 c1'
  end.
Lemma lm_of : forall (Q Q' : rel) regs regs' s s', matches Q regs regs' s s' ->
  (forall w x y z, Q w x y z -> agree V (eq out) x z) -> (forall w x y z, Q w x y z -> Q' w x y z) -> lmatches Q' s s'.
Proof.
  intros Q Q' regs regs' s s' H A I. destruct s as [t r1 c1|t c1|]; cbn in *; [| |exact H].
  - destruct H as (r1' & c1' & -> & H). exists r1', c1'. split; [reflexivity|apply I, H].
  - destruct H as (c1' & -> & H). exists c1'. split; [reflexivity|eapply A, H].
Qed.

Lemma run_sim : forall ops (dropped : nat -> bool) (P : nat -> rel),
  (forall k op regs c regs' c', nth_error ops k = Some op -> P k regs c regs' c' ->
    if dropped k then exists r1 c1, run_op op regs c = Next V E [] r1 c1 /\ P (S k) r1 c1 regs' c'
    else lmatches (P (S k)) (run_op op regs c) (run_op op regs' c')) ->
  forall regs c regs' c', P 0 regs c regs' c' -> lmatches (P (length ops)) (run_ops ops regs c) (run_ops (drop dropped ops) regs' c').
Proof.
  induction ops as [|op ops IH]; intros dropped P H regs c regs' c' H0.
  - cbn. exists regs', c'. auto.
  - pose proof (H 0 op regs c regs' c' eq_refl H0) as X. cbn [drop length LicmSpec.run_ops].
    assert (H' : forall k op regs c regs' c', nth_error ops k = Some op -> P (S k) regs c regs' c' ->
      if dropped (S k) then exists r1 c1, run_op op regs c = Next V E [] r1 c1 /\ P (S (S k)) r1 c1 regs' c'
      else lmatches (P (S (S k))) (run_op op regs c) (run_op op regs' c')).
    { intros k op' r1 c1 r1' c1' N Q. apply H; assumption. }
    specialize (IH (fun k => dropped (S k)) (fun k => P (S k)) H').
    destruct (dropped 0).
    + destruct X as (r1 & c1 & -> & X). cbn [app]. specialize (IH r1 c1 regs' c' X).
      destruct (run_ops ops r1 c1) as [t2 r2 c2|t2 c2|]; cbn in *; exact IH.
    + cbn [app LicmSpec.run_ops]. destruct (run_op op regs c) as [t1 r1 c1|t1 c1|]; cbn [lmatches] in X; [| |exact I].
      * destruct X as (r1' & c1' & -> & X). specialize (IH r1 c1 r1' c1' X).
        destruct (run_ops ops r1 c1) as [t2 r2 c2|t2 c2|]; cbn in IH; [| |exact I].
        -- destruct IH as (r2' & c2' & -> & IH). cbn. exists r2', c2'. auto.
        -- destruct IH as (c2' & -> & IH). cbn. exists c2'. auto.
      * destruct X as (c1' & -> & X). cbn. exists c1'. auto.
Qed.

Definition andthen (s : step V E) (k : registers -> cells -> step V E) : step V E :=
  match s with
  | Next _ _ t r1 c1 =>
      match k r1 c1 with
      | Next _ _ t' r2 c2 => Next V E (t ++ t') r2 c2
      | Failure _ _ t' c2 => Failure V E (t ++ t') c2
      | Bad _ _ => Bad V E
      end
  | other => other
  end.
Lemma run_app : forall u w regs c, run_ops (u ++ w) regs c = andthen (run_ops u regs c) (run_ops w).
Proof.
  induction u as [|op u IH]; intros w regs c.
  - cbn. destruct (run_ops w regs c); reflexivity.
  - cbn [app LicmSpec.run_ops]. destruct (run_op op regs c) as [t r1 c1|t c1|]; try reflexivity. rewrite IH.
    destruct (run_ops u r1 c1) as [t2 r2 c2|t2 c2|]; try reflexivity. cbn.
    destruct (run_ops w r2 c2); rewrite ?app_assoc; reflexivity.
Qed.

Lemma outside_agree : forall w x y z, outside w x y z -> agree V (eq out) x z.
Proof. intros w x y z [_ H]. exact H. Qed.

(** ** Outside the loop *)

Lemma outside_at : forall b bl k op regs c regs' c', ~ In b (blocks l) -> nth_error f b = Some bl ->
  nth_error (block_operations bl) k = Some op -> outside regs c regs' c' ->
  matches outside regs regs' (run_op op regs c) (run_op op regs' c').
Proof.
  intros b bl k op regs c regs' c' Nb B N O.
  destruct (private_untouched dominates will_return trivial f h l cop aop ins r a ty VF K b bl k op Nb B N) as [T|[-> S]].
  - eapply (outside_op V E M will_return trivial f HM); try assumption.
    + eapply occurs_at; eauto.
    + eapply private_blind; eauto.
  - destruct O as [Er A].
    destruct (h_alloca V E M will_return trivial f HM aop ty r regs c aop_occurs (k_kind _ _ _ _ _ _ _ _ _ _ _ _ K)
      (k_static _ _ _ _ _ _ _ _ _ _ _ _ K) (k_result _ _ _ _ _ _ _ _ _ _ _ _ K)) as (c1 & X & _ & Z).
    destruct (h_alloca V E M will_return trivial f HM aop ty r regs' c' aop_occurs (k_kind _ _ _ _ _ _ _ _ _ _ _ _ K)
      (k_static _ _ _ _ _ _ _ _ _ _ _ _ K) (k_result _ _ _ _ _ _ _ _ _ _ _ _ K)) as (c1' & X' & _ & Z').
    unfold LicmSpec.run_op. rewrite X, X', (k_result _ _ _ _ _ _ _ _ _ _ _ _ K). cbn. eexists _, _. split; [reflexivity|]. split.
    + intros z Nz. apply set_both. apply Er, Nz.
    + intros x Nx. rewrite <- (Z x Nx), <- (Z' x Nx). apply A, Nx.
Qed.

(** ** In the loop and before it *)

Notation fresh := (fresh f a).
Definition inside (b k : nat) : rel := fun regs c regs' c' =>
  exists v, (fresh b k /\ first v regs c regs' c') \/ later v regs c regs' c'.
Lemma inside_agree : forall b k w x y z, inside b k w x y z -> agree V (eq out) x z.
Proof. intros b k w x y z (v & [(_ & _ & _ & H & _)|(_ & _ & H & _)]); exact H. Qed.
Lemma inside_outside : forall b k w x y z, inside b k w x y z -> outside w x y z.
Proof. intros b k w x y z (v & [(_ & H)|H]); [eapply first_outside|eapply later_outside]; exact H. Qed.

Notation region := (region h l a).

Lemma inside_at : forall w0 b bl k op regs c regs' c', walk f 0 w0 (preheader l) -> free l w0 -> region b k ->
  nth_error f b = Some bl -> nth_error (block_operations bl) k = Some op -> inside b k regs c regs' c' ->
  matches (inside b k) regs regs' (run_op op regs c) (run_op op regs' c').
Proof.
  intros w0 b bl k op regs c regs' c' W F Rg B N (v & H). destruct cop_operands as (g & CO).
  pose proof (region_quiet dominates will_return trivial f h l cop aop ins r a ty VF DR K w0 b bl k op W F Rg B N) as Q.
  destruct H as [(Fr & H)|H].
  - pose proof (fresh_blind dominates will_return trivial f h l cop aop ins r a ty VF K b bl k op Fr B N) as Bl.
    pose proof (first_op V E M will_return trivial f HM cop ins r moved cop_occurs g CO v op regs c regs' c' Q Bl H) as X.
    destruct (run_op op regs c) as [t1 r1 c1|t1 c1|]; cbn in *; [| |exact I].
    + destruct X as (r1' & c1' & -> & X). exists r1', c1'. split; [reflexivity|]. exists v. left. auto.
    + destruct X as (c1' & -> & X). exists c1'. split; [reflexivity|]. exists v. left. auto.
  - pose proof (later_op V E M will_return trivial f HM cop ins r moved cop_occurs g CO v op regs c regs' c' Q H) as X.
    destruct (run_op op regs c) as [t1 r1 c1|t1 c1|]; cbn in *; [| |exact I].
    + destruct X as (r1' & c1' & -> & X). exists r1', c1'. split; [reflexivity|]. exists v. right. auto.
    + destruct X as (c1' & -> & X). exists c1'. split; [reflexivity|]. exists v. right. auto.
Qed.

Lemma inside_next : forall b k w x y z, (b, k) <> a -> inside b k w x y z -> inside b (S k) w x y z.
Proof.
  intros b k w x y z N (v & [((wl & W & Nw & L) & H)|H]); exists v; [left|right; exact H]. split; [|exact H].
  exists wl. split; [exact W|]. split; [exact Nw|]. intros Q. specialize (L Q). destruct a as [ab ai]. cbn in *.
  assert (k <> ai) by congruence. lia.
Qed.

Lemma block_ops : forall bl k op, nth_error (ops bl) k = Some op -> nth_error (block_operations bl) k = Some op.
Proof. intros bl k op N. unfold block_operations. rewrite nth_error_app1; [exact N|]. apply nth_error_Some. congruence. Qed.

Lemma loop_block : forall w0 b bl regs c regs' c', walk f 0 w0 (preheader l) -> free l w0 -> In b (blocks l) ->
  nth_error f b = Some bl -> inside b 0 regs c regs' c' ->
  lmatches (inside b (length (ops bl))) (run_ops (ops bl) regs c)
    (run_ops (drop (leaves (call_site h) (alloca_site h) b) (ops bl)) regs' c').
Proof.
  intros w0 b bl regs c regs' c' W F J B H. apply (run_sim (ops bl) _ (inside b)); [|exact H]. clear H regs c regs' c'.
  intros k op regs c regs' c' N H. destruct cop_operands as (g & CO).
  destruct (leaves (call_site h) (alloca_site h) b k) eqn:Lv.
  - unfold leaves in Lv. apply orb_true_iff in Lv. destruct Lv as [Lv|Lv].
    + apply andb_true_iff in Lv. destruct Lv as [L1 L2]. apply Nat.eqb_eq in L1, L2. subst b k.
      pose proof (k_call _ _ _ _ _ _ _ _ _ _ _ _ K) as (bl' & B' & N'). rewrite B in B'. injection B' as <-. rewrite N in N'. injection N' as ->.
      destruct H as (v & [(Fr & _)|H]).
      * exfalso. eapply (fresh_not_used dominates will_return trivial f h l cop aop ins r a ty VF K _ _ r Fr); [eapply out_rooted; exact K|].
        eapply (uses_at f h); [exact B|apply block_ops; exact N|]. rewrite CO. right. apply in_app_iff. right. left. reflexivity.
      * destruct (dropped_call V E M will_return trivial f HM cop ins r moved cop_occurs
          (inputs_differ dominates will_return trivial f h l cop aop ins r a ty VF K) v regs c regs' c' cop_result H) as (c1 & X & Y).
        exists regs, c1. split; [exact X|]. exists v. right. exact Y.
    + destruct (alloca_site h) as [a'|] eqn:S; [|discriminate]. apply andb_true_iff in Lv. destruct Lv as [L1 L2]. apply Nat.eqb_eq in L1, L2.
      assert (Mv : moved). { unfold moved. destruct (k_moved _ _ _ _ _ _ _ _ _ _ _ _ K) as [[_ Q]|[_ Q]]; congruence. }
      assert (a' = a) by (unfold moved in Mv; congruence). subst a' b k.
      pose proof (k_alloca _ _ _ _ _ _ _ _ _ _ _ _ K) as (bl' & B' & N'). rewrite B in B'. injection B' as <-. rewrite N in N'. injection N' as ->.
      assert (X : exists v, (forall z, z <> r -> regs z = regs' z) /\ common V E M f cop ins r moved v c regs' c').
      { destruct H as (v & [(_ & _ & X & Y)|(X & _ & Y)]); exists v; (split; [|exact Y]); [exact X|intros z _; apply X]. }
      destruct X as (v & X & Y).
      destruct (dropped_alloca V E M will_return trivial f HM cop ins r moved v aop ty regs c regs' c' Mv aop_occurs
        (k_kind _ _ _ _ _ _ _ _ _ _ _ _ K) (k_static _ _ _ _ _ _ _ _ _ _ _ _ K) (k_result _ _ _ _ _ _ _ _ _ _ _ _ K) X Y) as (r1 & c1 & X1 & Y1).
      exists r1, c1. split; [exact X1|]. exists v. right. exact Y1.
  - unfold leaves in Lv. apply orb_false_iff in Lv. destruct Lv as [L1 L2].
    assert (Nc : (b, k) <> call_site h).
    { intros Q. rewrite <- Q in L1. cbn in L1. rewrite !Nat.eqb_refl in L1. discriminate. }
    assert (Na : (b, k) <> a).
    { intros Q. destruct moved_cases as [[Mv _]|(_ & _ & Nj)]; [|apply Nj; rewrite <- Q; exact J].
      unfold moved in Mv. rewrite Mv, <- Q in L2. cbn in L2. rewrite !Nat.eqb_refl in L2. discriminate. }
    eapply lm_of; [eapply (inside_at w0 b bl k op); try eassumption|apply inside_agree|].
    + left. auto.
    + apply block_ops. exact N.
    + intros w x y z. apply inside_next. exact Na.
Qed.

(** ** At the new place of the call *)

Lemma leave_edge : forall b bl regs c t b' regs' c', nth_error f b = Some bl -> leave V E M (term bl) regs c = To V E t b' regs' c' -> edge f b b'.
Proof.
  intros b bl regs c t b' regs' c' B L. exists bl. split; [exact B|]. destruct (term bl) as [x|o y n|op y n|o y| | |]; cbn in *; try discriminate.
  - injection L as _ <- _ _. auto.
  - destruct (value V E M regs o) as [v|]; [|discriminate]. destruct (truth V E M v) as [[|]|]; try discriminate; injection L as _ <- _ _; auto.
  - destruct (run_op op regs c); try discriminate; injection L as _ <- _ _; auto.
  - destruct (run_op (yielding o) regs c); try discriminate. injection L as _ <- _ _; auto.
Qed.

Definition has (regs : registers) (z : reg) : Prop := regs z <> None.
Lemma set_has : forall regs y v z, has regs z -> has (set V regs y v) z.
Proof. intros regs y v z H. unfold has, set. destruct (z =? y); [discriminate|exact H]. Qed.
Lemma run_op_has : forall op regs c t r1 c1, run_op op regs c = Next V E t r1 c1 ->
  (forall z, has regs z -> has r1 z) /\ (forall z, result op = Some z -> has r1 z).
Proof.
  intros op regs c t r1 c1 H. unfold LicmSpec.run_op in H. destruct (exec V E M op regs c) as [t' c' v| |]; try discriminate.
  injection H as _ <- _. destruct (result op) as [y|]; split; try (intros z X; discriminate); try (intros z X; exact X).
  - intros z X. apply set_has, X.
  - intros z X. injection X as <-. unfold has, set. rewrite Nat.eqb_refl. discriminate.
Qed.
Lemma run_ops_has : forall ops regs c t r1 c1, run_ops ops regs c = Next V E t r1 c1 ->
  (forall z, has regs z -> has r1 z) /\ (forall op z, In op ops -> result op = Some z -> has r1 z).
Proof.
  induction ops as [|op ops IH]; intros regs c t r1 c1 H; cbn [LicmSpec.run_ops] in H.
  - injection H as _ <- _. split; [auto|intros op z []].
  - destruct (run_op op regs c) as [t2 r2 c2| |] eqn:X; try discriminate.
    destruct (run_ops ops r2 c2) as [t3 r3 c3| |] eqn:Y; try discriminate. injection H as _ <- _.
    destruct (run_op_has _ _ _ _ _ _ X) as [X1 X2]. destruct (IH _ _ _ _ _ Y) as [Y1 Y2]. split; [auto|].
    intros op' z [<-|J] R; [apply Y1, X2, R|eapply Y2; eauto].
Qed.
Lemma leave_has : forall t regs c e b r1 c1, leave V E M t regs c = To V E e b r1 c1 -> forall z, has regs z -> has r1 z.
Proof.
  intros t regs c e b r1 c1 L z H. destruct t as [x|o y n|op y n|o y| | |]; cbn in L; try discriminate.
  - injection L as _ _ <- _. exact H.
  - destruct (value V E M regs o) as [v|]; [|discriminate]. destruct (truth V E M v) as [[|]|]; try discriminate; injection L as _ _ <- _; exact H.
  - destruct (run_op op regs c) as [t2 r2 c2|t2 c2|] eqn:X; try discriminate; injection L as _ _ <- _; [|exact H].
    exact (proj1 (run_op_has _ _ _ _ _ _ X) z H).
  - destruct (run_op (yielding o) regs c) as [t2 r2 c2|t2 c2|] eqn:X; try discriminate; injection L as _ _ <- _.
    exact (proj1 (run_op_has _ _ _ _ _ _ X) z H).
Qed.

Lemma arrives_walk : forall b regs c, arrives b regs c -> exists w, walk f 0 w b /\
  forall s op z, operation_at f s op -> result op = Some z -> In (fst s) w -> has regs z.
Proof.
  intros b regs c H. induction H as [|b regs c bl t r1 c1 t' b' regs' c' H IH B X L].
  - exists []. split; [constructor|intros s op z _ _ []].
  - destruct IH as (w & W & D). exists (w ++ [b]). split; [econstructor; [exact W|eapply leave_edge; eauto]|].
    intros s op z A R J. apply (leave_has _ _ _ _ _ _ _ L). destruct (run_ops_has _ _ _ _ _ _ X) as [X1 X2].
    apply in_app_iff in J. destruct J as [J|[Q|[]]]; [apply X1; eapply D; eauto|].
    destruct A as (bl' & B' & N). rewrite <- Q, B in B'. injection B' as <-. apply nth_error_In in N. eapply X2; eauto.
Qed.

Lemma placed_has : forall regs c bl t r1 c1 o z, arrives (target h) regs c -> nth_error f (target h) = Some bl ->
  run_ops (firstn (insertion h) (ops bl)) regs c = Next V E t r1 c1 -> placed dominates f (target h) (insertion h) o -> o = Reg z -> has r1 z.
Proof.
  intros regs c bl t r1 c1 o z Ar B X P Eo. destruct (arrives_walk _ _ _ Ar) as (w & W & D).
  destruct (run_ops_has _ _ _ _ _ _ X) as [X1 X2]. destruct P as [P _]. destruct (P z Eo) as (d & op & A & R & [[E1 E2]|[E1 E2]]).
  - destruct A as (bl' & B' & N). rewrite E1, B in B'. injection B' as <-. apply (X2 op z); [|exact R].
    rewrite <- (firstn_skipn (insertion h) (ops bl)) in N. rewrite nth_error_app1 in N; [eapply nth_error_In; exact N|].
    rewrite firstn_length. apply Nat.min_glb_lt; [exact E2|]. rewrite firstn_skipn in N. apply nth_error_Some. congruence.
  - apply X1. eapply D; eauto.
Qed.

Definition extra : list operation := match alloca_site h with Some _ => [aop] | None => [] end.

Lemma inserted : forall w0 regs c bl t r1 c1 r1' c1', walk f 0 w0 (preheader l) -> free l w0 ->
  arrives (target h) regs c -> nth_error f (target h) = Some bl ->
  run_ops (firstn (insertion h) (ops bl)) regs c = Next V E t r1 c1 -> outside r1 c1 r1' c1' ->
  exists r2' c2', run_ops (extra ++ [cop]) r1' c1' = Next V E [] r2' c2' /\ inside (target h) (insertion h) r1 c1 r2' c2'.
Proof.
  intros w0 regs c bl t r1 c1 r1' c1' W F Ar B X [Er A]. destruct cop_operands as (g & CO).
  pose proof (k_call _ _ _ _ _ _ _ _ _ _ _ _ K) as Kc. pose proof (k_pure _ _ _ _ _ _ _ _ _ _ _ _ K) as Kp.
  destruct (PR cop ins r bl regs c t r1 c1 Kc Kp Ar B X) as [P1 P2].
  pose proof (inputs_differ dominates will_return trivial f h l cop aop ins r a ty VF K) as Id.
  assert (Hz : forall z, In (Reg z) ins -> has r1 z).
  { intros z J. eapply placed_has; eauto. apply (k_placed _ _ _ _ _ _ _ _ _ _ _ _ K _ J). }
  assert (CALL : forall r2' c2', (forall z, z <> r -> r1 z = r2' z) -> has r2' r -> agree V (eq out) c1 c2' ->
    exists v c3', run_op cop r2' c2' = Next V E [] r2' c3' /\ c3' out = v /\ promise V E M f cop ins r r2' c3' v /\ agree V (eq out) c1 c3').
  { intros r2' c2' E2 H2 A2.
    destruct (h_call V E M will_return trivial f HM cop ins r r2' c2' cop_occurs Kp) as (v & H).
    - eapply out_rooted; exact K.
    - intros z J. rewrite CO in J. destruct J as [J|J]; [discriminate|]. apply in_app_iff in J. destruct J as [J|[J|[]]].
      + destruct (Nat.eq_dec z r) as [->|N]; [exact H2|]. rewrite <- (E2 z N). apply Hz, J.
      + injection J as <-. exact H2.
    - intros o x J R. rewrite <- (A2 x); [eapply P1; eauto|]. intros Q. exact (Id o x J R (eq_sym Q)).
    - destruct (H c2' (fun o x _ _ => eq_refl)) as (c3' & w & H1 & H3 & H4). exists v, c3'.
      unfold LicmSpec.run_op. rewrite H1, cop_result. split; [reflexivity|]. split; [exact H3|]. split.
      + intros c4 H5. apply H. intros o x J R. rewrite (H5 o x J R). symmetry. apply H4. intros Q. exact (Id o x J R (eq_sym Q)).
      + intros x Nx. rewrite (A2 x Nx). apply H4, Nx. }
  unfold extra. destruct moved_cases as [[Mv Ja]|(Nm & S & Ja)].
  - rewrite Mv. cbn [app LicmSpec.run_ops].
    destruct (h_alloca V E M will_return trivial f HM aop ty r r1' c1' aop_occurs (k_kind _ _ _ _ _ _ _ _ _ _ _ _ K)
      (k_static _ _ _ _ _ _ _ _ _ _ _ _ K) (k_result _ _ _ _ _ _ _ _ _ _ _ _ K)) as (c2' & X1 & _ & Z).
    set (r2' := set V r1' r (addr V E M r)).
    assert (RA : run_op aop r1' c1' = Next V E [] r2' c2').
    { unfold LicmSpec.run_op. rewrite X1, (k_result _ _ _ _ _ _ _ _ _ _ _ _ K). reflexivity. }
    rewrite RA. assert (E2 : forall z, z <> r -> r1 z = r2' z).
    { intros z N. unfold r2'. rewrite set_other by exact N. apply Er. left. exact N. }
    assert (R2 : r2' r = Some (addr V E M r)) by (unfold r2', set; rewrite Nat.eqb_refl; reflexivity).
    destruct (CALL r2' c2' E2) as (v & c3' & C1 & C2 & C3 & C4).
    + unfold has. rewrite R2. discriminate.
    + intros x Nx. rewrite <- (Z x Nx). apply A, Nx.
    + rewrite C1. cbn. exists r2', c3'. split; [reflexivity|]. exists v. left. split.
      * exists w0. rewrite (p_is dominates will_return trivial f h l cop aop ins r a ty K). split; [exact W|]. split.
        -- intros J. apply F in J. destruct J as [_ J]. contradiction.
        -- intros Q. exfalso. apply (g_outside _ _ (k_loop _ _ _ _ _ _ _ _ _ _ _ _ K)). rewrite Q. exact Ja.
      * split; [exact Mv|]. split; [exact E2|]. split; [exact C4|]. split; [exact C2|]. split; [exact C3|]. intros _. exact R2.
  - rewrite S. cbn [app LicmSpec.run_ops].
    assert (E2 : forall z, r1 z = r1' z) by (intros z; apply Er; right; exact Nm).
    destruct (CALL r1' c1' (fun z _ => E2 z)) as (v & c3' & C1 & C2 & C3 & C4).
    + unfold has. rewrite <- E2. eapply placed_has; eauto. apply (k_output _ _ _ _ _ _ _ _ _ _ _ _ K S).
    + exact A.
    + rewrite C1. cbn. exists r1', c3'. split; [reflexivity|]. exists v. right. split; [exact E2|]. split; [left; apply P2, S|].
      split; [exact C4|]. split; [exact C2|]. split; [exact C3|]. intros Q. contradiction.
Qed.

Lemma nth_skipn : forall (A : Type) n (u : list A) k, nth_error (skipn n u) k = nth_error u (n + k).
Proof. intros A n. induction n as [|n IH]; intros [|x u] k; cbn; try reflexivity; [destruct k; reflexivity|apply IH]. Qed.

Lemma head_block : forall w0 bl regs c regs' c', walk f 0 w0 (preheader l) -> free l w0 ->
  arrives (target h) regs c -> nth_error f (target h) = Some bl -> outside regs c regs' c' ->
  lmatches (inside (target h) (length (ops bl))) (run_ops (ops bl) regs c)
    (run_ops (firstn (insertion h) (ops bl) ++ extra ++ [cop] ++ skipn (insertion h) (ops bl)) regs' c').
Proof.
  intros w0 bl regs c regs' c' W F Ar B O. pose proof (p_out dominates will_return trivial f h l cop aop ins r a ty K) as Np.
  set (u := firstn (insertion h) (ops bl)). set (w := skipn (insertion h) (ops bl)).
  assert (Eu : u ++ w = ops bl) by apply firstn_skipn.
  pose proof (k_bound _ _ _ _ _ _ _ _ _ _ _ _ K) as Bd. unfold ops_of in Bd. rewrite B in Bd.
  assert (Lu : length u = insertion h) by (apply firstn_length_le; exact Bd).
  assert (X : lmatches outside (run_ops u regs c) (run_ops u regs' c')).
  { rewrite <- (drop_none _ u (fun _ => false)) at 2 by reflexivity. apply (run_sim u (fun _ => false) (fun _ => outside)); [|exact O].
    intros k op r1 c1 r1' c1' N H. eapply lm_of; [eapply (outside_at (target h) bl k op); try eassumption|apply outside_agree|auto].
    apply block_ops. rewrite <- Eu, nth_error_app1; [exact N|apply nth_error_Some; congruence]. }
  rewrite <- Eu at 2. rewrite run_app. rewrite (run_app u). rewrite app_assoc.
  destruct (run_ops u regs c) as [t1 r1 c1|t1 c1|] eqn:Ru; cbn [lmatches] in X; [| |exact I].
  - destruct X as (r1' & c1' & -> & X). cbn [andthen]. rewrite run_app.
    destruct (inserted w0 regs c bl t1 r1 c1 r1' c1' W F Ar B Ru X) as (r2' & c2' & -> & In2). cbn [andthen].
    assert (Y : lmatches (inside (target h) (length (ops bl))) (run_ops w r1 c1) (run_ops w r2' c2')).
    { rewrite <- (drop_none _ w (fun _ => false)) at 2 by reflexivity.
      replace (length (ops bl)) with (insertion h + length w) by (rewrite <- Eu, app_length; lia).
      apply (run_sim w (fun _ => false) (fun k => inside (target h) (insertion h + k))); [|rewrite Nat.add_0_r; exact In2].
      intros k op r3 c3 r3' c3' N H. unfold w in N. rewrite nth_skipn in N.
      assert (Na : (target h, insertion h + k) <> a).
      { intros Q. destruct moved_cases as [[_ Ja]|(_ & S & _)]; [apply Np; rewrite <- Q in Ja; exact Ja|].
        destruct (placed_early dominates will_return trivial f h l cop aop ins r a ty DR K w0 (Reg r) r W (k_output _ _ _ _ _ _ _ _ _ _ _ _ K S) eq_refl) as (d & opd & A & Rd & Ed).
        destruct (one_site _ _ _ _ _ _ (proj1 VF) A Rd (k_alloca _ _ _ _ _ _ _ _ _ _ _ _ K) (k_result _ _ _ _ _ _ _ _ _ _ _ _ K)) as [-> _].
        rewrite <- Q in Ed. eapply (region_late dominates will_return trivial f h l cop aop ins r a ty K w0); [exact F| |exact Ed]. right. split; [reflexivity|lia]. }
      replace (insertion h + S k) with (S (insertion h + k)) by lia.
      eapply lm_of; [eapply (inside_at w0 (target h) bl (insertion h + k) op); try eassumption|apply inside_agree|intros ? ? ? ?; apply inside_next; exact Na].
      + right. split; [reflexivity|lia].
      + apply block_ops. exact N. }
    destruct (run_ops w r1 c1) as [t3 r3 c3|t3 c3|]; cbn in Y; [| |exact I].
    + destruct Y as (r3' & c3' & -> & Y). cbn. exists r3', c3'. auto.
    + destruct Y as (c3' & -> & Y). cbn. exists c3'. auto.
  - destruct X as (c1' & -> & X). cbn. exists c1'. auto.
Qed.

(** ** Blocks *)

Definition related (b : nat) : rel := fun regs c regs' c' =>
  (~ In b (blocks l) /\ outside regs c regs' c') \/ (In b (blocks l) /\ inside b 0 regs c regs' c').

Definition exits (Q : nat -> rel) (s s' : exit V E) : Prop :=
  match s with
  | To _ _ t b r1 c1 => exists r1' c1', s' = To V E t b r1' c1' /\ Q b r1 c1 r1' c1'
  | Stop _ _ t o => o = Stuck V \/ exists o', s' = Stop V E t o' /\ same_outcome V o o'
  end.
Lemma agree_params : forall c c', agree V (eq out) c c' -> forall q, c (RParam q) = c' (RParam q).
Proof. intros c c' H q. apply H. discriminate. Qed.

Lemma leave_sim : forall (Q : rel) t regs c regs' c', Q regs c regs' c' -> (forall w x y z, Q w x y z -> agree V (eq out) x z) ->
  (forall o y n, t = CondBr o y n -> value V E M regs o = value V E M regs' o) ->
  (forall op, (exists y n, t = Invoke op y n) \/ (exists o y, t = Yield o y /\ op = yielding o) ->
    matches Q regs regs' (run_op op regs c) (run_op op regs' c')) ->
  exits (fun _ => Q) (leave V E M t regs c) (leave V E M t regs' c').
Proof.
  intros Q t regs c regs' c' H A Hv Ho. destruct t as [x|o y n|op y n|o y| | |]; cbn.
  - exists regs', c'. auto.
  - rewrite <- (Hv o y n eq_refl). destruct (value V E M regs o) as [v|]; [|left; reflexivity].
    destruct (truth V E M v) as [[|]|]; [exists regs', c'; auto|exists regs', c'; auto|left; reflexivity].
  - assert (X : matches Q regs regs' (run_op op regs c) (run_op op regs' c')) by (apply Ho; left; eauto).
    destruct (run_op op regs c) as [t1 r1 c1|t1 c1|]; cbn in *; [| |left; reflexivity].
    + destruct X as (r1' & c1' & -> & X). exists r1', c1'. auto.
    + destruct X as (c1' & -> & X). exists regs', c1'. auto.
  - assert (X : matches Q regs regs' (run_op (yielding o) regs c) (run_op (yielding o) regs' c')) by (apply Ho; right; eauto).
    destruct (run_op (yielding o) regs c) as [t1 r1 c1|t1 c1|]; cbn in *; [| |left; reflexivity].
    + destruct X as (r1' & c1' & -> & X). exists r1', c1'. auto.
    + destruct X as (c1' & -> & X). right. eexists. split; [reflexivity|]. cbn. apply agree_params. eapply A, X.
  - right. eexists. split; [reflexivity|]. cbn. apply agree_params. eapply A, H.
  - right. eexists. split; [reflexivity|]. cbn. apply agree_params. eapply A, H.
  - right. eexists. split; [reflexivity|]. exact I.
Qed.

Lemma term_op : forall bl op, (exists y n, term bl = Invoke op y n) \/ (exists o y, term bl = Yield o y /\ op = yielding o) ->
  nth_error (block_operations bl) (length (ops bl)) = Some op.
Proof.
  intros bl op H. unfold block_operations. rewrite nth_error_app2, Nat.sub_diag by lia.
  destruct H as [(y & n & ->)|(o & y & -> & ->)]; reflexivity.
Qed.

Lemma inside_leave : forall w0 b bl regs c regs' c', walk f 0 w0 (preheader l) -> free l w0 -> region b (length (ops bl)) ->
  nth_error f b = Some bl -> inside b (length (ops bl)) regs c regs' c' ->
  exits related (leave V E M (term bl) regs c) (leave V E M (term bl) regs' c').
Proof.
  intros w0 b bl regs c regs' c' W F Rg B H.
  assert (X : exits (fun _ => inside b (length (ops bl))) (leave V E M (term bl) regs c) (leave V E M (term bl) regs' c')).
  { apply leave_sim; [exact H|apply inside_agree| |].
    - intros o y n T. destruct o as [z|q|q|q]; try reflexivity. cbn. destruct H as (v & [(Fr & _ & Er & _)|(Er & _)]); [|apply Er].
      apply Er. intros ->. eapply (fresh_not_used dominates will_return trivial f h l cop aop ins r a ty VF K _ _ r Fr); [eapply out_rooted; exact K|].
      apply uses_term; [exact B|]. rewrite T. left. reflexivity.
    - intros op T. eapply (inside_at w0 b bl (length (ops bl)) op); try eassumption. apply term_op. exact T. }
  destruct (leave V E M (term bl) regs c) as [t b' r1 c1|t o] eqn:L; [|exact X].
  pose proof (leave_edge b bl _ _ _ _ _ _ B L) as Ed. cbn in *. destruct X as (r1' & c1' & -> & X). exists r1', c1'. split; [reflexivity|].
  destruct (in_dec Nat.eq_dec b' (blocks l)) as [J|J]; [right|left]; (split; [exact J|]); [|eapply inside_outside; exact X].
  destruct X as (v & [((wl & Wl & Nw & Lw) & X)|X]); exists v; [left|right; exact X]. split; [|exact X].
  assert (Nb : b <> fst a).
  { intros Q. specialize (Lw Q). pose proof (k_alloca _ _ _ _ _ _ _ _ _ _ _ _ K) as (bl' & B' & N'). rewrite <- Q, B in B'. injection B' as <-.
    assert (snd a < length (ops bl)) by (apply nth_error_Some; congruence). lia. }
  exists (wl ++ [b]). split; [econstructor; eauto|]. split; [|lia]. rewrite in_app_iff. intros [Y|[Y|[]]]; [contradiction|congruence].
Qed.

Lemma outside_leave : forall b bl regs c regs' c', ~ In b (blocks l) -> b <> target h -> nth_error f b = Some bl -> outside regs c regs' c' ->
  exits related (leave V E M (term bl) regs c) (leave V E M (term bl) regs' c').
Proof.
  intros b bl regs c regs' c' Nb Np B H.
  assert (X : exits (fun _ => outside) (leave V E M (term bl) regs c) (leave V E M (term bl) regs' c')).
  { apply leave_sim; [exact H|apply outside_agree| |].
    - intros o y n T. destruct o as [z|q|q|q]; try reflexivity. cbn. destruct H as [Er _]. apply Er. left. intros ->.
      eapply (k_private _ _ _ _ _ _ _ _ _ _ _ _ K b bl (Reg r) B Nb); [|eapply out_rooted; exact K].
      apply in_app_iff. right. rewrite T. left. reflexivity.
    - intros op T. eapply (outside_at b bl (length (ops bl)) op); try eassumption. apply term_op. exact T. }
  destruct (leave V E M (term bl) regs c) as [t b' r1 c1|t o] eqn:L; [|exact X].
  pose proof (leave_edge b bl _ _ _ _ _ _ B L) as Ed. cbn in *. destruct X as (r1' & c1' & -> & X). exists r1', c1'. split; [reflexivity|].
  left. split; [|exact X]. intros J. pose proof (k_loop _ _ _ _ _ _ _ _ _ _ _ _ K) as G.
  destruct (Nat.eq_dec b' (header l)) as [->|Q].
  - apply Np. rewrite (k_target _ _ _ _ _ _ _ _ _ _ _ _ K). eapply g_entry; eauto.
  - apply Nb. eapply g_closed; eauto.
Qed.

Lemma loop_region : forall b bl, In b (blocks l) -> nth_error f b = Some bl -> region b (length (ops bl)).
Proof.
  intros b bl J B. left. split; [exact J|].
  assert (X : forall s op, operation_at f s op -> (b, length (ops bl)) <> s).
  { intros s op (bl' & B' & N) <-. cbn in *. rewrite B in B'. injection B' as <-.
    assert (length (ops bl) < length (ops bl)) by (apply nth_error_Some; congruence). lia. }
  split; eapply X; [exact (k_call _ _ _ _ _ _ _ _ _ _ _ _ K)|exact (k_alloca _ _ _ _ _ _ _ _ _ _ _ _ K)].
Qed.

(** A way to the loop, when the run is in it or before it. *)
Lemma way : forall b regs c, arrives b regs c -> b = target h \/ In b (blocks l) -> exists w0, walk f 0 w0 (preheader l) /\ free l w0.
Proof.
  intros b regs c Ar D. destruct (arrives_walk _ _ _ Ar) as (w & W & _). pose proof (k_loop _ _ _ _ _ _ _ _ _ _ _ _ K) as G.
  destruct (way_in f l G (later_p dominates will_return trivial f h l cop aop ins r a ty K) w b W) as [X|(_ & N1 & N2)]; [exact X|].
  destruct D as [->|D]; [|contradiction]. exfalso. apply N1. apply (k_target _ _ _ _ _ _ _ _ _ _ _ _ K).
Qed.

Lemma shape : forall b bl, nth_error f b = Some bl ->
  nth_error (apply_hoist f h) b = Some (mkBlock (if b =? target h
    then firstn (insertion h) (ops bl) ++ extra ++ [cop] ++ skipn (insertion h) (ops bl)
    else drop (leaves (call_site h) (alloca_site h) b) (ops bl)) (term bl)).
Proof.
  pose proof (p_out dominates will_return trivial f h l cop aop ins r a ty K) as Np.
  pose proof (k_call _ _ _ _ _ _ _ _ _ _ _ _ K) as Kc. pose proof (k_in _ _ _ _ _ _ _ _ _ _ _ _ K) as Ki.
  intros b bl B. apply moved_shape; [exact Kc| | |exact B].
  - unfold extra. destruct moved_cases as [[Mv Ja]|(_ & S & _)].
    + rewrite Mv. split; [|split; [intros Q; apply Np; rewrite Q; exact Ja|]].
      * intros Q. pose proof (k_alloca _ _ _ _ _ _ _ _ _ _ _ _ K) as Ka. rewrite Q in Ka.
        destruct Kc as (b1 & B1 & N1), Ka as (b2 & B2 & N2). rewrite B1 in B2. injection B2 as <-. rewrite N1 in N2. injection N2 as E2.
        pose proof cop_result as R1. rewrite E2, (k_result _ _ _ _ _ _ _ _ _ _ _ _ K) in R1. discriminate.
      * exists aop. split; [exact (k_alloca _ _ _ _ _ _ _ _ _ _ _ _ K)|reflexivity].
    + rewrite S. reflexivity.
  - intros Q. apply Np. rewrite Q. exact Ki.
Qed.

Lemma block_step : forall b bl regs c regs' c', arrives b regs c -> related b regs c regs' c' -> nth_error f b = Some bl ->
  exists bl', nth_error (apply_hoist f h) b = Some bl' /\ term bl' = term bl /\ exists Q : rel,
    lmatches Q (run_ops (ops bl) regs c) (run_ops (ops bl') regs' c') /\
    forall r1 c1 r1' c1', Q r1 c1 r1' c1' -> exits related (leave V E M (term bl) r1 c1) (leave V E M (term bl) r1' c1').
Proof.
  intros b bl regs c regs' c' Ar R B. eexists. split; [apply shape; exact B|]. cbn [ops term]. split; [reflexivity|].
  pose proof (p_out dominates will_return trivial f h l cop aop ins r a ty K) as Np.
  destruct (Nat.eqb_spec b (target h)) as [->|T].
  - destruct R as [[_ O]|[J _]]; [|contradiction]. destruct (way _ _ _ Ar (or_introl eq_refl)) as (w0 & W & F).
    exists (inside (target h) (length (ops bl))). split; [eapply head_block; eauto|].
    intros r1 c1 r1' c1' H. eapply (inside_leave w0); eauto. right. split; [reflexivity|].
    pose proof (k_bound _ _ _ _ _ _ _ _ _ _ _ _ K) as Bd. unfold ops_of in Bd. rewrite B in Bd. exact Bd.
  - destruct R as [[N O]|[J H]].
    + exists outside. split.
      * rewrite (drop_none _ (ops bl)).
        -- rewrite <- (drop_none _ (ops bl) (fun _ => false)) at 2 by reflexivity. apply (run_sim (ops bl) (fun _ => false) (fun _ => outside)); [|exact O].
           intros k op r1 c1 r1' c1' Nk H. eapply lm_of; [eapply (outside_at b bl k op); try eassumption|apply outside_agree|auto].
           apply block_ops. exact Nk.
        -- intros k _. unfold leaves. destruct (Nat.eqb_spec b (fst (call_site h))) as [Q|_].
           ++ exfalso. apply N. rewrite Q. exact (k_in _ _ _ _ _ _ _ _ _ _ _ _ K).
           ++ cbn. destruct moved_cases as [[Mv Ja]|(_ & S & _)]; [|rewrite S; reflexivity]. rewrite Mv.
              destruct (Nat.eqb_spec b (fst a)) as [Q|_]; [|reflexivity]. exfalso. apply N. rewrite Q. exact Ja.
      * intros r1 c1 r1' c1' H. exact (outside_leave b bl r1 c1 r1' c1' N T B H).
    + destruct (way _ _ _ Ar (or_intror J)) as (w0 & W & F). exists (inside b (length (ops bl))). split; [eapply loop_block; eauto|].
      intros r1 c1 r1' c1' H'. eapply (inside_leave w0); eauto. apply loop_region; assumption.
Qed.

Lemma run_related : forall n b regs c regs' c', arrives b regs c -> related b regs c regs' c' ->
  snd (run V E M n f b regs c) <> Stuck V ->
  fst (run V E M n (apply_hoist f h) b regs' c') = fst (run V E M n f b regs c) /\
  same_outcome V (snd (run V E M n f b regs c)) (snd (run V E M n (apply_hoist f h) b regs' c')).
Proof.
  induction n as [|n IH]; intros b regs c regs' c' Ar R Ns; [cbn; auto|]. cbn [run] in *.
  destruct (nth_error f b) as [bl|] eqn:B; [|contradiction Ns; reflexivity].
  destruct (block_step b bl regs c regs' c' Ar R B) as (bl' & -> & T & Q & S & X). rewrite T.
  destruct (run_ops (ops bl) regs c) as [t r1 c1|t c1|] eqn:Ro; cbn [lmatches] in S; [| |contradiction Ns; reflexivity].
  - destruct S as (r1' & c1' & -> & S). specialize (X r1 c1 r1' c1' S).
    destruct (leave V E M (term bl) r1 c1) as [t2 b2 r2 c2|t2 o] eqn:L; cbn [exits] in X.
    + destruct X as (r2' & c2' & -> & X). cbn [also fst snd] in *.
      destruct (IH b2 r2 c2 r2' c2') as [I1 I2]; [econstructor; eauto|exact X|exact Ns|]. rewrite I1. auto.
    + cbn [also fst snd] in *. destruct X as [->|(o' & -> & X)]; [contradiction Ns; reflexivity|]. cbn. auto.
  - destruct S as (c1' & -> & S). cbn. split; [reflexivity|]. apply agree_params. exact S.
Qed.

Lemma same_behaviour : forall n, snd (run V E M n f 0 regs0 c0) <> Stuck V -> same_run V E M n f (apply_hoist f h) regs0 c0.
Proof.
  intros n Ns. apply run_related; [constructor| |exact Ns]. left. split.
  - intros J. apply (later_p dominates will_return trivial f h l cop aop ins r a ty K) in J. lia.
  - split; [reflexivity|]. intros x _. reflexivity.
Qed.
End Run.
