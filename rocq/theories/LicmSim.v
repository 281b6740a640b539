(** One operation, with the call moved and not. *)
From Coq Require Import List Bool Arith Lia.
From Verif Require Import LicmModel LicmSpec LicmStatic LicmRoots LicmLoops LicmFind LicmWays.
Import ListNotations.

Section Sim.
Variables V E : Type.
Variable M : machine V E.
Variables (will_return trivial : nat -> bool) (f : func).
Hypothesis HM : honest V E M will_return trivial f.
Variables (cop : operation) (ins : list operand) (r : reg).
Variable moved : Prop.
Let out := RAlloca r.
Notation cells := (cells V).
Notation registers := (registers V).
Notation run_op := (run_op V E M).

Definition quiet (op : operation) : Prop :=
  occurs f op /\ ~ touches f op out /\ result op <> Some r /\
  (forall o x, In o ins -> rooted f o x -> ~ touches f op x) /\ (forall z, In (Reg z) ins -> result op <> Some z).
Definition blind (op : operation) : Prop := forall o, In o (operands op) -> ~ rooted f o out /\ o <> Reg r.

(** What the call gives whenever it is done. *)
Definition promise (regs : registers) (c : cells) (v : V) : Prop :=
  forall c1, (forall o x, In o ins -> rooted f o x -> c1 x = c x) ->
    exists c2 w, exec V E M cop regs c1 = Ok V E [] c2 w /\ c2 out = v /\ agree V (eq out) c1 c2.
Hypothesis COP : occurs f cop.
Variable g : nat.
Hypothesis CO : operands cop = Function g :: ins ++ [Reg r].
Hypothesis inputs_other : forall o x, In o ins -> rooted f o x -> x <> out.

Definition outside (regs : registers) (c : cells) (regs' : registers) (c' : cells) : Prop :=
  (forall z, z <> r \/ ~ moved -> regs z = regs' z) /\ agree V (eq out) c c'.
Definition common (v : V) (c : cells) (regs' : registers) (c' : cells) : Prop :=
  agree V (eq out) c c' /\ c' out = v /\ promise regs' c' v /\ (moved -> regs' r = Some (addr V E M r)).
Definition first (v : V) (regs : registers) (c : cells) (regs' : registers) (c' : cells) : Prop :=
  moved /\ (forall z, z <> r -> regs z = regs' z) /\ common v c regs' c'.
Definition later (v : V) (regs : registers) (c : cells) (regs' : registers) (c' : cells) : Prop :=
  (forall z, regs z = regs' z) /\ (c out = unset V E M \/ c out = v) /\ common v c regs' c'.

Definition matches (Q : registers -> cells -> registers -> cells -> Prop) (regs regs' : registers) (s s' : step V E) : Prop :=
  match s with
  | Bad _ _ => True
  | Next _ _ t r1 c1 => exists r1' c1', s' = Next V E t r1' c1' /\ Q r1 c1 r1' c1'
  | Failure _ _ t c1 => exists c1', s' = Failure V E t c1' /\ Q regs c1 regs' c1'
  end.

Lemma agree_sym : forall X c c', agree V X c c' -> agree V X c' c.
Proof. intros X c c' H x N. symmetry. apply H, N. Qed.

(** From answers that are alike. *)
Lemma answers : forall (Q : registers -> cells -> registers -> cells -> Prop) op regs c regs' c',
  (exec V E M op regs c = Wrong V E \/ alike V E (eq out) (exec V E M op regs c) (exec V E M op regs' c')) ->
  (forall t1 c1 c1' v1, (exec V E M op regs c = Ok V E t1 c1 v1 /\ exec V E M op regs' c' = Ok V E t1 c1' v1) \/
      (exec V E M op regs c = Fail V E t1 c1 /\ exec V E M op regs' c' = Fail V E t1 c1') -> agree V (eq out) c1 c1' ->
      Q regs c1 regs' c1' /\ forall z, result op = Some z -> Q (set V regs z v1) c1 (set V regs' z v1) c1') ->
  matches Q regs regs' (run_op op regs c) (run_op op regs' c').
Proof.
  intros Q op regs c regs' c' A H. unfold LicmSpec.run_op.
  destruct (exec V E M op regs c) as [t1 c1 v1|t1 c1|] eqn:X; [| |exact I].
  - destruct A as [A|A]; [discriminate|]. destruct (exec V E M op regs' c') as [t1' c1' v1'|t1' c1'|] eqn:X'; cbn in A; try contradiction.
    destruct A as (<- & <- & A). destruct (H t1 c1 c1' v1 (or_introl (conj eq_refl eq_refl)) A) as [H1 H2]. cbn [matches].
    eexists _, _. split; [reflexivity|]. destruct (result op) as [z|]; [apply H2; reflexivity|exact H1].
  - destruct A as [A|A]; [discriminate|]. destruct (exec V E M op regs' c') as [t1' c1' v1'|t1' c1'|] eqn:X'; cbn in A; try contradiction.
    destruct A as (<- & A). assert (exists v1 : V, True) as (v1 & _) by (exists (unset V E M); exact I).
    destruct (H t1 c1 c1' v1 (or_intror (conj eq_refl eq_refl)) A) as [H1 _]. cbn [matches]. eexists. split; [reflexivity|exact H1].
Qed.

Lemma writes_kept : forall op regs c t c1 v x, occurs f op -> ~ touches f op x ->
  exec V E M op regs c = Ok V E t c1 v \/ exec V E M op regs c = Fail V E t c1 -> c1 x = c x.
Proof.
  intros op regs c t c1 v x O T A. pose proof (h_writes V E M will_return trivial f HM op regs c x O T) as H.
  destruct A as [A|A]; rewrite A in H; exact H.
Qed.

Lemma promise_kept : forall regs c regs1 c1 v, promise regs c v -> (forall z, In (Reg z) (operands cop) -> regs1 z = regs z) ->
  (forall o x, In o ins -> rooted f o x -> c1 x = c x) -> promise regs1 c1 v.
Proof.
  intros regs c regs1 c1 v P Er Ec c2 H. rewrite (h_operands V E M will_return trivial f HM cop regs1 regs c2 COP Er).
  apply P. intros o x J R. rewrite (H o x J R). exact (Ec o x J R).
Qed.

Lemma set_other : forall (regs : registers) z v x, x <> z -> set V regs z v x = regs x.
Proof. intros regs z v x N. unfold set. destruct (Nat.eqb_spec x z); [contradiction|reflexivity]. Qed.
Lemma set_both : forall (regs regs' : registers) z v x, regs x = regs' x -> set V regs z v x = set V regs' z v x.
Proof. intros regs regs' z v x H. unfold set. destruct (x =? z); [reflexivity|exact H]. Qed.

Lemma quiet_common : forall op v regs' c c' t c1 c1' v1, quiet op -> common v c regs' c' ->
  exec V E M op regs' c' = Ok V E t c1' v1 \/ exec V E M op regs' c' = Fail V E t c1' -> agree V (eq out) c1 c1' ->
  common v c1 regs' c1' /\ forall z, result op = Some z -> common v c1 (set V regs' z v1) c1'.
Proof.
  intros op v regs' c c' t c1 c1' v1 (O & T & N & I & D) (A & Co & P & Ra) X A1.
  assert (Ko : c1' out = v) by (rewrite <- Co; eapply writes_kept; eauto).
  assert (Ki : forall o x, In o ins -> rooted f o x -> c1' x = c' x).
  { intros o x J R. eapply (writes_kept op); eauto. }
  split.
  - split; [exact A1|]. split; [exact Ko|]. split; [|exact Ra]. eapply promise_kept; eauto.
  - intros z Rz. split; [exact A1|]. split; [exact Ko|]. split.
    + eapply promise_kept; eauto. intros y J. apply set_other. intros ->. rewrite CO in J. destruct J as [J|J]; [discriminate|].
      apply in_app_iff in J. destruct J as [J|[J|[]]]; [exact (D z J Rz)|]. injection J as J. apply N. congruence.
    + intros Q. rewrite set_other; [apply Ra, Q|]. intros H. apply N. congruence.
Qed.

Lemma hide : forall op, occurs f op -> blind op -> ~ touches f op out -> forall x, out = x ->
  is_local x /\ ~ touches f op x /\ forall o, In o (operands op) -> ~ rooted f o x.
Proof. intros op O B T x <-. split; [exact I|]. split; [exact T|]. intros o J. apply (B o J). Qed.

Lemma blind_alike : forall op regs c regs' c', occurs f op -> blind op -> ~ touches f op out ->
  (forall z, z <> r -> regs z = regs' z) -> agree V (eq out) c c' ->
  alike V E (eq out) (exec V E M op regs c) (exec V E M op regs' c').
Proof.
  intros op regs c regs' c' O B T Er A. rewrite (h_operands V E M will_return trivial f HM op regs regs' c O).
  - apply (h_blind V E M will_return trivial f HM); [exact O|apply hide; assumption|exact A].
  - intros z J. apply Er. intros H. destruct (B _ J) as [_ N]. congruence.
Qed.

Lemma outside_op : forall op regs c regs' c', occurs f op -> blind op -> ~ touches f op out -> outside regs c regs' c' ->
  matches outside regs regs' (run_op op regs c) (run_op op regs' c').
Proof.
  intros op regs c regs' c' O B T (Er & A). apply answers.
  - right. apply blind_alike; try assumption. intros z N. apply Er. left. exact N.
  - intros t1 c1 c1' v1 _ A1. split; [split; assumption|]. intros z _. split; [|exact A1]. intros x N. apply set_both, Er, N.
Qed.

Lemma first_op : forall v op regs c regs' c', quiet op -> blind op -> first v regs c regs' c' ->
  matches (first v) regs regs' (run_op op regs c) (run_op op regs' c').
Proof.
  intros v op regs c regs' c' Q B (Mv & Er & C). pose proof Q as (O & T & N & _). pose proof C as (A & _). apply answers.
  - right. apply blind_alike; assumption.
  - intros t1 c1 c1' v1 X A1. assert (X' : exec V E M op regs' c' = Ok V E t1 c1' v1 \/ exec V E M op regs' c' = Fail V E t1 c1') by tauto.
    destruct (quiet_common _ _ _ _ _ _ _ _ _ Q C X' A1) as [C1 C2]. split; [split; [exact Mv|split; assumption]|].
    intros z Rz. split; [exact Mv|]. split; [|apply C2, Rz]. intros x Nx. apply set_both, Er, Nx.
Qed.

Lemma later_op : forall v op regs c regs' c', quiet op -> later v regs c regs' c' ->
  matches (later v) regs regs' (run_op op regs c) (run_op op regs' c').
Proof.
  intros v op regs c regs' c' Q (Er & D & C). pose proof Q as (O & T & N & _). pose proof C as (A & Co & _).
  assert (EQ : forall c, exec V E M op regs c = exec V E M op regs' c).
  { intros c0. apply (h_operands V E M will_return trivial f HM); [exact O|]. intros z _. apply Er. }
  apply answers.
  - destruct D as [D|D].
    + rewrite <- EQ. apply (h_unset V E M will_return trivial f HM); assumption.
    + right. rewrite <- EQ. assert (W : alike V E (fun _ => False) (exec V E M op regs c) (exec V E M op regs c')).
      { apply (h_blind V E M will_return trivial f HM); [exact O|intros x []|]. intros x _. destruct (root_eqb x out) eqn:Y.
        - apply root_eqb_eq in Y. subst x. congruence.
        - apply A. intros <-. rewrite (proj2 (root_eqb_eq out out) eq_refl) in Y. discriminate. }
      destruct (exec V E M op regs c), (exec V E M op regs c'); cbn in *; try exact W.
      * destruct W as (W1 & W2 & W3). split; [exact W1|]. split; [exact W2|]. intros x _. apply W3. auto.
      * destruct W as (W1 & W3). split; [exact W1|]. intros x _. apply W3. auto.
  - intros t1 c1 c1' v1 X A1. assert (X' : exec V E M op regs' c' = Ok V E t1 c1' v1 \/ exec V E M op regs' c' = Fail V E t1 c1') by tauto.
    assert (X2 : exec V E M op regs c = Ok V E t1 c1 v1 \/ exec V E M op regs c = Fail V E t1 c1) by tauto.
    destruct (quiet_common _ _ _ _ _ _ _ _ _ Q C X' A1) as [C1 C2].
    assert (D1 : c1 out = unset V E M \/ c1 out = v) by (rewrite (writes_kept op regs c t1 c1 v1 out O T X2); exact D).
    split; [split; [exact Er|split; assumption]|].
    intros z Rz. split; [intros x; apply set_both, Er|]. split; [exact D1|apply C2, Rz].
Qed.

(** The call is not there any more. *)
Lemma dropped_call : forall v regs c regs' c', result cop = None -> later v regs c regs' c' ->
  exists c1, run_op cop regs c = Next V E [] regs c1 /\ later v regs c1 regs' c'.
Proof.
  intros v regs c regs' c' N (Er & D & A & Co & P & Ra).
  destruct (P c) as (c2 & w & X & Y & Z).
  { intros o x J R. apply A. intros Q. apply (inputs_other o x J R). symmetry. exact Q. }
  exists c2. unfold LicmSpec.run_op. rewrite (h_operands V E M will_return trivial f HM cop regs regs' c COP) by (intros z _; apply Er).
  rewrite X, N. split; [reflexivity|]. split; [exact Er|]. split; [right; exact Y|]. split; [|auto].
  intros x Nx. rewrite <- (Z x Nx). apply A, Nx.
Qed.

Lemma dropped_alloca : forall v op ty regs c regs' c', moved -> occurs f op -> okind op = Alloca ty -> operands op = [] ->
  result op = Some r -> (forall z, z <> r -> regs z = regs' z) -> common v c regs' c' ->
  exists regs1 c1, run_op op regs c = Next V E [] regs1 c1 /\ later v regs1 c1 regs' c'.
Proof.
  intros v op ty regs c regs' c' Mv O K S R Er (A & Co & P & Ra).
  destruct (h_alloca V E M will_return trivial f HM op ty r regs c O K S R) as (c1 & X & Y & Z).
  exists (set V regs r (addr V E M r)), c1. unfold LicmSpec.run_op. rewrite X, R. split; [reflexivity|].
  split; [|split; [left; exact Y|split; [|auto]]].
  - intros z. unfold set. destruct (Nat.eqb_spec z r) as [H|N]; [rewrite H; symmetry; apply Ra, Mv|apply Er, N].
  - intros x Nx. rewrite <- (Z x Nx). apply A, Nx.
Qed.

Lemma later_outside : forall v regs c regs' c', later v regs c regs' c' -> outside regs c regs' c'.
Proof. intros v regs c regs' c' (Er & _ & A & _). split; [intros z _; apply Er|exact A]. Qed.
Lemma first_outside : forall v regs c regs' c', first v regs c regs' c' -> outside regs c regs' c'.
Proof. intros v regs c regs' c' (Mv & Er & A & _). split; [|exact A]. intros z [N|N]; [apply Er, N|contradiction]. Qed.
End Sim.
