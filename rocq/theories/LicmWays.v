(** Ways through the function to the moved call. *)
From Coq Require Import List Bool Arith Lia.
From Verif Require Import LicmModel LicmSpec LicmStatic LicmRoots LicmLoops LicmFind.
Import ListNotations.

Lemma walk_prefix : forall f a l b, walk f a l b -> forall x, In x l -> exists l', walk f a l' x /\ incl l' l /\ length l' < length l.
Proof.
  intros f a l b W. induction W as [|l b c W IH E]; intros x J; [destruct J|]. apply in_app_iff in J. destruct J as [J|[<-|[]]].
  - destruct (IH x J) as (l' & W' & I & L). exists l'. split; [exact W'|]. rewrite app_length. cbn. split; [|lia].
    intros y Jy. apply in_app_iff. left. apply I, Jy.
  - exists l. split; [exact W|]. rewrite app_length. cbn. split; [|lia]. intros y Jy. apply in_app_iff. left. exact Jy.
Qed.

(** On every way. *)
Definition passed (f : func) (d u : site) : Prop :=
  forall l, walk f 0 l (fst u) -> In (fst d) l \/ (fst d = fst u /\ snd d < snd u).
Lemma before_passed : forall f d u, before f d u -> passed f d u.
Proof. intros f d u [[E H]|[N H]] l W; [right; auto|left; apply H; exact W]. Qed.
Lemma passed_trans : forall f a b c, passed f a b -> passed f b c -> passed f a c.
Proof.
  intros f a b c H1 H2 l W. destruct (H2 l W) as [J|[E L]].
  - destruct (walk_prefix _ _ _ _ W _ J) as (l' & W' & I & _). destruct (H1 l' W') as [J'|[E' _]]; [left; apply I, J'|].
    left. rewrite E'. exact J.
  - rewrite <- E in W. destruct (H1 l W) as [J|[E' L']]; [left; exact J|]. right. split; [congruence|lia].
Qed.

Lemma uses_operand : forall f s op z, operation_at f s op -> In (Reg z) (operands op) -> uses f z s.
Proof. intros f s op z A J. eapply uses_op; eauto. Qed.

(** The cell of a place is made before the place is used. *)
Lemma root_passed : forall f, verified f -> forall o x, rooted f o x -> forall z y s0 op0 u, o = Reg z ->
  (x = RAlloca y \/ x = RDict y) -> operation_at f s0 op0 -> result op0 = Some y -> uses f z u ->
  (s0 = s0 /\ passed f s0 u).
Proof.
  intros f (SSA & _ & Vb) o x R. induction R as [p|s op z A Rz Q|s op z A Rz Q|s op z n base rest x A Rz Q O B IH];
    intros z' y s0 op0 u Eo Ex A0 R0 U; try discriminate.
  - injection Eo as <-. split; [reflexivity|]. destruct Ex as [Ex|Ex]; [|discriminate]. injection Ex as <-.
    apply before_passed. eapply Vb; eauto.
  - injection Eo as <-. split; [reflexivity|]. destruct Ex as [Ex|Ex]; [discriminate|]. injection Ex as <-.
    apply before_passed. eapply Vb; eauto.
  - injection Eo as <-. split; [reflexivity|]. eapply passed_trans; [|apply before_passed; eapply (Vb z s op u); eauto].
    destruct base as [w|q|q|q].
    + apply (IH w y s0 op0 s eq_refl Ex A0 R0). eapply uses_operand; [exact A|]. rewrite O. left. reflexivity.
    + inversion B; subst. destruct Ex; discriminate.
    + inversion B.
    + inversion B.
Qed.

(** The definition of the root is passed before the definition of the place, or is it. *)
Lemma root_made : forall f, verified f -> forall o x, rooted f o x -> forall z y s0 op0 d op, o = Reg z ->
  (x = RAlloca y \/ x = RDict y) -> operation_at f s0 op0 -> result op0 = Some y ->
  operation_at f d op -> result op = Some z -> s0 = d \/ passed f s0 d.
Proof.
  intros f VF o x R z y s0 op0 d op Eo Ex A0 R0 A Rz. pose proof VF as (SSA & _ & Vb).
  destruct R as [p|s op' z' A' Rz' Q|s op' z' A' Rz' Q|s op' z' n base rest x A' Rz' Q O B]; try discriminate; injection Eo as ->.
  - left. destruct Ex as [Ex|Ex]; [|discriminate]. injection Ex as <-. eapply one_site; eauto.
  - left. destruct Ex as [Ex|Ex]; [discriminate|]. injection Ex as <-. eapply one_site; eauto.
  - right. destruct (one_site _ _ _ _ _ _ SSA A' Rz' A Rz) as [-> ->]. destruct base as [w|q|q|q].
    + eapply (root_passed f VF (Reg w) x B w y); eauto. eapply uses_operand; [exact A|]. rewrite O. left. reflexivity.
    + inversion B; subst. destruct Ex; discriminate.
    + inversion B.
    + inversion B.
Qed.

Lemma written_operand : forall op o, written op o -> In o (operands op).
Proof.
  intros op o W. destruct W as [n K J|i K L J|n K J|l K J|n K J|c g hid args K J L|c g hid args out i K J L A H|c K L J];
    try (apply nth_error_In in J; exact J); try exact J.
  - rewrite J. apply in_app_iff. right. left. reflexivity.
  - rewrite J. right. apply in_app_iff. right. apply in_app_iff. right. left. reflexivity.
  - rewrite J. right. apply in_app_iff. right. apply in_app_iff. left. apply nth_error_In in A. exact A.
Qed.

Section Ways.
Variables (f : func) (l : natural_loop) (i : nat).
Hypothesis G : good_loop f l.
Hypothesis later : forall b, In b (blocks l) -> preheader l < b.

Definition free (w : list nat) : Prop := forall x, In x w -> x <> preheader l /\ ~ In x (blocks l).

Lemma way_in : forall w b, walk f 0 w b ->
  (exists w0, walk f 0 w0 (preheader l) /\ free w0) \/ (free w /\ b <> preheader l /\ ~ In b (blocks l)).
Proof.
  intros w b W. induction W as [|w b c W IH E].
  - assert (N : ~ In 0 (blocks l)) by (intros J; apply later in J; lia).
    destruct (Nat.eq_dec 0 (preheader l)) as [P|P].
    + left. exists []. split; [rewrite <- P; constructor|intros x []].
    + right. split; [intros x []|]. split; [exact P|exact N].
  - destruct IH as [H|(F & P & N)]; [left; exact H|].
    assert (F' : free (w ++ [b])).
    { intros x J. apply in_app_iff in J. destruct J as [J|[<-|[]]]; [apply F, J|split; assumption]. }
    destruct (Nat.eq_dec c (preheader l)) as [->|Q].
    + left. exists (w ++ [b]). split; [|exact F']. econstructor; eauto.
    + right. split; [exact F'|]. split; [exact Q|]. intros J. apply N. destruct (Nat.eq_dec c (header l)) as [->|H].
      * exfalso. apply P. eapply g_entry; eauto.
      * eapply g_closed; eauto.
Qed.

Lemma way_to : forall w, walk f 0 w (preheader l) -> exists w0, walk f 0 w0 (preheader l) /\ free w0.
Proof. intros w W. destruct (way_in _ _ W) as [H|(_ & P & _)]; [exact H|congruence]. Qed.

(** Passed before the place the call is moved to. *)
Definition early (w0 : list nat) (s : site) : Prop := In (fst s) w0 \/ (fst s = preheader l /\ snd s < i).

Lemma passed_early : forall w0 s d, walk f 0 w0 (preheader l) -> early w0 d -> passed f s d -> early w0 s.
Proof.
  intros w0 s d W [J|[E L]] P.
  - destruct (walk_prefix _ _ _ _ W _ J) as (w & W' & I & _). destruct (P w W') as [J'|[E' _]]; left; [apply I, J'|]. rewrite E'. exact J.
  - rewrite <- E in W. destruct (P w0 W) as [J|[E' L']]; [left; exact J|]. right. split; [congruence|lia].
Qed.

Lemma early_not : forall w0 s, free w0 -> early w0 s -> ~ In (fst s) (blocks l) /\ (fst s = preheader l -> snd s < i).
Proof.
  intros w0 s F [J|[E L]].
  - destruct (F _ J) as [N1 N2]. split; [exact N2|]. intros Q. congruence.
  - split; [rewrite E; apply (g_outside _ _ G)|intros _; exact L].
Qed.
End Ways.
