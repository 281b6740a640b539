From Coq Require Import List Bool Arith ZArith Lia.
From Verif Require Import ListUtil GraphModel GraphSpec GraphProofs SessionModel.
Import ListNotations.

Definition deps_of (ms : list entry) : graph := map latest_deps ms.
Definition is_stale (ms : list entry) (i : nat) : Prop := exists e, nth_error ms i = Some e /\ stale e = true.
Definition is_fresh (ms : list entry) (i : nat) : Prop := exists e, nth_error ms i = Some e /\ stale e = false.

Lemma nth_error_ext : forall A (l l' : list A), (forall i, nth_error l i = nth_error l' i) -> l = l'.
Proof.
  induction l as [|x l IH]; intros [|y l'] H; auto; try (specialize (H 0); discriminate).
  pose proof (H 0) as H0. simpl in H0. inversion H0. f_equal. apply IH. intros i. apply (H (S i)).
Qed.
Lemma edge_deps : forall ms u v, edge (deps_of ms) u v <-> exists e, nth_error ms u = Some e /\ In v (latest_deps e).
Proof.
  intros ms u v. unfold edge, deps_of. rewrite nth_error_map. split.
  - intros (ss & H & I). destruct (nth_error ms u) as [e|]; inversion H; subst. eauto.
  - intros (e & H & I). rewrite H. simpl. eauto.
Qed.
Lemma mem_in : forall x l, mem x l = true <-> In x l.
Proof. intros. unfold mem. rewrite existsb_exists. split; [intros (y & H & E); apply Nat.eqb_eq in E; subst; auto|intros; exists x; split; auto; apply Nat.eqb_refl]. Qed.

Lemma dependents_from_ok : forall ms k t i, In i (dependents_from k ms t) <-> exists e, k <= i /\ nth_error ms (i - k) = Some e /\ In t (latest_deps e).
Proof.
  induction ms as [|e ms IH]; intros k t i; simpl.
  - split; [tauto|]. intros (e & _ & H & _). destruct (i - k); discriminate.
  - assert (R : In i (dependents_from (S k) ms t) <-> exists f, S k <= i /\ nth_error (e :: ms) (i - k) = Some f /\ In t (latest_deps f)).
    { rewrite IH. split; intros (f & L & H & I); exists f; (split; [auto|split; [|auto]]).
      - replace (i - k) with (S (i - S k)) by lia. auto.
      - replace (i - k) with (S (i - S k)) in H by lia. auto. }
    destruct (mem t (latest_deps e)) eqn:M.
    + apply mem_in in M. simpl. rewrite R. split.
      * intros [<-|(f & L & H)]; [exists e; rewrite Nat.sub_diag; auto|exists f; split; [lia|auto]].
      * intros (f & L & H & I). destruct (Nat.eq_dec k i); [auto|right; exists f; split; [lia|auto]].
    + rewrite R. split; intros (f & L & H & I); exists f; (split; [|auto]).
      * lia.
      * destruct (Nat.eq_dec k i) as [->|]; [|lia]. rewrite Nat.sub_diag in H. simpl in H. inversion H; subst f. apply mem_in in I. congruence.
Qed.
Lemma direct_deps_ok : forall ms t i, In i (direct_deps ms t) <-> edge (deps_of ms) i t.
Proof.
  intros. unfold direct_deps. rewrite dependents_from_ok, edge_deps. rewrite Nat.sub_0_r. split; intros (e & H); exists e; intuition lia.
Qed.
Lemma dependents_sorted : forall ms k t, NoDup (dependents_from k ms t).
Proof.
  induction ms as [|e ms IH]; intros k t; simpl; [constructor|]. destruct (mem t (latest_deps e)); auto. constructor; auto.
  intros H. apply dependents_from_ok in H. destruct H as (f & L & _). lia.
Qed.
Lemma direct_deps_nodup : forall ms t, NoDup (direct_deps ms t).
Proof. intros. apply dependents_sorted. Qed.

(** ** Marking *)
Definition newly (ms ms' : list entry) (i : nat) : Prop := exists e, nth_error ms i = Some e /\ stale e = false /\ nth_error ms' i = Some (set_stale e).
Definition flags (ms ms' : list entry) : Prop := length ms' = length ms /\ forall i, nth_error ms' i = nth_error ms i \/ newly ms ms' i.

Lemma flags_refl : forall ms, flags ms ms.
Proof. split; auto. Qed.
Lemma flags_deps : forall ms ms', flags ms ms' -> deps_of ms' = deps_of ms.
Proof.
  intros ms ms' (L & H). unfold deps_of. apply nth_error_ext. intros i. rewrite !nth_error_map.
  destruct (H i) as [->|(e & A & _ & B)]; auto. rewrite A, B. reflexivity.
Qed.
Lemma newly_stale : forall ms ms' i, newly ms ms' i -> is_stale ms' i.
Proof. intros ms ms' i (e & _ & _ & B). exists (set_stale e). auto. Qed.
Lemma flags_stale : forall ms ms' i, flags ms ms' -> is_stale ms i -> is_stale ms' i.
Proof. intros ms ms' i (_ & H) (e & A & B). destruct (H i) as [E|N]; [exists e; rewrite E; auto|eapply newly_stale; eauto]. Qed.
Lemma flags_stale_inv : forall ms ms' i, flags ms ms' -> is_stale ms' i -> is_stale ms i \/ newly ms ms' i.
Proof. intros ms ms' i (_ & H) (e & A & B). destruct (H i) as [E|N]; [left; exists e; rewrite <- E; auto|auto]. Qed.
Lemma flags_trans : forall a b c, flags a b -> flags b c -> flags a c.
Proof.
  intros a b c (L1 & H1) (L2 & H2). split; [congruence|]. intros i. destruct (H2 i) as [E2|(e2 & A2 & B2 & C2)], (H1 i) as [E1|(e1 & A1 & B1 & C1)].
  - left. congruence.
  - right. exists e1. repeat split; auto. congruence.
  - right. exists e2. repeat split; auto. congruence.
  - rewrite C1 in A2. inversion A2; subst e2. discriminate.
Qed.
Lemma newly_trans : forall a b c i, flags a b -> flags b c -> newly a b i \/ newly b c i -> newly a c i.
Proof.
  intros a b c i (_ & H1) (_ & H2) [(e & A & B & C)|(e & A & B & C)].
  - exists e. repeat split; auto. destruct (H2 i) as [E|(e2 & A2 & B2 & C2)]; [congruence|]. rewrite C in A2. inversion A2; subst e2. discriminate.
  - exists e. repeat split; auto. destruct (H1 i) as [E|(e2 & A2 & B2 & C2)]; [congruence|]. rewrite C2 in A. inversion A; subst e. discriminate.
Qed.
Lemma newly_split : forall a b c i, flags a b -> flags b c -> newly a c i -> newly a b i \/ newly b c i.
Proof.
  intros a b c i (_ & H1) (_ & H2) (e & A & B & C). destruct (H1 i) as [E1|N]; [|auto]. destruct (H2 i) as [E2|N]; [|auto].
  rewrite E2, E1, A in C. inversion C as [Q]. rewrite Q in B. discriminate.
Qed.

Definition count_fresh (ms : list entry) : nat := length (filter (fun e => negb (stale e)) ms).
Lemma count_mark : forall ms i e, nth_error ms i = Some e -> stale e = false -> count_fresh ms = S (count_fresh (upd ms i (set_stale e))).
Proof.
  unfold count_fresh. induction ms as [|x ms IH]; intros [|i] e H F; simpl in *; try discriminate.
  - inversion H; subst x. rewrite F. simpl. reflexivity.
  - destruct (negb (stale x)); simpl; rewrite (IH i e H F); reflexivity.
Qed.

Lemma mark_each_ok : forall ids ms stack, (forall i, In i ids -> i < length ms) -> exists ms' pushed,
  mark_each ids ms stack = (ms', pushed ++ stack) /\ flags ms ms' /\ (forall i, In i pushed <-> newly ms ms' i) /\
  (forall i, In i ids -> is_stale ms' i) /\ (forall i, In i pushed -> In i ids) /\ count_fresh ms = length pushed + count_fresh ms'.
Proof.
  induction ids as [|id ids IH]; intros ms stack R; cbn [mark_each].
  - exists ms, []. split; auto. split; [apply flags_refl|]. split; [|split; [intros i []|split; [intros i []|reflexivity]]].
    intros i. split; [intros []|]. intros (e & A & B & C). rewrite A in C; inversion C as [Q]; rewrite Q in B; discriminate.
  - destruct (nth_error ms id) as [e|] eqn:E; [|exfalso; apply nth_error_None in E; specialize (R id (or_introl eq_refl)); lia].
    destruct (stale e) eqn:S.
    + destruct (IH ms stack) as (ms' & pushed & Q & F & P1 & P2 & P3 & P4); [intros; apply R; simpl; auto|].
      exists ms', pushed. split; auto. split; auto. split; auto. split; [|split; auto; intros; right; auto].
      intros i [<-|H]; auto. eapply flags_stale; eauto. exists e; auto.
    + set (ms1 := upd ms id (set_stale e)). pose proof (range_of _ _ _ _ E) as L.
      assert (F1 : flags ms ms1).
      { split; [apply upd_length|]. intros i. destruct (Nat.eq_dec id i) as [<-|N].
        - right. exists e. repeat split; auto. apply nth_error_upd_same; auto.
        - left. apply nth_error_upd_other; auto. }
      assert (N1 : forall i, newly ms ms1 i <-> i = id).
      { intros i. split.
        - intros (f & A & B & C). destruct (Nat.eq_dec id i) as [<-|N]; auto. unfold ms1 in C. rewrite nth_error_upd_other in C by auto. rewrite A in C. inversion C as [Q]. rewrite Q in B. discriminate.
        - intros ->. exists e. repeat split; auto. apply nth_error_upd_same; auto. }
      destruct (IH ms1 (id :: stack)) as (ms' & pushed & Q & F & P1 & P2 & P3 & P4); [intros; unfold ms1; rewrite upd_length; apply R; simpl; auto|].
      exists ms', (pushed ++ [id]). rewrite Q. split; [rewrite <- app_assoc; auto|]. split; [eapply flags_trans; eauto|]. split; [|split; [|split]].
      * intros i. rewrite in_app_iff. split.
        -- intros [H|[<-|[]]]; apply (newly_trans ms ms1 ms'); auto; [right; apply P1; auto|left; apply N1; auto].
        -- intros H. apply (newly_split ms ms1 ms') in H; auto. destruct H as [H|H]; [right; left; symmetry; apply N1; auto|left; apply P1; auto].
      * intros i [<-|H]; auto. eapply flags_stale; eauto. eapply newly_stale. apply N1. reflexivity.
      * intros i H. apply in_app_iff in H. destruct H as [H|[<-|[]]]; simpl; auto.
      * rewrite (count_mark ms id e E S). fold ms1. rewrite P4, app_length. simpl. lia.
Qed.

Lemma mark_loop_ok : forall fuel ms0 ms stack root, flags ms0 ms -> length stack + count_fresh ms < fuel ->
  (forall i, In i stack -> i = root \/ newly ms0 ms i) ->
  (forall i, newly ms0 ms i -> exists d, edge (deps_of ms0) i d /\ reach (deps_of ms0) d root /\ (d = root \/ newly ms0 ms d)) ->
  (forall d, d = root \/ newly ms0 ms d -> In d stack \/ forall i, edge (deps_of ms0) i d -> is_stale ms i) ->
  exists ms', mark_loop fuel ms stack = Val ms' /\ flags ms0 ms' /\
  (forall i, newly ms0 ms' i -> exists d, edge (deps_of ms0) i d /\ reach (deps_of ms0) d root /\ (d = root \/ newly ms0 ms' d)) /\
  (forall d i, d = root \/ newly ms0 ms' d -> edge (deps_of ms0) i d -> is_stale ms' i).
Proof.
  induction fuel as [|fuel IH]; intros ms0 ms stack root F L S N C; [lia|]. cbn [mark_loop]. destruct stack as [|id rest].
  - exists ms. split; auto. split; auto. split; auto. intros d i D. destruct (C d D) as [[]|H]; auto.
  - destruct (mark_each_ok (direct_deps ms id) ms rest) as (ms1 & pushed & Q & F1 & P1 & P2 & P3 & P4).
    { intros i H. apply direct_deps_ok in H. apply edge_src in H. unfold deps_of in H. rewrite map_length in H. auto. }
    rewrite Q. pose proof (flags_deps _ _ F) as G. assert (F2 : flags ms0 ms1) by (eapply flags_trans; eauto).
    apply IH; auto.
    + rewrite app_length. simpl in L. lia.
    + intros i H. apply in_app_iff in H. destruct H as [H|H].
      * right. apply (newly_trans ms0 ms ms1); auto. right. apply P1. auto.
      * destruct (S i (or_intror H)); auto. right. apply (newly_trans ms0 ms ms1); auto.
    + intros i H. apply (newly_split ms0 ms ms1) in H; auto. destruct H as [H|H].
      * destruct (N i H) as (d & A & B & D). exists d. repeat split; auto. destruct D; auto. right. apply (newly_trans ms0 ms ms1); auto.
      * apply P1, P3, direct_deps_ok in H. rewrite G in H. exists id. split; auto. destruct (S id (or_introl eq_refl)) as [->|D].
        -- split; [constructor|auto].
        -- split; [|right; apply (newly_trans ms0 ms ms1); auto]. destruct (N id D) as (d & A & B & _). eapply reach_trans; [apply reach_edge; eauto|auto].
    + intros d D. assert (D' : (d = root \/ newly ms0 ms d) \/ newly ms ms1 d).
      { destruct D as [->|D]; auto. apply (newly_split ms0 ms ms1) in D; auto. tauto. }
      destruct D' as [D'|D'].
      * destruct (C d D') as [[<-|H]|H].
        -- right. intros i H. apply P2. apply direct_deps_ok. rewrite G. auto.
        -- left. apply in_app_iff. auto.
        -- right. intros i Hi. apply (flags_stale ms ms1); auto.
      * left. apply in_app_iff. left. apply P1. auto.
Qed.
Lemma count_fresh_le : forall ms, count_fresh ms <= length ms.
Proof. intros. unfold count_fresh. induction ms as [|e ms IH]; simpl; auto. destruct (negb (stale e)); simpl; lia. Qed.
Lemma newly_irrefl : forall ms i, ~ newly ms ms i.
Proof. intros ms i (e & A & B & C). rewrite A in C. inversion C as [Q]. rewrite Q in B. discriminate. Qed.
Lemma mark_ok : forall ms root, exists ms', mark_stale_transitively ms root = Val ms' /\ flags ms ms' /\
  (forall i, newly ms ms' i -> exists d, edge (deps_of ms) i d /\ reach (deps_of ms) d root /\ (d = root \/ newly ms ms' d)) /\
  (forall d i, d = root \/ newly ms ms' d -> edge (deps_of ms) i d -> is_stale ms' i).
Proof.
  intros ms root. unfold mark_stale_transitively. apply mark_loop_ok.
  - apply flags_refl.
  - pose proof (count_fresh_le ms). simpl. lia.
  - intros i [<-|[]]; auto.
  - intros i H. exfalso. eapply newly_irrefl; eauto.
  - intros d [->|H]; [simpl; auto|exfalso; eapply newly_irrefl; eauto].
Qed.
(** Nothing to mark when all direct dependents are stale already. *)
Lemma mark_each_noop : forall ids ms stack, (forall i, In i ids -> is_stale ms i) -> mark_each ids ms stack = (ms, stack).
Proof.
  induction ids as [|id ids IH]; intros ms stack H; cbn [mark_each]; auto. destruct (H id (or_introl eq_refl)) as (e & A & B). rewrite A, B. apply IH. intros; apply H; simpl; auto.
Qed.
Lemma mark_noop : forall ms root, (forall i, edge (deps_of ms) i root -> is_stale ms i) -> mark_stale_transitively ms root = Val ms.
Proof.
  intros ms root H. unfold mark_stale_transitively. cbn [mark_loop]. rewrite mark_each_noop.
  - reflexivity.
  - intros i Hi. apply H, direct_deps_ok. auto.
Qed.
