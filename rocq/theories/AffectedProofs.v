From Coq Require Import List Bool Arith ZArith Lia.
From Verif Require Import ListUtil GraphModel GraphSpec GraphProofs SessionModel SessionProofs AffectedModel AffectedSpec.
Import ListNotations.

Lemma mem_in : forall x l, mem x l = true <-> In x l.
Proof. intros. unfold mem. rewrite existsb_exists. split; [intros (y & A & B); apply Nat.eqb_eq in B; subst; auto|intros H; exists x; split; auto; apply Nat.eqb_refl]. Qed.
Lemma direct_deps_range : forall ms t i, In i (direct_deps ms t) -> i < length ms.
Proof. intros ms t i H. apply direct_deps_ok in H. apply edge_src in H. unfold deps_of in H. rewrite map_length in H. auto. Qed.
Lemma nodup_range : forall n l, NoDup l -> (forall x, In x l -> x < n) -> length l <= n.
Proof. intros n l N H. rewrite <- (seq_length n 0). apply NoDup_incl_length; auto. intros x Hx. apply in_seq. specialize (H x Hx). lia. Qed.
Lemma direct_deps_len : forall ms t, length (direct_deps ms t) <= length ms.
Proof. intros. apply nodup_range; [apply direct_deps_nodup|apply direct_deps_range]. Qed.

Lemma nodup_snoc : forall (l : list nat) x, NoDup l -> ~ In x l -> NoDup (l ++ [x]).
Proof.
  induction l as [|y l IH]; simpl; intros x N H; [constructor; auto; constructor|]. inversion N; subst. constructor; auto.
  rewrite in_app_iff. simpl. intuition.
Qed.

Definition edge_on ms m d := exists e, nth_error ms m = Some e /\ In d (latest_deps e).
Lemma direct_deps_edge : forall ms t i, In i (direct_deps ms t) <-> edge_on ms i t.
Proof. intros. rewrite direct_deps_ok, edge_deps. reflexivity. Qed.
(* reading [depends_on] from its last step *)
Lemma depends_on_end : forall ms m d, depends_on ms m d -> edge_on ms m d \/ exists x, edge_on ms m x /\ depends_on ms x d.
Proof.
  intros ms m d H. induction H as [m d e A B|m x d H1 IH1 H2 IH2]; [left; exists e; auto|].
  destruct IH1 as [E|(y & E & D)]; right; [exists x; auto|exists y; split; auto; econstructor 2; eauto].
Qed.

Definition loop_inv ms t stack aff :=
  NoDup aff /\ (forall x, In x stack \/ In x aff -> x < length ms /\ depends_on ms x t) /\
  (forall x, edge_on ms x t -> In x stack \/ In x aff) /\ (forall y x, In y aff -> edge_on ms x y -> In x stack \/ In x aff).

Lemma loop_ok : forall fuel ms t stack aff, loop_inv ms t stack aff -> length stack + (length ms - length aff) * length ms < fuel ->
  exists r, affected_loop fuel ms stack aff = Val r /\ loop_inv ms t [] r.
Proof.
  induction fuel as [|fuel IH]; intros ms t stack aff I F; [inversion F|]. cbn [affected_loop]. destruct stack as [|id stack].
  { exists aff. split; auto. }
  destruct I as (N & A & B & C). destruct (mem id aff) eqn:M.
  - apply mem_in in M. apply IH; [|cbn [length] in F; lia]. split; auto. split; [intros x [H|H]; apply A; simpl; auto|]. split.
    + intros x H. destruct (B x H) as [[<-|]|]; auto.
    + intros y x H E. destruct (C y x H E) as [[<-|]|]; auto.
  - assert (M' : ~ In id aff) by (intros H; apply mem_in in H; congruence).
    assert (Aid : id < length ms /\ depends_on ms id t) by (apply A; simpl; auto).
    apply IH.
    + split; [|split; [|split]].
      * apply nodup_snoc; auto.
      * intros x [H|H].
        -- rewrite in_app_iff, <- in_rev in H. destruct H as [H|H]; [|apply A; simpl; auto]. split; [eapply direct_deps_range; eauto|].
           apply direct_deps_edge in H. destruct H as (e & H1 & H2). econstructor 2; [econstructor 1; eauto|apply Aid].
        -- apply in_app_iff in H. destruct H as [H|[<-|[]]]; auto.
      * intros x H. rewrite !in_app_iff. simpl. destruct (B x H) as [[<-|]|]; auto.
      * intros y x H E. rewrite !in_app_iff, <- in_rev, direct_deps_edge. apply in_app_iff in H. destruct H as [H|[<-|[]]]; auto.
        destruct (C y x H E) as [[<-|]|]; simpl; auto.
    + rewrite !app_length, rev_length. pose proof (direct_deps_len ms id). cbn [length] in *.
      assert (length aff < length ms).
      { assert (length (id :: aff) <= length ms); [|simpl in *; lia]. apply nodup_range; [constructor; auto|]. intros x [<-|H']; [apply Aid|]. apply A. auto. }
      replace (length ms - length aff) with (S (length ms - (length aff + 1))) in F by lia. cbn [Nat.mul] in F. lia.
Qed.

Theorem affected_ok : forall ms t, exists l, get_modules_affected_by ms t = Val l /\ NoDup l /\ forall x, In x l <-> depends_on ms x t.
Proof.
  intros ms t. unfold get_modules_affected_by. destruct (loop_ok (S (length ms * length ms + length ms)) ms t (List.rev (direct_deps ms t)) []) as (r & Q & N & A & B & C).
  - split; [constructor|]. split; [|split; [|intros y x []]].
    + intros x [H|[]]. apply in_rev in H. split; [eapply direct_deps_range; eauto|]. apply direct_deps_edge in H. destruct H as (e & H1 & H2). econstructor 1; eauto.
    + intros x H. left. apply -> in_rev. apply direct_deps_edge. auto.
  - rewrite rev_length. pose proof (direct_deps_len ms t). simpl. lia.
  - exists r. split; auto. split; auto. intros x. split; [intros H; apply A; auto|].
    intros H. assert (K : forall m d, depends_on ms m d -> (d = t \/ In d r) -> In m r).
    { clear - B C. intros m d H. induction H as [m d e X Y|m x d H1 IH1 H2 IH2]; intros D.
      - destruct D as [->|D].
        + destruct (B m) as [[]|]; auto. exists e. auto.
        + destruct (C d m D) as [[]|]; auto. exists e. auto.
      - apply IH1. right. apply IH2. auto. }
    eapply K; eauto.
Qed.

Theorem reverse_deps_ok : forall ms t i, In i (direct_deps ms t) <-> exists e, nth_error ms i = Some e /\ In t (latest_deps e).
Proof. exact direct_deps_edge. Qed.
