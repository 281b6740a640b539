(** Bodies whose terminators go further. *)
From Coq Require Import List Arith Bool Lia.
From Verif Require Import FrameModel FrameSpec FrameProofs TailMergeModel.
Import ListNotations.

Section Jumps.
Context {other world : Type}.
Variable m : machine other world.

(** From a block to another through empty blocks. *)
Inductive jumps (p : body) : nat -> nat -> Prop :=
| jumps_here : forall b, jumps p b b
| jumps_on : forall b t c, nth_error p b = Some (Block [] (TGoto t)) -> jumps p t c -> jumps p b c.

Lemma jumps_run : forall p b c, jumps p b c -> exists j, forall k f w,
  run m (j + k) p b f w = run m k p c f w.
Proof.
  intros p b c H. induction H as [b|b t c E H (j & IH)]; [now exists 0|].
  exists (S j). intros k f w. cbn [plus run]. rewrite E. cbn. apply IH.
Qed.

Definition further (p : body) (x x' : exit (other := other) (world := world)) : Prop :=
  match x with
  | XEnd a => a <> Panicked -> x' = XEnd a
  | XGo c f w =>
      (exists c', x' = XGo c' f w /\ jumps p c c') \/
      (exists t, x' = leave m t f w /\ nth_error p c = Some (Block [] t))
  end.

(** The operations are the same, the terminators go further. *)
Definition goes_further (p p' : body) : Prop :=
  forall b bl, nth_error p b = Some bl -> exists t',
    nth_error p' b = Some (Block (operations bl) t') /\
    forall f w, further p (leave m (term bl) f w) (leave m t' f w).

Lemma further_run : forall p p', goes_further p p' ->
  forall n b c f w, jumps p b c -> (forall k, run m k p b f w <> Panicked) ->
  exists k, n <= k /\ run m n p' c f w = run m k p b f w.
Proof.
  intros p p' H. induction n as [|n IH]; intros b c f w Hj Hp; [exists 0; auto|].
  destruct (jumps_run p b c Hj) as (j & Ej).
  assert (Hc : forall k, run m k p c f w <> Panicked) by (intros k; rewrite <- Ej; apply Hp).
  destruct (nth_error p c) as [bl|] eqn:Eb; [|exfalso; apply (Hc 1); cbn; now rewrite Eb].
  destruct (H c bl Eb) as (t' & Eb' & Ht).
  cut (exists k, S n <= k /\ run m (S n) p' c f w = run m k p c f w).
  { intros (k & Hk & E). exists (j + k). split; [lia|]. now rewrite Ej. }
  assert (Hc1 : forall k, run m (S k) p c f w <> Panicked) by auto.
  cbn [run] in *. rewrite Eb in Hc1. rewrite Eb'. unfold step_block in *. cbn [operations term] in *.
  destruct (steps m (operations bl) f w) as [f1 w1|f1 w1|w1| |] eqn:Es.
  2,3,4,5: (exists (S n); split; [lia|]; cbn [run]; rewrite Eb; unfold step_block; rewrite Es; reflexivity).
  specialize (Ht f1 w1).
  destruct (leave m (term bl) f1 w1) as [b1 f2 w2|a] eqn:El; cbn [further] in Ht.
  - destruct Ht as [(c' & -> & Hj')|(t & -> & Et)].
    + destruct (IH b1 c' f2 w2 Hj') as (k & Hk & E); [intros k; exact (Hc1 k)|].
      exists (S k). split; [lia|]. cbn [run]. rewrite Eb. unfold step_block. rewrite Es, El. exact E.
    + destruct (leave m t f2 w2) as [c2 f3 w3|a] eqn:E2.
      * destruct (IH c2 c2 f3 w3) as (k & Hk & E); [constructor| |].
        { intros k. specialize (Hc1 (S k)). cbn [run] in Hc1. rewrite Et in Hc1. cbn in Hc1.
          unfold step_block in Hc1. cbn in Hc1. now rewrite E2 in Hc1. }
        exists (S (S k)). split; [lia|]. cbn [run]. rewrite Eb. unfold step_block at 1. rewrite Es, El, Et.
        unfold step_block. cbn. now rewrite E2.
      * exists (S (S n)). split; [lia|]. cbn [run]. rewrite Eb. unfold step_block at 1. rewrite Es, El, Et.
        unfold step_block. cbn. now rewrite E2.
  - rewrite Ht; [|exact (Hc1 0)]. exists (S n). split; [lia|]. cbn [run]. rewrite Eb. unfold step_block.
    now rewrite Es, El.
Qed.

Lemma further_runs : forall p p', goes_further p p' -> same_runs m p p'.
Proof. intros p p' H params w Hp n. unfold call in *. eapply further_run; eauto. constructor. Qed.

Lemma runs_refl : forall p, same_runs m p p.
Proof. intros p params w _ n. eauto. Qed.

Lemma runs_trans : forall p q r, same_runs m p q -> same_runs m q r -> same_runs m p r.
Proof.
  intros p q r H1 H2 params w Hp n.
  assert (Hq : forall k, call m k q params w <> Panicked).
  { intros k. destruct (H1 params w Hp k) as (j & _ & ->). apply Hp. }
  destruct (H2 params w Hq n) as (k & Hk & ->). destruct (H1 params w Hp k) as (j & Hj & ->).
  exists j. split; auto. lia.
Qed.

(** ** The steps of the pass *)

Lemma nth_set_term : forall p i t b, nth_error (set_term i t p) b =
  match nth_error p b with
  | Some bl => Some (if i =? b then Block (operations bl) t else bl)
  | None => None
  end.
Proof.
  induction p as [|x p IH]; intros i t b; [now destruct i, b|].
  destruct i as [|i]; destruct b as [|b]; cbn; auto; try apply IH; now destruct (nth_error p b).
Qed.

Lemma block_eta : forall bl, Block (operations bl) (term bl) = bl.
Proof. now intros []. Qed.

Lemma further_refl : forall p t f w, further p (leave m t f w) (leave m t f w).
Proof. intros p t f w. destruct (leave m t f w); cbn; auto. left. eexists. split; [reflexivity|constructor]. Qed.

Lemma set_term_further : forall p b bl t, nth_error p b = Some bl ->
  (forall f w, further p (leave m (term bl) f w) (leave m t f w)) -> goes_further p (set_term b t p).
Proof.
  intros p b bl t E H c cl Ec. rewrite nth_set_term, Ec. destruct (b =? c) eqn:Eb.
  - apply Nat.eqb_eq in Eb. subst c. rewrite E in Ec. inversion Ec; subst. eauto.
  - exists (term cl). rewrite block_eta. split; auto. intros. apply further_refl.
Qed.

Lemma collapse_leave : forall t f w, leave m t f w <> XEnd Panicked ->
  leave m (collapse t) f w = leave m t f w.
Proof.
  intros t f w H. destruct t as [b|c b b'|o b b'|p b| | |]; auto. cbn in *.
  destruct (b =? b') eqn:E; auto. apply Nat.eqb_eq in E. subst b'. cbn.
  destruct (inspect m f w c) as [[[[|]|v]|]|]; auto; now destruct H.
Qed.

Lemma retarget_leave : forall g t f w, leave m (retarget g t) f w =
  match leave m t f w with XGo b f w => XGo (g b) f w | x => x end.
Proof.
  intros g t f w. destruct t as [b|c b b'|o b b'|p b| | |]; cbn; auto.
  - destruct (inspect m f w c) as [[[[|]|v]|]|]; auto.
  - destruct (step m o f w); auto.
  - destruct (pass_operand m KYield 0 p f w) as [[[v f1] w1]|]; auto. destruct (exec m KYield [v] w1); auto.
Qed.

Lemma exit_panics : forall x : exit (other := other) (world := world), {x = XEnd Panicked} + {x <> XEnd Panicked}.
Proof. intros [b f w|[]]; auto; right; discriminate. Qed.

Lemma collapse_further : forall p t f w, further p (leave m t f w) (leave m (collapse t) f w).
Proof.
  intros p t f w. destruct (exit_panics (leave m t f w)) as [E|E].
  - rewrite E. cbn. now intros [].
  - rewrite collapse_leave; auto. apply further_refl.
Qed.

Lemma forward_jumps : forall p limit target current, jumps p target current ->
  jumps p target (forward_from p target current limit).
Proof.
  intros p. induction limit as [|limit IH]; intros target current H; cbn [forward_from]; [constructor|].
  destruct (nth_error p current) as [[[|o os] t]|] eqn:E; auto.
  destruct t as [t|c b b'|o b b'|q b| | |]; auto. destruct (t =? current); auto. apply IH.
  clear IH limit. induction H; [apply (jumps_on p b t); [auto|constructor]|eapply jumps_on; eauto].
Qed.

Lemma forward_block_runs : forall limit p b, same_runs m p (forward_block limit p b).
Proof.
  intros limit p b. unfold forward_block. destruct (nth_error p b) as [bl|] eqn:E; [|apply runs_refl].
  destruct (forallb _ _); [apply runs_refl|]. apply further_runs. eapply set_term_further; eauto.
  intros f w. destruct (exit_panics (leave m (term bl) f w)) as [Ep|Ep]; [rewrite Ep; cbn; now intros []|].
  rewrite collapse_leave; rewrite retarget_leave; destruct (leave m (term bl) f w); cbn; auto; try discriminate.
  left. eexists. split; [reflexivity|]. apply forward_jumps. constructor.
Qed.

Lemma end_block_runs : forall p b, same_runs m p (end_block p b).
Proof.
  intros p b. unfold end_block. destruct (nth_error p b) as [bl|] eqn:E; [|apply runs_refl].
  destruct (term bl) as [t|c x y|o x y|q x| | |] eqn:Et; try apply runs_refl.
  destruct (nth_error p t) as [target|] eqn:Ett; [|apply runs_refl].
  destruct (is_empty target && is_operand_free_terminal (term target)) eqn:Ee; [|apply runs_refl].
  apply further_runs. eapply set_term_further; eauto. intros f w. rewrite Et. cbn [leave further].
  right. exists (term target). split; auto. rewrite Ett. apply andb_true_iff in Ee. destruct Ee as [Ee _].
  destruct target as [[|o os] tt]; [reflexivity|discriminate].
Qed.

Lemma fold_runs : forall (step : body -> nat -> body), (forall p b, same_runs m p (step p b)) ->
  forall l p, same_runs m p (fold_left step l p).
Proof.
  intros step H. induction l as [|b l IH]; intros p; cbn; [apply runs_refl|].
  eapply runs_trans; [apply H|apply IH].
Qed.

Lemma folds_runs : forall p, same_runs m p (fold_empty_terminal_successors (fold_empty_forwarding_blocks p)).
Proof.
  intros p. eapply runs_trans; [apply (fold_runs (forward_block (length p))); intros; apply forward_block_runs|].
  apply fold_runs. apply end_block_runs.
Qed.

Definition retargeted (l : replacement) (p : body) : body :=
  map (fun bl => Block (operations bl) (retarget (canonical_target l) (term bl))) p.

Lemma redirect_runs : forall l p, same_runs m (retargeted l p) (redirect l p).
Proof.
  intros l p. apply further_runs. intros b bl E. unfold retargeted in E. rewrite nth_error_map in E.
  unfold redirect. rewrite nth_error_map. destruct (nth_error p b) as [x|]; cbn in *; [|discriminate].
  inversion E; subst. cbn. eexists. split; [reflexivity|]. intros. apply collapse_further.
Qed.
End Jumps.
