(** Proofs about limits and poisoning. *)
From Coq Require Import List Arith Bool Lia.
From Verif Require Import MirModel SandboxSpec.
Import ListNotations.

(** What a run may do to its context, one step at a time. *)
Inductive cstep : context -> context -> Prop :=
| S_fuel : forall c n, fuel_remaining c = Some (S n) -> state c = Running ->
    cstep c (log EvFuel (set_fuel c (Some n)))
| S_depth_ok : forall c, call_depth c < call_depth_limit c -> state c = Running ->
    cstep c (log (EvDepth (call_depth c)) c)
| S_cell : forall c, cells c < cell_limit c -> state c = Running ->
    cstep c (log (EvCell (cells c)) (set_cells c (S (cells c))))
| S_set_depth : forall c d, cstep c (set_depth c d)
| S_truncate : forall c n, cstep c (truncate n c)
| S_cells : forall c n, n <= cell_limit c -> cstep c (set_cells c n)
| S_op : forall c f, state c = Running -> cstep c (log (EvOperation f) c)
| S_poison_fuel : forall c, fuel_remaining c = Some 0 -> state c = Running ->
    cstep c (set_poisoned c (PoisonedBySandbox FuelExhausted None))
| S_poison_depth : forall c, call_depth_limit c <= call_depth c -> state c = Running ->
    cstep c (set_poisoned c (PoisonedBySandbox CallDepthLimitExceeded None))
| S_poison_cell : forall c, state c = Running ->
    cstep c (set_poisoned c (PoisonedBySandbox EnvironmentCellLimitExceeded None))
| S_poison_cleanup : forall c i d, state c = Running ->
    cstep c (set_poisoned c (PoisonedByCleanup i d))
| S_interrupted : forall c k i j,
    state c = Poisoned (PoisonedBySandbox k i) ->
    cstep c (set_poisoned c (PoisonedBySandbox k j))
| S_again : forall c r, state c = Poisoned r -> cstep c (set_poisoned c r).

Inductive csteps : context -> context -> Prop :=
| CS_refl : forall c, csteps c c
| CS_step : forall c1 c2 c3, csteps c1 c2 -> cstep c2 c3 -> csteps c1 c3.

Lemma csteps_trans : forall c1 c2 c3, csteps c1 c2 -> csteps c2 c3 -> csteps c1 c3.
Proof.
  intros c1 c2 c3 H12 H23. revert H12. induction H23 as [|a b d H IH S]; intros H12; [exact H12|].
  eapply CS_step; [apply IH, H12|exact S].
Qed.

Lemma csteps_one : forall c1 c2, cstep c1 c2 -> csteps c1 c2.
Proof. intros. eapply CS_step; [apply CS_refl|assumption]. Qed.

Lemma state_set_depth : forall c d, state (set_depth c d) = state c.
Proof. reflexivity. Qed.
Lemma state_truncate : forall n c, state (truncate n c) = state c.
Proof. reflexivity. Qed.

Lemma leave_csteps : forall c c' n d, csteps c c' -> csteps c (truncate n (set_depth c' d)).
Proof.
  intros. eapply CS_step; [eapply CS_step; [eassumption|apply S_set_depth]|apply S_truncate].
Qed.

(** Errors and states agree. *)
Definition agree (e : runtime_error) (c : context) : Prop := state c = state_after e.

Lemma poison_agree : forall i e c,
  agree e c ->
  exists e' c', poison (SourceFailure i) e c = Some (e', c')
    /\ csteps c c' /\ agree e' c' /\ is_poisoning e' = true.
Proof.
  unfold agree. intros i [f|k [j|]|a b] c A; simpl in *.
  - do 2 eexists; repeat split. apply csteps_one, S_poison_cleanup, A.
  - do 2 eexists; repeat split. apply csteps_one. eapply S_interrupted, A.
  - do 2 eexists; repeat split. apply csteps_one. eapply S_interrupted, A.
  - do 2 eexists; repeat split. apply csteps_one. eapply S_again, A.
Qed.

Lemma check_fuel_ok : forall c, state c = Running ->
  match check_fuel c with
  | (None, c') => csteps c c' /\ state c' = Running
  | (Some e, c') => csteps c c' /\ agree e c' /\ is_poisoning e = true
  end.
Proof.
  intros c R. unfold check_fuel, agree. destruct (fuel_remaining c) as [[|n]|] eqn:E; simpl.
  - repeat split. apply csteps_one, S_poison_fuel; auto.
  - repeat split; auto. apply csteps_one, S_fuel; auto.
  - split; auto. apply CS_refl.
Qed.

Lemma check_depth_ok : forall c, state c = Running ->
  match check_call_depth c with
  | (None, c') => csteps c c' /\ state c' = Running
  | (Some e, c') => csteps c c' /\ agree e c' /\ is_poisoning e = true
  end.
Proof.
  intros c R. unfold check_call_depth, agree.
  destruct (call_depth_limit c <=? call_depth c) eqn:E; simpl.
  - apply Nat.leb_le in E. repeat split. apply csteps_one, S_poison_depth; auto.
  - apply Nat.leb_gt in E. repeat split; auto. apply csteps_one, S_depth_ok; auto.
Qed.

Lemma alloc_ok : forall c, state c = Running ->
  match alloc_cell c with
  | (inr i, c') => csteps c c' /\ state c' = Running
  | (inl e, c') => csteps c c' /\ agree e c' /\ is_poisoning e = true
  end.
Proof.
  intros c R. unfold alloc_cell, agree.
  destruct (cell_limit c <=? cells c) eqn:E; simpl.
  - repeat split. apply csteps_one, S_poison_cell; auto.
  - apply Nat.leb_gt in E. repeat split; auto. apply csteps_one, S_cell; auto.
Qed.

Section Interp.
Variable m : machine.
Notation G := (memory m).
Notation L := (bindings m).
Notation outcome := (outcome (memory m) (bindings m) (place m)).
Notation op_outcome := (op_outcome (memory m) (bindings m)).
Notation frame := (frame (bindings m)).
Notation suspended := (suspended (bindings m)).

(** Outcomes reached legitimately from [c]. *)
Definition good_outcome (c : context) (o : outcome) : Prop :=
  match o with
  | Completed _ c' => csteps c c' /\ state c' = Running
  | YieldedAt _ _ _ _ c' => csteps c c' /\ state c' = Running
  | Failed e _ c' => csteps c c' /\ agree e c'
  | Panicked c' => csteps c c'
  | OutOfFuel c' => csteps c c'
  end.

Definition good_op (c : context) (o : op_outcome) : Prop :=
  match o with
  | OpDone _ _ _ c' => csteps c c' /\ state c' = Running
  | OpFailed e _ _ _ c' => csteps c c' /\ agree e c'
  | OpPanicked c' => csteps c c'
  | OpOutOfFuel c' => csteps c c'
  end.

Definition good_run (run : fid -> nat -> frame -> G -> context -> outcome) : Prop :=
  forall f b fr g c, state c = Running -> good_outcome c (run f b fr g c).

Lemma good_op_trans : forall c1 c2 o, csteps c1 c2 -> good_op c2 o -> good_op c1 o.
Proof.
  intros c1 c2 [] H; simpl; intuition; eapply csteps_trans; eauto.
Qed.

Lemma good_outcome_trans : forall c1 c2 o, csteps c1 c2 -> good_outcome c2 o -> good_outcome c1 o.
Proof.
  intros c1 c2 [] H; simpl; intuition; eapply csteps_trans; eauto.
Qed.

Lemma leave_good : forall c c' n o d, csteps c c' ->
  good_op (truncate n (set_depth c' d)) o -> good_op c o.
Proof.
  intros. eapply good_op_trans; [|eassumption]. apply leave_csteps. assumption.
Qed.

Lemma enter_steps : forall c c' d, csteps (set_depth c d) c' -> csteps c c'.
Proof. intros. eapply csteps_trans; [apply csteps_one, S_set_depth|eassumption]. Qed.

Lemma run_drive_good : forall run d, good_run run ->
  forall g0 l0 ps c, state c = Running -> good_op c (run_drive m run d g0 l0 ps c).
Proof.
  intros run d GR.
  induction d as [g l|f g l| |k IH|k IH|k IH|k IH|n k IH|f args g ok IHo fail IHf|i d IH
                 |r f args g ok IHo fail IHf|r g ok IHo fail IHf];
    intros g0 l0 ps c R; cbn [run_drive].
  - split; [apply CS_refl|auto].
  - split; [apply CS_refl|exact R].
  - apply CS_refl.
  - pose proof (check_fuel_ok c R) as H. destruct (check_fuel c) as [[e|] c']; simpl.
    + split; apply H.
    + eapply good_op_trans; [apply H|apply IH, H].
  - pose proof (check_depth_ok c R) as H. destruct (check_call_depth c) as [[e|] c']; simpl.
    + split; apply H.
    + eapply good_op_trans; [apply H|apply IH, H].
  - pose proof (alloc_ok c R) as H. destruct (alloc_cell c) as [[e|i] c']; simpl.
    + split; apply H.
    + eapply good_op_trans; [apply H|apply IH, H].
  - apply IH, R.
  - eapply good_op_trans; [apply csteps_one, (S_truncate c n)|apply IH, R].
  - destruct (body m f) as [fn|].
    + specialize (GR f entry (Frame args []) g (set_depth c (S (call_depth c))) R).
      destruct (run f entry (Frame args []) g (set_depth c (S (call_depth c))))
        as [g' c'|y b fr g' c'|e g' c'|c'|c']; simpl in GR.
      * destruct GR as [H1 H2]. apply enter_steps in H1.
        eapply leave_good; [exact H1|apply IHo, H2].
      * simpl. eapply enter_steps, GR.
      * destruct GR as [H1 H2]. apply enter_steps in H1. destruct e.
        -- eapply leave_good; [exact H1|apply IHf, H2].
        -- split; [apply leave_csteps, H1|exact H2].
        -- split; [apply leave_csteps, H1|exact H2].
      * simpl. eapply enter_steps, GR.
      * simpl. eapply enter_steps, GR.
    + destruct (native m f args g); [apply IHo, R|apply IHf, R|apply CS_refl].
  - specialize (IH g0 l0 ps c R). destruct (run_drive m run d g0 l0 ps c)
      as [g l ps' c'|e g l ps' c'|c'|c']; cbn [good_op] in IH |- *; auto.
    destruct IH as [H1 H2].
    destruct (poison_agree i e c' H2) as (e' & c'' & -> & H3 & H4 & _).
    split; [eapply csteps_trans; eauto|exact H4].
  - destruct (body m f) as [fn|]; [|apply CS_refl].
    specialize (GR f entry (Frame args []) g (set_depth c (S (call_depth c))) R).
    destruct (run f entry (Frame args []) g (set_depth c (S (call_depth c))))
      as [g' c'|y b fr g' c'|e g' c'|c'|c']; simpl in GR.
    + simpl. eapply enter_steps, GR.
    + destruct GR as [H1 H2]. apply enter_steps in H1.
      eapply good_op_trans; [exact H1|apply IHo, H2].
    + destruct GR as [H1 H2]. apply enter_steps in H1. destruct e.
      * eapply leave_good; [exact H1|apply IHf, H2].
      * split; [apply leave_csteps, H1|exact H2].
      * split; [apply leave_csteps, H1|exact H2].
    + simpl. eapply enter_steps, GR.
    + simpl. eapply enter_steps, GR.
  - destruct (take_projection m r ps) as [[[f b fr top] ps']|]; [|apply CS_refl].
    specialize (GR f b fr g c R).
    destruct (run f b fr g c) as [g' c'|y b' fr' g' c'|e g' c'|c'|c']; simpl in GR.
    + destruct GR as [H1 H2]. eapply leave_good; [exact H1|apply IHo, H2].
    + apply GR.
    + destruct GR as [H1 H2]. destruct e.
      * eapply leave_good; [exact H1|apply IHf, H2].
      * split; [apply leave_csteps, H1|exact H2].
      * split; [apply leave_csteps, H1|exact H2].
    + apply GR.
    + apply GR.
Qed.

Lemma exec_operation_good : forall run key o g l ps c, good_run run -> state c = Running ->
  good_op c (exec_operation m run key o g l ps c).
Proof.
  intros. unfold exec_operation. eapply good_op_trans; [apply csteps_one, S_op; eassumption|].
  apply run_drive_good; auto.
Qed.

(** Reclaiming frames only changes the depth and the number of cells. *)
Fixpoint discard_frame_ok (fr : frame) : forall c,
  match discard_frame m fr c with
  | Some c' => csteps c c' /\ state c' = state c
  | None => True
  end.
Proof.
  destruct fr as [l ps]. simpl. induction ps as [|[r [f b fr' top]] q IH]; intros c.
  - split; [apply CS_refl|reflexivity].
  - simpl. pose proof (discard_frame_ok fr' c) as H.
    destruct (discard_frame m fr' c) as [c'|]; auto.
    destruct (call_depth c') as [|d]; auto.
    specialize (IH (truncate top (set_depth c' d))).
    match goal with |- context [match ?x with Some _ => _ | None => _ end] => destruct x as [c2|] end; auto.
    destruct H as [H1 H2], IH as [H3 H4]. split.
    + eapply csteps_trans; [apply leave_csteps, H1|exact H3].
    + rewrite H4. exact H2.
Qed.

Lemma poisoned_exit_good : forall pending e fr g c, agree e c -> 
  (is_poisoning e = true \/ pending <> None) ->
  good_outcome c (poisoned_exit m pending e fr g c).
Proof.
  intros pending e fr g c A NP. unfold poisoned_exit. destruct pending as [i|].
  - destruct (poison_agree i e c A) as (e' & c' & -> & H3 & H4 & _).
    pose proof (discard_frame_ok fr c') as H. destruct (discard_frame m fr c') as [c2|]; simpl.
    + destruct H. split; [eapply csteps_trans; eauto|]. unfold agree in *. congruence.
    + exact H3.
  - pose proof (discard_frame_ok fr c) as H. destruct (discard_frame m fr c) as [c2|]; simpl.
    + destruct H. split; auto. unfold agree in *. congruence.
    + apply CS_refl.
Qed.

Lemma run_operations_good : forall run key pending ops, good_run run ->
  forall g l ps c, state c = Running ->
  match run_operations m run key pending ops g l ps c with
  | BDone _ _ _ c' => csteps c c' /\ state c' = Running
  | BExit o => good_outcome c o
  end.
Proof.
  intros run key pending ops GR. induction ops as [|o ops IH]; intros g l ps c R; cbn [run_operations].
  - split; [apply CS_refl|auto].
  - pose proof (exec_operation_good run key o g l ps c GR R) as H.
    destruct (exec_operation m run key o g l ps c) as [g' l' ps' c'|e g' l' ps' c'|c'|c']; simpl in H.
    + destruct H as [H1 H2]. specialize (IH g' l' ps' c' H2).
      destruct (run_operations m run key pending ops g' l' ps' c') as [g2 l2 ps2 c2|o2].
      * destruct IH. split; auto. eapply csteps_trans; eauto.
      * eapply good_outcome_trans; eauto.
    + destruct H as [H1 H2]. destruct (is_poisoning e) eqn:P.
      * eapply good_outcome_trans; [exact H1|]. apply poisoned_exit_good; auto.
      * exact H1.
    + exact H.
    + exact H.
Qed.

Lemma run_loop_good : forall n key b pending cf fr g c, state c = Running ->
  good_outcome c (run_loop m n key b pending cf fr g c).
Proof.
  induction n as [|n IH]; intros key b pending cf fr g c R; cbn [run_loop]; [apply CS_refl|].
  destruct (body m key) as [fn|]; [|apply CS_refl].
  destruct (nth_error fn b) as [blk|]; [|apply CS_refl].
  destruct fr as [l ps].
  assert (GR : good_run (fun f b fr g c => run_loop m n f b None None fr g c)).
  { intros f b' fr' g' c' R'. apply IH, R'. }
  pose proof (run_operations_good _ key pending (operations blk) GR g l ps c R) as H.
  destruct (run_operations m _ key pending (operations blk) g l ps c) as [g1 l1 ps1 c1|o]; [|exact H].
  destruct H as [H1 H2].
  eapply good_outcome_trans; [exact H1|]. clear c R H1.
  destruct (term blk) as [t|q t e|o t e|p resume| | |].
  - apply IH, H2.
  - destruct (condition m q g1 l1); [apply IH, H2|apply CS_refl].
  - pose proof (exec_operation_good _ key o g1 l1 ps1 c1 GR H2) as H.
    destruct (exec_operation m _ key o g1 l1 ps1 c1) as [g' l' ps' c'|err g' l' ps' c'|c'|c']; simpl in H.
    + destruct H as [H3 H4]. eapply good_outcome_trans; [exact H3|]. apply IH, H4.
    + destruct H as [H3 H4]. destruct err as [f|k i|i d].
      * eapply good_outcome_trans; [exact H3|]. simpl in H4. unfold agree in H4. simpl in H4.
        destruct pending as [f0|]; [destruct cf; [apply CS_refl|]|]; apply IH, H4.
      * eapply good_outcome_trans; [exact H3|]. apply poisoned_exit_good; auto.
      * eapply good_outcome_trans; [exact H3|]. apply poisoned_exit_good; auto.
    + exact H.
    + exact H.
  - destruct pending; [apply CS_refl|]. destruct (yielded m p g1 l1); simpl; auto using CS_refl.
  - destruct pending; [apply CS_refl|]. destruct ps1; simpl; auto using CS_refl.
  - destruct pending; [|apply CS_refl]. destruct cf; [apply CS_refl|].
    destruct ps1; [|apply CS_refl]. split; [apply CS_refl|exact H2].
  - destruct pending; [|apply CS_refl]. destruct cf; [|apply CS_refl].
    apply poisoned_exit_good; [exact H2|right; discriminate].
Qed.

Lemma run_entry_good : forall n f args k g c, state c = Running ->
  good_outcome c (run_entry m n f args k g c).
Proof.
  intros n f args k g c R. unfold run_entry, ensure_runnable. rewrite R.
  destruct (cell_limit c <? cells c + k) eqn:E.
  - simpl. split; [apply csteps_one, S_poison_cell, R|reflexivity].
  - apply Nat.ltb_ge in E.
    match goal with |- context [run_loop m n f entry None None (Frame args []) g ?c2] =>
      pose proof (run_loop_good n f entry None None (Frame args []) g c2 R) as H; set (c1 := c2) in * end.
    assert (H0 : csteps c c1).
    { unfold c1. eapply CS_step; [apply csteps_one, S_cells, E|apply S_set_depth]. }
    destruct (run_loop m n f entry None None (Frame args []) g c1) as [g' c'|y b fr g' c'|e g' c'|c'|c'];
      simpl in H |- *.
    + destruct H. split; auto. eapply CS_step; [|apply S_truncate]. apply leave_csteps.
      eapply csteps_trans; eauto.
    + destruct H. eapply csteps_trans; eauto.
    + destruct H. split; auto. eapply CS_step; [|apply S_truncate]. apply leave_csteps.
      eapply csteps_trans; eauto.
    + eapply csteps_trans; eauto.
    + eapply csteps_trans; eauto.
Qed.

Lemma run_entry_poisoned : forall n f args k g c e, state c = state_after e -> is_poisoning e = true ->
  run_entry m n f args k g c = Failed e g c.
Proof.
  intros n f args k g c e S P. unfold run_entry, ensure_runnable. rewrite S.
  destruct e; simpl; try discriminate; reflexivity.
Qed.

Lemma run_history_steps : forall n reqs g c,
  csteps c (snd (run_history m n reqs g c)).
Proof.
  intros n reqs. induction reqs as [|[[f args] k] q IH]; intros g c; cbn [run_history]; [apply CS_refl|].
  destruct (state c) eqn:R.
  - pose proof (run_entry_good n f args k g c R) as H.
    destruct (run_entry m n f args k g c) as [g' c'|y b fr g' c'|e g' c'|c'|c']; simpl in H.
    + destruct H. specialize (IH g' c'). destruct (run_history m n q g' c'). simpl in *.
      eapply csteps_trans; eauto.
    + apply H.
    + destruct H. specialize (IH g' c'). destruct (run_history m n q g' c'). simpl in *.
      eapply csteps_trans; eauto.
    + exact H.
    + exact H.
  - assert (exists e, state c = state_after e /\ is_poisoning e = true) as (e & S & P).
    { destruct r as [k0 i|i d]; [exists (SandboxViolation k0 i)|exists (FailureDuringCleanup i d)]; auto. }
    rewrite (run_entry_poisoned n f args k g c e S P).
    specialize (IH g c). destruct (run_history m n q g c). exact IH.
Qed.

(** ** Consequences for histories *)

Lemma history_poisoned : forall n reqs g c e, state c = state_after e -> is_poisoning e = true ->
  run_history m n reqs g c = (repeat (Raised e) (length reqs), c).
Proof.
  intros n reqs g c e S P. induction reqs as [|[[f args] k] q IH]; cbn [run_history]; auto.
  rewrite (run_entry_poisoned n f args k g c e S P). rewrite IH. reflexivity.
Qed.

Lemma poisoned_for_good : forall n reqs g c rs c' pre e post, 
  run_history m n reqs g c = (rs, c') -> rs = pre ++ Raised e :: post -> is_poisoning e = true ->
  state c = Running ->
  (forall r, In r post -> r = Raised e) /\ state c' = state_after e.
Proof.
  intros n reqs. induction reqs as [|[[f args] k] q IH]; intros g c rs c' pre e post H E P R.
  - simpl in H. inversion H. subst. destruct pre; discriminate.
  - cbn [run_history] in H. pose proof (run_entry_good n f args k g c R) as GO.
    destruct (run_entry m n f args k g c) as [g' c1|y b fr g' c1|e1 g' c1|c1|c1]; simpl in GO.
    + destruct (run_history m n q g' c1) as [rs1 c2] eqn:E1. inversion H; subst rs c2.
      destruct pre as [|r0 pre]; [discriminate|]. injection H1 as _ H1.
      destruct GO. eapply IH; eauto.
    + inversion H. subst. destruct pre as [|r0 [|]]; discriminate.
    + destruct (run_history m n q g' c1) as [rs1 c2] eqn:E1. inversion H; subst rs c2.
      destruct GO as [GO1 GO2]. unfold agree in GO2.
      destruct (is_poisoning e1) eqn:P1.
      * rewrite (history_poisoned n q g' c1 e1 GO2 P1) in E1. inversion E1; subst rs1 c'.
        assert (AL : forall r, In r (Raised e1 :: repeat (Raised e1) (length q)) -> r = Raised e1).
        { intros r [I|I]; [auto|]. revert I. apply repeat_spec. }
        rewrite H1 in AL.
        assert (EE : Raised e = Raised e1) by (apply AL, in_or_app; right; left; reflexivity).
        injection EE as ->.
        split; [|exact GO2]. intros r I. apply AL, in_or_app. right; right; exact I.
      * destruct e1; try discriminate. simpl in GO2.
        destruct pre as [|r0 pre]; injection H1; intros.
        -- subst e. discriminate.
        -- eapply IH; eauto.
    + inversion H. subst. destruct pre as [|r0 [|]]; discriminate.
    + inversion H. subst. destruct pre as [|r0 [|]]; discriminate.
Qed.

Lemma running_without_poisoning : forall n reqs g c rs c',
  run_history m n reqs g c = (rs, c') -> state c = Running ->
  (forall r, In r rs -> answered r /\ ~ poisoning r) -> state c' = Running.
Proof.
  intros n reqs. induction reqs as [|[[f args] k] q IH]; intros g c rs c' H R N.
  - inversion H. subst. auto.
  - cbn [run_history] in H. pose proof (run_entry_good n f args k g c R) as GO.
    destruct (run_entry m n f args k g c) as [g' c1|y b fr g' c1|e1 g' c1|c1|c1]; simpl in GO.
    + destruct (run_history m n q g' c1) as [rs1 c2] eqn:E1. inversion H; subst rs c2.
      destruct GO. eapply IH; eauto. intros r I. apply N. right; auto.
    + inversion H. subst. destruct (N Crashed) as [F _]; [left; auto|destruct F].
    + destruct (run_history m n q g' c1) as [rs1 c2] eqn:E1. inversion H; subst rs c2.
      destruct GO as [_ GO]. unfold agree in GO. destruct e1.
      * eapply IH; eauto. intros r I. apply N. right; auto.
      * exfalso. destruct (N (Raised (SandboxViolation k0 interrupted))) as [_ F]; [left; auto|apply F; exact I].
      * exfalso. destruct (N (Raised (FailureDuringCleanup initial during))) as [_ F]; [left; auto|apply F; exact I].
    + inversion H. subst. destruct (N Crashed) as [F _]; [left; auto|destruct F].
    + inversion H. subst. destruct (N Unfinished) as [F _]; [left; auto|destruct F].
Qed.

End Interp.

(** ** Consequences of the steps *)

Lemma csteps_limits : forall c c', csteps c c' ->
  call_depth_limit c' = call_depth_limit c /\ cell_limit c' = cell_limit c.
Proof.
  intros c c' H. induction H as [|c1 c2 c3 _ [IH1 IH2] S]; auto.
  rewrite <- IH1, <- IH2. destruct S; auto.
Qed.

Lemma csteps_fuel : forall k c c', csteps c c' ->
  fuel_remaining c = Some (k - fuel_checks (trace c)) -> fuel_checks (trace c) <= k ->
  fuel_remaining c' = Some (k - fuel_checks (trace c')) /\ fuel_checks (trace c') <= k.
Proof.
  intros k c c' H F0 B0. induction H as [|c1 c2 c3 _ IH S]; auto.
  destruct (IH F0 B0) as [F B]. clear IH.
  destruct S; cbn; auto.
  rewrite F in H. injection H as H. split; [f_equal; lia|lia].
Qed.

(** Without a fuel limit no fuel violation happens. *)
Lemma csteps_no_fuel : forall c c', csteps c c' ->
  fuel_remaining c = None ->
  (forall i, state c <> Poisoned (PoisonedBySandbox FuelExhausted i)) ->
  (forall i, ~ In (EvPoison (PoisonedBySandbox FuelExhausted i)) (trace c)) ->
  fuel_remaining c' = None
  /\ (forall i, state c' <> Poisoned (PoisonedBySandbox FuelExhausted i))
  /\ (forall i, ~ In (EvPoison (PoisonedBySandbox FuelExhausted i)) (trace c')).
Proof.
  intros c c' H F0 S0 T0. induction H as [|c1 c2 c3 _ IH S]; auto.
  destruct (IH F0 S0 T0) as (F & ST & T). clear IH F0 S0 T0.
  destruct S; cbn; try (repeat split; auto; fail);
    try (repeat split; auto; intros i [E|I]; [discriminate E|eapply T, I]; fail);
    try congruence.
  - repeat split; auto; try discriminate. intros i [E|I]; [discriminate E|eapply T, I].
  - repeat split; auto; try discriminate. intros i [E|I]; [discriminate E|eapply T, I].
  - repeat split; auto; try discriminate. intros i' [E|I]; [discriminate E|eapply T, I].
  - repeat split; auto.
    + intros i' E. injection E as -> _. eapply ST, H.
    + intros i' [E|I]; [injection E as -> _; eapply ST, H|eapply T, I].
  - repeat split; auto.
    + intros i' E. injection E as ->. eapply ST, H.
    + intros i' [E|I]; [injection E as ->; eapply ST, H|eapply T, I].
Qed.

Lemma csteps_depth : forall c c' d, csteps c c' ->
  call_depth_limit c = d -> (forall x, In (EvDepth x) (trace c) -> x < d) ->
  forall x, In (EvDepth x) (trace c') -> x < d.
Proof.
  intros c c' d H LD T0. induction H as [|c1 c2 c3 HS IH S]; auto.
  assert (LD2 : call_depth_limit c2 = d).
  { destruct (csteps_limits c1 c2 HS) as [E _]. congruence. }
  specialize (IH LD T0).
  destruct S; cbn; intros x I; try (destruct I as [E|I]; [discriminate E|]); eauto.
  destruct I as [E|I]; eauto. injection E as <-. congruence.
Qed.

Lemma csteps_cells : forall c c' d, csteps c c' ->
  cell_limit c = d -> (forall x, In (EvCell x) (trace c) -> x < d) -> cells c <= d ->
  (forall x, In (EvCell x) (trace c') -> x < d) /\ cells c' <= d.
Proof.
  intros c c' d H LD T0 C0. induction H as [|c1 c2 c3 HS IH S]; auto.
  assert (LD2 : cell_limit c2 = d).
  { destruct (csteps_limits c1 c2 HS) as [_ E]. congruence. }
  destruct (IH LD T0 C0) as [T C]. clear IH.
  destruct S; cbn; (split; [intros x I; try (destruct I as [E|I]; [discriminate E|]); eauto|]);
    try lia.
  destruct I as [E|I]; eauto. injection E as <-. congruence.
Qed.

(** After poisoning nothing but reclamation and a richer cause. *)
Definition quiet (e : event) : Prop :=
  match e with EvPoison _ => True | _ => False end.

Definition same_cause (a b : poison_reason) : Prop :=
  match a, b with
  | PoisonedBySandbox k _, PoisonedBySandbox k' _ => k = k'
  | PoisonedByCleanup i d, PoisonedByCleanup i' d' => i = i' /\ d = d'
  | _, _ => False
  end.

Lemma csteps_trace : forall c c', csteps c c' -> exists late, trace c' = late ++ trace c.
Proof.
  intros c c' H. induction H as [|c1 c2 c3 HS [late IH] S].
  - exists []. reflexivity.
  - destruct S; cbn; rewrite IH; try (exists late; reflexivity);
      (eexists (_ :: late); reflexivity).
Qed.

Lemma csteps_after_poison : forall c c', csteps c c' -> 
  (state c <> Running -> forall late, trace c' = late ++ trace c -> Forall quiet late) /\
  (state c <> Running -> state c' <> Running).
Proof.
  intros c c' H. induction H as [|c1 c2 c3 HS IH S].
  - split; auto. intros _ late E. destruct late; auto.
    apply (f_equal (@length _)) in E. rewrite app_length in E. simpl in E. lia.
  - destruct IH as [IH1 IH2].
    destruct (csteps_trace _ _ HS) as [late0 E0].
    assert (K : forall late e, trace c3 = e :: trace c2 -> trace c3 = late ++ trace c1 ->
                late = e :: late0).
    { intros late e A B. rewrite A, E0 in B. 
      change (e :: late0 ++ trace c1) with ((e :: late0) ++ trace c1) in B.
      apply app_inv_tail in B. auto. }
    assert (K0 : forall late, trace c3 = trace c2 -> trace c3 = late ++ trace c1 -> late = late0).
    { intros late A B. rewrite A, E0 in B. apply app_inv_tail in B. auto. }
    split.
    + intros P late E. specialize (IH1 P late0 E0). specialize (IH2 P).
      destruct S; try congruence;
        try (rewrite (K0 late eq_refl E); assumption);
        try (rewrite (K late _ eq_refl E); constructor; [exact I|assumption]).
    + intros P. specialize (IH2 P). destruct S; cbn in *; try congruence; try discriminate.
Qed.

Lemma csteps_poisoned_state : forall c c', csteps c c' ->
  (forall r, In (EvPoison r) (trace c) -> state c <> Running) ->
  forall r, In (EvPoison r) (trace c') -> state c' <> Running.
Proof.
  intros c c' H T0. induction H as [|c1 c2 c3 HS IH S]; auto. specialize (IH T0).
  destruct S; cbn; intros r0 I; try discriminate;
    try (destruct I as [E|I]; [discriminate E|]); eauto.
Qed.

Lemma csteps_quiet : forall c c', csteps c c' -> state c = Running -> trace c = [] ->
  forall late r early, trace c' = late ++ EvPoison r :: early -> Forall quiet late.
Proof.
  intros c c' H R0 T0. induction H as [|c1 c2 c3 HS IH S].
  - intros late r early E. rewrite T0 in E. destruct late; discriminate.
  - specialize (IH R0 T0).
    assert (PS : forall r, In (EvPoison r) (trace c2) -> state c2 <> Running).
    { eapply csteps_poisoned_state; [exact HS|]. rewrite T0. intros r []. }
    assert (K : forall e, trace c3 = e :: trace c2 -> (state c2 = Running \/ quiet e) ->
      forall late r early, trace c3 = late ++ EvPoison r :: early -> Forall quiet late).
    { intros e E Q late r early E2. rewrite E in E2. destruct late as [|e' late]; [constructor|].
      injection E2 as <- E2. constructor; [|eapply IH; eauto].
      destruct Q as [Q|Q]; auto. exfalso. eapply PS; [|exact Q]. rewrite E2.
      apply in_or_app; right; left; reflexivity. }
    destruct S; try (intros late r0 early E; cbn in E; eapply IH; eassumption);
      try (eapply K; [reflexivity|left; assumption]);
      try (eapply K; [reflexivity|right; exact I]).
Qed.

Lemma csteps_fuel_spent : forall k c c', csteps c c' ->
  fuel_remaining c = Some k -> state c = Running -> trace c = [] ->
  (forall i, state c' = Poisoned (PoisonedBySandbox FuelExhausted i) -> fuel_checks (trace c') = k)
  /\ (forall late i early,
        trace c' = late ++ EvPoison (PoisonedBySandbox FuelExhausted i) :: early ->
        fuel_checks early = k).
Proof.
  intros k c c' H F0 R0 T0. induction H as [|c1 c2 c3 HS IH S].
  - split; [intros i E; congruence|]. intros late i early E. rewrite T0 in E. destruct late; discriminate.
  - destruct (IH F0 R0 T0) as [A B]. clear IH.
    destruct (csteps_fuel k _ _ HS) as [F1 F2].
    { rewrite F0, T0. simpl. f_equal. lia. }
    { rewrite T0. simpl. lia. }
    assert (K : forall e, trace c3 = e :: trace c2 ->
      (forall i, e = EvPoison (PoisonedBySandbox FuelExhausted i) -> fuel_checks (trace c2) = k) ->
      forall late i early,
        trace c3 = late ++ EvPoison (PoisonedBySandbox FuelExhausted i) :: early ->
        fuel_checks early = k).
    { intros e E Q late i early E2. rewrite E in E2. destruct late as [|e' late].
      - injection E2 as E3 E4. subst early. eapply Q, E3.
      - injection E2 as _ E2. eapply B, E2. }
    destruct S; (split; [cbn; try (intros i0 E; try congruence; eauto; fail)|]);
      try (intros late i0 early E; cbn in E; eapply B; eassumption);
      try (eapply K; [reflexivity|]; intros i0 E; discriminate E).
    + intros i E. rewrite H in F1. injection F1 as F1. lia.
    + eapply K; [reflexivity|]. intros i E. rewrite H in F1. injection F1 as F1. lia.
    + intros i0 E. injection E as -> _. eapply A, H.
    + eapply K; [reflexivity|]. intros i0 E. injection E as -> _. eapply A, H.
    + intros i0 E. injection E as ->. eapply A, H.
    + eapply K; [reflexivity|]. intros i0 E. injection E as ->. eapply A, H.
Qed.

(** ** The call depth is the number of live frames *)
Section Depth.
Variable m : machine.
Notation G := (memory m).
Notation L := (bindings m).
Notation outcome := (outcome (memory m) (bindings m) (place m)).
Notation op_outcome := (op_outcome (memory m) (bindings m)).
Notation frame := (frame (bindings m)).
Notation suspended := (suspended (bindings m)).

(** The suspended frames held by a frame, at any nesting. *)
Fixpoint open_frame (fr : frame) : nat :=
  match fr with
  | Frame _ ps =>
      (fix go (ps : list (nat * suspended)) : nat :=
         match ps with
         | [] => 0
         | (_, Suspended _ _ fr' _) :: q => S (open_frame fr') + go q
         end) ps
  end.

Fixpoint open_list (ps : list (nat * suspended)) : nat :=
  match ps with
  | [] => 0
  | (_, Suspended _ _ fr' _) :: q => S (open_frame fr') + open_list q
  end.

Lemma open_frame_list : forall l ps, open_frame (Frame l ps) = open_list ps.
Proof.
  intros l ps. simpl. induction ps as [|[r [f b fr top]] q IH]; simpl; auto.
Qed.

Fixpoint discard_frame_depth (fr : frame) : forall c, open_frame fr <= call_depth c ->
  exists c', discard_frame m fr c = Some c' /\ call_depth c' = call_depth c - open_frame fr.
Proof.
  destruct fr as [l ps]. simpl. induction ps as [|[r [f b fr' top]] q IH]; intros c H.
  - exists c. split; auto. lia.
  - simpl. simpl in H. destruct (discard_frame_depth fr' c) as (c1 & -> & E1); [lia|].
    destruct (call_depth c1) as [|d] eqn:D; [lia|].
    destruct (IH (truncate top (set_depth c1 d))) as (c2 & -> & E2); [simpl; lia|].
    exists c2. split; auto. rewrite E2. simpl. lia.
Qed.

Definition depth_outcome (d : nat) (o : outcome) : Prop :=
  match o with
  | Completed _ c' => call_depth c' = d
  | YieldedAt _ _ fr _ c' => call_depth c' = d + open_frame fr
  | Failed _ _ c' => call_depth c' = d
  | _ => True
  end.

Definition depth_op (d : nat) (o : op_outcome) : Prop :=
  match o with
  | OpDone _ _ ps c' => call_depth c' = d + open_list ps
  | OpFailed _ _ _ ps c' => call_depth c' = d + open_list ps
  | _ => True
  end.

Definition depth_run (run : fid -> nat -> frame -> G -> context -> outcome) : Prop :=
  forall f b fr g c d, call_depth c = d + open_frame fr -> depth_outcome d (run f b fr g c).

Lemma take_projection_open : forall r ps f b fr top ps',
  take_projection m r ps = Some (Suspended f b fr top, ps') ->
  open_list ps = S (open_frame fr) + open_list ps'.
Proof.
  intros r ps. induction ps as [|[r' s] q IH]; intros f b fr top ps' H; simpl in H; [discriminate|].
  destruct (r =? r').
  - injection H as -> ->. reflexivity.
  - destruct (take_projection m r q) as [[s' q']|] eqn:E; [|discriminate].
    injection H as -> <-. destruct s as [f1 b1 fr1 top1].
    specialize (IH _ _ _ _ _ eq_refl). simpl in *. lia.
Qed.

Lemma poison_depth : forall i e c e' c', poison (SourceFailure i) e c = Some (e', c') ->
  call_depth c' = call_depth c.
Proof.
  intros i [f|k [j|]|a b] c e' c' H; simpl in H; injection H as _ <-; reflexivity.
Qed.

Lemma run_drive_depth : forall run dr, depth_run run ->
  forall g0 l0 ps c d, call_depth c = d + open_list ps ->
  depth_op d (run_drive m run dr g0 l0 ps c).
Proof.
  intros run dr GR.
  induction dr as [g l|f g l| |k IH|k IH|k IH|k IH|n k IH|f args g ok IHo fail IHf|i dr IH
                 |r f args g ok IHo fail IHf|r g ok IHo fail IHf];
    intros g0 l0 ps c d D; cbn [run_drive].
  - exact D.
  - exact D.
  - exact I.
  - unfold check_fuel. destruct (fuel_remaining c) as [[|n]|]; cbn [lift_violation]; [exact D|apply IH, D|apply IH, D].
  - unfold check_call_depth. destruct (_ <=? _); cbn [lift_violation]; [exact D|apply IH, D].
  - unfold alloc_cell. destruct (_ <=? _); cbn; [exact D|apply IH, D].
  - apply IH, D.
  - apply IH, D.
  - destruct (body m f) as [fn|].
    + specialize (GR f entry (Frame args []) g (set_depth c (S (call_depth c))) (S (call_depth c))).
      destruct (run f entry (Frame args []) g (set_depth c (S (call_depth c))))
        as [g' c'|y b fr g' c'|e g' c'|c'|c']; simpl in GR; try exact I.
      * apply IHo. simpl. lia.
      * destruct e; [apply IHf; simpl; lia|simpl; lia|simpl; lia].
    + destruct (native m f args g); [apply IHo, D|apply IHf, D|exact I].
  - specialize (IH g0 l0 ps c d D). destruct (run_drive m run dr g0 l0 ps c)
      as [g l ps' c'|e g l ps' c'|c'|c']; cbn [depth_op] in IH |- *; auto.
    destruct (poison (SourceFailure i) e c') as [[e' c'']|] eqn:E; [|exact I].
    apply poison_depth in E. simpl. congruence.
  - destruct (body m f) as [fn|]; [|exact I].
    specialize (GR f entry (Frame args []) g (set_depth c (S (call_depth c))) (S (call_depth c))).
    destruct (run f entry (Frame args []) g (set_depth c (S (call_depth c))))
      as [g' c'|y b fr g' c'|e g' c'|c'|c']; cbn [depth_outcome] in GR; try exact I.
    + apply IHo. cbn [open_list]. rewrite GR by (simpl; lia). lia.
    + rewrite Nat.add_comm in GR. 
      destruct e; [apply IHf; simpl; rewrite GR by (simpl; lia); lia
                  |simpl; rewrite GR by (simpl; lia); lia|simpl; rewrite GR by (simpl; lia); lia].
  - destruct (take_projection m r ps) as [[[f b fr top] ps']|] eqn:T; [|exact I].
    apply take_projection_open in T.
    specialize (GR f b fr g c (S (d + open_list ps'))).
    destruct (run f b fr g c) as [g' c'|y b' fr' g' c'|e g' c'|c'|c']; cbn [depth_outcome] in GR; try exact I.
    + apply IHo. simpl. rewrite GR by lia. lia.
    + destruct e; [apply IHf; simpl; rewrite GR by lia; lia|simpl; rewrite GR by lia; lia
                  |simpl; rewrite GR by lia; lia].
Qed.

Lemma exec_operation_depth : forall run key o g l ps c d, depth_run run ->
  call_depth c = d + open_list ps -> depth_op d (exec_operation m run key o g l ps c).
Proof. intros. apply run_drive_depth; auto. Qed.

Lemma poisoned_exit_depth : forall pending e l ps g c d, call_depth c = d + open_list ps ->
  depth_outcome d (poisoned_exit m pending e (Frame l ps) g c).
Proof.
  intros pending e l ps g c d D. unfold poisoned_exit.
  assert (K : forall c' e', call_depth c' = d + open_list ps ->
    depth_outcome d match discard_frame m (Frame l ps) c' with
                    | Some c'' => Failed e' g c''
                    | None => Panicked c'
                    end).
  { intros c' e' D'. destruct (discard_frame_depth (Frame l ps) c') as (c2 & E & E2).
    - rewrite open_frame_list. lia.
    - rewrite E. rewrite open_frame_list in E2. simpl. lia. }
  destruct pending as [i|]; [|apply K, D].
  destruct (poison (SourceFailure i) e c) as [[e' c']|] eqn:E; [|exact I].
  apply K. apply poison_depth in E. congruence.
Qed.

Lemma run_operations_depth : forall run key pending ops, depth_run run ->
  forall g l ps c d, call_depth c = d + open_list ps ->
  match run_operations m run key pending ops g l ps c with
  | BDone _ _ ps' c' => call_depth c' = d + open_list ps'
  | BExit o => depth_outcome d o
  end.
Proof.
  intros run key pending ops GR. induction ops as [|o ops IH]; intros g l ps c d D; cbn [run_operations].
  - exact D.
  - pose proof (exec_operation_depth run key o g l ps c d GR D) as H.
    destruct (exec_operation m run key o g l ps c) as [g' l' ps' c'|e g' l' ps' c'|c'|c'];
      cbn [depth_op] in H; try exact I.
    + apply IH, H.
    + destruct (is_poisoning e); [|exact I]. apply poisoned_exit_depth, H.
Qed.

Lemma run_loop_depth : forall n key b pending cf fr g c d, call_depth c = d + open_frame fr ->
  depth_outcome d (run_loop m n key b pending cf fr g c).
Proof.
  induction n as [|n IH]; intros key b pending cf fr g c d D; cbn [run_loop]; [exact I|].
  destruct (body m key) as [fn|]; [|exact I].
  destruct (nth_error fn b) as [blk|]; [|exact I].
  destruct fr as [l ps]. rewrite open_frame_list in D.
  assert (GR : depth_run (fun f b fr g c => run_loop m n f b None None fr g c)).
  { intros f b' fr' g' c' d' D'. apply IH, D'. }
  pose proof (run_operations_depth _ key pending (operations blk) GR g l ps c d D) as H.
  destruct (run_operations m _ key pending (operations blk) g l ps c) as [g1 l1 ps1 c1|o]; [|exact H].
  assert (NX : forall t pd cf' l2 ps2 g2 c2, call_depth c2 = d + open_list ps2 ->
     depth_outcome d (run_loop m n key t pd cf' (Frame l2 ps2) g2 c2)).
  { intros. apply IH. rewrite open_frame_list. assumption. }
  destruct (term blk) as [t|q t e|o t e|p resume| | |].
  - apply NX, H.
  - destruct (condition m q g1 l1); [apply NX, H|exact I].
  - pose proof (exec_operation_depth _ key o g1 l1 ps1 c1 d GR H) as H2.
    destruct (exec_operation m _ key o g1 l1 ps1 c1) as [g' l' ps' c'|err g' l' ps' c'|c'|c'];
      cbn [depth_op] in H2; try exact I.
    + apply NX, H2.
    + destruct err as [f|k i|i d'].
      * destruct pending as [f0|]; [destruct cf; [exact I|]|]; apply NX, H2.
      * apply poisoned_exit_depth, H2.
      * apply poisoned_exit_depth, H2.
  - destruct pending; [exact I|]. destruct (yielded m p g1 l1); [|exact I].
    cbn [depth_outcome]. rewrite open_frame_list. exact H.
  - destruct pending; [exact I|]. destruct ps1; [|exact I]. simpl in *. lia.
  - destruct pending; [|exact I]. destruct cf; [exact I|].
    destruct ps1; [|exact I]. simpl in *. lia.
  - destruct pending; [|exact I]. destruct cf; [|exact I].
    apply poisoned_exit_depth, H.
Qed.

Lemma run_history_depth : forall n reqs g c rs c',
  run_history m n reqs g c = (rs, c') -> (forall r, In r rs -> answered r) ->
  call_depth c' = call_depth c.
Proof.
  intros n reqs. induction reqs as [|[[f args] k] q IH]; intros g c rs c' H A.
  - inversion H. reflexivity.
  - cbn [run_history] in H.
    assert (E : depth_outcome (call_depth c) (run_entry m n f args k g c)).
    { unfold run_entry. destruct (ensure_runnable c); [reflexivity|].
      destruct (_ <? _); [reflexivity|].
      match goal with |- context [run_loop m n f entry None None (Frame args []) g ?c2] =>
        pose proof (run_loop_depth n f entry None None (Frame args []) g c2 (S (call_depth c))) as D end.
      destruct (run_loop _ _ _ _ _ _ _ _ _); cbn [depth_outcome] in D |- *; auto;
        simpl; rewrite D by (simpl; lia); lia. }
    destruct (run_entry m n f args k g c) as [g' c1|y b fr g' c1|e1 g' c1|c1|c1];
      cbn [depth_outcome] in E.
    + destruct (run_history m n q g' c1) as [rs1 c2] eqn:E1. inversion H; subst rs c2.
      rewrite <- E. eapply IH; eauto. intros r I. apply A. right; auto.
    + inversion H. subst. destruct (A Crashed). left; auto.
    + destruct (run_history m n q g' c1) as [rs1 c2] eqn:E1. inversion H; subst rs c2.
      rewrite <- E. eapply IH; eauto. intros r I. apply A. right; auto.
    + inversion H. subst. destruct (A Crashed). left; auto.
    + inversion H. subst. destruct (A Unfinished). left; auto.
Qed.

End Depth.

(** ** The theorems about histories of a new executor *)
Lemma history_fuel : forall m n reqs g k d cl,
  let c := snd (run_history m n reqs g (new_context (Some k) d cl)) in
  fuel_checks (trace c) <= k /\ fuel_remaining c = Some (k - fuel_checks (trace c)).
Proof.
  intros m n reqs g k d cl c.
  destruct (csteps_fuel k _ _ (run_history_steps m n reqs g (new_context (Some k) d cl))).
  - simpl. f_equal. lia.
  - simpl. lia.
  - split; assumption.
Qed.

Lemma history_fuel_spent : forall m n reqs g k d cl late i early,
  trace (snd (run_history m n reqs g (new_context (Some k) d cl)))
    = late ++ EvPoison (PoisonedBySandbox FuelExhausted i) :: early ->
  fuel_checks early = k.
Proof.
  intros m n reqs g k d cl late i early.
  eapply (csteps_fuel_spent k _ _ (run_history_steps m n reqs g (new_context (Some k) d cl)));
    reflexivity.
Qed.

Lemma history_no_fuel : forall m n reqs g d cl i,
  ~ In (EvPoison (PoisonedBySandbox FuelExhausted i))
       (trace (snd (run_history m n reqs g (new_context None d cl)))).
Proof.
  intros m n reqs g d cl i.
  eapply (csteps_no_fuel _ _ (run_history_steps m n reqs g (new_context None d cl)));
    [reflexivity|discriminate|intros j []].
Qed.

Lemma history_limits : forall m n reqs g fuel d cl,
  let c := snd (run_history m n reqs g (new_context fuel d cl)) in
  (forall x, In (EvDepth x) (trace c) -> x < d)
  /\ (forall x, In (EvCell x) (trace c) -> x < cl)
  /\ cells c <= cl.
Proof.
  intros m n reqs g fuel d cl c.
  pose proof (run_history_steps m n reqs g (new_context fuel d cl)) as H.
  destruct (csteps_cells _ _ cl H) as [A B]; [reflexivity|intros x []|simpl; lia|].
  repeat split; auto.
  eapply csteps_depth; [exact H|reflexivity|intros x []].
Qed.

Lemma checks_exact : forall c,
  (fst (check_fuel c) = None <-> fuel_remaining c <> Some 0)
  /\ (fst (check_call_depth c) = None <-> call_depth c < call_depth_limit c)
  /\ ((exists i, fst (alloc_cell c) = inr i) <-> cells c < cell_limit c).
Proof.
  intros c. unfold check_fuel, check_call_depth, alloc_cell. repeat split.
  - destruct (fuel_remaining c) as [[|n]|]; simpl; congruence.
  - destruct (fuel_remaining c) as [[|n]|]; simpl; congruence.
  - destruct (call_depth_limit c <=? call_depth c) eqn:E; [discriminate|]. apply Nat.leb_gt in E. auto.
  - intros H. apply Nat.leb_gt in H. rewrite H. reflexivity.
  - destruct (cell_limit c <=? cells c) eqn:E; intros [i H]; [discriminate|]. apply Nat.leb_gt in E. auto.
  - intros H. apply Nat.leb_gt in H. rewrite H. eexists. reflexivity.
Qed.

Lemma history_depth : forall m n reqs g fuel d cl rs c,
  run_history m n reqs g (new_context fuel d cl) = (rs, c) ->
  (forall r, In r rs -> answered r) ->
  call_depth c = 0.
Proof. intros. erewrite run_history_depth by eauto. reflexivity. Qed.

Lemma history_poisoned_for_good : forall m n reqs g fuel d cl rs c pre e post,
  run_history m n reqs g (new_context fuel d cl) = (rs, c) ->
  rs = pre ++ Raised e :: post -> poisoning (Raised e) ->
  (forall r, In r post -> r = Raised e) /\ state c = state_after e.
Proof.
  intros m n reqs g fuel d cl rs c pre e post H E P. eapply poisoned_for_good; eauto.
  destruct e; [destruct P|reflexivity|reflexivity].
Qed.

Lemma history_usable : forall m n reqs g fuel d cl rs c,
  run_history m n reqs g (new_context fuel d cl) = (rs, c) ->
  (forall r, In r rs -> answered r /\ ~ poisoning r) ->
  state c = Running.
Proof. intros. eapply running_without_poisoning; eauto. Qed.

Lemma history_quiet : forall m n reqs g fuel d cl late r early ev,
  trace (snd (run_history m n reqs g (new_context fuel d cl))) = late ++ EvPoison r :: early ->
  In ev late -> exists r', ev = EvPoison r'.
Proof.
  intros m n reqs g fuel d cl late r early ev E I.
  assert (Q : Forall quiet late).
  { eapply (csteps_quiet _ _ (run_history_steps m n reqs g (new_context fuel d cl))); eauto. }
  rewrite Forall_forall in Q. specialize (Q ev I). destruct ev; try destruct Q. eauto.
Qed.
