(** Functions whose calls unfold to a finite tree return. *)
From Coq Require Import List Arith Bool Lia.
From Verif Require Import MirModel SandboxSpec SandboxProofs TermSpec TermProofs WillReturnSpec.
Import ListNotations.

Section Run.
Variable m : machine.
Notation G := (memory m).
Notation L := (bindings m).
Notation outcome := (outcome (memory m) (bindings m) (place m)).
Notation drive := (drive (memory m) (bindings m) (place m)).
Notation run_at := (run_at m).
Notation out := (out m).
Notation op_out := (op_out m).
Notation bout := (bout m).

Definition ends (o : outcome) : Prop :=
  match o with
  | OutOfFuel _ | YieldedAt _ _ _ _ _ => False
  | Completed _ _ | Failed _ _ _ | Panicked _ => True
  end.

Lemma ends_not_out : forall o, ends o -> ~ out o.
Proof. intros [] H; simpl in *; auto. Qed.

(** Interactions that only call functions that return. *)
Fixpoint direct (d : drive) : Prop :=
  match d with
  | DDone _ _ | DRaise _ _ _ | DPanic => True
  | DCheckFuel k | DCheckDepth k | DTruncate _ k => direct k
  | DAlloc k | DMark k => forall i, direct (k i)
  | DCall f _ _ ok fail => call_returns m f /\ (forall g, direct (ok g)) /\ (forall e g, direct (fail e g))
  | DCleanup _ _ | DProject _ _ _ _ _ _ | DEndProject _ _ _ _ => False
  end.

Lemma drive_returns : forall d, direct d -> forall g0 l0 ps c,
  exists n, ~ op_out (run_drive m (run_at n) d g0 l0 ps c).
Proof.
  induction d as [g l|e g l| |q IH|q IH|q IH|q IH|t q IH|h args g ok IHo fail IHf|i dr IH
                 |r h args g ok IHo fail IHf|r g ok IHo fail IHf];
    intros D g0 l0 ps c; cbn [direct] in D; cbn [run_drive]; try (exists 0; intros []); try destruct D.
  - destruct (check_fuel c) as [[e|] c']; cbn [lift_violation]; [exists 0; intros []|apply IH; exact D].
  - destruct (check_call_depth c) as [[e|] c']; cbn [lift_violation]; [exists 0; intros []|apply IH; exact D].
  - destruct (alloc_cell c) as [[e|i] c']; [exists 0; intros []|apply IH; apply D].
  - apply IH. apply D.
  - apply IH. exact D.
  - destruct H0 as [DO DF]. destruct (body m h) as [fn|] eqn:B.
    + destruct H as [N|R]; [congruence|].
      destruct (R args g (set_depth c (S (call_depth c)))) as [n1 E1]. 
      change (run_loop m n1 h entry None None (Frame args []) g (set_depth c (S (call_depth c))))
        with (run_at n1 h entry (Frame args []) g (set_depth c (S (call_depth c)))) in E1.
      assert (MONO : forall n, n1 <= n ->
        run_at n h entry (Frame args []) g (set_depth c (S (call_depth c))) =
        run_at n1 h entry (Frame args []) g (set_depth c (S (call_depth c)))).
      { intros n LE. apply run_loop_mono; [exact LE|]. apply ends_not_out. exact E1. }
      destruct (run_at n1 h entry (Frame args []) g (set_depth c (S (call_depth c))))
        as [g' c'|y b fr g' c'|e g' c'|c'|c'].
      * destruct (IHo g' (DO g') g' l0 ps (truncate (cells c) (set_depth c' (call_depth c' - 1)))) as [n2 E2].
        exists (Nat.max n1 n2). rewrite MONO by lia.
        rewrite (run_drive_at m n2) by (auto; lia). exact E2.
      * destruct E1.
      * destruct e as [e|k i|i d].
        -- destruct (IHf e g' (DF e g') g' l0 ps (truncate (cells c) (set_depth c' (call_depth c' - 1)))) as [n2 E2].
           exists (Nat.max n1 n2). rewrite MONO by lia.
           rewrite (run_drive_at m n2) by (auto; lia). exact E2.
        -- exists n1. rewrite MONO by lia. intros [].
        -- exists n1. rewrite MONO by lia. intros [].
      * exists n1. rewrite MONO by lia. intros [].
      * destruct E1.
    + destruct (native m h args g) as [g'|e g'|]; [apply IHo; auto|apply IHf; auto|exists 0; intros []].
Qed.

Lemma embed_direct : forall A (a : act G L A) k, (forall x, direct (k x)) -> direct (embed m a k).
Proof.
  intros A a k H. induction a as [x|f g l|q IH|q IH|n q IH|]; cbn [embed direct]; auto.
Qed.

Definition returning (o : operation (payload m)) : Prop :=
  runs_nothing o \/ exists f p, o = OCall f p /\ call_returns m f.

Lemma operation_direct : forall o g l, returning o -> direct (operation_drive m o g l).
Proof.
  intros o g l [R|(f & p & -> & R)].
  - destruct o; cbn [runs_nothing] in R; try destruct R; cbn [operation_drive direct]; auto.
    apply embed_direct. intros [g' l']. exact I.
  - cbn [operation_drive]. apply embed_direct. intros [[args|] [g' l']]; [|exact I].
    cbn [direct]. split; [exact R|]. split.
    + intros g2. destruct (call_leave m p true g2 l'). exact I.
    + intros e g2. destruct (call_leave m p false g2 l'). exact I.
Qed.

Lemma operation_returns_ok : forall key o g l ps c, returning o ->
  exists n, ~ op_out (exec_operation m (run_at n) key o g l ps c).
Proof.
  intros key o g l ps c R. unfold exec_operation. apply drive_returns. apply operation_direct. exact R.
Qed.

Lemma poisoned_exit_ends : forall pd e fr g c, ends (poisoned_exit m pd e fr g c).
Proof.
  intros pd e fr g c. pose proof (poisoned_exit_refused m pd e fr g c) as H.
  destruct (poisoned_exit m pd e fr g c); simpl in *; auto.
Qed.

Definition block_ends (o : block_outcome G L (place m)) : Prop :=
  match o with BDone _ _ _ _ => True | BExit o => ends o end.

Lemma operations_return : forall key pd ops, (forall o, In o ops -> returning o) ->
  forall g l ps c, exists n, block_ends (run_operations m (run_at n) key pd ops g l ps c).
Proof.
  intros key pd ops. induction ops as [|o ops IH]; intros R g l ps c; [exists 0; exact I|].
  destruct (operation_returns_ok key o g l ps c (R o (or_introl eq_refl))) as [n1 E1].
  assert (EM : forall n, n1 <= n -> exec_operation m (run_at n) key o g l ps c =
                                    exec_operation m (run_at n1) key o g l ps c).
  { intros n LE. apply run_drive_at; auto. }
  cbn [run_operations].
  destruct (exec_operation m (run_at n1) key o g l ps c) as [g1 l1 ps1 c1|e g1 l1 ps1 c1|c1|c1].
  - destruct (IH (fun x X => R x (or_intror X)) g1 l1 ps1 c1) as [n2 E2].
    exists (Nat.max n1 n2). rewrite EM by lia.
    assert (NB : ~ bout (run_operations m (run_at n2) key pd ops g1 l1 ps1 c1)).
    { destruct (run_operations m (run_at n2) key pd ops g1 l1 ps1 c1);
        [intros []|apply ends_not_out; exact E2]. }
    rewrite (run_operations_at m n2) by (auto; lia). exact E2.
  - exists n1. rewrite EM by lia. cbn [block_ends]. destruct (is_poisoning e); [apply poisoned_exit_ends|exact I].
  - exists n1. rewrite EM by lia. exact I.
  - exfalso. apply E1. exact I.
Qed.

Lemma frame_returns : forall f fn, body m f = Some fn -> acyclic fn ->
  (forall b blk, reachable_block fn b -> nth_error fn b = Some blk ->
     ~ is_yield (term blk) /\ forall o, In o (all_operations blk) -> returning o) ->
  forall N seen, length fn - length seen <= N -> NoDup seen -> (forall x, In x seen -> x < length fn) ->
  forall b pd cf fr g c, walk (flows fn) (rev seen ++ [b]) -> reachable_block fn b ->
  (forall x, In x seen -> reachable_block fn x) ->
  exists n, ends (run_loop m n f b pd cf fr g c).
Proof.
  intros f fn B AC OK N. induction N as [|N IH]; intros seen LN ND SE b pd cf fr g c W RB RS.
  - destruct (nth_error fn b) as [blk|] eqn:NB.
    + exfalso. assert (LB : b < length fn). { apply nth_error_Some. congruence. }
      destruct (in_dec Nat.eq_dec b seen) as [I|NI].
      * destruct (walk_back _ _ _ _ W I) as (l & CY & IL).
        destruct l as [|a q]; [destruct CY|].
        apply (AC _ CY a (or_introl eq_refl)). apply RS. apply IL. left. reflexivity.
      * assert (IC : incl (b :: seen) (seq 0 (length fn))).
        { intros x [<-|X]; apply in_seq; [lia|]. specialize (SE x X). lia. }
        pose proof (NoDup_incl_length (NoDup_cons b NI ND) IC) as H. rewrite seq_length in H.
        simpl in H. lia.
    + exists 1. destruct fr as [l ps]. rewrite run_loop_S, B, NB. exact I.
  - destruct fr as [l ps].
    destruct (nth_error fn b) as [blk|] eqn:NB;
      [|exists 1; rewrite run_loop_S, B, NB; exact I].
    assert (LB : b < length fn). { apply nth_error_Some. congruence. }
    assert (NI : ~ In b seen).
    { intro I. destruct (walk_back _ _ _ _ W I) as (q & CY & IL). destruct q as [|a q]; [destruct CY|].
      apply (AC _ CY a (or_introl eq_refl)). apply RS. apply IL. left. reflexivity. }
    destruct (OK b blk RB NB) as [NY OPS].
    assert (NEXT : forall t pd cf fr g c, In t (successors (term blk)) ->
      exists n, ends (run_loop m n f t pd cf fr g c)).
    { intros t pd' cf' fr' g' c' IT. apply (IH (b :: seen)).
      - cbn [length]. assert (IC : incl (b :: seen) (seq 0 (length fn))).
        { intros x [<-|X]; apply in_seq; [lia|]. specialize (SE x X). lia. }
        pose proof (NoDup_incl_length (NoDup_cons b NI ND) IC) as H2. rewrite seq_length in H2.
        simpl in H2. lia.
      - constructor; auto.
      - intros x [<-|X]; auto.
      - cbn [rev]. rewrite <- app_assoc. apply walk_snoc; auto. exists blk. auto.
      - apply (reachable_next fn b); auto. exists blk. auto.
      - intros x [<-|X]; auto. }
    destruct (operations_return f pd (operations blk)
                (fun o O => OPS o (in_or_app _ _ _ (or_introl O))) g l ps c) as [n1 E1].
    assert (EM : forall n, n1 <= n -> run_operations m (run_at n) f pd (operations blk) g l ps c
                                    = run_operations m (run_at n1) f pd (operations blk) g l ps c).
    { intros n LE. apply run_operations_at; auto.
      destruct (run_operations m (run_at n1) f pd (operations blk) g l ps c); [intros []|].
      apply ends_not_out. exact E1. }
    destruct (run_operations m (run_at n1) f pd (operations blk) g l ps c) as [g1 l1 ps1 c1|o];
      [|exists (S n1); rewrite run_loop_S, B, NB, EM by lia; exact E1].
    assert (FIN : forall n' o, (forall n, n' <= n ->
        run_term m (run_at n) (fun b pd cf fr g c => run_loop m n f b pd cf fr g c)
                 f pd cf (term blk) g1 l1 ps1 c1 = o) -> ends o ->
      exists n, ends (run_loop m n f b pd cf (Frame l ps) g c)).
    { intros n' o H WO. exists (S (Nat.max n1 n')).
      rewrite run_loop_S, B, NB, (EM (Nat.max n1 n')) by lia. rewrite H by lia. exact WO. }
    assert (GO_ON : forall t pd' cf' fr2 g2 c2, In t (successors (term blk)) ->
      forall n0, (forall n, n0 <= n ->
        run_term m (run_at n) (fun b pd cf fr g c => run_loop m n f b pd cf fr g c)
                 f pd cf (term blk) g1 l1 ps1 c1 = run_loop m n f t pd' cf' fr2 g2 c2) ->
      exists n, ends (run_loop m n f b pd cf (Frame l ps) g c)).
    { intros t pd' cf' fr2 g2 c2 IT n0 RT.
      destruct (NEXT t pd' cf' fr2 g2 c2 IT) as [n2 W2].
      apply (FIN (Nat.max n0 n2) (run_loop m n2 f t pd' cf' fr2 g2 c2)); [|exact W2].
      intros n LEn. rewrite RT by lia. apply run_loop_mono; [lia|]. apply ends_not_out; exact W2. }
    destruct (term blk) as [t|q t e|o t e|p resume| | |] eqn:T.
    + apply (GO_ON t pd cf (Frame l1 ps1) g1 c1 (or_introl eq_refl) 0). reflexivity.
    + destruct (condition m q g1 l1) as [taken|] eqn:CQ.
      * apply (GO_ON (if taken then t else e) pd cf (Frame l1 ps1) g1 c1) with (n0 := 0).
        -- destruct taken; simpl; auto.
        -- intros n _. cbn [run_term]. rewrite CQ. reflexivity.
      * apply (FIN 0 (Panicked c1)); [|exact I]. intros n _. cbn [run_term]. rewrite CQ. reflexivity.
    + destruct (operation_returns_ok f o g1 l1 ps1 c1) as [n2 W2].
      { apply OPS. unfold all_operations. rewrite T. apply in_or_app. right. left. reflexivity. }
      assert (EM2 : forall n', n2 <= n' ->
        exec_operation m (run_at n') f o g1 l1 ps1 c1 = exec_operation m (run_at n2) f o g1 l1 ps1 c1).
      { intros n' LEn. apply run_drive_at; auto. }
      destruct (exec_operation m (run_at n2) f o g1 l1 ps1 c1) as [g2 l2 ps2 c2|err g2 l2 ps2 c2|c2|c2].
      * apply (GO_ON t pd cf (Frame l2 ps2) g2 c2) with (n0 := n2); [simpl; auto|].
        intros n LEn. cbn [run_term]. rewrite (EM2 n LEn). reflexivity.
      * destruct err as [x|v ii|i1 i2].
        -- destruct pd as [pf|].
           ++ destruct cf as [cc|].
              ** apply (FIN n2 (Panicked c2)); [|exact I]. intros n LEn. cbn [run_term]. rewrite (EM2 n LEn). reflexivity.
              ** apply (GO_ON e (Some pf) (Some x) (Frame l2 ps2) g2 c2) with (n0 := n2); [simpl; auto|].
                 intros n LEn. cbn [run_term]. rewrite (EM2 n LEn). reflexivity.
           ++ apply (GO_ON e (Some x) cf (Frame l2 ps2) g2 c2) with (n0 := n2); [simpl; auto|].
              intros n LEn. cbn [run_term]. rewrite (EM2 n LEn). reflexivity.
        -- apply (FIN n2 (poisoned_exit m pd (SandboxViolation v ii) (Frame l2 ps2) g2 c2));
             [|apply poisoned_exit_ends].
           intros n LEn. cbn [run_term]. rewrite (EM2 n LEn). reflexivity.
        -- apply (FIN n2 (poisoned_exit m pd (FailureDuringCleanup i1 i2) (Frame l2 ps2) g2 c2));
             [|apply poisoned_exit_ends].
           intros n LEn. cbn [run_term]. rewrite (EM2 n LEn). reflexivity.
      * apply (FIN n2 (Panicked c2)); [|exact I]. intros n LEn. cbn [run_term]. rewrite (EM2 n LEn). reflexivity.
      * exfalso. apply W2. exact I.
    + exfalso. apply NY. exact I.
    + apply (FIN 0 (run_term m (run_at 0) (fun b pd cf fr g c => run_loop m 0 f b pd cf fr g c)
                      f pd cf Return g1 l1 ps1 c1)); [intros; reflexivity|].
      cbn [run_term]. destruct pd; [exact I|]. destruct ps1; exact I.
    + apply (FIN 0 (run_term m (run_at 0) (fun b pd cf fr g c => run_loop m 0 f b pd cf fr g c)
                      f pd cf PropagateError g1 l1 ps1 c1)); [intros; reflexivity|].
      cbn [run_term]. destruct pd; [|exact I]. destruct cf; [exact I|]. destruct ps1; exact I.
    + apply (FIN 0 (run_term m (run_at 0) (fun b pd cf fr g c => run_loop m 0 f b pd cf fr g c)
                      f pd cf FailureInCleanup g1 l1 ps1 c1)); [intros; reflexivity|].
      cbn [run_term]. destruct pd; [|exact I]. destruct cf; [|exact I].
      apply poisoned_exit_ends.
Qed.

Lemma finite_calls_return : forall module bodies known,
  (forall i, body m (module, i) = match nth_error bodies i with Some b => b | None => None end) ->
  (forall f, fst f <> module -> known f = true -> call_returns m f) ->
  forall f, finite_calls module bodies known f -> call_returns m f.
Proof.
  intros module bodies known BD EX f H.
  induction H as [f N E|i E|i fn E AC OK _ IH].
  - apply EX; assumption.
  - left. rewrite BD, E. reflexivity.
  - right. intros args g c.
    destruct (frame_returns (module, i) fn) with (N := length fn) (seen := @nil nat) (b := entry)
      (pd := @None failure) (cf := @None failure) (fr := Frame args []) (g := g) (c := c) as [n W].
    + rewrite BD, E. reflexivity.
    + exact AC.
    + intros b blk RB NB. destruct (OK b blk RB NB) as [NY O]. split; [exact NY|].
      intros o IO. destruct (O o IO) as [R|(f & p & ->)]; [left; exact R|right].
      exists f, p. split; [reflexivity|]. apply (IH b blk f p RB NB IO).
    + simpl. lia.
    + constructor.
    + intros x [].
    + exact I.
    + constructor.
    + intros x [].
    + exists n. exact W.
Qed.

End Run.
