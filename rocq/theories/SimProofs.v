(** A simulation argument for rewritings of bodies. *)
From Coq Require Import List Arith Bool Lia.
From Verif Require Import MirModel TermProofs SimSpec EditSpec.
Import ListNotations.

Lemma same_context_refl : forall obs c, same_context obs c c.
Proof. intros. unfold same_context. intuition. Qed.
Lemma same_context_sym : forall obs c c', same_context obs c c' -> same_context obs c' c.
Proof. unfold same_context. intuition. Qed.
Lemma same_context_trans : forall obs c c' c'', same_context obs c c' -> same_context obs c' c'' ->
  same_context obs c c''.
Proof. unfold same_context. intuition congruence. Qed.

Ltac context_step :=
  unfold same_context; cbn [fuel_remaining call_depth call_depth_limit cells cell_limit state trace
    set_fuel set_depth set_cells log set_poisoned truncate filter];
  intuition congruence.

Section Contexts.
Variable obs : event -> bool.
Notation sc := (same_context obs).

Lemma sc_log : forall e c c', sc c c' -> sc (log e c) (log e c').
Proof.
  intros e c c'. unfold same_context. cbn.
  intros (A & B & C & D & E & F & H). rewrite H. intuition.
Qed.
Lemma sc_depth : forall d c c', sc c c' -> sc (set_depth c d) (set_depth c' d).
Proof. intros d c c'. context_step. Qed.
Lemma sc_cells : forall d c c', sc c c' -> sc (set_cells c d) (set_cells c' d).
Proof. intros d c c'. context_step. Qed.
Lemma sc_fuel : forall d c c', sc c c' -> sc (set_fuel c d) (set_fuel c' d).
Proof. intros d c c'. context_step. Qed.
Lemma sc_truncate : forall d c c', sc c c' -> sc (truncate d c) (truncate d c').
Proof. intros d c c'. context_step. Qed.
Lemma sc_poisoned : forall r c c', sc c c' -> sc (set_poisoned c r) (set_poisoned c' r).
Proof.
  intros e c c'. unfold same_context. cbn.
  intros (A & B & C & D & E & F & H). rewrite H. intuition.
Qed.
Lemma sc_leave : forall top c c', sc c c' ->
  sc (truncate top (set_depth c (call_depth c - 1))) (truncate top (set_depth c' (call_depth c' - 1))).
Proof.
  intros top c c' S. assert (E : call_depth c = call_depth c') by apply S.
  rewrite E. apply sc_truncate, sc_depth, S.
Qed.
Lemma sc_enter : forall c c', sc c c' ->
  sc (set_depth c (S (call_depth c))) (set_depth c' (S (call_depth c'))).
Proof.
  intros c c' S. assert (E : call_depth c = call_depth c') by apply S.
  rewrite E. apply sc_depth, S.
Qed.

Definition check_rel (r r' : option runtime_error * context) : Prop :=
  fst r = fst r' /\ sc (snd r) (snd r').

Lemma sc_check_fuel : forall c c', sc c c' -> check_rel (check_fuel c) (check_fuel c').
Proof.
  intros c c' S. assert (E : fuel_remaining c = fuel_remaining c') by apply S.
  unfold check_fuel. rewrite E. destruct (fuel_remaining c') as [[|n]|]; split; auto.
  - apply sc_poisoned, S.
  - apply sc_log, sc_fuel, S.
Qed.

Lemma sc_check_call_depth : forall c c', sc c c' -> check_rel (check_call_depth c) (check_call_depth c').
Proof.
  intros c c' S. assert (E : call_depth c = call_depth c') by apply S.
  assert (E' : call_depth_limit c = call_depth_limit c') by apply S.
  unfold check_call_depth. rewrite E, E'. destruct (_ <=? _); split; auto.
  - apply sc_poisoned, S.
  - apply sc_log, S.
Qed.

Lemma sc_alloc_cell : forall c c', sc c c' ->
  fst (alloc_cell c) = fst (alloc_cell c') /\ sc (snd (alloc_cell c)) (snd (alloc_cell c')).
Proof.
  intros c c' S. assert (E : cells c = cells c') by apply S.
  assert (E' : cell_limit c = cell_limit c') by apply S.
  unfold alloc_cell. rewrite E, E'. destruct (_ <=? _); split; auto.
  - apply sc_poisoned, S.
  - apply sc_log, sc_cells, S.
Qed.

Definition poison_rel (r r' : option (runtime_error * context)) : Prop :=
  match r, r' with
  | Some (e, c), Some (e', c') => e = e' /\ sc c c'
  | None, None => True
  | _, _ => False
  end.

Lemma sc_record : forall e c c', sc c c' ->
  poison_rel (record_poisoning_error e c) (record_poisoning_error e c').
Proof. intros e c c' S. destruct e; cbn; auto; split; auto; apply sc_poisoned, S. Qed.

Lemma sc_poison : forall i d c c', sc c c' -> poison_rel (poison i d c) (poison i d c').
Proof.
  intros i d c c' S.
  destruct i as [fi|k o|a b]; destruct d as [fd|k' [o'|]|a' b']; unfold poison;
    cbn [is_poisoning]; try (apply sc_record; exact S).
  cbn. split; auto. apply sc_poisoned, S.
Qed.

End Contexts.

Section Sim.
Variable m : machine.
Notation G := (memory m).
Notation L := (bindings m).
Notation operation := (operation (payload m)).
Notation terminator := (terminator (payload m) (cond m)).
Notation function := (function (payload m) (cond m)).
Notation outcome := (outcome (memory m) (bindings m) (place m)).
Notation op_outcome := (op_outcome (memory m) (bindings m)).
Notation block_outcome := (block_outcome (memory m) (bindings m) (place m)).
Notation frame := (frame (bindings m)).
Notation suspended := (suspended (bindings m)).
Notation drive := (drive (memory m) (bindings m) (place m)).

Variables B1 B2 : fid -> option function.
Notation x := (with_bodies m B1).
Notation y := (with_bodies m B2).

Variable obs : event -> bool.
Notation sc := (same_context obs).
(** Whether a panic of the first, or of the second, program is excused. *)
Variables ex ey : bool.
(** Related bindings of the frames of a function, related blocks. *)
Variable LR : fid -> L -> L -> Prop.
Variable P : fid -> nat -> nat -> Prop.

Inductive frel : fid -> frame -> frame -> Prop :=
| FR : forall f l l' ps ps', LR f l l' -> prel ps ps' -> frel f (Frame l ps) (Frame l' ps')
with prel : list (nat * suspended) -> list (nat * suspended) -> Prop :=
| PNil : prel [] []
| PCons : forall r h b b' fr fr' top ps ps', P h b b' -> frel h fr fr' -> prel ps ps' ->
    prel ((r, Suspended h b fr top) :: ps) ((r, Suspended h b' fr' top) :: ps').

Inductive orel (f : fid) : outcome -> outcome -> Prop :=
| OCompleted : forall g c c', sc c c' -> orel f (Completed g c) (Completed g c')
| OYielded : forall v b b' fr fr' g c c', P f b b' -> frel f fr fr' -> sc c c' ->
    orel f (YieldedAt v b fr g c) (YieldedAt v b' fr' g c')
| OFailed : forall e g c c', sc c c' -> orel f (Failed e g c) (Failed e g c')
| OPanicked : forall c c', sc c c' -> orel f (Panicked c) (Panicked c').

Inductive oprel (f : fid) : op_outcome -> op_outcome -> Prop :=
| OpRDone : forall g l l' ps ps' c c', LR f l l' -> prel ps ps' -> sc c c' ->
    oprel f (OpDone g l ps c) (OpDone g l' ps' c')
| OpRFailed : forall e g l l' ps ps' c c', LR f l l' -> prel ps ps' -> sc c c' ->
    oprel f (OpFailed e g l ps c) (OpFailed e g l' ps' c')
| OpRPanicked : forall c c', sc c c' -> oprel f (OpPanicked c) (OpPanicked c').

Inductive brel (f : fid) : block_outcome -> block_outcome -> Prop :=
| BRDone : forall g l l' ps ps' c c', LR f l l' -> prel ps ps' -> sc c c' ->
    brel f (BDone g l ps c) (BDone g l' ps' c')
| BRExit : forall o o', orel f o o' -> brel f (BExit o) (BExit o').

Definition op_panicked (o : op_outcome) : Prop := exists c, o = OpPanicked c.
Definition b_panicked (o : block_outcome) : Prop := exists c, o = BExit (Panicked c).

(** [F n = o] for all large [n]. *)
Definition ev {A} (F : nat -> A) (o : A) : Prop := exists n, forall n', n <= n' -> F n' = o.

Definition covers (R : outcome -> outcome -> Prop) (o : outcome) (F : nat -> outcome) : Prop :=
  ~ unfinished o -> (ex = true /\ panicked o) \/
  exists o', ev F o' /\ ~ unfinished o' /\ ((ey = true /\ panicked o') \/ R o o').
Definition op_covers (R : op_outcome -> op_outcome -> Prop) (o : op_outcome) (F : nat -> op_outcome) : Prop :=
  ~ op_out m o -> (ex = true /\ op_panicked o) \/
  exists o', ev F o' /\ ~ op_out m o' /\ ((ey = true /\ op_panicked o') \/ R o o').
Definition b_covers (R : block_outcome -> block_outcome -> Prop) (o : block_outcome)
  (F : nat -> block_outcome) : Prop :=
  ~ bout m o -> (ex = true /\ b_panicked o) \/
  exists o', ev F o' /\ ~ bout m o' /\ ((ey = true /\ b_panicked o') \/ R o o').

Lemma out_unfinished : forall (o : outcome), out m o <-> unfinished o.
Proof.
  intros o. split.
  - destruct o; intros []. eexists. reflexivity.
  - intros (d & ->). exact I.
Qed.

Lemma ev_const : forall A (a : A), ev (fun _ => a) a.
Proof. intros A a. exists 0. auto. Qed.

(** Related interactions. *)
Inductive drel (f : fid) : drive -> drive -> Prop :=
| DRDone : forall g l l', LR f l l' -> drel f (DDone g l) (DDone g l')
| DRRaise : forall e g l l', LR f l l' -> drel f (DRaise e g l) (DRaise e g l')
| DRPanic : drel f DPanic DPanic
| DRPanicX : forall d, ex = true -> drel f DPanic d
| DRPanicY : forall d, ey = true -> drel f d DPanic
| DRCheckFuel : forall k k', drel f k k' -> drel f (DCheckFuel k) (DCheckFuel k')
| DRCheckDepth : forall k k', drel f k k' -> drel f (DCheckDepth k) (DCheckDepth k')
| DRAlloc : forall k k', (forall i, drel f (k i) (k' i)) -> drel f (DAlloc k) (DAlloc k')
| DRMark : forall k k', (forall i, drel f (k i) (k' i)) -> drel f (DMark k) (DMark k')
| DRTruncate : forall n k k', drel f k k' -> drel f (DTruncate n k) (DTruncate n k')
| DRCall : forall h args g ok ok' fail fail',
    (forall g, drel f (ok g) (ok' g)) -> (forall e g, drel f (fail e g) (fail' e g)) ->
    drel f (DCall h args g ok fail) (DCall h args g ok' fail')
| DRCleanup : forall i d d', drel f d d' -> drel f (DCleanup i d) (DCleanup i d')
| DRProject : forall r h args g ok ok' fail fail',
    (forall v g, drel f (ok v g) (ok' v g)) -> (forall e g, drel f (fail e g) (fail' e g)) ->
    drel f (DProject r h args g ok fail) (DProject r h args g ok' fail')
| DREndProject : forall r g ok ok' fail fail',
    (forall g, drel f (ok g) (ok' g)) -> (forall e g, drel f (fail e g) (fail' e g)) ->
    drel f (DEndProject r g ok fail) (DEndProject r g ok' fail').

Hypothesis natives : forall f, B1 f = None <-> B2 f = None.
Hypothesis LR_refl : forall f l, LR f l l.
Hypothesis P_entry : forall f, P f entry entry.

(** What the induction on the fuel of the first program provides. *)
Definition simulated (n : nat) : Prop :=
  forall f b b' pd cf fr fr' g c c', P f b b' -> frel f fr fr' -> sc c c' ->
  covers (orel f) (run_loop x n f b pd cf fr g c)
         (fun n' => run_loop y n' f b' pd cf fr' g c').

Lemma take_projection_rel : forall r ps ps', prel ps ps' ->
  (take_projection x r ps = None /\ take_projection y r ps' = None) \/
  exists h b b' fr fr' top q q',
    take_projection x r ps = Some (Suspended h b fr top, q) /\
    take_projection y r ps' = Some (Suspended h b' fr' top, q') /\
    P h b b' /\ frel h fr fr' /\ prel q q'.
Proof.
  intros r ps ps' H.
  induction H as [|r0 h b b' fr fr' top ps ps' HP HF HPS IH] using prel_ind.
  - left. split; reflexivity.
  - cbn [take_projection]. destruct (r =? r0).
    + right. exists h, b, b', fr, fr', top, ps, ps'. auto.
    + destruct IH as [(A & B)|(h1 & b1 & b1' & fr1 & fr1' & top1 & q & q' & A & B & C & D & E)].
      * left. rewrite A, B. auto.
      * right. rewrite A, B. exists h1, b1, b1', fr1, fr1', top1.
        eexists. eexists. split; [reflexivity|]. split; [reflexivity|].
        split; [exact C|]. split; [exact D|]. apply PCons; auto.
Qed.

Lemma body_some : forall h, (B1 h = None /\ B2 h = None) \/
  exists fn fn', B1 h = Some fn /\ B2 h = Some fn'.
Proof.
  intros h. specialize (natives h).
  destruct (B1 h) as [fn|], (B2 h) as [fn'|]; auto.
  - right. exists fn, fn'. auto.
  - destruct natives as [_ N]. discriminate N. reflexivity.
  - destruct natives as [N _]. discriminate N. reflexivity.
Qed.

(** Gluing: an operation first runs a frame. *)
Lemma covers_then : forall R (S : op_outcome -> op_outcome -> Prop) o F
  (k : outcome -> op_outcome) (k' : nat -> outcome -> op_outcome),
  covers R o F ->
  (forall o, unfinished o -> op_out m (k o)) ->
  (forall o, panicked o -> op_panicked (k o)) ->
  (forall n o, panicked o -> k' n o = match o with Panicked c => OpPanicked c | _ => OpPanicked (new_context None 0 0) end) ->
  (forall o o', R o o' -> op_covers S (k o) (fun n => k' n o')) ->
  op_covers S (k o) (fun n => k' n (F n)).
Proof.
  intros R S o F k k' C KU KP KP' K NO.
  assert (NU : ~ unfinished o) by (intros U; apply NO, KU, U).
  destruct (C NU) as [(E & PN)|(o' & (n0 & EV) & NU' & D)].
  - left. split; auto.
  - destruct D as [(E & PN)|HR].
    + right. destruct PN as (c & ->). exists (OpPanicked c). split.
      * exists n0. intros n' H. rewrite (EV n' H). rewrite KP'; [reflexivity|eexists; reflexivity].
      * split; [intros []|]. left. split; [exact E|]. eexists. reflexivity.
    + destruct (K o o' HR NO) as [A|(w & (n1 & EV1) & NW & D)]; [left; exact A|].
      right. exists w. split; [|split; auto].
      exists (Nat.max n0 n1). intros n' H. rewrite EV by lia. apply EV1. lia.
Qed.

Lemma op_covers_ret : forall (S : op_outcome -> op_outcome -> Prop) o o', S o o' -> ~ op_out m o' -> op_covers S o (fun _ => o').
Proof. intros S o o' H N _. right. exists o'. split; [apply ev_const|]. auto. Qed.

Lemma drive_sim : forall n, simulated n -> forall f d d', drel f d d' ->
  forall g0 l0 l0' ps ps' c c', LR f l0 l0' -> prel ps ps' -> sc c c' ->
  op_covers (oprel f) (run_drive x (run_at x n) d g0 l0 ps c)
            (fun n' => run_drive y (run_at y n') d' g0 l0' ps' c').
Proof.
  intros n SIM f d d' H.
  induction H as [g l l' HL|e g l l' HL| |d E|d E|k k' H IH|k k' H IH|k k' H IH|k k' H IH|j k k' H IH
                 |h args g ok ok' fail fail' Ho IHo Hf IHf|i d d' H IH
                 |r h args g ok ok' fail fail' Ho IHo Hf IHf
                 |r g ok ok' fail fail' Ho IHo Hf IHf];
    intros g0 l0 l0' ps ps' c c' HL0 HP HC; cbn [run_drive].
  - apply op_covers_ret; [constructor; auto|intros []].
  - apply op_covers_ret; [constructor; auto|intros []].
  - apply op_covers_ret; [constructor; auto|intros []].
  - intros _. left. split; auto. eexists. reflexivity.
  - intros _. right. exists (OpPanicked c'). split; [apply ev_const|]. split; [intros []|].
    left. split; auto. eexists. reflexivity.
  - pose proof (sc_check_fuel obs c c' HC) as [E1 E2].
    destruct (check_fuel c) as [r1 c1], (check_fuel c') as [r2 c2]. cbn in E1, E2. subst r2.
    destruct r1 as [e|]; cbn [lift_violation].
    + apply op_covers_ret; [constructor; auto|intros []].
    + apply IH; auto.
  - pose proof (sc_check_call_depth obs c c' HC) as [E1 E2].
    destruct (check_call_depth c) as [r1 c1], (check_call_depth c') as [r2 c2]. cbn in E1, E2. subst r2.
    destruct r1 as [e|]; cbn [lift_violation].
    + apply op_covers_ret; [constructor; auto|intros []].
    + apply IH; auto.
  - pose proof (sc_alloc_cell obs c c' HC) as [E1 E2].
    destruct (alloc_cell c) as [r1 c1], (alloc_cell c') as [r2 c2]. cbn in E1, E2. subst r2.
    destruct r1 as [e|i].
    + apply op_covers_ret; [constructor; auto|intros []].
    + apply IH; auto.
  - assert (E : cells c = cells c') by apply HC. rewrite E. apply IH; auto.
  - apply IH; auto. apply sc_truncate, HC.
  - (* DCall *)
    cbn [body with_bodies native].
    destruct (body_some h) as [(EX & EY)|(fn & fn' & EX & EY)]; rewrite EX, EY.
    + destruct (native m h args g) as [g'|e g'|].
      * apply IHo; auto.
      * apply IHf; auto.
      * apply op_covers_ret; [constructor; auto|intros []].
    + assert (EC : cells c = cells c') by apply HC. rewrite <- EC.
      apply covers_then with (R := orel h)
        (k := fun o => match o with
          | Completed g' c' => run_drive x (run_at x n) (ok g') g' l0 ps (truncate (cells c) (set_depth c' (call_depth c' - 1)))
          | Failed (SourceFailure e) g' c' => run_drive x (run_at x n) (fail e g') g' l0 ps (truncate (cells c) (set_depth c' (call_depth c' - 1)))
          | Failed e g' c' => OpFailed e g' l0 ps (truncate (cells c) (set_depth c' (call_depth c' - 1)))
          | YieldedAt _ _ _ _ c' => OpPanicked c'
          | Panicked c' => OpPanicked c'
          | OutOfFuel c' => OpOutOfFuel c'
          end)
        (k' := fun n' o => match o with
          | Completed g' c' => run_drive y (run_at y n') (ok' g') g' l0' ps' (truncate (cells c) (set_depth c' (call_depth c' - 1)))
          | Failed (SourceFailure e) g' c' => run_drive y (run_at y n') (fail' e g') g' l0' ps' (truncate (cells c) (set_depth c' (call_depth c' - 1)))
          | Failed e g' c' => OpFailed e g' l0' ps' (truncate (cells c) (set_depth c' (call_depth c' - 1)))
          | YieldedAt _ _ _ _ c' => OpPanicked c'
          | Panicked c' => OpPanicked c'
          | OutOfFuel c' => OpOutOfFuel c'
          end).
      * apply SIM; [apply P_entry|constructor; [apply LR_refl|constructor]|apply sc_enter, HC].
      * intros o (q & ->). exact I.
      * intros o (q & ->). eexists. reflexivity.
      * intros n' o (q & ->). reflexivity.
      * intros o o' R. destruct R as [g1 c1 c1' S1|v b b' fr fr' g1 c1 c1' S0 S1 S2|e g1 c1 c1' S1|c1 c1' S1].
        -- apply IHo; auto. apply sc_leave, S1.
        -- apply op_covers_ret; [constructor; auto|intros []].
        -- destruct e.
           ++ apply IHf; auto. apply sc_leave, S1.
           ++ apply op_covers_ret; [constructor; auto; apply sc_leave, S1|intros []].
           ++ apply op_covers_ret; [constructor; auto; apply sc_leave, S1|intros []].
        -- apply op_covers_ret; [constructor; auto|intros []].
  - (* DCleanup *)
    specialize (IH g0 l0 l0' ps ps' c c' HL0 HP HC). intros NO.
    assert (NO1 : ~ op_out m (run_drive x (run_at x n) d g0 l0 ps c)).
    { intros O. apply NO. destruct (run_drive x (run_at x n) d g0 l0 ps c); try destruct O. exact I. }
    destruct (IH NO1) as [(E & c1 & PN)|(o' & (n0 & EV) & NU & D)].
    + left. split; [exact E|]. rewrite PN. eexists. reflexivity.
    + right. destruct D as [(E & c1 & PN)|R].
      * subst o'. exists (OpPanicked c1). split.
        -- exists n0. intros n' Hn. rewrite (EV n' Hn). reflexivity.
        -- split; [intros []|]. left. split; auto. eexists. reflexivity.
      * destruct R as [g l l' qs qs' c1 c1' S0 S1 S2|e g l l' qs qs' c1 c1' S0 S1 S2|c1 c1' S1].
        -- exists (OpFailed (SourceFailure i) g l' qs' c1'). split.
           ++ exists n0. intros n' Hn. rewrite (EV n' Hn). reflexivity.
           ++ split; [intros []|]. right. constructor; auto.
        -- pose proof (sc_poison obs (SourceFailure i) e c1 c1' S2) as PR.
           destruct (poison (SourceFailure i) e c1) as [[e1 c2]|] eqn:E1;
             destruct (poison (SourceFailure i) e c1') as [[e2 c2']|] eqn:E2; try (cbn in PR; contradiction).
           ++ destruct PR as (<- & S3). exists (OpFailed e1 g l' qs' c2'). split.
              ** exists n0. intros n' Hn. rewrite (EV n' Hn). rewrite E2. reflexivity.
              ** split; [intros []|]. right. constructor; auto.
           ++ exists (OpPanicked c1'). split.
              ** exists n0. intros n' Hn. rewrite (EV n' Hn). rewrite E2. reflexivity.
              ** split; [intros []|]. right. constructor; auto.
        -- exists (OpPanicked c1'). split.
           ++ exists n0. intros n' Hn. rewrite (EV n' Hn). reflexivity.
           ++ split; [intros []|]. right. constructor; auto.
  - (* DProject *)
    cbn [body with_bodies].
    destruct (body_some h) as [(EX & EY)|(fn & fn' & EX & EY)]; rewrite EX, EY.
    + apply op_covers_ret; [constructor; auto|intros []].
    + assert (EC : cells c = cells c') by apply HC. rewrite <- EC.
      apply covers_then with (R := orel h)
        (k := fun o => match o with
          | YieldedAt y b fr g' c' => run_drive x (run_at x n) (ok y g') g' l0 ((r, Suspended h b fr (cells c)) :: ps) c'
          | Completed _ c' => OpPanicked c'
          | Failed (SourceFailure e) g' c' => run_drive x (run_at x n) (fail e g') g' l0 ps (truncate (cells c) (set_depth c' (call_depth c' - 1)))
          | Failed e g' c' => OpFailed e g' l0 ps (truncate (cells c) (set_depth c' (call_depth c' - 1)))
          | Panicked c' => OpPanicked c'
          | OutOfFuel c' => OpOutOfFuel c'
          end)
        (k' := fun n' o => match o with
          | YieldedAt v b fr g' c' => run_drive y (run_at y n') (ok' v g') g' l0' ((r, Suspended h b fr (cells c)) :: ps') c'
          | Completed _ c' => OpPanicked c'
          | Failed (SourceFailure e) g' c' => run_drive y (run_at y n') (fail' e g') g' l0' ps' (truncate (cells c) (set_depth c' (call_depth c' - 1)))
          | Failed e g' c' => OpFailed e g' l0' ps' (truncate (cells c) (set_depth c' (call_depth c' - 1)))
          | Panicked c' => OpPanicked c'
          | OutOfFuel c' => OpOutOfFuel c'
          end).
      * apply SIM; [apply P_entry|constructor; [apply LR_refl|constructor]|apply sc_enter, HC].
      * intros o (q & ->). exact I.
      * intros o (q & ->). eexists. reflexivity.
      * intros n' o (q & ->). reflexivity.
      * intros o o' R. destruct R as [g1 c1 c1' S1|v b b' fr fr' g1 c1 c1' S0 S1 S2|e g1 c1 c1' S1|c1 c1' S1].
        -- apply op_covers_ret; [constructor; auto|intros []].
        -- apply IHo; auto. apply PCons; auto.
        -- destruct e.
           ++ apply IHf; auto. apply sc_leave, S1.
           ++ apply op_covers_ret; [constructor; auto; apply sc_leave, S1|intros []].
           ++ apply op_covers_ret; [constructor; auto; apply sc_leave, S1|intros []].
        -- apply op_covers_ret; [constructor; auto|intros []].
  - (* DEndProject *)
    destruct (take_projection_rel r ps ps' HP)
      as [(EX & EY)|(h & b & b' & fr & fr' & top & q & q' & EX & EY & S0 & S1 & S2)]; rewrite EX, EY.
    + apply op_covers_ret; [constructor; auto|intros []].
    + apply covers_then with (R := orel h)
        (k := fun o => match o with
          | Completed g' c' => run_drive x (run_at x n) (ok g') g' l0 q (truncate top (set_depth c' (call_depth c' - 1)))
          | Failed (SourceFailure e) g' c' => run_drive x (run_at x n) (fail e g') g' l0 q (truncate top (set_depth c' (call_depth c' - 1)))
          | Failed e g' c' => OpFailed e g' l0 q (truncate top (set_depth c' (call_depth c' - 1)))
          | YieldedAt _ _ _ _ c' => OpPanicked c'
          | Panicked c' => OpPanicked c'
          | OutOfFuel c' => OpOutOfFuel c'
          end)
        (k' := fun n' o => match o with
          | Completed g' c' => run_drive y (run_at y n') (ok' g') g' l0' q' (truncate top (set_depth c' (call_depth c' - 1)))
          | Failed (SourceFailure e) g' c' => run_drive y (run_at y n') (fail' e g') g' l0' q' (truncate top (set_depth c' (call_depth c' - 1)))
          | Failed e g' c' => OpFailed e g' l0' q' (truncate top (set_depth c' (call_depth c' - 1)))
          | YieldedAt _ _ _ _ c' => OpPanicked c'
          | Panicked c' => OpPanicked c'
          | OutOfFuel c' => OpOutOfFuel c'
          end).
      * apply SIM; auto.
      * intros o (z & ->). exact I.
      * intros o (z & ->). eexists. reflexivity.
      * intros n' o (z & ->). reflexivity.
      * intros o o' R. destruct R as [g1 c1 c1' T1|v b1 b1' fr1 fr1' g1 c1 c1' T0 T1 T2|e g1 c1 c1' T1|c1 c1' T1].
        -- apply IHo; auto. apply sc_leave, T1.
        -- apply op_covers_ret; [constructor; auto|intros []].
        -- destruct e.
           ++ apply IHf; auto. apply sc_leave, T1.
           ++ apply op_covers_ret; [constructor; auto; apply sc_leave, T1|intros []].
           ++ apply op_covers_ret; [constructor; auto; apply sc_leave, T1|intros []].
        -- apply op_covers_ret; [constructor; auto|intros []].
Qed.

Scheme frel_mut := Induction for frel Sort Prop
with prel_mut := Induction for prel Sort Prop.

Definition opt_sc (r r' : option context) : Prop :=
  match r, r' with
  | Some c, Some c' => sc c c'
  | None, None => True
  | _, _ => False
  end.

Lemma discard_frame_cons : forall z (l : L) r h b fr top ps c,
  discard_frame (with_bodies m z) (Frame l ((r, Suspended h b fr top) :: ps)) c =
  match discard_frame (with_bodies m z) fr c with
  | None => None
  | Some c' =>
      match call_depth c' with
      | O => None
      | S d => discard_frame (with_bodies m z) (Frame l ps) (truncate top (set_depth c' d))
      end
  end.
Proof.
  intros z l r h b fr top ps c.
  change (discard_frame (with_bodies m z) (Frame l ((r, Suspended h b fr top) :: ps)) c)
    with (match (match discard_frame (with_bodies m z) fr c with
                 | None => None
                 | Some c' =>
                     match call_depth c' with
                     | O => None
                     | S d => Some (truncate top (set_depth c' d))
                     end
                 end) with
          | None => None
          | Some c' => discard_frame (with_bodies m z) (Frame l ps) c'
          end).
  destruct (discard_frame (with_bodies m z) fr c) as [c'|]; [|reflexivity].
  destruct (call_depth c'); reflexivity.
Qed.

Lemma discard_rel : forall f fr fr', frel f fr fr' -> forall c c', sc c c' ->
  opt_sc (discard_frame x fr c) (discard_frame y fr' c').
Proof.
  intros f fr fr' H.
  induction H as [f l l' ps ps' HL HP IH|
                  |r h b b' fr fr' top ps ps' HP HF IHF HPS IH]
    using frel_mut with
    (P0 := fun ps ps' (_ : prel ps ps') => forall l l' c c', sc c c' ->
       opt_sc (discard_frame x (Frame l ps) c) (discard_frame y (Frame l' ps') c')).
  - intros c c' HC. apply IH, HC.
  - intros l l' c c' HC. exact HC.
  - intros l l' c c' HC. rewrite !discard_frame_cons.
    pose proof (IHF c c' HC) as R.
    destruct (discard_frame x fr c) as [c1|], (discard_frame y fr' c') as [c1'|]; try (cbn in R; contradiction);
      [|exact I].
    cbn in R. assert (E : call_depth c1 = call_depth c1') by apply R. rewrite E.
    destruct (call_depth c1') as [|d]; [exact I|].
    apply IH, sc_truncate, sc_depth, R.
Qed.

Lemma poisoned_exit_rel : forall f pd e fr fr' g c c', frel f fr fr' -> sc c c' ->
  orel f (poisoned_exit x pd e fr g c) (poisoned_exit y pd e fr' g c').
Proof.
  intros f pd e fr fr' g c c' HF HC. unfold poisoned_exit.
  assert (R : poison_rel obs (match pd with Some i => poison (SourceFailure i) e c | None => Some (e, c) end)
                         (match pd with Some i => poison (SourceFailure i) e c' | None => Some (e, c') end)).
  { destruct pd; [apply sc_poison, HC|split; auto]. }
  destruct (match pd with Some i => poison (SourceFailure i) e c | None => Some (e, c) end) as [[e1 c1]|];
    destruct (match pd with Some i => poison (SourceFailure i) e c' | None => Some (e, c') end) as [[e1' c1']|];
    try (cbn in R; contradiction).
  - destruct R as (<- & S1). pose proof (discard_rel f fr fr' HF c1 c1' S1) as R.
    destruct (discard_frame x fr c1) as [c2|], (discard_frame y fr' c1') as [c2'|]; try (cbn in R; contradiction);
      constructor; auto.
  - constructor. exact HC.
Qed.

(** ** Operations *)
Definition oprels (f : fid) (o o' : operation) : Prop :=
  forall g l l', LR f l l' -> drel f (operation_drive m o g l) (operation_drive m o' g l').

Lemma embed_bodies : forall z A (a : act G L A) k, embed (with_bodies m z) a k = embed m a k.
Proof.
  intros z A a k. induction a as [a|f g l|q IH|q IH|j q IH|]; reflexivity.
Qed.

Lemma operation_drive_bodies : forall z o g l, operation_drive (with_bodies m z) o g l = operation_drive m o g l.
Proof. intros z o g l. destruct o; reflexivity. Qed.

Lemma exec_operation_sim : forall n, simulated n -> forall f o o', oprels f o o' ->
  forall g l l' ps ps' c c', LR f l l' -> prel ps ps' -> sc c c' ->
  op_covers (oprel f) (exec_operation x (run_at x n) f o g l ps c)
            (fun n' => exec_operation y (run_at y n') f o' g l' ps' c').
Proof.
  intros n SIM f o o' HO g l l' ps ps' c c' HL HP HC. unfold exec_operation.
  rewrite operation_drive_bodies.
  assert (E : forall q, operation_drive (with_bodies m B2) q g l' = operation_drive m q g l').
  { intros q. apply operation_drive_bodies. }
  rewrite E. apply drive_sim; auto. apply sc_log, HC.
Qed.

Lemma b_covers_ret : forall f o o', brel f o o' -> ~ bout m o' -> b_covers (brel f) o (fun _ => o').
Proof. intros f o o' H N _. right. exists o'. split; [apply ev_const|]. auto. Qed.

Lemma covers_ret : forall f o o', orel f o o' -> covers (orel f) o (fun _ => o').
Proof.
  intros f o o' H _. right. exists o'. split; [apply ev_const|].
  split; [|auto]. intros (c & ->). inversion H.
Qed.

Lemma run_operations_sim : forall n, simulated n -> forall f pd ops ops', Forall2 (oprels f) ops ops' ->
  forall g l l' ps ps' c c', LR f l l' -> prel ps ps' -> sc c c' ->
  b_covers (brel f) (run_operations x (run_at x n) f pd ops g l ps c)
           (fun n' => run_operations y (run_at y n') f pd ops' g l' ps' c').
Proof.
  intros n SIM f pd ops ops' H.
  induction H as [|o o' ops ops' HO H IH]; intros g l l' ps ps' c c' HL HP HC; cbn [run_operations].
  - apply b_covers_ret; [constructor; auto|intros []].
  - pose proof (exec_operation_sim n SIM f o o' HO g l l' ps ps' c c' HL HP HC) as C. intros NO.
    assert (NO1 : ~ op_out m (exec_operation x (run_at x n) f o g l ps c)).
    { intros O. apply NO. destruct (exec_operation x (run_at x n) f o g l ps c); try destruct O. exact I. }
    destruct (C NO1) as [(E & c1 & PN)|(w & (n0 & EV) & NW & D)].
    + left. split; [exact E|]. rewrite PN. eexists. reflexivity.
    + destruct D as [(E & c1 & PN)|R].
      * right. subst w. exists (BExit (Panicked c1)). split.
        -- exists n0. intros n' Hn. rewrite (EV n' Hn). reflexivity.
        -- split; [intros []|]. left. split; auto. eexists. reflexivity.
      * destruct R as [g1 l1 l1' qs qs' c1 c1' S0 S1 S2|e g1 l1 l1' qs qs' c1 c1' S0 S1 S2|c1 c1' S1].
        -- destruct (IH g1 l1 l1' qs qs' c1 c1' S0 S1 S2 NO) as [A|(u & (n1 & EV1) & NU & D)]; [left; exact A|].
           right. exists u. split; [|split; auto].
           exists (Nat.max n0 n1). intros n' Hn. rewrite EV by lia. apply EV1. lia.
        -- right. destruct (is_poisoning e) eqn:EP.
           ++ exists (BExit (poisoned_exit y pd e (Frame l1' qs') g1 c1')). split.
              ** exists n0. intros n' Hn. rewrite (EV n' Hn); cbn; rewrite ?EP; reflexivity.
              ** split; [apply (poisoned_exit_not_out y)|]. right. constructor.
                 apply poisoned_exit_rel; auto. constructor; auto.
           ++ exists (BExit (Panicked c1')). split.
              ** exists n0. intros n' Hn. rewrite (EV n' Hn); cbn; rewrite ?EP; reflexivity.
              ** split; [intros []|]. right. constructor. constructor. auto.
        -- right. exists (BExit (Panicked c1')). split.
           ++ exists n0. intros n' Hn. rewrite (EV n' Hn); cbn; rewrite ?EP; reflexivity.
           ++ split; [intros []|]. right. constructor. constructor. auto.
Qed.

(** ** Terminators *)
Inductive trel (f : fid) : terminator -> terminator -> Prop :=
| TRGoto : forall b b', P f b b' -> trel f (Goto b) (Goto b')
| TRCondBr : forall q q' t t' e e',
    (forall g l l', LR f l l' -> condition m q g l = condition m q' g l') ->
    P f t t' -> P f e e' -> trel f (CondBr q t e) (CondBr q' t' e')
| TRInvoke : forall o o' t t' e e', oprels f o o' -> P f t t' -> P f e e' ->
    trel f (Invoke o t e) (Invoke o' t' e')
| TRYield : forall p p' b b', (forall g l l', LR f l l' -> yielded m p g l = yielded m p' g l') ->
    P f b b' -> trel f (Yield p b) (Yield p' b')
| TRReturn : trel f Return Return
| TRPropagate : trel f PropagateError PropagateError
| TRFailure : trel f FailureInCleanup FailureInCleanup.

Definition next_of (z : machine) (n : nat) (f : fid) : nexts z :=
  fun b pd cf fr g c => run_loop z n f b pd cf fr g c.

Lemma run_term_sim : forall n, simulated n -> forall f t t', trel f t t' ->
  forall pd cf g l l' ps ps' c c', LR f l l' -> prel ps ps' -> sc c c' ->
  covers (orel f) (run_term x (run_at x n) (next_of x n f) f pd cf t g l ps c)
         (fun n' => run_term y (run_at y n') (next_of y n' f) f pd cf t' g l' ps' c').
Proof.
  intros n SIM f t t' H pd cf g l l' ps ps' c c' HL HP HC.
  destruct H as [b b' Hb|q q' t t' e e' HQ Ht He|o o' t t' e e' HO Ht He|p p' b b' HY Hb| | |];
    cbn [run_term].
  - apply SIM; auto. constructor; auto.
  - cbn [condition with_bodies]. rewrite (HQ g l l' HL). destruct (condition m q' g l') as [taken|].
    + apply SIM; [destruct taken; auto|constructor; auto|auto].
    + apply covers_ret. constructor. auto.
  - pose proof (exec_operation_sim n SIM f o o' HO g l l' ps ps' c c' HL HP HC) as C. intros NO.
    assert (NO1 : ~ op_out m (exec_operation x (run_at x n) f o g l ps c)).
    { intros O. apply NO. destruct (exec_operation x (run_at x n) f o g l ps c); try destruct O.
      eexists. reflexivity. }
    destruct (C NO1) as [(E & c1 & PN)|(w & (n0 & EV) & NW & D)].
    + left. split; [exact E|]. rewrite PN. eexists. reflexivity.
    + destruct D as [(E & c1 & PN)|R].
      * right. subst w. exists (Panicked c1). split.
        -- exists n0. intros n' Hn. rewrite (EV n' Hn). reflexivity.
        -- split; [intros (? & E'); discriminate|]. left. split; auto. eexists. reflexivity.
      * destruct R as [g1 l1 l1' qs qs' c1 c1' S0 S1 S2|err g1 l1 l1' qs qs' c1 c1' S0 S1 S2|c1 c1' S1].
        -- assert (S := SIM f t t' pd cf (Frame l1 qs) (Frame l1' qs') g1 c1 c1' Ht (FR f l1 l1' qs qs' S0 S1) S2).
           destruct (S NO) as [A|(u & (n1 & EV1) & NU & D)]; [left; exact A|].
           right. exists u. split; [|split; auto].
           exists (Nat.max n0 n1). intros n' Hn. rewrite EV by lia. apply EV1. lia.
        -- destruct err as [ff|k i|a b].
           ++ destruct pd as [ff0|].
              ** destruct cf as [ff1|].
                 --- right. exists (Panicked c1'). split.
                     +++ exists n0. intros n' Hn. rewrite (EV n' Hn). reflexivity.
                     +++ split; [intros (? & E'); discriminate|]. right. constructor. auto.
                 --- assert (S := SIM f e e' (Some ff0) (Some ff) (Frame l1 qs) (Frame l1' qs') g1 c1 c1' He (FR f l1 l1' qs qs' S0 S1) S2).
                     destruct (S NO) as [A|(u & (n1 & EV1) & NU & D)]; [left; exact A|].
                     right. exists u. split; [|split; auto].
                     exists (Nat.max n0 n1). intros n' Hn. rewrite EV by lia. apply EV1. lia.
              ** assert (S := SIM f e e' (Some ff) cf (Frame l1 qs) (Frame l1' qs') g1 c1 c1' He (FR f l1 l1' qs qs' S0 S1) S2).
                 destruct (S NO) as [A|(u & (n1 & EV1) & NU & D)]; [left; exact A|].
                 right. exists u. split; [|split; auto].
                 exists (Nat.max n0 n1). intros n' Hn. rewrite EV by lia. apply EV1. lia.
           ++ right. eexists. split.
              ** exists n0. intros n' Hn. rewrite (EV n' Hn). reflexivity.
              ** split; [rewrite <- out_unfinished; apply (poisoned_exit_not_out y)|]. right.
                 apply poisoned_exit_rel; auto. constructor; auto.
           ++ right. eexists. split.
              ** exists n0. intros n' Hn. rewrite (EV n' Hn). reflexivity.
              ** split; [rewrite <- out_unfinished; apply (poisoned_exit_not_out y)|]. right.
                 apply poisoned_exit_rel; auto. constructor; auto.
        -- right. exists (Panicked c1'). split.
           ++ exists n0. intros n' Hn. rewrite (EV n' Hn). reflexivity.
           ++ split; [intros (? & E'); discriminate|]. right. constructor. auto.
  - cbn [yielded with_bodies]. rewrite (HY g l l' HL).
    destruct pd; [apply covers_ret; constructor; auto|].
    destruct (yielded m p' g l'); apply covers_ret; constructor; auto. constructor; auto.
  - destruct pd; [apply covers_ret; constructor; auto|].
    destruct HP; apply covers_ret; constructor; auto.
  - destruct pd; [|apply covers_ret; constructor; auto].
    destruct cf; [apply covers_ret; constructor; auto|].
    destruct HP; apply covers_ret; constructor; auto.
  - destruct pd; [|apply covers_ret; constructor; auto].
    destruct cf; [|apply covers_ret; constructor; auto].
    apply covers_ret. apply poisoned_exit_rel; auto. constructor; auto.
Qed.

(** ** Straight code: operations, then a terminator *)
Definition exec (z : fid -> option function) (n : nat) (f : fid) (pd cf : option failure)
  (ops : list operation) (t : terminator) (g : G) (l : L) (ps : list (nat * suspended)) (c : context)
  : outcome :=
  match run_operations (with_bodies m z) (run_at (with_bodies m z) n) f pd ops g l ps c with
  | BExit o => o
  | BDone g l ps c =>
      run_term (with_bodies m z) (run_at (with_bodies m z) n) (next_of (with_bodies m z) n f)
               f pd cf t g l ps c
  end.

(** The code from block [b] on, along unconditional jumps. *)
Inductive chain (fn : function) : nat -> list operation -> terminator -> Prop :=
| ChainBlock : forall b blk, nth_error fn b = Some blk -> chain fn b (operations blk) (term blk)
| ChainGoto : forall b blk b' ops t, nth_error fn b = Some blk -> term blk = Goto b' ->
    chain fn b' ops t -> chain fn b (operations blk ++ ops) t.

Lemma run_operations_app : forall z run f pd a b g l ps c,
  run_operations (with_bodies m z) run f pd (a ++ b) g l ps c =
  match run_operations (with_bodies m z) run f pd a g l ps c with
  | BExit o => BExit o
  | BDone g l ps c => run_operations (with_bodies m z) run f pd b g l ps c
  end.
Proof.
  intros z run f pd a b. induction a as [|o a IH]; intros g l ps c; cbn [app run_operations]; [reflexivity|].
  destruct (exec_operation (with_bodies m z) run f o g l ps c); auto.
Qed.

Lemma exec_app : forall z n f pd cf a ops t g l ps c,
  exec z n f pd cf (a ++ ops) t g l ps c =
  match run_operations (with_bodies m z) (run_at (with_bodies m z) n) f pd a g l ps c with
  | BExit o => o
  | BDone g l ps c => exec z n f pd cf ops t g l ps c
  end.
Proof.
  intros z n f pd cf a ops t g l ps c. unfold exec. rewrite run_operations_app.
  destruct (run_operations (with_bodies m z) _ f pd a g l ps c); reflexivity.
Qed.

Lemma exec_more : forall z n n' f pd cf ops t g l ps c, n <= n' ->
  ~ unfinished (exec z n f pd cf ops t g l ps c) ->
  exec z n' f pd cf ops t g l ps c = exec z n f pd cf ops t g l ps c.
Proof.
  intros z n n' f pd cf ops t g l ps c H N. unfold exec in *.
  assert (NB : ~ bout (with_bodies m z) (run_operations (with_bodies m z) (run_at (with_bodies m z) n) f pd ops g l ps c)).
  { intros O. apply N.
    destruct (run_operations (with_bodies m z) (run_at (with_bodies m z) n) f pd ops g l ps c); [destruct O|].
    apply out_unfinished. exact O. }
  pose proof (run_operations_at (with_bodies m z) n n' f pd ops g l ps c H NB) as E.
  rewrite E.
  destruct (run_operations (with_bodies m z) (run_at (with_bodies m z) n) f pd ops g l ps c) as [g1 l1 ps1 c1|o];
    [|reflexivity].
  destruct (run_term_mono (with_bodies m z) (run_at (with_bodies m z) n) (run_at (with_bodies m z) n')
              (next_of (with_bodies m z) n f) (next_of (with_bodies m z) n' f) f pd cf t g1 l1 ps1 c1) as [O|E'].
  - apply run_at_below, H.
  - intros b pd' cf' fr' g' c'. unfold next_of.
    assert (D : out (with_bodies m z) (run_loop (with_bodies m z) n f b pd' cf' fr' g' c') \/
                ~ out (with_bodies m z) (run_loop (with_bodies m z) n f b pd' cf' fr' g' c')).
    { destruct (run_loop (with_bodies m z) n f b pd' cf' fr' g' c'); cbn; auto. }
    destruct D as [O|O]; [left; exact O|right]. symmetry. apply run_loop_mono; auto.
  - exfalso. apply N, out_unfinished, O.
  - auto.
Qed.

Lemma run_loop_exec : forall z n f b fn blk pd cf l ps g c, z f = Some fn -> nth_error fn b = Some blk ->
  run_loop (with_bodies m z) (S n) f b pd cf (Frame l ps) g c =
  exec z n f pd cf (operations blk) (term blk) g l ps c.
Proof.
  intros z n f b fn blk pd cf l ps g c E1 E2. rewrite run_loop_S. cbn [body with_bodies].
  rewrite E1.
  match goal with |- match ?e with _ => _ end = _ => change e with (nth_error fn b) end.
  rewrite E2. reflexivity.
Qed.

Lemma chain_to : forall z f fn, z f = Some fn -> forall b ops t, chain fn b ops t ->
  forall n pd cf l ps g c,
  ~ unfinished (run_loop (with_bodies m z) (S n) f b pd cf (Frame l ps) g c) ->
  exec z n f pd cf ops t g l ps c = run_loop (with_bodies m z) (S n) f b pd cf (Frame l ps) g c.
Proof.
  intros z f fn E b ops t H.
  induction H as [b blk N|b blk b' ops t N T H IH]; intros n pd cf l ps g c NU.
  - symmetry. apply run_loop_exec with (fn := fn); auto.
  - rewrite (run_loop_exec z n f b fn blk pd cf l ps g c E N) in NU |- *.
    rewrite exec_app. unfold exec in NU |- *.
    destruct (run_operations (with_bodies m z) (run_at (with_bodies m z) n) f pd (operations blk) g l ps c)
      as [g1 l1 ps1 c1|o]; [|reflexivity].
    rewrite T in NU |- *. cbn [run_term] in NU |- *. unfold next_of in NU at 1. unfold next_of at 2.
    destruct n as [|n]; [exfalso; apply NU; eexists; reflexivity|].
    specialize (IH n pd cf l1 ps1 g1 c1 NU). rewrite <- IH.
    apply exec_more; [lia|]. rewrite IH. exact NU.
Qed.

Lemma chain_from : forall z f fn, z f = Some fn -> forall b ops t, chain fn b ops t ->
  exists k, forall n pd cf l ps g c,
  ~ unfinished (exec z n f pd cf ops t g l ps c) ->
  run_loop (with_bodies m z) (k + n) f b pd cf (Frame l ps) g c = exec z n f pd cf ops t g l ps c.
Proof.
  intros z f fn E b ops t H.
  induction H as [b blk N|b blk b' ops t N T H (k & IH)].
  - exists 1. intros n pd cf l ps g c NU. apply run_loop_exec with (fn := fn); auto.
  - exists (S k). intros n pd cf l ps g c NU. change (S k + n) with (S (k + n)).
    etransitivity; [exact (run_loop_exec z (k + n) f b fn blk pd cf l ps g c E N)|].
    rewrite exec_app in NU |- *. unfold exec at 1.
    assert (NB : ~ bout (with_bodies m z) (run_operations (with_bodies m z) (run_at (with_bodies m z) n) f pd (operations blk) g l ps c)).
    { intros O. apply NU.
      destruct (run_operations (with_bodies m z) (run_at (with_bodies m z) n) f pd (operations blk) g l ps c); [destruct O|].
      apply out_unfinished. exact O. }
    rewrite (run_operations_at (with_bodies m z) n (k + n)); [|lia|exact NB].
    destruct (run_operations (with_bodies m z) (run_at (with_bodies m z) n) f pd (operations blk) g l ps c)
      as [g1 l1 ps1 c1|o]; [|reflexivity].
    rewrite T. cbn [run_term]. unfold next_of. apply IH. exact NU.
Qed.

(** Running some related operations first. *)
Lemma exec_prefix_sim : forall n, simulated n -> forall f ops ops', Forall2 (oprels f) ops ops' ->
  forall pd cf r t r' t',
  (forall g l l' ps ps' c c', LR f l l' -> prel ps ps' -> sc c c' ->
   covers (orel f) (exec B1 n f pd cf r t g l ps c) (fun n' => exec B2 n' f pd cf r' t' g l' ps' c')) ->
  forall g l l' ps ps' c c', LR f l l' -> prel ps ps' -> sc c c' ->
  covers (orel f) (exec B1 n f pd cf (ops ++ r) t g l ps c)
         (fun n' => exec B2 n' f pd cf (ops' ++ r') t' g l' ps' c').
Proof.
  intros n SIM f ops ops' H pd cf r t r' t' K g l l' ps ps' c c' HL HP HC NU.
  pose proof (run_operations_sim n SIM f pd ops ops' H g l l' ps ps' c c' HL HP HC) as C.
  rewrite exec_app in NU |- *.
  assert (NB : ~ bout m (run_operations x (run_at x n) f pd ops g l ps c)).
  { intros O. apply NU. destruct (run_operations x (run_at x n) f pd ops g l ps c); [destruct O|].
    apply out_unfinished. exact O. }
  destruct (C NB) as [(E & c1 & PN)|(w & (n0 & EV) & NW & D)].
  - left. split; auto. rewrite PN. eexists. reflexivity.
  - destruct D as [(E & c1 & PN)|R].
    + right. subst w. exists (Panicked c1). split.
      * exists n0. intros n' Hn. rewrite exec_app. rewrite (EV n' Hn). reflexivity.
      * split; [intros (? & E'); discriminate|]. left. split; auto. eexists. reflexivity.
    + destruct R as [g1 l1 l1' qs qs' c1 c1' S0 S1 S2|o o' R].
      * destruct (K g1 l1 l1' qs qs' c1 c1' S0 S1 S2 NU) as [A|(u & (n1 & EV1) & NU' & D)]; [left; exact A|].
        right. exists u. split; [|split; auto].
        exists (Nat.max n0 n1). intros n' Hn. rewrite exec_app. rewrite EV by lia. apply EV1. lia.
      * right. exists o'. split.
        -- exists n0. intros n' Hn. rewrite exec_app. rewrite (EV n' Hn). reflexivity.
        -- split; [intros U; apply NW; apply out_unfinished, U|]. right. exact R.
Qed.

Lemma exec_same_sim : forall n, simulated n -> forall f ops ops' t t',
  Forall2 (oprels f) ops ops' -> trel f t t' ->
  forall pd cf g l l' ps ps' c c', LR f l l' -> prel ps ps' -> sc c c' ->
  covers (orel f) (exec B1 n f pd cf ops t g l ps c)
         (fun n' => exec B2 n' f pd cf ops' t' g l' ps' c').
Proof.
  intros n SIM f ops ops' t t' H HT pd cf g l l' ps ps' c c' HL HP HC.
  pose proof (exec_prefix_sim n SIM f ops ops' H pd cf [] t [] t') as E.
  rewrite !app_nil_r in E. apply E; auto.
  intros g1 l1 l1' qs qs' c1 c1' HL1 HP1 HC1. apply run_term_sim; auto.
Qed.

(** ** The simulation *)
Variable Code : fid -> list operation -> terminator -> list operation -> terminator -> Prop.

Hypothesis P_code : forall f b b' fn fn', P f b b' -> B1 f = Some fn -> B2 f = Some fn' ->
  (nth_error fn b = None /\ nth_error fn' b' = None) \/
  exists ops t ops' t', chain fn b ops t /\ chain fn' b' ops' t' /\ Code f ops t ops' t'.

Hypothesis Code_sim : forall n, simulated n -> forall f ops t ops' t', Code f ops t ops' t' ->
  forall pd cf g l l' ps ps' c c', LR f l l' -> prel ps ps' -> sc c c' ->
  covers (orel f) (exec B1 n f pd cf ops t g l ps c)
         (fun n' => exec B2 n' f pd cf ops' t' g l' ps' c').

Lemma run_loop_missing : forall z n f b pd cf fr g c,
  (forall fn, z f = Some fn -> nth_error fn b = None) ->
  run_loop (with_bodies m z) (S n) f b pd cf fr g c = Panicked c.
Proof.
  intros z n f b pd cf [l ps] g c H. rewrite run_loop_S. cbn [body with_bodies].
  destruct (z f) as [fn|]; [|reflexivity].
  match goal with |- match ?e with _ => _ end = _ => change e with (nth_error fn b) end.
  rewrite (H fn eq_refl). reflexivity.
Qed.

Theorem simulation : forall n, simulated n.
Proof.
  induction n as [|n IH]; intros f b b' pd cf fr fr' g c c' HP HF HC NU.
  - exfalso. apply NU. eexists. reflexivity.
  - assert (MISS : (forall fn, B1 f = Some fn -> nth_error fn b = None) ->
                   (forall fn, B2 f = Some fn -> nth_error fn b' = None) ->
                   exists o', ev (fun n' => run_loop y n' f b' pd cf fr' g c') o' /\
                     ~ unfinished o' /\ orel f (run_loop x (S n) f b pd cf fr g c) o').
    { intros M1 M2. exists (Panicked c'). split; [|split].
      - exists 1. intros [|n'] Hn; [lia|]. apply run_loop_missing, M2.
      - intros (? & E); discriminate.
      - rewrite run_loop_missing by exact M1. constructor. exact HC. }
    destruct (body_some f) as [(EX & EY)|(fn & fn' & EX & EY)].
    + right. destruct MISS as (o' & A & B & R); [congruence|congruence|].
      exists o'. auto.
    + destruct (P_code f b b' fn fn' HP EX EY) as [(M1 & M2)|(ops & t & ops' & t' & C1 & C2 & HCode)].
      * right. destruct MISS as (o' & A & B & R); [congruence|congruence|].
        exists o'. auto.
      * inversion HF as [f0 l l' ps ps' HL HPS]; subst.
        pose proof (chain_to B1 f fn EX b ops t C1 n pd cf l ps g c NU) as CT.
        match type of NU with ~ unfinished ?o => change (exec B1 n f pd cf ops t g l ps c = o) in CT end.
        rewrite <- CT in NU |- *.
        destruct (Code_sim n IH f ops t ops' t' HCode pd cf g l l' ps ps' c c' HL HPS HC NU)
          as [A|(o' & (n0 & EV) & NU' & D)]; [left; exact A|].
        right. exists o'. split; [|split; auto].
        destruct (chain_from B2 f fn' EY b' ops' t' C2) as (k & K).
        exists (k + n0). intros n' Hn.
        replace n' with (k + (n' - k)) by lia.
        assert (E : exec B2 (n' - k) f pd cf ops' t' g l' ps' c' = o') by (apply EV; lia).
        rewrite K; [exact E|]. rewrite E. exact NU'.
Qed.

(** ** Entries *)
Ltac use_run E :=
  match type of E with ?a = _ =>
    match goal with |- match ?e with _ => _ end = _ => change e with a end end;
  rewrite E; reflexivity.

Lemma entry_sim : forall n f args k g c c', sc c c' ->
  covers (same_answer obs) (run_entry x n f args k g c) (fun n' => run_entry y n' f args k g c').
Proof.
  intros n f args k g c c' HC NU. unfold run_entry in *.
  assert (E1 : state c = state c') by apply HC.
  assert (E2 : cells c = cells c') by apply HC.
  assert (E3 : cell_limit c = cell_limit c') by apply HC.
  assert (ER : ensure_runnable c = ensure_runnable c') by (unfold ensure_runnable; rewrite E1; reflexivity).
  rewrite <- ER, <- E2, <- E3.
  destruct (ensure_runnable c) as [e|].
  { right. eexists. split; [apply ev_const|]. split; [intros (? & E); discriminate|]. right.
    constructor. exact HC. }
  destruct (cell_limit c <? cells c + k).
  { right. eexists. split; [apply ev_const|]. split; [intros (? & E); discriminate|]. right.
    constructor. apply sc_poisoned, HC. }
  assert (HC1 : sc (set_depth (set_cells c (cells c + k)) (S (call_depth (set_cells c (cells c + k)))))
                   (set_depth (set_cells c' (cells c + k)) (S (call_depth (set_cells c' (cells c + k)))))).
  { apply sc_enter, sc_cells, HC. }
  assert (SIM := simulation n f entry entry None None (Frame args []) (Frame args []) g _ _ (P_entry f)
                   (FR f args args [] [] (LR_refl f args) PNil) HC1).
  set (o := run_loop x n f entry None None (Frame args []) g
              (set_depth (set_cells c (cells c + k)) (S (call_depth (set_cells c (cells c + k)))))) in *.
  assert (NU1 : ~ unfinished o).
  { intros (q & E). apply NU. rewrite E. eexists. reflexivity. }
  assert (SL : forall c1 c1', sc c1 c1' ->
    sc (truncate (cells c) (truncate (cells c + k) (set_depth c1 (call_depth c1 - 1))))
       (truncate (cells c) (truncate (cells c + k) (set_depth c1' (call_depth c1' - 1))))).
  { intros c1 c1' S1. apply sc_truncate, sc_leave, S1. }
  destruct (SIM NU1) as [(E & c1 & PN)|(o' & (n0 & EV) & NU' & D)].
  - left. split; auto. rewrite PN. eexists. reflexivity.
  - right. destruct D as [(E & c1 & PN)|R].
    + subst o'. exists (Panicked c1). split.
      * exists n0. intros n' Hn. specialize (EV n' Hn). use_run EV.
      * split; [intros (? & E'); discriminate|]. left. split; auto. eexists. reflexivity.
    + destruct R as [g1 c1 c1' S1|v b b' fr fr' g1 c1 c1' S0 S1 S2|e g1 c1 c1' S1|c1 c1' S1];
        (eexists; split; [exists n0; intros n' Hn; specialize (EV n' Hn); use_run EV|]);
        (split; [intros (? & E'); discriminate|]); right; constructor; auto.
Qed.

End Sim.

(** ** Two simulations make an equivalence *)
Lemma ev_at : forall A (F : nat -> A) o, ev F o -> exists n, F n = o.
Proof. intros A F o (n & E). exists n. apply E. lia. Qed.

Lemma same_answer_sym : forall obs G L Y (o o' : outcome G L Y), same_answer obs o o' -> same_answer obs o' o.
Proof. intros obs G L Y o o' H. destruct H; constructor; apply same_context_sym; auto. Qed.

Lemma same_answer_trans : forall obs G L Y (a b c : outcome G L Y), same_answer obs a b -> same_answer obs b c ->
  same_answer obs a c.
Proof.
  intros obs G L Y a b c H1 H2.
  destruct H1; inversion H2; subst; constructor; eapply same_context_trans; eauto.
Qed.

Lemma equivalent_intro : forall obs m B1 B2,
  (forall n f args k g c, covers m false false (same_answer obs)
     (run_entry (with_bodies m B1) n f args k g c) (fun n' => run_entry (with_bodies m B2) n' f args k g c)) ->
  (forall n f args k g c, covers m false false (same_answer obs)
     (run_entry (with_bodies m B2) n f args k g c) (fun n' => run_entry (with_bodies m B1) n' f args k g c)) ->
  equivalent obs m B1 B2.
Proof.
  intros obs m B1 B2 H1 H2 f args k g c. split; intros n o NU.
  - destruct (H1 n f args k g c NU) as [(E & _)|(o' & EV & _ & [(E & _)|R])]; try discriminate.
    destruct (ev_at _ _ _ EV) as (n' & <-). exists n'. exact R.
  - destruct (H2 n f args k g c NU) as [(E & _)|(o' & EV & _ & [(E & _)|R])]; try discriminate.
    destruct (ev_at _ _ _ EV) as (n' & <-). exists n'. apply same_answer_sym. exact R.
Qed.

Lemma refines_intro : forall obs m B1 B2,
  (forall n f args k g c, covers m true false (same_answer obs)
     (run_entry (with_bodies m B1) n f args k g c) (fun n' => run_entry (with_bodies m B2) n' f args k g c)) ->
  (forall n f args k g c, covers m false true (same_answer obs)
     (run_entry (with_bodies m B2) n f args k g c) (fun n' => run_entry (with_bodies m B1) n' f args k g c)) ->
  refines obs m B1 B2.
Proof.
  intros obs m B1 B2 H1 H2 f args k g c. split; intros n o NU.
  - intros NP. destruct (H1 n f args k g c NU) as [(E & PN)|(o' & EV & _ & [(E & _)|R])];
      try discriminate; [exfalso; apply NP, PN|].
    destruct (ev_at _ _ _ EV) as (n' & <-). exists n'. exact R.
  - destruct (H2 n f args k g c NU) as [(E & _)|(o' & EV & _ & [(E & PN)|R])]; try discriminate.
    + destruct (ev_at _ _ _ EV) as (n' & <-). exists n'. left. exact PN.
    + destruct (ev_at _ _ _ EV) as (n' & <-). exists n'. right. apply same_answer_sym. exact R.
Qed.

Lemma same_unfinished : forall obs G L Y (o o' : outcome G L Y), same_answer obs o o' ->
  ~ unfinished o /\ ~ unfinished o' /\ (panicked o <-> panicked o').
Proof.
  intros obs G L Y o o' H. destruct H; repeat split; intros (q & E); try discriminate;
    eexists; reflexivity.
Qed.

Lemma equivalent_refl : forall obs m B, equivalent obs m B B.
Proof.
  intros obs m B f args k g c.
  assert (R : forall n, ~ unfinished (run_entry (with_bodies m B) n f args k g c) ->
    same_answer obs (run_entry (with_bodies m B) n f args k g c) (run_entry (with_bodies m B) n f args k g c)).
  { intros n NU. unfold run_entry in *.
    destruct (ensure_runnable c); [constructor; apply same_context_refl|].
    destruct (cell_limit c <? cells c + k); [constructor; apply same_context_refl|].
    destruct (run_loop _ n f entry None None _ g _); try (constructor; apply same_context_refl).
    exfalso. apply NU. eexists. reflexivity. }
  split; intros n o NU; exists n; apply R, NU.
Qed.

Lemma equivalent_sym : forall obs m B1 B2, equivalent obs m B1 B2 -> equivalent obs m B2 B1.
Proof.
  intros obs m B1 B2 H f args k g c. destruct (H f args k g c) as (A & B). split.
  - intros n o NU. destruct (B n NU) as (n' & R). exists n'. apply same_answer_sym, R.
  - intros n o NU. destruct (A n NU) as (n' & R). exists n'. apply same_answer_sym, R.
Qed.

Lemma equivalent_trans : forall obs m B1 B2 B3, equivalent obs m B1 B2 -> equivalent obs m B2 B3 ->
  equivalent obs m B1 B3.
Proof.
  intros obs m B1 B2 B3 H1 H2 f args k g c.
  destruct (H1 f args k g c) as (A1 & C1), (H2 f args k g c) as (A2 & C2). split.
  - intros n o NU. destruct (A1 n NU) as (n' & R).
    destruct (same_unfinished _ _ _ _ _ _ R) as (_ & NU' & _).
    destruct (A2 n' NU') as (n'' & R'). exists n''. eapply same_answer_trans; eauto.
  - intros n o NU. destruct (C2 n NU) as (n' & R).
    destruct (same_unfinished _ _ _ _ _ _ R) as (NU' & _ & _).
    destruct (C1 n' NU') as (n'' & R'). exists n''. eapply same_answer_trans; eauto.
Qed.

Lemma equivalent_refines : forall obs m B1 B2, equivalent obs m B1 B2 -> refines obs m B1 B2.
Proof.
  intros obs m B1 B2 H f args k g c. destruct (H f args k g c) as (A & B). split.
  - intros n o NU _. apply A, NU.
  - intros n o NU. destruct (B n NU) as (n' & R). exists n'. right. exact R.
Qed.

Lemma refines_trans : forall obs m B1 B2 B3, refines obs m B1 B2 -> refines obs m B2 B3 ->
  refines obs m B1 B3.
Proof.
  intros obs m B1 B2 B3 H1 H2 f args k g c.
  destruct (H1 f args k g c) as (A1 & C1), (H2 f args k g c) as (A2 & C2). split.
  - intros n o NU NP. destruct (A1 n NU NP) as (n' & R).
    destruct (same_unfinished _ _ _ _ _ _ R) as (_ & NU' & PP).
    destruct (A2 n' NU') as (n'' & R'); [rewrite <- PP; exact NP|].
    exists n''. eapply same_answer_trans; eauto.
  - intros n o NU. destruct (C2 n NU) as (n' & [PN|R]).
    + assert (NU' : ~ unfinished (run_entry (with_bodies m B2) n' f args k g c)).
      { intros (q & E). destruct PN as (q' & E'). congruence. }
      destruct (C1 n' NU') as (n'' & [PN'|R']); exists n''; left; auto.
      apply (same_unfinished _ _ _ _ _ _ R'). exact PN.
    + destruct (same_unfinished _ _ _ _ _ _ R) as (NU' & _ & PP).
      destruct (C1 n' NU') as (n'' & [PN'|R']); exists n''; [left; exact PN'|].
      right. eapply same_answer_trans; eauto.
Qed.

Lemma same_context_any : forall obs c c', same_context any_event c c' -> same_context obs c c'.
Proof.
  intros obs c c'. unfold same_context.
  assert (F : forall l, filter any_event l = l).
  { induction l as [|e l IH]; cbn; [reflexivity|]. f_equal. exact IH. }
  rewrite !F. intuition congruence.
Qed.

Lemma same_answer_any : forall obs G L Y (o o' : outcome G L Y), same_answer any_event o o' -> same_answer obs o o'.
Proof. intros obs G L Y o o' H. destruct H; constructor; apply same_context_any; auto. Qed.

Lemma equivalent_any : forall obs m B1 B2, equivalent any_event m B1 B2 -> equivalent obs m B1 B2.
Proof.
  intros obs m B1 B2 H f args k g c. destruct (H f args k g c) as (A & B). split.
  - intros n o NU. destruct (A n NU) as (n' & R). exists n'. apply same_answer_any, R.
  - intros n o NU. destruct (B n NU) as (n' & R). exists n'. apply same_answer_any, R.
Qed.

(** ** Rewritings that only rearrange blocks *)
Lemma drel_refl : forall m ex ey (LR : fid -> bindings m -> bindings m -> Prop) f, (forall l : bindings m, LR f l l) -> forall d, drel m ex ey LR f d d.
Proof.
  intros m ex ey LR f R d. induction d; try (constructor; auto; fail).
Qed.

Lemma renamed_trel : forall m ex ey P f t t', renamed (P f) t t' ->
  trel m ex ey (fun _ l l' => l = l') P f t t'.
Proof.
  intros m ex ey P f t t' H.
  destruct t, t'; cbn in H; try contradiction.
  - constructor. auto.
  - destruct H as (<- & A & B). constructor; auto. intros g l l' <-. reflexivity.
  - destruct H as (<- & A & B). constructor; auto. intros g l l' <-. apply drel_refl. auto.
  - destruct H as (<- & A). constructor; auto. intros g l l' <-. reflexivity.
  - constructor.
  - constructor.
  - constructor.
Qed.

Lemma renamed_flip : forall prim cnd (R : nat -> nat -> Prop) (t t' : terminator prim cnd),
  renamed R t t' -> renamed (fun a b => R b a) t' t.
Proof. intros prim cnd R t t' H. destruct t, t'; cbn in *; intuition. Qed.

Section Rearranged.
Variable m : machine.
Notation function := (function (payload m) (cond m)).
Variables B1 B2 : fid -> option function.
Variable P : fid -> nat -> nat -> Prop.
Hypothesis natives : forall f, B1 f = None <-> B2 f = None.
Hypothesis P_entry : forall f, P f entry entry.
Hypothesis P_chain : forall f b b' fn fn', P f b b' -> B1 f = Some fn -> B2 f = Some fn' ->
  (nth_error fn b = None /\ nth_error fn' b' = None) \/
  exists ops t t', chain m fn b ops t /\ chain m fn' b' ops t' /\ renamed (P f) t t'.

Lemma rearranged_covers : forall n f args k g c, covers m false false (same_answer any_event)
  (run_entry (with_bodies m B1) n f args k g c) (fun n' => run_entry (with_bodies m B2) n' f args k g c).
Proof.
  intros n f args k g c.
  apply entry_sim with (LR := fun _ l l' => l = l') (P := P)
    (Code := fun f ops t ops' t' => ops = ops' /\ renamed (P f) t t'); auto.
  - intros f0 b b' fn fn' HP E1 E2.
    destruct (P_chain f0 b b' fn fn' HP E1 E2) as [A|(ops & t & t' & A & B & C)]; [left; exact A|].
    right. exists ops, t, ops, t'. auto.
  - intros n0 SIM f0 ops t ops' t' (<- & RT) pd cf g0 l l' ps ps' c0 c' HL HP HC.
    apply exec_same_sim with (LR := fun _ l l' => l = l') (P := P); auto.
    + clear. induction ops; constructor; auto. intros g l l' <-. apply drel_refl. auto.
    + apply renamed_trel, RT.
  - apply same_context_refl.
Qed.
End Rearranged.

Lemma rearranged_equivalent : forall m B1 B2 (P : fid -> nat -> nat -> Prop),
  (forall f, B1 f = None <-> B2 f = None) -> (forall f, P f entry entry) ->
  (forall f b b' fn fn', P f b b' -> B1 f = Some fn -> B2 f = Some fn' ->
    (nth_error fn b = None /\ nth_error fn' b' = None) \/
    exists ops t t', chain m fn b ops t /\ chain m fn' b' ops t' /\ renamed (P f) t t') ->
  equivalent any_event m B1 B2.
Proof.
  intros m B1 B2 P N E H. apply equivalent_intro.
  - apply rearranged_covers with (P := P); auto.
  - apply rearranged_covers with (P := fun f a b => P f b a); auto.
    + intros f. split; apply N.
    + intros f b b' fn fn' HP E1 E2.
      destruct (H f b' b fn' fn HP E2 E1) as [(A & B)|(ops & t & t' & A & B & C)]; [left; auto|].
      right. exists ops, t', t. split; [exact B|]. split; [exact A|]. apply renamed_flip, C.
Qed.
