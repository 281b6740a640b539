(** Runs of guarded programs under limits end. *)
From Coq Require Import List Arith Bool Lia.
From Verif Require Import MirModel SandboxSpec SandboxProofs TermSpec.
Import ListNotations.

(** ** Walks *)
Lemma walk_app_inv : forall A (e : A -> A -> Prop) l1 a l2,
  walk e (l1 ++ a :: l2) -> walk e (l1 ++ [a]) /\ walk e (a :: l2).
Proof.
  intros A e l1. induction l1 as [|x l1 IH]; intros a l2 H.
  - simpl. split; [exact I|exact H].
  - destruct l1 as [|y l1].
    + cbn [app] in *. destruct H as [H1 H2]. split; [|exact H2]. simpl. auto.
    + cbn [app] in *. destruct H as [H1 H2]. specialize (IH a l2 H2). cbn [app] in IH.
      destruct IH. split; auto. split; auto.
Qed.

Lemma walk_snoc : forall A (e : A -> A -> Prop) l a b,
  walk e (l ++ [a]) -> e a b -> walk e (l ++ [a; b]).
Proof.
  intros A e l. induction l as [|x l IH]; intros a b H E.
  - simpl. auto.
  - destruct l as [|y l].
    + cbn [app] in *. destruct H. simpl. auto.
    + cbn [app] in *. destruct H as [H1 H2]. split; [auto|]. apply IH; auto.
Qed.

(** A walk (newest node first in [seen]) that comes back to one of its nodes
    contains a cycle. *)
Lemma walk_back : forall A (e : A -> A -> Prop) seen b,
  walk e (rev seen ++ [b]) -> In b seen ->
  exists l, cycle e l /\ incl l seen.
Proof.
  intros A e seen b W I. apply in_rev in I. apply in_split in I. destruct I as (l1 & l2 & E).
  rewrite E in W. rewrite <- app_assoc in W. cbn [app] in W.
  apply walk_app_inv in W. destruct W as [_ W].
  exists (b :: l2). split; [exact W|].
  intros x I. apply in_rev. rewrite E. apply in_or_app. right. exact I.
Qed.

(** A cycle has a node with [P] when the other nodes go down. *)
Lemma cycle_ranked : forall A (e : A -> A -> Prop) (P : A -> Prop) (r : A -> nat),
  (forall a, P a \/ ~ P a) -> (forall a b, e a b -> P a \/ r b < r a) ->
  forall l, cycle e l -> exists a, In a l /\ P a.
Proof.
  intros A e P r DEC DOWN l C. destruct l as [|a q]; [destruct C|].
  assert (K : forall l x y, walk e (x :: l ++ [y]) ->
    (exists z, In z (x :: l) /\ P z) \/ r y < r x).
  { induction l as [|b l IH]; intros x y W.
    - destruct W as [E _]. destruct (DOWN _ _ E); [left; exists x; simpl; auto|right; auto].
    - cbn [app] in W. destruct W as [E W]. destruct (IH _ _ W) as [(z & I & Z)|LT].
      + left. exists z. split; [right; exact I|exact Z].
      + destruct (DOWN _ _ E); [left; exists x; simpl; auto|right; lia]. }
  destruct (K q a a C) as [H|H]; [exact H|lia].
Qed.

Section Term.
Variable m : machine.
Notation G := (memory m).
Notation L := (bindings m).
Notation outcome := (outcome (memory m) (bindings m) (place m)).
Notation op_outcome := (op_outcome (memory m) (bindings m)).
Notation frame := (frame (bindings m)).
Notation suspended := (suspended (bindings m)).
Notation drive := (drive (memory m) (bindings m) (place m)).

Definition runner := fid -> nat -> frame -> G -> context -> outcome.

Definition out (o : outcome) : Prop := match o with OutOfFuel _ => True | _ => False end.
Definition op_out (o : op_outcome) : Prop := match o with OpOutOfFuel _ => True | _ => False end.

(** ** More model fuel does not change an outcome *)
Definition below (r1 r2 : runner) : Prop :=
  forall f b fr g c, out (r1 f b fr g c) \/ r1 f b fr g c = r2 f b fr g c.

Lemma run_drive_mono : forall r1 r2 d, below r1 r2 ->
  forall g0 l0 ps c,
  op_out (run_drive m r1 d g0 l0 ps c) \/
  run_drive m r1 d g0 l0 ps c = run_drive m r2 d g0 l0 ps c.
Proof.
  intros r1 r2 d B.
  induction d as [g l|f g l| |k IH|k IH|k IH|k IH|n k IH|f args g ok IHo fail IHf|i dr IH
                 |r f args g ok IHo fail IHf|r g ok IHo fail IHf];
    intros g0 l0 ps c; cbn [run_drive]; try (right; reflexivity).
  - destruct (check_fuel c) as [[e|] c']; cbn [lift_violation]; [right; reflexivity|apply IH].
  - destruct (check_call_depth c) as [[e|] c']; cbn [lift_violation]; [right; reflexivity|apply IH].
  - destruct (alloc_cell c) as [[e|i] c']; [right; reflexivity|apply IH].
  - apply IH.
  - apply IH.
  - destruct (body m f).
    + destruct (B f entry (Frame args []) g (set_depth c (S (call_depth c)))) as [O|E].
      * destruct (r1 f entry (Frame args []) g (set_depth c (S (call_depth c)))); try destruct O.
        left. exact I.
      * rewrite <- E. destruct (r1 f entry (Frame args []) g (set_depth c (S (call_depth c))))
          as [g' c'|y b fr g' c'|e g' c'|c'|c']; try (right; reflexivity); [apply IHo|].
        destruct e; [apply IHf|right; reflexivity|right; reflexivity].
    + destruct (native m f args g); [apply IHo|apply IHf|right; reflexivity].
  - destruct (IH g0 l0 ps c) as [O|E].
    + destruct (run_drive m r1 dr g0 l0 ps c); try destruct O. left. exact I.
    + rewrite E. right. reflexivity.
  - destruct (body m f); [|right; reflexivity].
    destruct (B f entry (Frame args []) g (set_depth c (S (call_depth c)))) as [O|E].
    + destruct (r1 f entry (Frame args []) g (set_depth c (S (call_depth c)))); try destruct O.
      left. exact I.
    + rewrite <- E. destruct (r1 f entry (Frame args []) g (set_depth c (S (call_depth c))))
        as [g' c'|y b fr g' c'|e g' c'|c'|c']; try (right; reflexivity); [apply IHo|].
      destruct e; [apply IHf|right; reflexivity|right; reflexivity].
  - destruct (take_projection m r ps) as [[[f b fr top] ps']|]; [|right; reflexivity].
    destruct (B f b fr g c) as [O|E].
    + destruct (r1 f b fr g c); try destruct O. left. exact I.
    + rewrite <- E. destruct (r1 f b fr g c)
        as [g' c'|y b' fr' g' c'|e g' c'|c'|c']; try (right; reflexivity); [apply IHo|].
      destruct e; [apply IHf|right; reflexivity|right; reflexivity].
Qed.

Definition bout (o : block_outcome G L (place m)) : Prop :=
  match o with BExit o => out o | _ => False end.

Lemma run_operations_mono : forall r1 r2 key pd ops, below r1 r2 ->
  forall g l ps c,
  bout (run_operations m r1 key pd ops g l ps c) \/
  run_operations m r1 key pd ops g l ps c = run_operations m r2 key pd ops g l ps c.
Proof.
  intros r1 r2 key pd ops B. induction ops as [|o ops IH]; intros g l ps c; cbn [run_operations];
    [right; reflexivity|].
  unfold exec_operation.
  destruct (run_drive_mono r1 r2 (operation_drive m o g l) B g l ps (log (EvOperation key) c)) as [O|E].
  - destruct (run_drive m r1 _ g l ps _); try destruct O. left. exact I.
  - rewrite <- E. destruct (run_drive m r1 _ g l ps _); try (right; reflexivity). apply IH.
Qed.

Definition run_at (n : nat) : runner := fun f b fr g c => run_loop m n f b None None fr g c.

(** run_loop, with its terminator apart. *)
Definition nexts := nat -> option failure -> option failure -> frame -> G -> context -> outcome.

Definition run_term (run : runner) (next : nexts) (key : fid) (pending cf : option failure)
  (t : terminator (payload m) (cond m)) (g : G) (l : L) (ps : list (nat * suspended)) (c : context)
  : outcome :=
  match t with
  | Goto t => next t pending cf (Frame l ps) g c
  | CondBr q t e =>
      match condition m q g l with
      | None => Panicked c
      | Some taken => next (if taken then t else e) pending cf (Frame l ps) g c
      end
  | Invoke o t e =>
      match exec_operation m run key o g l ps c with
      | OpDone g' l' ps' c' => next t pending cf (Frame l' ps') g' c'
      | OpFailed (SourceFailure f) g' l' ps' c' =>
          match pending with
          | None => next e (Some f) cf (Frame l' ps') g' c'
          | Some _ =>
              match cf with
              | Some _ => Panicked c'
              | None => next e pending (Some f) (Frame l' ps') g' c'
              end
          end
      | OpFailed err g' l' ps' c' => poisoned_exit m pending err (Frame l' ps') g' c'
      | OpPanicked c' => Panicked c'
      | OpOutOfFuel c' => OutOfFuel c'
      end
  | Return =>
      match pending, ps with
      | None, [] => Completed g c
      | _, _ => Panicked c
      end
  | PropagateError =>
      match pending, cf, ps with
      | Some f, None, [] => Failed (SourceFailure f) g c
      | _, _, _ => Panicked c
      end
  | FailureInCleanup =>
      match pending, cf with
      | Some _, Some d => poisoned_exit m pending (SourceFailure d) (Frame l ps) g c
      | _, _ => Panicked c
      end
  | Yield p resume =>
      match pending, yielded m p g l with
      | None, Some y => YieldedAt y resume (Frame l ps) g c
      | _, _ => Panicked c
      end
  end.

Lemma run_loop_S : forall n key b pd cf l ps g c,
  run_loop m (S n) key b pd cf (Frame l ps) g c =
  match body m key with
  | None => Panicked c
  | Some fn =>
      match nth_error fn b with
      | None => Panicked c
      | Some blk =>
          match run_operations m (run_at n) key pd (operations blk) g l ps c with
          | BExit o => o
          | BDone g l ps c =>
              run_term (run_at n) (fun b pd cf fr g c => run_loop m n key b pd cf fr g c)
                       key pd cf (term blk) g l ps c
          end
      end
  end.
Proof. reflexivity. Qed.

Lemma poisoned_exit_not_out : forall pd e fr g c, ~ out (poisoned_exit m pd e fr g c).
Proof.
  intros pd e fr g c. unfold poisoned_exit.
  destruct (match pd with Some i => _ | None => _ end) as [[e' c']|]; [|intros []].
  destruct (discard_frame m fr c'); intros [].
Qed.

Definition next_below (x y : nexts) : Prop :=
  forall b pd cf fr g c, out (x b pd cf fr g c) \/ x b pd cf fr g c = y b pd cf fr g c.

Lemma run_term_mono : forall r1 r2 n1 n2 key pd cf t g l ps c, below r1 r2 -> next_below n1 n2 ->
  out (run_term r1 n1 key pd cf t g l ps c) \/
  run_term r1 n1 key pd cf t g l ps c = run_term r2 n2 key pd cf t g l ps c.
Proof.
  intros r1 r2 n1 n2 key pd cf t g l ps c B N.
  destruct t as [t|q t e|o t e|p resume| | |]; cbn [run_term]; try (right; reflexivity).
  - apply N.
  - destruct (condition m q g l); [apply N|right; reflexivity].
  - unfold exec_operation.
    destruct (run_drive_mono r1 r2 (operation_drive m o g l) B g l ps (log (EvOperation key) c)) as [O|E].
    + destruct (run_drive m r1 _ g l ps _); try destruct O. left. exact I.
    + rewrite <- E. destruct (run_drive m r1 _ g l ps _) as [g' l' ps' c'|err g' l' ps' c'|c'|c'];
        try (right; reflexivity).
      * apply N.
      * destruct err; try (right; reflexivity).
        destruct pd; [destruct cf; [right; reflexivity|]|]; apply N.
Qed.

Lemma run_loop_step : forall n key b pd cf fr g c,
  out (run_loop m n key b pd cf fr g c) \/
  run_loop m n key b pd cf fr g c = run_loop m (S n) key b pd cf fr g c.
Proof.
  induction n as [|n IH]; intros key b pd cf fr g c; [left; exact I|].
  assert (B : below (run_at n) (run_at (S n))).
  { intros f b' fr' g' c'. apply IH. }
  destruct fr as [l ps]. rewrite (run_loop_S n), (run_loop_S (S n)).
  destruct (body m key) as [fn|]; [|right; reflexivity].
  destruct (nth_error fn b) as [blk|]; [|right; reflexivity].
  destruct (run_operations_mono (run_at n) (run_at (S n)) key pd (operations blk) B g l ps c) as [O|E].
  - left. destruct (run_operations m (run_at n) key pd (operations blk) g l ps c); try destruct O. exact O.
  - rewrite <- E. destruct (run_operations m (run_at n) key pd (operations blk) g l ps c) as [g1 l1 ps1 c1|o];
      [|right; reflexivity].
    apply run_term_mono; auto. intros b' pd' cf' fr' g' c'. apply IH.
Qed.

Lemma run_loop_mono : forall n n' key b pd cf fr g c, n <= n' ->
  ~ out (run_loop m n key b pd cf fr g c) ->
  run_loop m n' key b pd cf fr g c = run_loop m n key b pd cf fr g c.
Proof.
  intros n n' key b pd cf fr g c H. induction H as [|n' H IH]; intros N; [reflexivity|].
  specialize (IH N). destruct (run_loop_step n' key b pd cf fr g c) as [O|E].
  - rewrite IH in O. contradiction.
  - congruence.
Qed.

Lemma run_at_below : forall n n', n <= n' -> below (run_at n) (run_at n').
Proof.
  intros n n' H f b fr g c.
  assert (D : out (run_at n f b fr g c) \/ ~ out (run_at n f b fr g c)).
  { destruct (run_at n f b fr g c); simpl; auto. }
  destruct D as [O|O]; [left; exact O|right]. symmetry. apply run_loop_mono; auto.
Qed.

Lemma run_drive_at : forall n n' d g0 l0 ps c, n <= n' ->
  ~ op_out (run_drive m (run_at n) d g0 l0 ps c) ->
  run_drive m (run_at n') d g0 l0 ps c = run_drive m (run_at n) d g0 l0 ps c.
Proof.
  intros n n' d g0 l0 ps c H N.
  destruct (run_drive_mono _ _ d (run_at_below n n' H) g0 l0 ps c) as [O|E]; [contradiction|auto].
Qed.

Lemma run_operations_at : forall n n' key pd ops g l ps c, n <= n' ->
  ~ bout (run_operations m (run_at n) key pd ops g l ps c) ->
  run_operations m (run_at n') key pd ops g l ps c = run_operations m (run_at n) key pd ops g l ps c.
Proof.
  intros n n' key pd ops g l ps c H N.
  destruct (run_operations_mono _ _ key pd ops (run_at_below n n' H) g l ps c) as [O|E];
    [contradiction|auto].
Qed.

(** ** The depth of nested frames *)
Variable D : nat.

Definition nested (x y : nat * fid) : Prop :=
  fst x = S (fst y) /\ calls m (snd y) (snd x) /\ body m (snd x) <> None
  /\ (checks_depth m (snd x) -> fst x < D).

Lemma fid_eq_dec : forall a b : fid, {a = b} + {a <> b}.
Proof. intros a b. decide equality; apply Nat.eq_dec. Qed.

Lemma acc_deep : forall fs, recursion_guarded m -> (forall f, body m f <> None -> In f fs) ->
  forall n seen f k, length fs - length seen <= n ->
  D <= k -> walk (calls m) (rev seen ++ [f]) -> NoDup (f :: seen) -> incl (f :: seen) fs ->
  (forall h, In h (f :: seen) -> ~ checks_depth m h) -> Acc nested (k, f).
Proof.
  intros fs RG FP n. induction n as [|n IH]; intros seen f k LN DK W ND IN UC.
  - exfalso. pose proof (NoDup_incl_length ND IN) as H. simpl in H. lia.
  - constructor. intros [k' h] (E & C & B & CH). cbn [fst snd] in *. subst k'.
    assert (U : ~ checks_depth m h). { intro X. specialize (CH X). lia. }
    assert (W' : walk (calls m) (rev (f :: seen) ++ [h])).
    { cbn [rev]. rewrite <- app_assoc. apply walk_snoc; auto. }
    assert (N : ~ In h (f :: seen)).
    { intro X. destruct (walk_back _ _ _ _ W' X) as (l & CY & IL).
      destruct (RG l CY) as (x & X1 & X2). exact (UC x (IL x X1) X2). }
    pose proof (NoDup_incl_length ND IN) as H. cbn [length] in H.
    apply (IH (f :: seen) h (S k)); auto.
    + cbn [length]. lia.
    + constructor; auto.
    + intros x [<-|X]; auto.
    + intros x [<-|X]; auto.
Qed.

Lemma acc_nested : recursion_guarded m -> finite_program m ->
  forall k f, body m f <> None -> (checks_depth m f -> k < D) -> Acc nested (k, f).
Proof.
  intros RG [fs FP]. 
  assert (K : forall n k f, D - k <= n -> body m f <> None -> (checks_depth m f -> k < D) ->
    Acc nested (k, f)).
  { assert (DEEP : forall k f, D <= k -> body m f <> None -> (checks_depth m f -> k < D) ->
      Acc nested (k, f)).
    { intros k f DK B CH.
      apply (acc_deep fs RG FP (length fs) [] f k); auto; try (simpl; lia).
      - constructor; [intros []|constructor].
      - intros x [<-|[]]. auto.
      - intros x [<-|[]] X. specialize (CH X). lia. }
    induction n as [|n IH]; intros k f LN B CH.
    - apply DEEP; auto. lia.
    - destruct (le_lt_dec D k); [apply DEEP; auto|].
      constructor. intros [k' h] (E & C & B' & CH'). cbn [fst snd] in *. subst k'.
      apply IH; auto. lia. }
  intros k f. apply (K (D - k)). lia.
Qed.

Lemma checks_depth_dec : forall f, checks_depth m f \/ ~ checks_depth m f.
Proof.
  intros f. destruct (body m f) as [fn|] eqn:B;
    [|right; intros (fn & blk & pre & post & X & _); congruence].
  destruct (nth_error fn entry) as [blk|] eqn:E;
    [|right; intros (fn' & blk & pre & post & X & Y & _); congruence].
  assert (K : forall ops : list (operation (payload m)),
    (exists pre post, ops = pre ++ OCheckCallDepth :: post /\ forall o, In o pre -> exists p, o = OPlain p)
    \/ ~ (exists pre post, ops = pre ++ OCheckCallDepth :: post /\ forall o, In o pre -> exists p, o = OPlain p)).
  { induction ops as [|o ops IH].
    - right. intros (pre & post & X & _). destruct pre; discriminate.
    - assert (DO : o = OCheckCallDepth \/ (exists p, o = OPlain p) \/
               (o <> OCheckCallDepth /\ forall p, o <> OPlain p)).
      { destruct o; try (right; right; split; [discriminate|discriminate]).
        - left. reflexivity.
        - right. left. eauto. }
      destruct DO as [->|[[p ->]|[N1 N2]]].
      + left. exists [], ops. split; auto. intros o [].
      + destruct IH as [(pre & post & X & Y)|N].
        * left. exists (OPlain p :: pre), post. subst ops. split; auto.
          intros o [<-|I]; eauto.
        * right. intros (pre & post & X & Y). destruct pre as [|o pre]; [discriminate|].
          injection X as <- X. apply N. exists pre, post. split; auto. intros o I. apply Y. right. exact I.
      + right. intros (pre & post & X & Y). destruct pre as [|o' pre].
        * injection X as X _. contradiction.
        * injection X as <- X. destruct (Y o (or_introl eq_refl)) as [p Z]. exact (N2 p Z). }
  destruct (K (operations blk)) as [(pre & post & X & Y)|N].
  - left. exists fn, blk, pre, post. auto.
  - right. intros (fn' & blk' & pre & post & X & Y & Z & T).
    rewrite B in X. injection X as <-. rewrite E in Y. injection Y as <-. eauto.
Qed.

(** ** Entering a depth-checking function at the limit *)
Definition refused (o : outcome) : Prop :=
  match o with Failed _ _ _ | Panicked _ => True | _ => False end.

Lemma poisoned_exit_refused : forall pd e fr g c, refused (poisoned_exit m pd e fr g c).
Proof.
  intros pd e fr g c. unfold poisoned_exit.
  destruct (match pd with Some i => _ | None => _ end) as [[e' c']|]; [|exact I].
  destruct (discard_frame m fr c'); exact I.
Qed.

Lemma plain_quick : forall run (a : act G L (G * L)) g0 l0 ps c,
  match run_drive m run (embed m a (fun '(g, l) => DDone g l)) g0 l0 ps c with
  | OpDone _ _ ps' c' =>
      ps' = ps /\ call_depth c' = call_depth c /\ call_depth_limit c' = call_depth_limit c
  | OpOutOfFuel _ => False
  | _ => True
  end.
Proof.
  intros run a g0 l0 ps. induction a as [x|f g l|k IH|k IH|n k IH|]; intros c; cbn [embed run_drive].
  - destruct x. cbn [run_drive]. auto.
  - exact I.
  - unfold alloc_cell. destruct (cell_limit c <=? cells c); cbn; [exact I|].
    match goal with |- context [run_drive m run ?d g0 l0 ps ?c'] =>
      specialize (IH (cells c) c') end.
    destruct (run_drive m run _ g0 l0 ps _); auto.
  - apply IH.
  - specialize (IH (truncate n c)). destruct (run_drive m run _ g0 l0 ps _); auto.
  - exact I.
Qed.

Lemma refused_operations : forall run key pd pre post g l ps c,
  (forall o, In o pre -> exists p, o = OPlain p) -> call_depth_limit c <= call_depth c ->
  exists o, run_operations m run key pd (pre ++ OCheckCallDepth :: post) g l ps c = BExit o /\ refused o.
Proof.
  intros run key pd pre post. induction pre as [|o pre IH]; intros g l ps c PL LE.
  - cbn [app run_operations]. unfold exec_operation. cbn [operation_drive run_drive].
    unfold check_call_depth. cbn [log call_depth call_depth_limit].
    apply Nat.leb_le in LE. rewrite LE.
    cbn [sandbox_violation lift_violation is_poisoning].
    eexists. split; [reflexivity|]. apply poisoned_exit_refused.
  - destruct (PL o (or_introl eq_refl)) as [p ->].
    cbn [app run_operations]. unfold exec_operation. cbn [operation_drive].
    pose proof (plain_quick run (plain m p g l) g l ps (log (EvOperation key) c)) as H.
    destruct (run_drive m run _ g l ps _) as [g' l' ps' c'|e g' l' ps' c'|c'|c'].
    + destruct H as (-> & H1 & H2). apply IH.
      * intros o I. apply PL. right. exact I.
      * rewrite H1, H2. exact LE.
    + eexists. split; [reflexivity|]. destruct (is_poisoning e); [apply poisoned_exit_refused|exact I].
    + eexists. split; [reflexivity|]. exact I.
    + destruct H.
Qed.

Lemma refused_entry : forall n f args g c, checks_depth m f -> call_depth_limit c <= call_depth c ->
  refused (run_loop m (S n) f entry None None (Frame args []) g c).
Proof.
  intros n f args g c (fn & blk & pre & post & B & E & O & PL) LE.
  rewrite run_loop_S, B, E, O.
  destruct (refused_operations (run_at n) f None pre post g args [] c PL LE) as (o & -> & R). exact R.
Qed.

(** ** What suspended frames are *)
Fixpoint good_frame (k : nat) (f : fid) (fr : frame) {struct fr} : Prop :=
  match fr with
  | Frame _ ps =>
      (fix go (ps : list (nat * suspended)) : Prop :=
         match ps with
         | [] => True
         | (_, Suspended h _ fr' _) :: q =>
             (nested (S k, h) (k, f) /\ good_frame (S k) h fr') /\ go q
         end) ps
  end.

Fixpoint good_list (k : nat) (f : fid) (ps : list (nat * suspended)) : Prop :=
  match ps with
  | [] => True
  | (_, Suspended h _ fr' _) :: q =>
      (nested (S k, h) (k, f) /\ good_frame (S k) h fr') /\ good_list k f q
  end.

Lemma good_frame_list : forall k f l ps, good_frame k f (Frame l ps) <-> good_list k f ps.
Proof.
  intros k f l ps. cbn [good_frame]. induction ps as [|[r [h b fr t]] ps IH]; [reflexivity|].
  cbn [good_list]. rewrite <- IH. reflexivity.
Qed.

Lemma take_projection_good : forall k f r ps h b fr top ps',
  take_projection m r ps = Some (Suspended h b fr top, ps') -> good_list k f ps ->
  nested (S k, h) (k, f) /\ good_frame (S k) h fr /\ good_list k f ps'.
Proof.
  intros k f r ps. induction ps as [|[r' s] q IH]; intros h b fr top ps' H GL; [discriminate|].
  cbn [take_projection] in H. destruct (r =? r').
  - injection H as -> <-. cbn [good_list] in GL. tauto.
  - destruct (take_projection m r q) as [[s' q']|] eqn:E; [|discriminate].
    injection H as -> <-. destruct s as [h1 b1 fr1 t1]. cbn [good_list] in *.
    destruct GL as [G1 G2]. destruct (IH _ _ _ _ _ eq_refl G2) as (A & B & C). auto.
Qed.

(** ** The contexts of a run under limits *)
Definition limited (j : nat) (c : context) : Prop :=
  state c = Running /\ call_depth_limit c = D /\ exists i, fuel_remaining c = Some i /\ i <= j.

Lemma csteps_fuel_le : forall c c' i, csteps c c' -> fuel_remaining c = Some i ->
  exists i', fuel_remaining c' = Some i' /\ i' <= i.
Proof.
  intros c c' i H F. induction H as [c|c1 c2 c3 H IH S]; [eauto|].
  destruct (IH F) as (i2 & F2 & L2). destruct S; cbn; try (exists i2; split; [assumption|lia]).
  rewrite F2 in H0. injection H0 as ->. exists n. split; [reflexivity|lia].
Qed.

Lemma limited_steps : forall j c c', limited j c -> csteps c c' -> state c' = Running -> limited j c'.
Proof.
  intros j c c' (R & LD & i & F & LE) S R'.
  destruct (csteps_limits _ _ S) as [E _]. destruct (csteps_fuel_le _ _ _ S F) as (i' & F' & L').
  split; [exact R'|]. split; [congruence|]. exists i'. split; [exact F'|lia].
Qed.

Lemma limited_log : forall j c e, limited j c -> limited j (log e c).
Proof. intros j c e H. exact H. Qed.
Lemma limited_depth : forall j c d, limited j c -> limited j (set_depth c d).
Proof. intros j c d H. exact H. Qed.
Lemma limited_truncate : forall j c n, limited j c -> limited j (truncate n c).
Proof. intros j c d H. exact H. Qed.

(** ** Everything ends *)
Definition well (k : nat) (f : fid) (o : outcome) : Prop :=
  match o with
  | OutOfFuel _ => False
  | YieldedAt _ _ fr _ _ => good_frame k f fr
  | _ => True
  end.

Definition op_well (k : nat) (f : fid) (o : op_outcome) : Prop :=
  match o with
  | OpOutOfFuel _ => False
  | OpDone _ _ ps _ | OpFailed _ _ _ ps _ => good_list k f ps
  | OpPanicked _ => True
  end.

Definition ends_at (k : nat) (f : fid) : Prop :=
  forall j b pd cf fr g c, limited j c -> k + open_frame m fr <= call_depth c -> good_frame k f fr ->
  exists n, well k f (run_loop m n f b pd cf fr g c).

Lemma well_not_out : forall k f o, well k f o -> ~ out o.
Proof. intros k f [] H; simpl in *; auto. Qed.
Lemma op_well_not_out : forall k f o, op_well k f o -> ~ op_out o.
Proof. intros k f [] H; simpl in *; auto. Qed.

Lemma good_run_at : forall n, good_run m (run_at n).
Proof. intros n f b fr g c R. apply run_loop_good. exact R. Qed.
Lemma depth_run_at : forall n, depth_run m (run_at n).
Proof. intros n f b fr g c d E. apply run_loop_depth. exact E. Qed.

Lemma ends_more : forall k f n n' b fr g c, n <= n' -> well k f (run_at n f b fr g c) ->
  run_at n' f b fr g c = run_at n f b fr g c.
Proof. intros k f n n' b fr g c LE W. apply run_loop_mono; auto. eapply well_not_out; eauto. Qed.

Lemma fresh_ends : forall k f h j args g c,
  (nested (S k, h) (k, f) -> ends_at (S k) h) ->
  calls m f h -> body m h <> None -> limited j c -> S k <= call_depth c ->
  exists n, well (S k) h (run_at n h entry (Frame args []) g c)
    /\ (forall y b fr g' c', run_at n h entry (Frame args []) g c = YieldedAt y b fr g' c' ->
          nested (S k, h) (k, f)).
Proof.
  intros k f h j args g c IH C B LIM DP.
  assert (K : (checks_depth m h /\ D <= call_depth c) \/ (checks_depth m h -> S k < D)).
  { destruct (checks_depth_dec h); [|right; contradiction].
    destruct (le_lt_dec D (call_depth c)); [left; auto|right; lia]. }
  destruct K as [[CH LE]|CH].
  - exists 1. assert (LE' : call_depth_limit c <= call_depth c). { destruct LIM as (_ & -> & _). exact LE. }
    pose proof (refused_entry 0 h args g c CH LE') as R. unfold run_at.
    destruct (run_loop m 1 h entry None None (Frame args []) g c); try destruct R; split; try exact I;
      intros; discriminate.
  - assert (N : nested (S k, h) (k, f)). { repeat split; auto. }
    destruct (IH N j entry None None (Frame args []) g c) as [n W]; auto.
    + cbn [open_frame]. lia.
    + exact I.
    + exists n. split; [exact W|]. auto.
Qed.

Lemma run_drive_ends : forall k f,
  (forall h, nested (S k, h) (k, f) -> ends_at (S k) h) ->
  forall d j g0 l0 ps c d0, (forall h, may_run d h -> calls m f h) ->
  limited j c -> call_depth c = d0 + open_list m ps -> k <= d0 -> good_list k f ps ->
  exists n, op_well k f (run_drive m (run_at n) d g0 l0 ps c).
Proof.
  intros k f IHN d.
  induction d as [g l|e g l| |q IH|q IH|q IH|q IH|t q IH|h args g ok IHo fail IHf|i dr IH
                 |r h args g ok IHo fail IHf|r g ok IHo fail IHf];
    intros j g0 l0 ps c d0 MR LIM DP LE GL; cbn [run_drive].
  - exists 0. exact GL.
  - exists 0. exact GL.
  - exists 0. exact I.
  - pose proof (check_fuel_ok c) as H. destruct (check_fuel c) as [[e|] c1] eqn:E; cbn [lift_violation].
    + exists 0. exact GL.
    + destruct LIM as [R LIM]. destruct (H R) as [S R1]. apply (IH j g0 l0 ps c1 d0); auto.
      * intros h X. apply MR. constructor. exact X.
      * eapply limited_steps; [split; [exact R|exact LIM]| |]; auto.
      * unfold check_fuel in E. destruct (fuel_remaining c) as [[|x]|]; inversion E; subst; exact DP.
  - pose proof (check_depth_ok c) as H. destruct (check_call_depth c) as [[e|] c1] eqn:E; cbn [lift_violation].
    + exists 0. exact GL.
    + destruct LIM as [R LIM]. destruct (H R) as [S R1]. apply (IH j g0 l0 ps c1 d0); auto.
      * intros h X. apply MR. constructor. exact X.
      * eapply limited_steps; [split; [exact R|exact LIM]| |]; auto.
      * unfold check_call_depth in E. destruct (_ <=? _); inversion E; subst; exact DP.
  - pose proof (alloc_ok c) as H. destruct (alloc_cell c) as [[e|i] c1] eqn:E.
    + exists 0. exact GL.
    + destruct LIM as [R LIM]. destruct (H R) as [S R1]. apply (IH i j g0 l0 ps c1 d0); auto.
      * intros h X. apply MR. econstructor. exact X.
      * eapply limited_steps; [split; [exact R|exact LIM]| |]; auto.
      * unfold alloc_cell in E. destruct (_ <=? _); inversion E; subst; exact DP.
  - apply (IH (cells c) j g0 l0 ps c d0); auto. intros h X. apply MR. econstructor. exact X.
  - apply (IH j g0 l0 ps (truncate t c) d0); auto. intros h X. apply MR. constructor. exact X.
  - destruct (body m h) as [fn|] eqn:B.
    + set (c1 := set_depth c (S (call_depth c))).
      assert (DP1 : call_depth c1 = S (call_depth c) + open_frame m (Frame args [])) by (simpl; lia).
      destruct (fresh_ends k f h j args g c1) as (n1 & W & _); auto.
      { apply MR. constructor. }
      { congruence. }
      { simpl. lia. }
      pose proof (good_run_at n1 h entry (Frame args []) g c1 (proj1 LIM)) as GO.
      pose proof (depth_run_at n1 h entry (Frame args []) g c1 _ DP1) as DO.
      pose proof (fun n' LEn => ends_more (S k) h n1 n' entry (Frame args []) g c1 LEn W) as EM.
      destruct (run_at n1 h entry (Frame args []) g c1) as [g' c'|y b fr g' c'|e g' c'|c'|c'] eqn:E.
      * simpl in GO, DO. destruct GO as [S R].
        destruct (IHo g' j g' l0 ps (truncate (cells c) (set_depth c' (call_depth c' - 1))) d0) as [n2 W2]; auto.
        { intros x X. apply MR. eapply MR_call_ok. exact X. }
        { apply limited_truncate, limited_depth. eapply limited_steps; [exact LIM| |exact R].
          eapply enter_steps. exact S. }
        { simpl. lia. }
        exists (Nat.max n1 n2). rewrite (EM (Nat.max n1 n2)) by lia.
        rewrite (run_drive_at n2); [exact W2|lia|eapply op_well_not_out; eauto].
      * exists n1. rewrite E. exact I.
      * destruct e as [e|v i|i1 i2].
        -- simpl in GO, DO. destruct GO as [S R]. unfold agree in R. simpl in R.
           destruct (IHf e g' j g' l0 ps (truncate (cells c) (set_depth c' (call_depth c' - 1))) d0) as [n2 W2]; auto.
           { intros x X. apply MR. eapply MR_call_fail. exact X. }
           { apply limited_truncate, limited_depth. eapply limited_steps; [exact LIM| |exact R].
             eapply enter_steps. exact S. }
           { simpl. lia. }
           exists (Nat.max n1 n2). rewrite (EM (Nat.max n1 n2)) by lia.
           rewrite (run_drive_at n2); [exact W2|lia|eapply op_well_not_out; eauto].
        -- exists n1. rewrite E. exact GL.
        -- exists n1. rewrite E. exact GL.
      * exists n1. rewrite E. exact I.
      * destruct W.
    + destruct (native m h args g) as [g'|e g'|].
      * apply (IHo g' j g' l0 ps c d0); auto. intros x X. apply MR. eapply MR_call_ok. exact X.
      * apply (IHf e g' j g' l0 ps c d0); auto. intros x X. apply MR. eapply MR_call_fail. exact X.
      * exists 0. exact I.
  - destruct (IH j g0 l0 ps c d0) as [n W]; auto.
    { intros x X. apply MR. constructor. exact X. }
    exists n. destruct (run_drive m (run_at n) dr g0 l0 ps c) as [g l ps' c'|e g l ps' c'|c'|c'];
      [exact W| |exact I|destruct W].
    destruct (poison (SourceFailure i) e c') as [[e' c'']|]; [exact W|exact I].
  - destruct (body m h) as [fn|] eqn:B; [|exists 0; exact I].
    set (c1 := set_depth c (S (call_depth c))).
    assert (DP1 : call_depth c1 = S (call_depth c) + open_frame m (Frame args [])) by (simpl; lia).
    destruct (fresh_ends k f h j args g c1) as (n1 & W & NE); auto.
    { apply MR. constructor. }
    { congruence. }
    { simpl. lia. }
    pose proof (good_run_at n1 h entry (Frame args []) g c1 (proj1 LIM)) as GO.
    pose proof (depth_run_at n1 h entry (Frame args []) g c1 _ DP1) as DO.
    pose proof (fun n' LEn => ends_more (S k) h n1 n' entry (Frame args []) g c1 LEn W) as EM.
    destruct (run_at n1 h entry (Frame args []) g c1) as [g' c'|y b fr g' c'|e g' c'|c'|c'] eqn:E.
    + exists n1. rewrite E. exact I.
    + simpl in GO, DO. destruct GO as [S R].
      destruct (IHo y g' j g' l0 ((r, Suspended h b fr (cells c)) :: ps) c' d0) as [n2 W2]; auto.
      { intros x X. apply MR. eapply MR_project_ok. exact X. }
      { eapply limited_steps; [exact LIM| |exact R]. eapply enter_steps. exact S. }
      { cbn [open_list]. lia. }
      { cbn [good_list]. split; [|exact GL]. split; [eapply NE; reflexivity|exact W]. }
      exists (Nat.max n1 n2). rewrite (EM (Nat.max n1 n2)) by lia.
      rewrite (run_drive_at n2); [exact W2|lia|eapply op_well_not_out; eauto].
    + destruct e as [e|v i|i1 i2].
      * simpl in GO, DO. destruct GO as [S R]. unfold agree in R. simpl in R.
        destruct (IHf e g' j g' l0 ps (truncate (cells c) (set_depth c' (call_depth c' - 1))) d0) as [n2 W2]; auto.
        { intros x X. apply MR. eapply MR_project_fail. exact X. }
        { apply limited_truncate, limited_depth. eapply limited_steps; [exact LIM| |exact R].
          eapply enter_steps. exact S. }
        { simpl. lia. }
        exists (Nat.max n1 n2). rewrite (EM (Nat.max n1 n2)) by lia.
        rewrite (run_drive_at n2); [exact W2|lia|eapply op_well_not_out; eauto].
      * exists n1. rewrite E. exact GL.
      * exists n1. rewrite E. exact GL.
    + exists n1. rewrite E. exact I.
    + destruct W.
  - destruct (take_projection m r ps) as [[[h b fr top] ps']|] eqn:T; [|exists 0; exact I].
    destruct (take_projection_good k f _ _ _ _ _ _ _ T GL) as (NE & GF & GL').
    pose proof (take_projection_open m _ _ _ _ _ _ _ T) as OP.
    assert (DP1 : call_depth c = (d0 + open_list m ps' + 1) + open_frame m fr) by lia.
    destruct (IHN h NE j b None None fr g c) as [n1 W]; auto.
    { lia. }
    change (run_loop m n1 h b None None fr g c) with (run_at n1 h b fr g c) in W.
    pose proof (good_run_at n1 h b fr g c (proj1 LIM)) as GO.
    pose proof (depth_run_at n1 h b fr g c _ DP1) as DO.
    pose proof (fun n' LEn => ends_more (S k) h n1 n' b fr g c LEn W) as EM.
    destruct (run_at n1 h b fr g c) as [g' c'|y b' fr' g' c'|e g' c'|c'|c'] eqn:E.
    + simpl in GO, DO. destruct GO as [S R].
      destruct (IHo g' j g' l0 ps' (truncate top (set_depth c' (call_depth c' - 1))) d0) as [n2 W2]; auto.
      { intros x X. apply MR. eapply MR_end_ok. exact X. }
      { apply limited_truncate, limited_depth. eapply limited_steps; [exact LIM|exact S|exact R]. }
      { simpl. lia. }
      exists (Nat.max n1 n2). rewrite (EM (Nat.max n1 n2)) by lia.
      rewrite (run_drive_at n2); [exact W2|lia|eapply op_well_not_out; eauto].
    + exists n1. rewrite E. exact I.
    + destruct e as [e|v i|i1 i2].
      * simpl in GO, DO. destruct GO as [S R]. unfold agree in R. simpl in R.
        destruct (IHf e g' j g' l0 ps' (truncate top (set_depth c' (call_depth c' - 1))) d0) as [n2 W2]; auto.
        { intros x X. apply MR. eapply MR_end_fail. exact X. }
        { apply limited_truncate, limited_depth. eapply limited_steps; [exact LIM|exact S|exact R]. }
        { simpl. lia. }
        exists (Nat.max n1 n2). rewrite (EM (Nat.max n1 n2)) by lia.
        rewrite (run_drive_at n2); [exact W2|lia|eapply op_well_not_out; eauto].
      * exists n1. rewrite E. exact GL'.
      * exists n1. rewrite E. exact GL'.
    + exists n1. rewrite E. exact I.
    + destruct W.
Qed.

Definition block_well (k : nat) (f : fid) (o : block_outcome G L (place m)) : Prop :=
  match o with BDone _ _ ps _ => good_list k f ps | BExit o => well k f o end.

Lemma block_well_not_out : forall k f o, block_well k f o -> ~ bout o.
Proof. intros k f [] H; [intros []|eapply well_not_out; eauto]. Qed.

Lemma refused_well : forall k f o, refused o -> well k f o.
Proof. intros k f [] H; simpl in *; auto; destruct H. Qed.

Lemma exec_operation_ends : forall k f,
  (forall h, nested (S k, h) (k, f) -> ends_at (S k) h) ->
  forall fn blk o j g l ps c d0, body m f = Some fn -> In blk fn -> In o (all_operations blk) ->
  limited j c -> call_depth c = d0 + open_list m ps -> k <= d0 -> good_list k f ps ->
  exists n, op_well k f (exec_operation m (run_at n) f o g l ps c).
Proof.
  intros k f IHN fn blk o j g l ps c d0 B IB IO LIM DP LE GL. unfold exec_operation.
  apply (run_drive_ends k f IHN (operation_drive m o g l) j g l ps _ d0); auto.
  intros h X. exists fn, blk, o, g, l. auto.
Qed.

Lemma run_operations_ends : forall k f,
  (forall h, nested (S k, h) (k, f) -> ends_at (S k) h) ->
  forall fn blk, body m f = Some fn -> In blk fn ->
  forall j pd ops, incl ops (all_operations blk) -> forall g l ps c d0,
  limited j c -> call_depth c = d0 + open_list m ps -> k <= d0 -> good_list k f ps ->
  exists n, block_well k f (run_operations m (run_at n) f pd ops g l ps c).
Proof.
  intros k f IHN fn blk B IB j pd ops. induction ops as [|o ops IH]; intros IO g l ps c d0 LIM DP LE GL.
  - exists 0. exact GL.
  - destruct (exec_operation_ends k f IHN fn blk o j g l ps c d0) as [n1 W1]; auto.
    { apply IO. left. reflexivity. }
    cbn [run_operations].
    pose proof (exec_operation_good m (run_at n1) f o g l ps c (good_run_at n1) (proj1 LIM)) as GO.
    pose proof (exec_operation_depth m (run_at n1) f o g l ps c d0 (depth_run_at n1) DP) as DO.
    assert (EM : forall n', n1 <= n' ->
      exec_operation m (run_at n') f o g l ps c = exec_operation m (run_at n1) f o g l ps c).
    { intros n' LEn. apply run_drive_at; auto. eapply op_well_not_out; eauto. }
    destruct (exec_operation m (run_at n1) f o g l ps c) as [g' l' ps' c'|e g' l' ps' c'|c'|c'] eqn:E.
    + destruct GO as [S R]. simpl in DO.
      destruct (IH (fun x X => IO x (or_intror X)) g' l' ps' c' d0) as [n2 W2]; auto.
      { eapply limited_steps; eauto. }
      exists (Nat.max n1 n2). rewrite (EM (Nat.max n1 n2)) by lia.
      rewrite (run_operations_at n2); [exact W2|lia|eapply block_well_not_out; eauto].
    + exists n1. rewrite E. cbn [block_well]. destruct (is_poisoning e); [|exact I].
      apply refused_well, poisoned_exit_refused.
    + exists n1. rewrite E. exact I.
    + destruct W1.
Qed.

(** A block that checks fuel and goes on has consumed some. *)
Lemma run_operations_fuel : forall n key pd ops g l ps c i g' l' ps' c',
  state c = Running -> fuel_remaining c = Some i -> In OCheckFuel ops ->
  run_operations m (run_at n) key pd ops g l ps c = BDone g' l' ps' c' ->
  exists i', fuel_remaining c' = Some i' /\ i' < i.
Proof.
  intros n key pd ops. induction ops as [|o ops IH]; intros g l ps c i g' l' ps' c' R F I H; [destruct I|].
  cbn [run_operations] in H.
  pose proof (exec_operation_good m (run_at n) key o g l ps c (good_run_at n) R) as GO.
  destruct (exec_operation m (run_at n) key o g l ps c) as [g1 l1 ps1 c1|e g1 l1 ps1 c1|c1|c1] eqn:E;
    try discriminate H.
  destruct GO as [S R1].
  destruct I as [->|I].
  - unfold exec_operation in E. cbn [operation_drive run_drive] in E. unfold check_fuel in E.
    cbn [log fuel_remaining] in E. rewrite F in E. destruct i as [|i]; [discriminate E|].
    cbn [lift_violation run_drive] in E. injection E as <- <- <- <-.
    match type of H with run_operations _ _ _ _ _ _ _ _ ?c2 = _ => set (c1 := c2) in * end.
    pose proof (run_operations_good m (run_at n) key pd ops (good_run_at n) g l ps c1 R1) as GB.
    rewrite H in GB. destruct GB as [S2 _].
    destruct (csteps_fuel_le c1 c' i S2 eq_refl) as (i' & F' & L'). exists i'. split; [exact F'|lia].
  - destruct (csteps_fuel_le _ _ _ S F) as (i1 & F1 & L1).
    destruct (IH _ _ _ _ i1 _ _ _ _ R1 F1 I H) as (i' & F' & L'). exists i'. split; [exact F'|lia].
Qed.

(** One frame, its nested frames ending. *)
Lemma frame_ends : forall k f,
  (forall h, nested (S k, h) (k, f) -> ends_at (S k) h) ->
  forall fn, body m f = Some fn -> fuel_guarded fn ->
  forall j N seen, length fn - length seen <= N -> NoDup seen ->
  (forall x, In x seen -> x < length fn /\ ~ block_checks_fuel fn x) ->
  forall b pd cf fr g c, walk (flows fn) (rev seen ++ [b]) ->
  limited j c -> k + open_frame m fr <= call_depth c -> good_frame k f fr ->
  exists n, well k f (run_loop m n f b pd cf fr g c).
Proof.
  intros k f IHN fn B FG j. induction j as [j IHj] using lt_wf_ind.
  assert (FRESH : forall i, i < j -> forall b pd cf fr g c,
    limited i c -> k + open_frame m fr <= call_depth c -> good_frame k f fr ->
    exists n, well k f (run_loop m n f b pd cf fr g c)).
  { intros i LT b pd cf fr g c LIM DP GF.
    apply (IHj i LT (length fn) [] ltac:(simpl; lia)); auto.
    - constructor.
    - intros x [].
    - exact I. }
  intros N. induction N as [|N IHN']; intros seen LN ND SE b pd cf fr g c W LIM DP GF.
  - (* the walk has visited all blocks *)
    destruct (nth_error fn b) as [blk|] eqn:NB.
    + exfalso. assert (LB : b < length fn). { apply nth_error_Some. congruence. }
      destruct (in_dec Nat.eq_dec b seen) as [I|NI].
      * destruct (walk_back _ _ _ _ W I) as (l & CY & IL). destruct (FG l CY) as (x & X1 & X2).
        exact (proj2 (SE x (IL x X1)) X2).
      * assert (IC : incl (b :: seen) (seq 0 (length fn))).
        { intros x [<-|X]; apply in_seq; [lia|]. destruct (SE x X). lia. }
        pose proof (NoDup_incl_length (NoDup_cons b NI ND) IC) as H. rewrite seq_length in H.
        simpl in H. lia.
    + exists 1. destruct fr as [l ps]. rewrite run_loop_S, B, NB. exact I.
  - destruct fr as [l ps]. rewrite open_frame_list in DP. rewrite good_frame_list in GF.
    destruct (nth_error fn b) as [blk|] eqn:NB;
      [|exists 1; rewrite run_loop_S, B, NB; exact I].
    assert (LB : b < length fn). { apply nth_error_Some. congruence. }
    assert (NI : ~ In b seen).
    { intro I. destruct (walk_back _ _ _ _ W I) as (q & CY & IL). destruct (FG q CY) as (x & X1 & X2).
      exact (proj2 (SE x (IL x X1)) X2). }
    pose proof (nth_error_In _ _ NB) as IB.
    set (d0 := call_depth c - open_list m ps).
    assert (DP0 : call_depth c = d0 + open_list m ps) by (unfold d0; lia).
    assert (LE0 : k <= d0) by (unfold d0; lia).
    (* going on to a successor *)
    assert (NEXT : forall ops, ops = operations blk ->
      forall t pd cf l2 ps2 g2 c2, In t (successors (term blk)) ->
      limited j c2 -> call_depth c2 = d0 + open_list m ps2 -> good_list k f ps2 ->
      (In OCheckFuel ops -> exists i, i < j /\ limited i c2) ->
      exists n, well k f (run_loop m n f t pd cf (Frame l2 ps2) g2 c2)).
    { intros ops -> t pd' cf' l2 ps2 g2 c2 IT LIM2 DP2 GL2 CK.
      assert (DP2' : k + open_frame m (Frame l2 ps2) <= call_depth c2).
      { rewrite open_frame_list. lia. }
      assert (GF2 : good_frame k f (Frame l2 ps2)) by (apply good_frame_list; exact GL2).
      assert (CD : In OCheckFuel (operations blk) \/ ~ In OCheckFuel (operations blk)).
      { assert (DQ : forall o : operation (payload m), o = OCheckFuel \/ o <> OCheckFuel).
        { intros []; auto; right; discriminate. }
        clear -DQ. induction (operations blk) as [|o q IH]; [right; intros []|].
        destruct (DQ o) as [->|N]; [left; left; reflexivity|].
        destruct IH as [I|NI]; [left; right; exact I|right]. intros [E|I]; auto. }
      destruct CD as [I|NC].
      - destruct (CK I) as (i & LT & LIM3). apply (FRESH i LT); auto.
      - apply (IHN' (b :: seen)); auto.
        + cbn [length]. pose proof (NoDup_incl_length ND (fun x X => proj2 (in_seq (length fn) 0 x)
            (conj (Nat.le_0_l x) (proj1 (SE x X))))) as H. rewrite seq_length in H.
          assert (IC : incl (b :: seen) (seq 0 (length fn))).
          { intros x [<-|X]; apply in_seq; [lia|]. destruct (SE x X). lia. }
          pose proof (NoDup_incl_length (NoDup_cons b NI ND) IC) as H2. rewrite seq_length in H2.
          simpl in H2. lia.
        + constructor; auto.
        + intros x [<-|X]; [|auto]. split; auto. intros (blk' & X1 & X2).
          rewrite NB in X1. injection X1 as <-. contradiction.
        + cbn [rev]. rewrite <- app_assoc. apply walk_snoc; auto. exists blk. auto. }
    specialize (NEXT _ eq_refl).
    destruct (run_operations_ends k f IHN fn blk B IB j pd (operations blk)
                (fun x X => in_or_app _ _ _ (or_introl X)) g l ps c d0 LIM DP0 LE0 GF) as [n1 W1].
    assert (EM : forall n', n1 <= n' -> run_operations m (run_at n') f pd (operations blk) g l ps c
                          = run_operations m (run_at n1) f pd (operations blk) g l ps c).
    { intros n' LEn. apply run_operations_at; auto. eapply block_well_not_out; eauto. }
    pose proof (run_operations_good m (run_at n1) f pd (operations blk) (good_run_at n1) g l ps c (proj1 LIM)) as GO.
    pose proof (run_operations_depth m (run_at n1) f pd (operations blk) (depth_run_at n1) g l ps c d0 DP0) as DO.
    destruct LIM as (R & LD & i & F & LI).
    pose proof (run_operations_fuel n1 f pd (operations blk) g l ps c i) as FU.
    destruct (run_operations m (run_at n1) f pd (operations blk) g l ps c) as [g1 l1 ps1 c1|o] eqn:E;
      [|exists (S n1); rewrite run_loop_S, B, NB, E; exact W1].
    destruct GO as [S1 R1]. cbn [block_well] in W1.
    assert (LIM1 : limited j c1).
    { eapply limited_steps; [split; [exact R|split; [exact LD|eauto]]|exact S1|exact R1]. }
    assert (CK1 : In OCheckFuel (operations blk) -> exists i', i' < j /\ limited i' c1).
    { intros I. destruct (FU _ _ _ _ R F I eq_refl) as (i' & F' & L').
      exists i'. split; [lia|]. split; [exact R1|]. split; [apply LIM1|]. exists i'. auto. }
    assert (FIN : forall n' o, (forall n, n' <= n ->
        run_term (run_at n) (fun b pd cf fr g c => run_loop m n f b pd cf fr g c)
                 f pd cf (term blk) g1 l1 ps1 c1 = o) -> well k f o ->
      exists n, well k f (run_loop m n f b pd cf (Frame l ps) g c)).
    { intros n' o H WO. exists (S (Nat.max n1 n')).
      rewrite run_loop_S, B, NB, (EM (Nat.max n1 n')) by lia. rewrite H by lia. exact WO. }
    assert (GO_ON : forall t pd' cf' l2 ps2 g2 c2, In t (successors (term blk)) ->
      limited j c2 -> call_depth c2 = d0 + open_list m ps2 -> good_list k f ps2 ->
      (In OCheckFuel (operations blk) -> exists i, i < j /\ limited i c2) ->
      forall n0, (forall n, n0 <= n ->
        run_term (run_at n) (fun b pd cf fr g c => run_loop m n f b pd cf fr g c)
                 f pd cf (term blk) g1 l1 ps1 c1 = run_loop m n f t pd' cf' (Frame l2 ps2) g2 c2) ->
      exists n, well k f (run_loop m n f b pd cf (Frame l ps) g c)).
    { intros t pd' cf' l2 ps2 g2 c2 IT LM DD GG CC n0 RT.
      destruct (NEXT t pd' cf' l2 ps2 g2 c2 IT LM DD GG CC) as [n2 W2].
      apply (FIN (Nat.max n0 n2) (run_loop m n2 f t pd' cf' (Frame l2 ps2) g2 c2)); [|exact W2].
      intros n LEn. rewrite RT by lia. apply run_loop_mono; [lia|]. eapply well_not_out; eauto. }
    destruct (term blk) as [t|q t e|o t e|p resume| | |] eqn:T.
    + apply (GO_ON t pd cf l1 ps1 g1 c1 (or_introl eq_refl) LIM1 DO W1 CK1 0). reflexivity.
    + destruct (condition m q g1 l1) as [taken|] eqn:CQ.
      * apply (GO_ON (if taken then t else e) pd cf l1 ps1 g1 c1) with (n0 := 0); auto.
        -- destruct taken; simpl; auto.
        -- intros n _. cbn [run_term]. rewrite CQ. reflexivity.
      * apply (FIN 0 (Panicked c1)); [|exact I]. intros n _. cbn [run_term]. rewrite CQ. reflexivity.
    + destruct (exec_operation_ends k f IHN fn blk o j g1 l1 ps1 c1 d0) as [n2 W2]; auto.
      { unfold all_operations. rewrite T. apply in_or_app. right. left. reflexivity. }
      pose proof (exec_operation_good m (run_at n2) f o g1 l1 ps1 c1 (good_run_at n2) R1) as GO2.
      pose proof (exec_operation_depth m (run_at n2) f o g1 l1 ps1 c1 d0 (depth_run_at n2) DO) as DO2.
      assert (EM2 : forall n', n2 <= n' ->
        exec_operation m (run_at n') f o g1 l1 ps1 c1 = exec_operation m (run_at n2) f o g1 l1 ps1 c1).
      { intros n' LEn. apply run_drive_at; auto. eapply op_well_not_out; eauto. }
      destruct (exec_operation m (run_at n2) f o g1 l1 ps1 c1) as [g2 l2 ps2 c2|err g2 l2 ps2 c2|c2|c2] eqn:E2.
      * destruct GO2 as [S2 R2]. simpl in DO2, W2.
        apply (GO_ON t pd cf l2 ps2 g2 c2) with (n0 := n2); auto.
        -- simpl; auto.
        -- eapply limited_steps; eauto.
        -- intros I. destruct (CK1 I) as (i' & LT & LM). exists i'. split; auto. eapply limited_steps; eauto.
        -- intros n LEn. cbn [run_term]. rewrite (EM2 n LEn). reflexivity.
      * destruct err as [x|v ii|i1 i2].
        -- destruct GO2 as [S2 R2]. unfold agree in R2. simpl in R2, DO2, W2.
           assert (LM2 : limited j c2) by (eapply limited_steps; eauto).
           assert (CK2 : In OCheckFuel (operations blk) -> exists i, i < j /\ limited i c2).
           { intros I. destruct (CK1 I) as (i' & LT & LM). exists i'. split; auto. eapply limited_steps; eauto. }
           destruct pd as [pf|].
           ++ destruct cf as [cc|].
              ** apply (FIN n2 (Panicked c2)); [|exact I]. intros n LEn. cbn [run_term]. rewrite (EM2 n LEn). reflexivity.
              ** apply (GO_ON e (Some pf) (Some x) l2 ps2 g2 c2) with (n0 := n2); auto.
                 { simpl; auto. }
                 intros n LEn. cbn [run_term]. rewrite (EM2 n LEn). reflexivity.
           ++ apply (GO_ON e (Some x) cf l2 ps2 g2 c2) with (n0 := n2); auto.
              { simpl; auto. }
              intros n LEn. cbn [run_term]. rewrite (EM2 n LEn). reflexivity.
        -- apply (FIN n2 (poisoned_exit m pd (SandboxViolation v ii) (Frame l2 ps2) g2 c2));
             [|apply refused_well, poisoned_exit_refused].
           intros n LEn. cbn [run_term]. rewrite (EM2 n LEn). reflexivity.
        -- apply (FIN n2 (poisoned_exit m pd (FailureDuringCleanup i1 i2) (Frame l2 ps2) g2 c2));
             [|apply refused_well, poisoned_exit_refused].
           intros n LEn. cbn [run_term]. rewrite (EM2 n LEn). reflexivity.
      * apply (FIN n2 (Panicked c2)); [|exact I]. intros n LEn. cbn [run_term]. rewrite (EM2 n LEn). reflexivity.
      * destruct W2.
    + apply (FIN 0 (run_term (run_at 0) (fun b pd cf fr g c => run_loop m 0 f b pd cf fr g c)
                      f pd cf (Yield p resume) g1 l1 ps1 c1)); [intros; reflexivity|].
      cbn [run_term]. destruct pd; [exact I|]. destruct (yielded m p g1 l1); [|exact I].
      cbn [well]. apply good_frame_list. exact W1.
    + apply (FIN 0 (run_term (run_at 0) (fun b pd cf fr g c => run_loop m 0 f b pd cf fr g c)
                      f pd cf Return g1 l1 ps1 c1)); [intros; reflexivity|].
      cbn [run_term]. destruct pd; [exact I|]. destruct ps1; exact I.
    + apply (FIN 0 (run_term (run_at 0) (fun b pd cf fr g c => run_loop m 0 f b pd cf fr g c)
                      f pd cf PropagateError g1 l1 ps1 c1)); [intros; reflexivity|].
      cbn [run_term]. destruct pd; [|exact I]. destruct cf; [exact I|]. destruct ps1; exact I.
    + apply (FIN 0 (run_term (run_at 0) (fun b pd cf fr g c => run_loop m 0 f b pd cf fr g c)
                      f pd cf FailureInCleanup g1 l1 ps1 c1)); [intros; reflexivity|].
      cbn [run_term]. destruct pd; [|exact I]. destruct cf; [|exact I].
      apply refused_well, poisoned_exit_refused.
Qed.

Lemma nested_ends : (forall f fn, body m f = Some fn -> fuel_guarded fn) ->
  forall x, Acc nested x -> ends_at (fst x) (snd x).
Proof.
  intros FG x A. induction A as [[k f] _ IH]. cbn [fst snd].
  intros j b pd cf fr g c LIM DP GF.
  destruct (body m f) as [fn|] eqn:B.
  - apply (frame_ends k f (fun h H => IH (S k, h) H) fn B (FG f fn B) j (length fn) []); auto.
    + simpl. lia.
    + constructor.
    + intros x [].
    + exact I.
  - exists 1. destruct fr as [l ps]. rewrite run_loop_S, B. exact I.
Qed.

End Term.

(** ** Histories *)
Lemma entry_ends : forall m, finite_program m -> recursion_guarded m ->
  (forall f fn, body m f = Some fn -> fuel_guarded fn) ->
  forall D j f args k g c, limited D j c ->
  exists n, forall n', n <= n' ->
    run_entry m n' f args k g c = run_entry m n f args k g c
    /\ forall c', run_entry m n f args k g c <> OutOfFuel c'.
Proof.
  intros m FP RG FG D j f args k g c LIM. unfold run_entry.
  destruct (ensure_runnable c); [exists 0; split; [reflexivity|discriminate]|].
  destruct (_ <? _); [exists 0; cbn; split; [reflexivity|discriminate]|].
  set (c1 := set_depth (set_cells c (cells c + k)) _).
  assert (LIM1 : limited D j c1) by exact LIM.
  assert (K : exists n, ~ out m (run_loop m n f entry None None (Frame args []) g c1)).
  { destruct (body m f) as [fn|] eqn:B; [|exists 1; rewrite run_loop_S, B; exact (fun x => x)].
    assert (Q : (checks_depth m f /\ D <= call_depth c1) \/ (checks_depth m f -> 1 < D)).
    { destruct (checks_depth_dec m f); [|right; contradiction].
      destruct (le_lt_dec D (call_depth c1)) as [LE|LT]; [left; auto|right]. intros _.
      simpl in LT. lia. }
    destruct Q as [[CH LE]|CH].
    - exists 1. assert (LE' : call_depth_limit c1 <= call_depth c1).
      { destruct LIM1 as (_ & -> & _). exact LE. }
      pose proof (refused_entry m 0 f args g c1 CH LE') as R.
      destruct (run_loop m 1 f entry None None (Frame args []) g c1); try destruct R; exact (fun x => x).
    - assert (A : Acc (nested m D) (1, f)). { apply acc_nested; auto. congruence. }
      destruct (nested_ends m D FG _ A j entry None None (Frame args []) g c1) as [n W]; auto.
      + simpl. lia.
      + exact I.
      + exists n. eapply well_not_out; eauto. }
  destruct K as [n K]. exists n. intros n' LE. rewrite (run_loop_mono m n n') by auto.
  split; [reflexivity|]. intros c'.
  destruct (run_loop m n f entry None None (Frame args []) g c1); try discriminate.
  exfalso. apply K. exact I.
Qed.

Lemma histories_end : forall m, finite_program m -> recursion_guarded m ->
  (forall f fn, body m f = Some fn -> fuel_guarded fn) ->
  forall D j reqs g c, limited D j c ->
  exists n, forall n', n <= n' -> 
    run_history m n' reqs g c = run_history m n reqs g c
    /\ ~ In Unfinished (fst (run_history m n reqs g c)).
Proof.
  intros m FP RG FG D j reqs. induction reqs as [|[[f args] k] q IH]; intros g c LIM.
  - exists 0. intros n' _. split; [reflexivity|intros []].
  - destruct (entry_ends m FP RG FG D j f args k g c LIM) as [n1 E1].
    pose proof (run_entry_good m n1 f args k g c (proj1 LIM)) as GO.
    destruct (run_entry m n1 f args k g c) as [g' c'|y b fr g' c'|e g' c'|c'|c'] eqn:E.
    + destruct GO as [S R]. destruct (IH g' c') as [n2 E2]; [eapply limited_steps; eauto|].
      exists (Nat.max n1 n2). intros n' LE. cbn [run_history].
      rewrite (proj1 (E1 n' ltac:(lia))), (proj1 (E1 (Nat.max n1 n2) ltac:(lia))).
      rewrite (proj1 (E2 n' ltac:(lia))), (proj1 (E2 (Nat.max n1 n2) ltac:(lia))).
      destruct (E2 n2 (le_n n2)) as [_ N]. destruct (run_history m n2 q g' c') as [rs c2].
      split; [reflexivity|]. intros [X|X]; [discriminate X|exact (N X)].
    + exists n1. intros n' LE. cbn [run_history]. rewrite (proj1 (E1 n' LE)), E. split; [reflexivity|].
      intros [X|[]]; discriminate X.
    + destruct (is_poisoning e) eqn:P.
      * destruct GO as [S A]. unfold agree in A. exists n1. intros n' LE. cbn [run_history].
        rewrite (proj1 (E1 n' LE)), E.
        rewrite (history_poisoned m n' q g' c' e A P), (history_poisoned m n1 q g' c' e A P).
        split; [reflexivity|]. intros [X|X]; [discriminate X|]. apply repeat_spec in X. discriminate X.
      * destruct GO as [S A]. unfold agree in A. assert (R : state c' = Running).
        { destruct e; try discriminate P. exact A. }
        destruct (IH g' c') as [n2 E2]; [eapply limited_steps; eauto|].
        exists (Nat.max n1 n2). intros n' LE. cbn [run_history].
        rewrite (proj1 (E1 n' ltac:(lia))), (proj1 (E1 (Nat.max n1 n2) ltac:(lia))).
        rewrite (proj1 (E2 n' ltac:(lia))), (proj1 (E2 (Nat.max n1 n2) ltac:(lia))).
        destruct (E2 n2 (le_n n2)) as [_ N]. destruct (run_history m n2 q g' c') as [rs c2].
        split; [reflexivity|]. intros [X|X]; [discriminate X|exact (N X)].
    + exists n1. intros n' LE. cbn [run_history]. rewrite (proj1 (E1 n' LE)), E. split; [reflexivity|].
      intros [X|[]]; discriminate X.
    + exfalso. exact (proj2 (E1 n1 (le_n n1)) c' eq_refl).
Qed.

Lemma guarded_histories_end : forall m, finite_program m -> recursion_guarded m ->
  (forall f fn, body m f = Some fn -> fuel_guarded fn) ->
  forall k d cl reqs g, exists n, forall n', n <= n' ->
    ~ In Unfinished (fst (run_history m n' reqs g (new_context (Some k) d cl))).
Proof.
  intros m FP RG FG k d cl reqs g.
  destruct (histories_end m FP RG FG d k reqs g (new_context (Some k) d cl)) as [n H].
  - split; [reflexivity|]. split; [reflexivity|]. exists k. split; [reflexivity|lia].
  - exists n. intros n' LE. rewrite (proj1 (H n' LE)). exact (proj2 (H n (le_n n))).
Qed.

(** ** Programs whose unchecked parts go down are guarded *)
Lemma ranked_fuel_guarded : forall P C (fn : function P C) (r : nat -> nat),
  (forall b blk b', nth_error fn b = Some blk -> In b' (successors (term blk)) ->
     In OCheckFuel (operations blk) \/ r b' < r b) ->
  fuel_guarded fn.
Proof.
  intros P C fn r H l CY. apply (cycle_ranked nat (flows fn) (block_checks_fuel fn) r); auto.
  - intros b. unfold block_checks_fuel. destruct (nth_error fn b) as [blk|];
      [|right; intros (x & X & _); discriminate X].
    assert (D : In OCheckFuel (operations blk) \/ ~ In OCheckFuel (operations blk)).
    { induction (operations blk) as [|o q IH]; [right; intros []|].
      assert (DQ : o = OCheckFuel \/ o <> OCheckFuel) by (destruct o; auto; right; discriminate).
      destruct DQ as [->|N]; [left; left; reflexivity|].
      destruct IH as [I|NI]; [left; right; exact I|right]. intros [E|I]; auto. }
    destruct D as [I|N]; [left; eauto|right]. intros (x & X & Y). injection X as <-. contradiction.
  - intros b b' (blk & E & I). destruct (H b blk b' E I); [left; exists blk; auto|right; auto].
Qed.

Lemma ranked_recursion_guarded : forall m (r : fid -> nat),
  (forall f h, calls m f h -> checks_depth m f \/ r h < r f) -> recursion_guarded m.
Proof.
  intros m r H l CY. apply (cycle_ranked fid (calls m) (checks_depth m) r); auto. apply checks_depth_dec.
Qed.
