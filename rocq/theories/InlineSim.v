(** One splice: the machine on the new program follows the machine on the old
    one step by step. *)
From Coq Require Import List Arith Bool Lia.
From Verif Require Import ListUtil InlineModel InlineMachine InlineSpec.
Import ListNotations.

Lemma fid_eqb_true a b : fid_eqb a b = true -> a = b.
Proof.
  destruct a as [a1 a2], b as [b1 b2]. unfold fid_eqb. cbn.
  intros H. apply andb_true_iff in H. destruct H as [H1 H2].
  apply Nat.eqb_eq in H1. apply Nat.eqb_eq in H2. congruence.
Qed.
Lemma fid_eqb_refl a : fid_eqb a a = true.
Proof. destruct a. unfold fid_eqb. cbn. now rewrite !Nat.eqb_refl. Qed.
Lemma replace_same P f F : replace P f F f = Some F.
Proof. unfold replace. now rewrite fid_eqb_refl. Qed.
Lemma replace_other P f F g : g <> f -> replace P f F g = P g.
Proof.
  intros H. unfold replace. destruct (fid_eqb g f) eqn:E; auto.
  apply fid_eqb_true in E. congruence.
Qed.

(** * How the body of a callee is copied *)
Section Copied.
  Variables (G F' : function) (args : list operand) (N base normal : nat) (error : option nat)
            (rho : nat -> option nat).

  Inductive copied_operand : operand -> operand -> Prop :=
  | co_param : forall i a, nth_error args i = Some a -> copied_operand (OParam i) a
  | co_reg : forall r r', rho r = Some r' -> copied_operand (OReg r) (OReg r')
  | co_const : forall k k' x, nth_error (f_constants G) k = Some x ->
      nth_error (f_constants F') k' = Some x -> copied_operand (OConst k) (OConst k')
  | co_pattern : forall p, copied_operand (OPattern p) (OPattern p)
  | co_dict : forall n, copied_operand (ODict n) (ODict n)
  | co_subscript : forall s, copied_operand (OSubscript s) (OSubscript s)
  | co_function : forall g, copied_operand (OFunction g) (OFunction g).

  Definition copied_result (r r' : option nat) : Prop :=
    match r with
    | Some r => exists x, rho r = Some x /\ r' = Some x
    | None => r' = None
    end.

  Definition copied_operation (o o' : operation) : Prop :=
    o_kind o' = o_kind o /\ Forall2 copied_operand (o_operands o) (o_operands o') /\
    copied_result (o_result o) (o_result o').

  Inductive copied_terminator : terminator -> list operation -> terminator -> Prop :=
  | ct_goto : forall c, copied_terminator (TGoto c) [] (TGoto (base + c))
  | ct_cond : forall x x' a c, copied_operand x x' ->
      copied_terminator (TCond x a c) [] (TCond x' (base + a) (base + c))
  | ct_invoke : forall o o' n e, copied_operation o o' ->
      copied_terminator (TInvoke o n e) [] (TInvoke o' (base + n) (base + e))
  | ct_return : copied_terminator TReturn [restore N] (TGoto normal)
  | ct_propagate : forall e, error = Some e -> copied_terminator TPropagate [restore N] (TGoto e)
  | ct_failure : copied_terminator TFailure [] TFailure.

  Definition copied_block (B B' : block) : Prop :=
    exists ops' ex, b_ops B' = ops' ++ ex /\ Forall2 copied_operation (b_ops B) ops' /\
      copied_terminator (b_term B) ex (b_term B').
End Copied.

(** * A splice *)
Record spliced (P : program) (f g : fid) (F F' G : function) (cleanup : nat -> Prop)
  (b : nat) (pre : list operation) (call : operation) (args : list operand) (N base normal : nat)
  (error : option nat) (after : option (nat * list operation)) (rho : nat -> option nat) : Prop := {
  sp_caller : P f = Some F;
  sp_callee : P g = Some G;
  sp_kind : exists y, o_kind call = KCall y;
  sp_operands : o_operands call = OFunction g :: args;
  sp_plain : forall s, ~ In (OSubscript s) args;
  sp_params : f_params F' = f_params F;
  sp_constants : forall c x, nth_error (f_constants F) c = Some x -> nth_error (f_constants F') c = Some x;
  sp_site : match after with
            | Some (cont, tail) => exists T,
                nth_error (f_blocks F) b = Some (Block (pre ++ call :: tail) T) /\
                nth_error (f_blocks F') cont = Some (Block tail T) /\ normal = cont /\ error = None
            | None => exists e,
                nth_error (f_blocks F) b = Some (Block pre (TInvoke call normal e)) /\ error = Some e
            end;
  sp_cut : nth_error (f_blocks F') b = Some (Block (pre ++ [save N]) (TGoto base));
  sp_other : forall c B, c <> b -> nth_error (f_blocks F) c = Some B -> nth_error (f_blocks F') c = Some B;
  sp_copied : forall j B, nth_error (f_blocks G) j = Some B ->
      exists B', nth_error (f_blocks F') (base + j) = Some B' /\
                 copied_block G F' args N base normal error rho B B';
  sp_results : forall B o r, In B (f_blocks F) -> In o (block_operations B) -> o_result o = Some r -> r < N;
  sp_fresh : forall r r', rho r = Some r' -> N < r';
  sp_injective : forall r1 r2 r', rho r1 = Some r' -> rho r2 = Some r' -> r1 = r2;
  sp_edge : forall c ops o n e, nth_error (f_blocks F) c = Some (Block ops (TInvoke o n e)) -> cleanup e;
  sp_flow : forall c B c', cleanup c -> nth_error (f_blocks F) c = Some B -> In c' (successors (b_term B)) ->
      cleanup c';
  sp_clean : error_flow G = true -> ~ cleanup b
}.

Arguments sp_caller {P f g F F' G cleanup b pre call args N base normal error after rho}.
Arguments sp_callee {P f g F F' G cleanup b pre call args N base normal error after rho}.
Arguments sp_kind {P f g F F' G cleanup b pre call args N base normal error after rho}.
Arguments sp_operands {P f g F F' G cleanup b pre call args N base normal error after rho}.
Arguments sp_plain {P f g F F' G cleanup b pre call args N base normal error after rho}.
Arguments sp_params {P f g F F' G cleanup b pre call args N base normal error after rho}.
Arguments sp_constants {P f g F F' G cleanup b pre call args N base normal error after rho}.
Arguments sp_site {P f g F F' G cleanup b pre call args N base normal error after rho}.
Arguments sp_cut {P f g F F' G cleanup b pre call args N base normal error after rho}.
Arguments sp_other {P f g F F' G cleanup b pre call args N base normal error after rho}.
Arguments sp_copied {P f g F F' G cleanup b pre call args N base normal error after rho}.
Arguments sp_results {P f g F F' G cleanup b pre call args N base normal error after rho}.
Arguments sp_fresh {P f g F F' G cleanup b pre call args N base normal error after rho}.
Arguments sp_injective {P f g F F' G cleanup b pre call args N base normal error after rho}.
Arguments sp_edge {P f g F F' G cleanup b pre call args N base normal error after rho}.
Arguments sp_flow {P f g F F' G cleanup b pre call args N base normal error after rho}.
Arguments sp_clean {P f g F F' G cleanup b pre call args N base normal error after rho}.

Section Acts.
  Variable d : dialect.
  Local Notation act := (act (place d) (value d) (tag d) (failure d) (poisoning d) (world d)).

  Lemma act_sim_weaken (Q R : nat -> Prop) (a a' : act) :
    (forall i, Q i -> R i) -> act_sim d Q a a' -> act_sim d R a a'.
  Proof.
    intros H A. induction A as [a|w ms r F|w ms e F|w e|g bs w k k' _ IH].
    - apply sim_panic.
    - apply sim_finish. eapply Forall_impl; [|exact F]. intros m. apply H.
    - apply sim_fail. eapply Forall_impl; [|exact F]. intros m. apply H.
    - apply sim_poison.
    - apply sim_call. exact IH.
  Qed.

  Lemma direct_sim Q r w : act_sim d Q (direct d r w) (direct d r w).
  Proof. destruct r; cbn [direct]; constructor; constructor. Qed.
End Acts.

Section Sim.
  Variable d : dialect.
  Hypothesis law : lawful d.
  Variables (P : program) (f g : fid) (F F' G : function) (cleanup : nat -> Prop)
            (b : nat) (pre : list operation) (call : operation) (args : list operand)
            (N base normal : nat) (error : option nat) (after : option (nat * list operation))
            (rho : nat -> option nat).
  Hypothesis SP : spliced P f g F F' G cleanup b pre call args N base normal error after rho.
  Let P' := replace P f F'.

  Local Notation binding := (binding (place d) (value d) (tag d)).
  Local Notation resolved := (resolved (place d) (value d) (tag d)).
  Local Notation act := (act (place d) (value d) (tag d) (failure d) (poisoning d) (world d)).
  Local Notation frame := (frame (place d) (value d) (tag d) (failure d) (poisoning d) (world d)).
  Local Notation control := (control (place d) (value d) (tag d) (failure d) (poisoning d) (world d)).
  Local Notation status := (status (place d) (value d) (tag d) (failure d) (poisoning d) (world d)).
  Local Notation copied_operand := (copied_operand G F' args rho).
  Local Notation copied_operation := (copied_operation G F' args rho).
  Local Notation copied_terminator := (copied_terminator G F' args N base normal error rho).

  Lemma P'_params h H : P h = Some H -> exists H', P' h = Some H' /\ f_params H' = f_params H.
  Proof.
    intros E. unfold P', replace. destruct (fid_eqb h f) eqn:Q.
    - apply fid_eqb_true in Q. subst h. rewrite (sp_caller SP) in E. injection E as <-.
      exists F'. split; [reflexivity|]. apply (sp_params SP).
    - exists H. auto.
  Qed.
  Lemma P'_none h : P h = None -> P' h = None.
  Proof.
    intros E. unfold P', replace. destruct (fid_eqb h f) eqn:Q; auto.
    apply fid_eqb_true in Q. subst h. rewrite (sp_caller SP) in E. discriminate E.
  Qed.
  Lemma P'_caller : P' f = Some F'.
  Proof. apply replace_same. Qed.
  Lemma P'_other h : h <> f -> P' h = P h.
  Proof. apply replace_other. Qed.

  (** ** Arguments and operations on operands that see the same *)
  Lemma bind_argument_sees k x x' w p :
    sees d x x' -> bind_argument d k x w = Some p -> bind_argument d k x' w = Some p.
  Proof.
    intros S H. destruct S as [x|p0 v E|n].
    - exact H.
    - destruct k; cbn in *; rewrite E; exact H.
    - destruct k; cbn in *; [exact H|discriminate H].
  Qed.

  Lemma bind_arguments_sees xs xs' : Forall2 (sees d) xs xs' -> forall ks w p,
    bind_arguments d ks xs w = Some p -> bind_arguments d ks xs' w = Some p.
  Proof.
    induction 1 as [|x x' xs xs' S _ IH]; intros ks w p E; auto.
    cbn [bind_arguments] in *. destruct (bind_argument d _ x w) as [q|] eqn:A; [|discriminate E].
    rewrite (bind_argument_sees _ _ _ _ _ S A). cbn [InlineModel.bind] in *.
    destruct (bind_arguments d (tl ks) xs (snd q)) as [q2|] eqn:A2; [|discriminate E].
    rewrite (IH _ _ _ A2). exact E.
  Qed.

  Lemma begin_sees A fr o xs A' fr' o' xs' w :
    resolve_all d A fr (o_operands o) = Some xs -> resolve_all d A' fr' (o_operands o') = Some xs' ->
    Forall2 (sees d) xs xs' -> o_kind o' = o_kind o ->
    act_sim d (fun i => exists v, nth_error xs i = Some (RBound (BValue v)))
            (begin d P A fr o w) (begin d P' A' fr' o' w).
  Proof.
    intros R R' S K. unfold begin. rewrite R, R', K.
    pose proof (exec_transparent d law (o_kind o) xs xs' w S) as T.
    destruct (o_kind o) as [| |y| | | |n]; auto; try apply sim_panic.
    inversion S as [|x x' ys ys' Sx Sy]; subst; auto.
    destruct Sx as [x|p v E|n]; auto. destruct x as [| | | |h|]; auto.
    destruct (P h) as [H|] eqn:PH.
    - destruct (P'_params _ _ PH) as [H' [PH' EP]]. rewrite PH', EP.
      destruct (bind_arguments d (f_params H) ys w) as [[bs w']|] eqn:B; [|apply sim_panic].
      rewrite (bind_arguments_sees _ _ Sy _ _ _ B). apply sim_call.
      intros r w2. apply direct_sim.
    - rewrite (P'_none _ PH). exact T.
  Qed.

  (** ** Frames of the caller *)
  Definition regs_le (m m' : nat -> option binding) : Prop :=
    forall r x, m r = Some x -> r < N /\ m' r = Some x.

  Definition small (o : operation) : Prop := forall r, o_result o = Some r -> r < N.

  Definition rest_of : list operation :=
    match after with Some (_, tail) => call :: tail | None => [] end.

  Inductive point : nat -> list operation -> nat -> list operation -> Prop :=
  | pt_other : forall c ops, c <> b -> point c ops c ops
  | pt_before : forall ops, point b (ops ++ rest_of) b (ops ++ [save N])
  | pt_after : forall ops cont tail, after = Some (cont, tail) -> point b ops cont ops.

  Definition term_point (c c' : nat) : Prop :=
    (c <> b /\ c' = c) \/ (c = b /\ exists tail, after = Some (c', tail)).

  Definition rest_sim (c : nat) (r : option (list operation)) (c' : nat) (r' : option (list operation)) : Prop :=
    match r, r' with
    | Some ops, Some ops' => point c ops c' ops' /\ Forall small ops
    | None, None => term_point c c'
    | _, _ => False
    end.

  Definition own (o : operation) (i : nat) : Prop :=
    forall r, nth_error (o_operands o) i = Some (OReg r) -> r < N.

  Definition control_sim (c c' : nat) (k k' : control) : Prop :=
    match k, k' with
    | CRun ops, CRun ops' => point c ops c' ops' /\ Forall small ops
    | CAct a o r, CAct a' o' r' => o' = o /\ small o /\ act_sim d (own o) a a' /\ rest_sim c r c' r'
    | CWait q o r, CWait q' o' r' =>
        o' = o /\ small o /\ (forall x w, act_sim d (own o) (q x w) (q' x w)) /\ rest_sim c r c' r'
    | _, _ => False
    end.

  Record data_sim (fr fr' : frame) : Prop := {
    ds_fun : fr_fun fr = f;
    ds_fun' : fr_fun fr' = f;
    ds_params : fr_params fr' = fr_params fr;
    ds_regs : regs_le (fr_regs fr) (fr_regs fr');
    ds_top : fr_top fr' = fr_top fr
  }.

  Definition calm (fr : frame) : Prop :=
    (fr_pending fr <> None -> cleanup (fr_block fr)) /\ (fr_pending fr = None -> fr_cleanup fr = None).

  Record frame_sim (fr fr' : frame) : Prop := {
    fs_data : data_sim fr fr';
    fs_pending : fr_pending fr' = fr_pending fr;
    fs_cleanup : fr_cleanup fr' = fr_cleanup fr;
    fs_calm : calm fr;
    fs_control : control_sim (fr_block fr) (fr_block fr') (fr_control fr) (fr_control fr')
  }.

  (** ** A frame of the callee on top of the caller that waits for it *)
  Definition code_sim (j : nat) (ops ops' : list operation) : Prop :=
    exists copy ex B B', ops' = copy ++ ex /\ Forall2 copied_operation ops copy /\
      nth_error (f_blocks G) j = Some B /\ nth_error (f_blocks F') (base + j) = Some B' /\
      copied_terminator (b_term B) ex (b_term B').

  Definition registers (o : operation) (i : nat) : Prop :=
    exists r, nth_error (o_operands o) i = Some (OReg r).

  Definition callee_rest (j : nat) (r r' : option (list operation)) : Prop :=
    match r, r' with
    | Some ops, Some ops' => code_sim j ops ops'
    | None, None => True
    | _, _ => False
    end.

  Definition callee_control (j : nat) (k k' : control) : Prop :=
    match k, k' with
    | CRun ops, CRun ops' => code_sim j ops ops'
    | CAct a o r, CAct a' o' r' =>
        copied_operation o o' /\ act_sim d (registers o) a a' /\ callee_rest j r r'
    | CWait q o r, CWait q' o' r' =>
        copied_operation o o' /\ (forall x w, act_sim d (registers o) (q x w) (q' x w)) /\ callee_rest j r r'
    | _, _ => False
    end.

  Definition passed (fr : frame) (i : nat) (x : binding) : Prop :=
    exists a v, nth_error args i = Some a /\ resolve d F fr a = Some v /\ sees d (RBound x) v /\
      match x with BPlace _ | BDict _ => True | _ => False end.

  Definition waiting_rest : option (list operation) := option_map snd after.

  (** [fr]: the frame of the caller, whatever its control. *)
  Record inside (cf fr fr' : frame) : Prop := {
    is_fun : fr_fun cf = g;
    is_data : data_sim fr fr';
    is_marker : fr_regs fr' N = Some (BMarker (fr_top cf));
    is_regs : forall r x, fr_regs cf r = Some x -> exists r', rho r = Some r' /\ fr_regs fr' r' = Some x;
    is_params : forall i x, fr_params cf i = Some x -> passed fr i x;
    is_block : fr_block fr = b;
    is_calm : calm fr
  }.

  Definition failures (cf fr fr' : frame) : Prop :=
    (error_flow G = false /\ fr_pending cf = None /\ fr_cleanup cf = None /\
     fr_pending fr' = fr_pending fr /\ fr_cleanup fr' = fr_cleanup fr) \/
    (fr_pending fr = None /\ fr_cleanup fr = None /\
     fr_pending fr' = fr_pending cf /\ fr_cleanup fr' = fr_cleanup cf /\
     (fr_pending cf = None -> fr_cleanup cf = None)).

  Record splice_sim (cf fr fr' : frame) : Prop := {
    ss_inside : inside cf fr fr';
    ss_failures : failures cf fr fr';
    ss_waiting : fr_control fr = CWait (direct d) call waiting_rest;
    ss_at : fr_block fr' = base + fr_block cf;
    ss_control : callee_control (fr_block cf) (fr_control cf) (fr_control fr')
  }.

  Inductive stack_sim : list frame -> list frame -> Prop :=
  | st_nil : stack_sim [] []
  | st_other : forall fr s s', fr_fun fr <> f -> stack_sim s s' -> stack_sim (fr :: s) (fr :: s')
  | st_same : forall fr fr' s s', frame_sim fr fr' -> stack_sim s s' -> stack_sim (fr :: s) (fr' :: s')
  | st_splice : forall cf fr fr' s s', splice_sim cf fr fr' -> stack_sim s s' ->
      stack_sim (cf :: fr :: s) (fr' :: s').

  (** Where the caller is about to enter the callee, or has just left it. *)
  Definition at_exit (fr' : frame) (c : nat) : Prop :=
    fr_control fr' = CRun [] /\
    exists B', nth_error (f_blocks F') (fr_block fr') = Some B' /\ b_term B' = TGoto c.

  Inductive sim : status -> status -> Prop :=
  | sim_panicked : forall s, sim Panicked s
  | sim_done : forall o, sim (Done o) (Done o)
  | sim_running : forall s s' w, stack_sim s s' -> sim (Running s w) (Running s' w)
  | sim_calling : forall fr fr' s s' w bs, stack_sim s s' -> data_sim fr fr' ->
      fr_pending fr' = fr_pending fr -> fr_cleanup fr' = fr_cleanup fr -> calm fr -> fr_block fr = b ->
      at_exit fr' base -> fr_regs fr' N = Some (BMarker (height d w)) ->
      (forall i x, nth_error bs i = Some x -> passed fr i x) ->
      fr_control fr = CAct (Call g bs w (direct d)) call waiting_rest ->
      sim (Running (fr :: s) w) (Running (fr' :: s') w)
  | sim_returning : forall fr fr' s s' w, stack_sim s s' -> data_sim fr fr' ->
      fr_pending fr' = fr_pending fr -> fr_cleanup fr' = fr_cleanup fr -> calm fr -> fr_block fr = b ->
      at_exit fr' normal ->
      fr_control fr = CAct (Finish w [] None) call waiting_rest ->
      sim (Running (fr :: s) w) (Running (fr' :: s') w)
  | sim_failing : forall fr fr' s s' w e c, stack_sim s s' -> data_sim fr fr' ->
      fr_pending fr = None -> fr_cleanup fr = None ->
      fr_pending fr' = Some e -> fr_cleanup fr' = None -> fr_block fr = b ->
      error = Some c -> at_exit fr' c ->
      fr_control fr = CAct (Fail w [] e) call waiting_rest ->
      sim (Running (fr :: s) w) (Running (fr' :: s') w)
  | sim_doomed : forall fr s w o r st' w', fr_control fr = CAct Panic o r ->
      sim (Running (fr :: s) w) (Running st' w').

  (** ** The stack below *)
  Lemma return_sim s s' r w : stack_sim s s' -> sim (return_to d s r w) (return_to d s' r w).
  Proof.
    intros S. destruct S as [|fr s s' E S|fr fr' s s' FS S|cf fr fr' s s' SS S]; cbn [return_to].
    - constructor.
    - destruct (fr_control fr) as [| |k o rest]; try constructor.
      apply st_other; auto.
    - destruct FS as [D Ep Ec Cm Ct].
      destruct (fr_control fr) as [ops|a o r0|k o r0]; try apply sim_panicked.
      destruct (fr_control fr') as [ops'|a' o' r0'|k' o' r0']; try (exfalso; exact Ct).
      destruct Ct as [-> [Sm [A R]]]. constructor. apply st_same; auto.
      destruct D. constructor; auto. constructor; auto.
      cbn. split; [reflexivity|]. split; [exact Sm|]. split; [apply A|exact R].
    - destruct SS as [I Fl Wt At Ct].
      destruct (fr_control cf) as [ops|a o r0|k o r0]; try apply sim_panicked.
      destruct (fr_control fr') as [ops'|a' o' r0'|k' o' r0']; try (exfalso; exact Ct).
      destruct Ct as [Co [A R]]. constructor. apply st_splice; auto.
      destruct I as [i1 i2 i3 i4 i5 i6 i7]. constructor; auto.
      + constructor; auto. destruct i2. constructor; auto.
      + cbn. split; [exact Co|]. split; [apply A|exact R].
  Qed.

  Lemma blame_sim s s' : stack_sim s s' -> forall e,
    fold_left (fun e fr => blame d fr e) s e = fold_left (fun e fr => blame d fr e) s' e.
  Proof.
    induction 1 as [|fr s s' E S IH|fr fr' s s' FS S IH|cf fr fr' s s' SS S IH]; intros e; cbn [fold_left]; auto.
    - rewrite IH. f_equal. unfold blame. now rewrite (fs_pending _ _ FS).
    - rewrite IH. f_equal. unfold blame.
      destruct (ss_failures _ _ _ SS) as [[_ [-> [_ [-> _]]]]|[-> [_ [-> _]]]]; reflexivity.
  Qed.

  Lemma base_cons (fr : frame) s : InlineMachine.base d (fr :: s) =
    match s with [] => fr_top fr | _ => InlineMachine.base d s end.
  Proof. destruct s; reflexivity. Qed.

  Lemma stack_nil s : stack_sim [] s -> s = [].
  Proof. intros H. inversion H. reflexivity. Qed.

  Lemma base_sim s s' : stack_sim s s' -> InlineMachine.base d s = InlineMachine.base d s'.
  Proof.
    induction 1 as [|fr s s' E S IH|fr fr' s s' FS S IH|cf fr fr' s s' SS S IH]; auto.
    - rewrite !base_cons. destruct S; auto.
    - rewrite !base_cons. rewrite (ds_top _ _ (fs_data _ _ FS)). destruct S; auto.
    - rewrite (base_cons cf), (base_cons fr), (base_cons fr').
      rewrite (ds_top _ _ (is_data _ _ _ (ss_inside _ _ _ SS))). destruct S; auto.
  Qed.

  Lemma poisoned_sim s s' e w : stack_sim s s' -> sim (poisoned d s e w) (poisoned d s' e w).
  Proof.
    intros S. unfold poisoned. rewrite (blame_sim _ _ S), (base_sim _ _ S). apply sim_done.
  Qed.

  (** ** Other functions *)
  Lemma begin_other A fr o w : begin d P A fr o w = begin d P' A fr o w.
  Proof.
    unfold begin. destruct (resolve_all d A fr (o_operands o)) as [xs|]; auto.
    destruct (o_kind o); auto. destruct xs as [|[| | | |h|] ys]; auto.
    destruct (P h) as [H|] eqn:E.
    - destruct (P'_params _ _ E) as [H' [-> ->]]. reflexivity.
    - rewrite (P'_none _ E). reflexivity.
  Qed.

  Lemma goto_fun A fr c fr1 : goto d A fr c = Some fr1 -> fr_fun fr1 = fr_fun fr.
  Proof.
    unfold goto. destruct (nth_error (f_blocks A) c); [|intros H; discriminate H].
    intros H. injection H as <-. reflexivity.
  Qed.

  Lemma apply_moves_fun os ms : forall (fr fr1 : frame), apply_moves d fr os ms = Some fr1 ->
    fr_fun fr1 = fr_fun fr /\ fr_block fr1 = fr_block fr /\ fr_pending fr1 = fr_pending fr /\
    fr_cleanup fr1 = fr_cleanup fr /\ fr_top fr1 = fr_top fr /\ fr_control fr1 = fr_control fr.
  Proof.
    induction ms as [|[i x] ms IH]; intros fr fr1 H; cbn [apply_moves] in H.
    - injection H as <-. repeat split; reflexivity.
    - destruct (nth_error os i) as [[| | | | |n|r]|]; try discriminate H; apply IH in H; exact H.
  Qed.

  Lemma apply_result_fun (fr fr1 : frame) r x : apply_result d fr r x = Some fr1 ->
    fr_fun fr1 = fr_fun fr /\ fr_block fr1 = fr_block fr /\ fr_pending fr1 = fr_pending fr /\
    fr_cleanup fr1 = fr_cleanup fr /\ fr_top fr1 = fr_top fr /\ fr_control fr1 = fr_control fr.
  Proof.
    unfold apply_result. destruct x; [destruct r|]; intros H; try discriminate H; injection H as <-;
      cbn; repeat split; reflexivity.
  Qed.

  Lemma finishes_fun A fr r fr1 : finishes d A fr r = Some fr1 -> fr_fun fr1 = fr_fun fr.
  Proof.
    unfold finishes. destruct r; [intros H; injection H as <-; reflexivity|].
    destruct (nth_error (f_blocks A) (fr_block fr)) as [[ops [| |o n e| | | |]]|]; intros H; try discriminate H.
    apply goto_fun in H. exact H.
  Qed.
  Lemma fails_fun A fr r e fr1 : fails d A fr r e = Some fr1 -> fr_fun fr1 = fr_fun fr.
  Proof.
    unfold fails. destruct r; [intros H; discriminate H|].
    destruct (nth_error (f_blocks A) (fr_block fr)) as [[ops [| |o n e0| | | |]]|]; intros H; try discriminate H.
    destruct (fr_pending fr); [destruct (fr_cleanup fr); [discriminate H|]|]; apply goto_fun in H; exact H.
  Qed.

  Lemma next_other s s' fr1 w : stack_sim s s' ->
    (forall x, fr1 = Some x -> fr_fun x <> f) ->
    sim (next_or_panic d s fr1 w) (next_or_panic d s' fr1 w).
  Proof.
    intros S H. destruct fr1 as [x|]; cbn; [|apply sim_panicked].
    apply sim_running. apply st_other; auto.
  Qed.

  (** ** Entering a function *)
  Lemma goto_sim A fr c fr1 fr' :
    A = F -> goto d A fr c = Some fr1 -> data_sim fr fr' ->
    fr_pending fr' = fr_pending fr -> fr_cleanup fr' = fr_cleanup fr ->
    (fr_pending fr <> None -> cleanup c) -> (fr_pending fr = None -> fr_cleanup fr = None) ->
    exists fr1', goto d F' fr' c = Some fr1' /\ frame_sim fr1 fr1'.
  Proof.
    intros -> H D Ep Ec C1 C2. unfold goto in *.
    destruct (nth_error (f_blocks F) c) as [B|] eqn:E; [|discriminate H]. injection H as <-.
    assert (Sm : Forall small (b_ops B)).
    { apply Forall_forall. intros o I r R. apply (sp_results SP) with (B := B) (o := o); auto.
      - eapply nth_error_In; eauto.
      - unfold block_operations. apply in_app_iff. auto. }
    destruct D as [d1 d2 d3 d4 d5].
    destruct (Nat.eq_dec c b) as [->|NE].
    - rewrite (sp_cut SP). eexists. split; [reflexivity|].
      constructor; cbn; auto.
      + constructor; auto.
      + split; auto.
      + split; [|exact Sm]. assert (b_ops B = pre ++ rest_of) as ->; [|apply pt_before].
        pose proof (sp_site SP) as ST. unfold rest_of. destruct after as [[cont tail]|].
        * destruct ST as [T [ST _]]. rewrite E in ST. injection ST as ->. reflexivity.
        * destruct ST as [e [ST _]]. rewrite E in ST. injection ST as ->. now rewrite app_nil_r.
    - rewrite (sp_other SP _ _ NE E). eexists. split; [reflexivity|].
      constructor; cbn; auto.
      + constructor; auto.
      + split; auto.
      + split; [apply pt_other; exact NE|exact Sm].
  Qed.

  Lemma enter_sim h H H' bs w s s' : stack_sim s s' -> P h = Some H -> P' h = Some H' ->
    sim (next_or_panic d s (enter d H h bs w) w) (next_or_panic d s' (enter d H' h bs w) w).
  Proof.
    intros S PH PH'. destruct (fid_eqb h f) eqn:Q.
    - apply fid_eqb_true in Q. subst h. rewrite (sp_caller SP) in PH. injection PH as <-.
      rewrite P'_caller in PH'. injection PH' as <-. unfold enter.
      destruct (goto d F _ 0) as [fr1|] eqn:E; [|apply sim_panicked].
      edestruct (goto_sim F _ 0 fr1
        (Frame f (arguments d bs) (fun _ => None) None None (height d w) 0 (CRun [])) eq_refl E)
        as [fr1' [E' FS]].
      + constructor; cbn; auto. intros r x R. discriminate R.
      + reflexivity.
      + reflexivity.
      + cbn. congruence.
      + reflexivity.
      + rewrite E'. cbn. apply sim_running. apply st_same; auto.
    - assert (h <> f) as NE. { intros ->. rewrite fid_eqb_refl in Q. discriminate Q. }
      rewrite (P'_other _ NE), PH in PH'. injection PH' as <-.
      apply next_other; auto. intros x E. unfold enter in E. apply goto_fun in E. rewrite E. exact NE.
  Qed.

  Lemma step_other fr s s' w : fr_fun fr <> f -> stack_sim s s' ->
    sim (step d P (Running (fr :: s) w)) (step d P' (Running (fr :: s') w)).
  Proof.
    intros NE S. unfold step. rewrite (P'_other _ NE).
    destruct (P (fr_fun fr)) as [A|]; [|apply sim_panicked].
    destruct (fr_control fr) as [[|o ops]|a o r|k o r].
    - destruct (nth_error (f_blocks A) (fr_block fr)) as [B|]; [|apply sim_panicked].
      destruct (b_term B) as [c|x y n|o n e| | | |x c]; cbn [terminate].
      + apply next_other; auto. intros q E. apply goto_fun in E. congruence.
      + destruct (resolve d A fr x) as [v|]; [|apply sim_panicked].
        destruct (branch d v w) as [t|]; [|apply sim_panicked].
        apply next_other; auto. intros q E. apply goto_fun in E. congruence.
      + rewrite begin_other. apply sim_running. apply st_other; auto.
      + destruct (fr_pending fr); [apply sim_panicked|]. apply return_sim; auto.
      + destruct (fr_cleanup fr), (fr_pending fr); try apply sim_panicked. apply return_sim; auto.
      + destruct (fr_pending fr), (fr_cleanup fr); try apply sim_panicked.
        rewrite (blame_sim _ _ S).
        assert (stack_sim (fr :: s) (fr :: s')) as S2 by (apply st_other; auto).
        rewrite (base_sim _ _ S2). apply sim_done.
      + apply sim_panicked.
    - destruct (o_kind o) eqn:K;
        try (rewrite begin_other; apply sim_running; apply st_other; auto; fail).
      + destruct (o_result o); [|apply sim_panicked]. apply sim_running. apply st_other; auto.
      + destruct (o_operands o) as [|x l]; [apply sim_panicked|].
        destruct (resolve d A fr x) as [[| | | | |[| |n| |]]|]; try apply sim_panicked.
        apply sim_running. apply st_other; auto.
    - destruct a as [w' ms x|w' ms e|w' e|h bs w' k|].
      + destruct (apply_moves d fr (o_operands o) ms) as [fr1|] eqn:M; [|apply sim_panicked].
        destruct (apply_result d fr1 (o_result o) x) as [fr2|] eqn:R; [|apply sim_panicked].
        apply next_other; auto. intros q E. apply finishes_fun in E. apply apply_moves_fun in M.
        apply apply_result_fun in R. rewrite E, (proj1 R), (proj1 M). exact NE.
      + destruct (apply_moves d fr (o_operands o) ms) as [fr1|] eqn:M; [|apply sim_panicked].
        apply next_other; auto. intros q E. apply fails_fun in E. apply apply_moves_fun in M.
        rewrite E, (proj1 M). exact NE.
      + apply poisoned_sim. apply st_other; auto.
      + destruct (P h) as [H|] eqn:PH; [|apply sim_panicked].
        destruct (P'_params _ _ PH) as [H' [PH' _]]. rewrite PH'.
        apply enter_sim; auto. apply st_other; auto.
      + apply sim_panicked.
    - apply sim_panicked.
  Qed.

  (** ** The caller outside of the callee *)
  Lemma resolve_own fr fr' x v : data_sim fr fr' -> resolve d F fr x = Some v -> resolve d F' fr' x = Some v.
  Proof.
    intros [d1 d2 d3 d4 d5] H. destruct x as [c| | | | |i|r]; cbn [resolve] in *; auto.
    - destruct (nth_error (f_constants F) c) as [k|] eqn:E; [|discriminate H].
      rewrite (sp_constants SP _ _ E). exact H.
    - rewrite d3. exact H.
    - destruct (fr_regs fr r) as [y|] eqn:E; [|discriminate H].
      rewrite (proj2 (d4 _ _ E)). exact H.
  Qed.

  Lemma resolve_all_own fr fr' : data_sim fr fr' -> forall os xs,
    resolve_all d F fr os = Some xs -> resolve_all d F' fr' os = Some xs.
  Proof.
    intros D. induction os as [|o os IH]; intros xs H; cbn [resolve_all] in *; auto.
    destruct (resolve d F fr o) as [v|] eqn:E; [|discriminate H].
    rewrite (resolve_own _ _ _ _ D E). cbn [InlineModel.bind] in *.
    destruct (resolve_all d F fr os) as [vs|]; [|discriminate H].
    rewrite (IH _ eq_refl). exact H.
  Qed.

  Lemma resolve_all_nth A fr : forall os xs i o, resolve_all d A fr os = Some xs ->
    nth_error os i = Some o -> exists v, nth_error xs i = Some v /\ resolve d A fr o = Some v.
  Proof.
    induction os as [|o0 os IH]; intros xs i o H E; [destruct i; discriminate E|].
    cbn [resolve_all] in H. destruct (resolve d A fr o0) as [v|] eqn:R; [|discriminate H].
    cbn [InlineModel.bind] in H. destruct (resolve_all d A fr os) as [vs|] eqn:RA; [|discriminate H].
    cbn [InlineModel.bind] in H. injection H as <-.
    destruct i as [|i]; cbn [nth_error] in *.
    - injection E as <-. eauto.
    - eapply IH; eauto.
  Qed.

  Lemma sees_refl_all xs : Forall2 (sees d) xs xs.
  Proof. induction xs; constructor; auto. apply sees_same. Qed.

  Lemma begin_own fr fr' o w : data_sim fr fr' ->
    act_sim d (own o) (begin d P F fr o w) (begin d P' F' fr' o w).
  Proof.
    intros D. destruct (resolve_all d F fr (o_operands o)) as [xs|] eqn:R.
    - eapply act_sim_weaken.
      2:{ eapply begin_sees; [exact R|exact (resolve_all_own _ _ D _ _ R)|apply sees_refl_all|reflexivity]. }
      intros i [v V] r E. destruct (resolve_all_nth _ _ _ _ _ _ R E) as [v' [V' RR]].
      cbn [resolve] in RR. destruct (fr_regs fr r) as [x|] eqn:X; [|discriminate RR].
      exact (proj1 (ds_regs _ _ D _ _ X)).
    - unfold begin at 1. rewrite R. apply sim_panic.
  Qed.

  Lemma set_same {A} (m : nat -> option A) k a : set m k a k = Some a.
  Proof. unfold set. now rewrite Nat.eqb_refl. Qed.
  Lemma set_other {A} (m : nat -> option A) k a x : x <> k -> set m k a x = m x.
  Proof. intros H. unfold set. destruct (x =? k) eqn:E; auto. apply Nat.eqb_eq in E. congruence. Qed.

  Lemma regs_le_set m m' r x : r < N -> regs_le m m' -> regs_le (set m r x) (set m' r x).
  Proof.
    intros L H r0 y E. unfold set in *. destruct (r0 =? r) eqn:Q.
    - apply Nat.eqb_eq in Q. subst. split; auto.
    - apply H. exact E.
  Qed.

  Lemma regs_le_fresh m m' r x : N <= r -> regs_le m m' -> regs_le m (set m' r x).
  Proof.
    intros L H r0 y E. destruct (H _ _ E) as [L0 E0]. split; auto.
    rewrite set_other; auto. lia.
  Qed.

  Lemma data_control fr fr' c c' : data_sim fr fr' -> data_sim (with_control d fr c) (with_control d fr' c').
  Proof. intros [d1 d2 d3 d4 d5]. constructor; auto. Qed.
  Lemma data_control_r fr fr' c' : data_sim fr fr' -> data_sim fr (with_control d fr' c').
  Proof. intros [d1 d2 d3 d4 d5]. constructor; auto. Qed.
  Lemma data_reg fr fr' r x : r < N -> data_sim fr fr' -> data_sim (with_reg d fr r x) (with_reg d fr' r x).
  Proof. intros L [d1 d2 d3 d4 d5]. constructor; auto. cbn. apply regs_le_set; auto. Qed.
  Lemma data_reg_r fr fr' r x : N <= r -> data_sim fr fr' -> data_sim fr (with_reg d fr' r x).
  Proof. intros L [d1 d2 d3 d4 d5]. constructor; auto. cbn. apply regs_le_fresh; auto. Qed.

  Lemma moves_own o ms : Forall (fun m => own o (fst m)) ms -> forall fr fr' fr1, data_sim fr fr' ->
    apply_moves d fr (o_operands o) ms = Some fr1 ->
    exists fr1', apply_moves d fr' (o_operands o) ms = Some fr1' /\ data_sim fr1 fr1'.
  Proof.
    induction 1 as [|[i x] ms Q _ IH]; intros fr fr' fr1 D E; cbn [apply_moves] in *.
    - injection E as <-. eauto.
    - cbn [fst] in Q. destruct (nth_error (o_operands o) i) as [[| | | | |n|r]|] eqn:X; try discriminate E.
      + refine (IH _ _ _ _ E). destruct D as [d1 d2 d3 d4 d5]. constructor; auto. cbn. now rewrite d3.
      + refine (IH _ _ _ _ E). apply data_reg; auto.
  Qed.

  Lemma result_own fr fr' r x fr1 : (forall k, r = Some k -> k < N) -> data_sim fr fr' ->
    apply_result d fr r x = Some fr1 -> exists fr1', apply_result d fr' r x = Some fr1' /\ data_sim fr1 fr1'.
  Proof.
    intros L D E. unfold apply_result in *. destruct x as [x|]; [|injection E as <-; eauto].
    destruct r as [r|]; [|discriminate E]. injection E as <-. eexists. split; [reflexivity|].
    apply data_reg; auto.
  Qed.

  Lemma term_point_block c c' B : term_point c c' -> nth_error (f_blocks F) c = Some B ->
    exists B', nth_error (f_blocks F') c' = Some B' /\ b_term B' = b_term B.
  Proof.
    intros [[NE ->]|[-> [tail Q]]] E.
    - exists B. split; auto. apply (sp_other SP); auto.
    - pose proof (sp_site SP) as ST. rewrite Q in ST. destruct ST as [T [ST [SC _]]].
      rewrite E in ST. injection ST as ->. eexists. split; [exact SC|]. reflexivity.
  Qed.

  Lemma goto_next fr fr' c s s' w : stack_sim s s' -> data_sim fr fr' ->
    fr_pending fr' = fr_pending fr -> fr_cleanup fr' = fr_cleanup fr ->
    (fr_pending fr <> None -> cleanup c) -> (fr_pending fr = None -> fr_cleanup fr = None) ->
    sim (next_or_panic d s (goto d F fr c) w) (next_or_panic d s' (goto d F' fr' c) w).
  Proof.
    intros S D Ep Ec C1 C2. destruct (goto d F fr c) as [fr1|] eqn:E; [|apply sim_panicked].
    destruct (goto_sim F fr c fr1 fr' eq_refl E D Ep Ec C1 C2) as [fr1' [E' FS]].
    rewrite E'. apply sim_running. apply st_same; auto.
  Qed.

  Lemma terminate_own fr fr' s s' w T B : stack_sim s s' -> data_sim fr fr' ->
    fr_pending fr' = fr_pending fr -> fr_cleanup fr' = fr_cleanup fr -> calm fr ->
    term_point (fr_block fr) (fr_block fr') -> nth_error (f_blocks F) (fr_block fr) = Some B -> b_term B = T ->
    sim (terminate d P F fr s w T) (terminate d P' F' fr' s' w T).
  Proof.
    intros S D Ep Ec [C1 C2] TP NB ET.
    assert (FL : forall c, In c (successors T) -> fr_pending fr <> None -> cleanup c).
    { intros c I Pn. apply (sp_flow SP (fr_block fr) B); auto. rewrite ET. exact I. }
    destruct T as [c|x y n|o n e| | | |x c]; cbn [terminate].
    - apply goto_next; auto. apply FL. now left.
    - destruct (resolve d F fr x) as [v|] eqn:R; [|apply sim_panicked].
      rewrite (resolve_own _ _ _ _ D R). destruct (branch d v w) as [t|]; [|apply sim_panicked].
      apply goto_next; auto. apply FL. destruct t; [now left|right; now left].
    - apply sim_running. apply st_same; auto. constructor; auto.
      + apply data_control. exact D.
      + cbn. split; auto.
      + cbn. split; [reflexivity|]. split; [|split; [apply begin_own; exact D|exact TP]].
        intros r R. apply (sp_results SP B o r); auto. eapply nth_error_In; eauto.
        unfold block_operations. rewrite ET. apply in_app_iff. right. now left.
    - rewrite Ep. destruct (fr_pending fr); [apply sim_panicked|].
      rewrite (ds_top _ _ D). apply return_sim. exact S.
    - rewrite Ep, Ec. destruct (fr_cleanup fr), (fr_pending fr); try apply sim_panicked.
      rewrite (ds_top _ _ D). apply return_sim. exact S.
    - rewrite Ep, Ec. destruct (fr_pending fr), (fr_cleanup fr); try apply sim_panicked.
      rewrite (blame_sim _ _ S), (base_cons fr), (base_cons fr'), (ds_top _ _ D).
      destruct S; try apply sim_done.
      + rewrite !base_cons. rewrite (base_sim _ _ S). destruct S; apply sim_done.
      + assert (stack_sim (fr0 :: s) (fr'0 :: s')) as S2 by (apply st_same; auto).
        rewrite (base_sim _ _ S2). apply sim_done.
      + assert (stack_sim (cf :: fr0 :: s) (fr'0 :: s')) as S2 by (apply st_splice; auto).
        rewrite (base_sim _ _ S2). apply sim_done.
    - apply sim_panicked.
  Qed.

  (** The arguments of the call, as the callee gets them. *)
  Lemma bind_argument_passed k v w x w' : bind_argument d k v w = Some (x, w') ->
    (forall s, v <> RSubscript s) -> w' = w /\ sees d (RBound x) v /\
    match x with BPlace _ | BDict _ => True | _ => False end.
  Proof.
    intros H NS.
    assert (PL : forall y, option_map (fun p => (BPlace p, w)) (as_place d y) = Some (x, w') ->
              w' = w /\ sees d (RBound x) (RBound y) /\
              match x with BPlace _ | BDict _ => True | _ => False end).
    { intros y E. destruct y as [p|u|n|n|t]; cbn in E; try discriminate E.
      - injection E as <- <-. split; [reflexivity|]. split; [apply sees_same|exact I].
      - destruct (value_place d u) as [p|] eqn:V; [|discriminate E].
        injection E as <- <-. split; [reflexivity|]. split; [apply sees_place; exact V|exact I]. }
    destruct k, v as [| |n|s|h|y]; cbn [bind_argument] in H; try discriminate H.
    - injection H as <- <-. split; [reflexivity|]. split; [apply sees_dict|]. exact I.
    - exfalso. exact (NS s eq_refl).
    - destruct y as [p|u|n|n|t].
      + destruct (PL _ H) as [E1 [E2 E3]]. auto.
      + destruct (PL _ H) as [E1 [E2 E3]]. auto.
      + discriminate H.
      + injection H as <- <-. split; [reflexivity|]. split; [apply sees_same|]. exact I.
      + discriminate H.
    - destruct (PL _ H) as [E1 [E2 E3]]. auto.
  Qed.

  Lemma bind_passed fr w : forall os xs ks bs w', resolve_all d F fr os = Some xs ->
    (forall s, ~ In (OSubscript s) os) -> bind_arguments d ks xs w = Some (bs, w') ->
    w' = w /\ forall i x, nth_error bs i = Some x -> exists a v, nth_error os i = Some a /\
      resolve d F fr a = Some v /\ sees d (RBound x) v /\
      match x with BPlace _ | BDict _ => True | _ => False end.
  Proof.
    induction os as [|o os IH]; intros xs ks bs w' R NS H; cbn [resolve_all] in R.
    - injection R as <-. cbn in H. injection H as <- <-. split; [reflexivity|].
      intros i x E. destruct i; discriminate E.
    - destruct (resolve d F fr o) as [v|] eqn:RO; [|discriminate R]. cbn [InlineModel.bind] in R.
      destruct (resolve_all d F fr os) as [vs|] eqn:RA; [|discriminate R]. cbn [InlineModel.bind] in R.
      injection R as <-. cbn [bind_arguments] in H.
      destruct (bind_argument d _ v w) as [[x0 w0]|] eqn:B; [|discriminate H]. cbn [InlineModel.bind fst snd] in H.
      destruct (bind_arguments d (tl ks) vs w0) as [[bs0 w1]|] eqn:BA; [|discriminate H].
      cbn [InlineModel.bind fst snd] in H. injection H as <- <-.
      destruct (bind_argument_passed _ _ _ _ _ B) as [-> [SE SH]].
      { intros s ->. apply (NS s). left. destruct o; cbn in RO; try discriminate RO.
        - destruct (nth_error (f_constants F) c); discriminate RO.
        - congruence.
        - destruct (fr_params fr i); discriminate RO.
        - destruct (fr_regs fr r); discriminate RO. }
      destruct (IH _ _ _ _ eq_refl (fun s I => NS s (or_intror I)) BA) as [-> Q].
      split; [reflexivity|]. intros i x E. destruct i as [|i]; cbn [nth_error] in *.
      + injection E as <-. exists o, v. auto.
      + apply Q. exact E.
  Qed.

  Lemma begin_call fr w : begin d P F fr call w = Panic \/
    exists bs, begin d P F fr call w = Call g bs w (direct d) /\
      forall i x, nth_error bs i = Some x -> passed fr i x.
  Proof.
    unfold begin. rewrite (sp_operands SP). destruct (sp_kind SP) as [y ->].
    cbn [resolve_all resolve InlineModel.bind].
    destruct (resolve_all d F fr args) as [xs|] eqn:R; [|now left]. cbn [InlineModel.bind].
    rewrite (sp_callee SP).
    destruct (bind_arguments d (f_params G) xs w) as [[bs w']|] eqn:B; [|now left].
    destruct (bind_passed _ _ _ _ _ _ _ R (sp_plain SP) B) as [-> Q].
    right. exists bs. split; [reflexivity|]. exact Q.
  Qed.

  (** The step that reaches the call. *)
  Lemma enter_call fr fr' s s' w : stack_sim s s' -> data_sim fr fr' ->
    fr_pending fr' = fr_pending fr -> fr_cleanup fr' = fr_cleanup fr -> calm fr -> fr_block fr = b ->
    fr_block fr' = b ->
    sim (Running (with_control d fr (CAct (begin d P F fr call w) call waiting_rest) :: s) w)
        (Running (with_control d (with_reg d fr' N (BMarker (height d w))) (CRun []) :: s') w).
  Proof.
    intros S D Ep Ec C Eb Eb'. destruct (begin_call fr w) as [->|[bs [-> Q]]].
    - eapply sim_doomed. reflexivity.
    - eapply sim_calling; auto.
      + apply data_control. apply data_reg_r; auto.
      + split; [reflexivity|]. cbn. rewrite Eb'. eexists. split; [exact (sp_cut SP)|reflexivity].
      + cbn. apply set_same.
      + exact Q.
      + reflexivity.
  Qed.

  Lemma own_operation fr fr' s s' w o ops ops' :
    stack_sim s s' -> data_sim fr fr' ->
    fr_pending fr' = fr_pending fr -> fr_cleanup fr' = fr_cleanup fr -> calm fr ->
    small o -> Forall small ops -> point (fr_block fr) ops (fr_block fr') ops' ->
    fr_control fr = CRun (o :: ops) -> fr_control fr' = CRun (o :: ops') ->
    sim (step d P (Running (fr :: s) w)) (step d P' (Running (fr' :: s') w)).
  Proof.
    intros S D Ep Ec C So Sm PT K K'.
    unfold step. rewrite (ds_fun _ _ D), (ds_fun' _ _ D), (sp_caller SP), P'_caller, K, K'.
    assert (RUN : forall fr1 fr1' w1, data_sim fr1 fr1' ->
       fr_pending fr1 = fr_pending fr -> fr_pending fr1' = fr_pending fr' ->
       fr_cleanup fr1 = fr_cleanup fr -> fr_cleanup fr1' = fr_cleanup fr' ->
       fr_block fr1 = fr_block fr -> fr_block fr1' = fr_block fr' ->
       sim (Running (with_control d fr1 (CRun ops) :: s) w1) (Running (with_control d fr1' (CRun ops') :: s') w1)).
    { intros fr1 fr1' w1 D1 e1 e2 e3 e4 e5 e6. apply sim_running. apply st_same; auto. constructor.
      - apply data_control. exact D1.
      - cbn. congruence.
      - cbn. congruence.
      - unfold calm in *. cbn. rewrite e1, e3, e5. exact C.
      - cbn. rewrite e5, e6. auto. }
    assert (ACT : sim (Running (with_control d fr (CAct (begin d P F fr o w) o (Some ops)) :: s) w)
                      (Running (with_control d fr' (CAct (begin d P' F' fr' o w) o (Some ops')) :: s') w)).
    { apply sim_running. apply st_same; auto. constructor; auto.
      - apply data_control. exact D.
      - cbn. split; [reflexivity|]. split; [exact So|]. split; [apply begin_own; exact D|]. auto. }
    destruct (o_kind o); auto.
    - destruct (o_result o) as [r|] eqn:R; [|apply sim_panicked].
      apply RUN; auto. apply data_reg; auto.
    - destruct (o_operands o) as [|x l]; [apply sim_panicked|].
      destruct (resolve d F fr x) as [v|] eqn:R; [|apply sim_panicked].
      rewrite (resolve_own _ _ _ _ D R). destruct v as [| | | | |[| |n| |]]; try apply sim_panicked.
      apply RUN; auto.
  Qed.

  Lemma finishes_own fr fr' s s' r r' w : stack_sim s s' -> data_sim fr fr' ->
    fr_pending fr' = fr_pending fr -> fr_cleanup fr' = fr_cleanup fr -> calm fr ->
    rest_sim (fr_block fr) r (fr_block fr') r' ->
    sim (next_or_panic d s (finishes d F fr r) w) (next_or_panic d s' (finishes d F' fr' r') w).
  Proof.
    intros S D Ep Ec C R. destruct r as [ops|], r' as [ops'|]; try contradiction; cbn [finishes rest_sim] in *.
    - cbn. apply sim_running. apply st_same; auto. constructor; auto. apply data_control. exact D.
    - destruct (nth_error (f_blocks F) (fr_block fr)) as [[ops T]|] eqn:E; [|apply sim_panicked].
      destruct (term_point_block _ _ _ R E) as [[ops' T'] [E' ET]]. cbn in ET. subst T'. rewrite E'.
      destruct T as [c|x y n|o n e| | | |x c]; try apply sim_panicked.
      destruct C as [C1 C2]. apply goto_next; auto.
      intros Pn. apply (sp_flow SP _ _ n (C1 Pn) E). now left.
  Qed.

  Lemma fails_own fr fr' s s' r r' e w : stack_sim s s' -> data_sim fr fr' ->
    fr_pending fr' = fr_pending fr -> fr_cleanup fr' = fr_cleanup fr -> calm fr ->
    rest_sim (fr_block fr) r (fr_block fr') r' ->
    sim (next_or_panic d s (fails d F fr r e) w) (next_or_panic d s' (fails d F' fr' r' e) w).
  Proof.
    intros S D Ep Ec C R. destruct r as [ops|], r' as [ops'|]; try contradiction; cbn [fails rest_sim] in *.
    - apply sim_panicked.
    - destruct (nth_error (f_blocks F) (fr_block fr)) as [[ops T]|] eqn:E; [|apply sim_panicked].
      destruct (term_point_block _ _ _ R E) as [[ops' T'] [E' ET]]. cbn in ET. subst T'. rewrite E'.
      destruct T as [c|x y n|o n c| | | |x c]; try apply sim_panicked.
      rewrite Ep, Ec. pose proof (sp_edge SP _ _ _ _ _ E) as CE.
      destruct (fr_pending fr) as [i|] eqn:Pn; [destruct (fr_cleanup fr) eqn:Cl; [apply sim_panicked|]|];
        destruct D as [d1 d2 d3 d4 d5]; apply goto_next; auto; try (constructor; auto; fail); cbn.
      + intros Q. discriminate Q.
      + intros Q. discriminate Q.
  Qed.

  Lemma step_same fr fr' s s' w : frame_sim fr fr' -> stack_sim s s' ->
    sim (step d P (Running (fr :: s) w)) (step d P' (Running (fr' :: s') w)).
  Proof.
    intros [D Ep Ec C Ct] S.
    destruct (fr_control fr) as [ops|a o r|k o r] eqn:K.
    - destruct (fr_control fr') as [ops'|a' o' r'|k' o' r'] eqn:K'; try (exfalso; exact Ct).
      destruct Ct as [PT Sm].
      destruct ops as [|o ops].
      + remember (fr_block fr) as c eqn:EC. remember (fr_block fr') as c' eqn:EC'. remember [] as l eqn:EL.
        destruct PT as [c l NE|l|l cont tail A].
        * subst l. unfold step. rewrite (ds_fun _ _ D), (ds_fun' _ _ D), (sp_caller SP), P'_caller, K, K'.
          rewrite <- EC, <- EC'. destruct (nth_error (f_blocks F) c) as [B|] eqn:E; [|apply sim_panicked].
          rewrite (sp_other SP _ _ NE E). apply terminate_own with (B := B); auto.
          -- rewrite <- EC, <- EC'. left. auto.
          -- rewrite <- EC. exact E.
        * apply app_eq_nil in EL. destruct EL as [-> RO]. cbn [app] in *.
          unfold step. rewrite (ds_fun _ _ D), (ds_fun' _ _ D), (sp_caller SP), P'_caller, K, K'.
          assert (AF : after = None).
          { clear - RO. unfold rest_of in RO. destruct after as [[cont tail]|]; [discriminate RO|reflexivity]. }
          pose proof (sp_site SP) as ST. rewrite AF in ST.
          destruct ST as [e [ST _]]. rewrite <- EC, ST. cbn [terminate b_term o_kind save o_result].
          assert (None = waiting_rest) as WR by (unfold waiting_rest; rewrite AF; reflexivity).
          rewrite RO, WR. apply enter_call; auto.
        * subst l. unfold step. rewrite (ds_fun _ _ D), (ds_fun' _ _ D), (sp_caller SP), P'_caller, K, K'.
          rewrite <- EC, <- EC'. pose proof (sp_site SP) as ST. rewrite A in ST. destruct ST as [T [ST [SC _]]].
          rewrite ST, SC. cbn [b_term]. eapply terminate_own; auto.
          -- rewrite <- EC, <- EC'. right. eauto.
          -- rewrite <- EC. exact ST.
          -- reflexivity.
      + inversion Sm as [|o1 l1 So Sl]; subst.
        remember (fr_block fr) as c eqn:EC. remember (fr_block fr') as c' eqn:EC'. remember (o :: ops) as l eqn:EL.
        destruct PT as [c l NE|l|l cont tail A].
        * subst l. eapply own_operation; eauto. rewrite <- EC, <- EC'. apply pt_other. exact NE.
        * destruct l as [|o1 l].
          -- cbn [app] in EL.
             assert (AF : exists cont, after = Some (cont, ops) /\ o = call).
             { clear - EL. unfold rest_of in EL. destruct after as [[cont tail]|]; [|discriminate EL].
               injection EL as -> ->. eauto. }
             destruct AF as [cont [AF ->]].
             unfold step. rewrite (ds_fun _ _ D), (ds_fun' _ _ D), (sp_caller SP), P'_caller, K, K'.
             cbn [app save o_kind o_result]. destruct (sp_kind SP) as [y KC]. rewrite EL, KC.
             assert (Some ops = waiting_rest) as WR by (unfold waiting_rest; rewrite AF; reflexivity).
             rewrite WR. apply enter_call; auto.
          -- cbn [app] in EL. injection EL as -> <-. eapply own_operation; eauto.
             rewrite <- EC, <- EC'. apply pt_before.
        * subst l. eapply own_operation; eauto. rewrite <- EC, <- EC'. eapply pt_after; eauto.
    - destruct (fr_control fr') as [ops'|a' o' r'|k' o' r'] eqn:K'; try (exfalso; exact Ct).
      destruct Ct as [-> [So [A R]]].
      unfold step. rewrite (ds_fun _ _ D), (ds_fun' _ _ D), (sp_caller SP), P'_caller, K, K'.
      destruct A as [a|w' ms x Q|w' ms e Q|w' e|h bs w' k k' Q].
      + apply sim_panicked.
      + destruct (apply_moves d fr (o_operands o) ms) as [fr1|] eqn:M; [|apply sim_panicked].
        destruct (moves_own _ _ Q _ _ _ D M) as [fr1' [M' D1]]. rewrite M'.
        destruct (apply_result d fr1 (o_result o) x) as [fr2|] eqn:X; [|apply sim_panicked].
        destruct (result_own _ _ _ _ _ So D1 X) as [fr2' [X' D2]]. rewrite X'.
        apply apply_moves_fun in M. apply apply_moves_fun in M'. apply apply_result_fun in X. apply apply_result_fun in X'.
        destruct M as [m1 [m2 [m3 [m4 _]]]], M' as [n1 [n2 [n3 [n4 _]]]],
                 X as [x1 [x2 [x3 [x4 _]]]], X' as [y1 [y2 [y3 [y4 _]]]].
        apply finishes_own; auto; try congruence.
        * unfold calm. rewrite x3, x4, x2, m3, m4, m2. exact C.
      + destruct (apply_moves d fr (o_operands o) ms) as [fr1|] eqn:M; [|apply sim_panicked].
        destruct (moves_own _ _ Q _ _ _ D M) as [fr1' [M' D1]]. rewrite M'.
        apply apply_moves_fun in M. apply apply_moves_fun in M'.
        destruct M as [m1 [m2 [m3 [m4 _]]]], M' as [n1 [n2 [n3 [n4 _]]]].
        apply fails_own; auto; try congruence.
        * unfold calm. rewrite m3, m4, m2. exact C.
      + apply poisoned_sim. apply st_same; auto. constructor; auto. rewrite K, K'.
        cbn. split; [reflexivity|]. split; [exact So|]. split; [apply sim_poison|exact R].
      + destruct (P h) as [H|] eqn:PH; [|apply sim_panicked].
        destruct (P'_params _ _ PH) as [H' [PH' _]]. rewrite PH'.
        apply enter_sim; auto. apply st_same; auto. constructor; auto.
        * apply data_control. exact D.
        * cbn. split; [reflexivity|]. split; [exact So|]. split; [exact Q|exact R].
    - unfold step. rewrite (ds_fun _ _ D), (sp_caller SP), K. apply sim_panicked.
  Qed.

  (** ** In and out of the callee *)
  Lemma callee_code j B : nth_error (f_blocks G) j = Some B ->
    exists B', nth_error (f_blocks F') (base + j) = Some B' /\ code_sim j (b_ops B) (b_ops B').
  Proof.
    intros E. destruct (sp_copied SP _ _ E) as [B' [E' [copy [ex [e1 [e2 e3]]]]]].
    exists B'. split; [exact E'|]. exists copy, ex, B, B'. auto.
  Qed.

  Lemma step_calling fr fr' s s' w bs : stack_sim s s' -> data_sim fr fr' ->
    fr_pending fr' = fr_pending fr -> fr_cleanup fr' = fr_cleanup fr -> calm fr -> fr_block fr = b ->
    at_exit fr' base -> fr_regs fr' N = Some (BMarker (height d w)) ->
    (forall i x, nth_error bs i = Some x -> passed fr i x) ->
    fr_control fr = CAct (Call g bs w (direct d)) call waiting_rest ->
    sim (step d P (Running (fr :: s) w)) (step d P' (Running (fr' :: s') w)).
  Proof.
    intros S D Ep Ec C Eb [K' [Bx [EX TX]]] MK PA K. unfold step.
    rewrite (ds_fun _ _ D), (ds_fun' _ _ D), (sp_caller SP), P'_caller, K, K', EX, TX, (sp_callee SP).
    cbn [terminate]. unfold enter, goto at 1.
    destruct (nth_error (f_blocks G) 0) as [B0|] eqn:E0; [|apply sim_panicked].
    destruct (callee_code _ _ E0) as [B0' [E0' CS]]. rewrite Nat.add_0_r in E0'.
    unfold goto. rewrite E0'. cbn [next_or_panic fr_fun fr_params fr_regs fr_pending fr_cleanup fr_top].
    apply sim_running. apply st_splice; auto. constructor.
    - constructor; auto.
      + destruct D. constructor; auto.
      + cbn. intros r x R. discriminate R.
    - unfold failures. cbn. destruct (error_flow G) eqn:EF.
      + right. assert (fr_pending fr = None) as PN.
        { destruct (fr_pending fr) eqn:Q; auto. exfalso. apply (sp_clean SP EF). rewrite <- Eb.
          apply (proj1 C). rewrite Q. discriminate. }
        rewrite Ep, Ec, (proj2 C PN). auto.
      + left. auto.
    - reflexivity.
    - cbn. now rewrite Nat.add_0_r.
    - cbn. exact CS.
  Qed.

  Lemma step_returning fr fr' s s' w : stack_sim s s' -> data_sim fr fr' ->
    fr_pending fr' = fr_pending fr -> fr_cleanup fr' = fr_cleanup fr -> calm fr -> fr_block fr = b ->
    at_exit fr' normal ->
    fr_control fr = CAct (Finish w [] None) call waiting_rest ->
    sim (step d P (Running (fr :: s) w)) (step d P' (Running (fr' :: s') w)).
  Proof.
    intros S D Ep Ec C Eb [K' [Bx [EX TX]]] K. unfold step.
    rewrite (ds_fun _ _ D), (ds_fun' _ _ D), (sp_caller SP), P'_caller, K, K', EX, TX.
    cbn [terminate apply_moves apply_result].
    pose proof (sp_site SP) as ST. unfold waiting_rest.
    remember after as af eqn:AF in ST |- *. destruct af as [[cont tail]|]; cbn [option_map snd finishes].
    - destruct ST as [T [ST [SC [-> _]]]]. cbn [next_or_panic]. unfold goto. rewrite SC. cbn [next_or_panic b_ops].
      apply sim_running. apply st_same; auto. constructor; auto.
      + destruct D. constructor; auto.
      + cbn. rewrite Eb. split; [eapply pt_after; symmetry; exact AF|].
        apply Forall_forall. intros o I r R. apply (sp_results SP _ o r (nth_error_In _ _ ST)); auto.
        unfold block_operations. cbn. apply in_app_iff. left. apply in_app_iff. right. now right.
    - destruct ST as [e [ST _]]. rewrite Eb, ST. apply goto_next; auto.
      + intros Pn. apply (sp_flow SP b _ normal) with (2 := ST); [|now left].
        rewrite <- Eb. apply (proj1 C Pn).
      + exact (proj2 C).
  Qed.

  Lemma step_failing fr fr' s s' w e c : stack_sim s s' -> data_sim fr fr' ->
    fr_pending fr = None -> fr_cleanup fr = None ->
    fr_pending fr' = Some e -> fr_cleanup fr' = None -> fr_block fr = b ->
    error = Some c -> at_exit fr' c ->
    fr_control fr = CAct (Fail w [] e) call waiting_rest ->
    sim (step d P (Running (fr :: s) w)) (step d P' (Running (fr' :: s') w)).
  Proof.
    intros S D Pn Cl Pn' Cl' Eb Er [K' [Bx [EX TX]]] K. unfold step.
    rewrite (ds_fun _ _ D), (ds_fun' _ _ D), (sp_caller SP), P'_caller, K, K', EX, TX.
    cbn [terminate apply_moves].
    pose proof (sp_site SP) as ST. unfold waiting_rest.
    remember after as af eqn:AF in ST |- *. destruct af as [[cont tail]|]; cbn [option_map snd fails].
    - destruct ST as [T [_ [_ [_ ER]]]]. rewrite Er in ER. discriminate ER.
    - destruct ST as [c0 [ST ER]]. rewrite Er in ER. injection ER as <-.
      rewrite Eb, ST, Pn. apply goto_next; auto.
      + destruct D. constructor; auto.
      + cbn. congruence.
      + intros _. apply (sp_edge SP _ _ _ _ _ ST).
  Qed.

  (** ** The callee *)
  Lemma resolve_copied cf fr fr' x x' v : inside cf fr fr' -> copied_operand x x' ->
    resolve d G cf x = Some v -> exists v', resolve d F' fr' x' = Some v' /\ sees d v v'.
  Proof.
    intros I CO H. destruct CO as [i a A|r r' R|k k' y e1 e2|q|n|q|h]; cbn [resolve] in *.
    - destruct (fr_params cf i) as [y|] eqn:E; [|discriminate H]. injection H as <-.
      destruct (is_params _ _ _ I _ _ E) as [a0 [u [A0 [R [SE _]]]]].
      rewrite A in A0. injection A0 as <-.
      exists u. split; [|exact SE]. apply (resolve_own _ _ _ _ (is_data _ _ _ I) R).
    - destruct (fr_regs cf r) as [y|] eqn:E; [|discriminate H]. injection H as <-.
      destruct (is_regs _ _ _ I _ _ E) as [r0 [R0 E0]]. rewrite R in R0. injection R0 as <-.
      rewrite E0. eexists. split; [reflexivity|apply sees_same].
    - rewrite e1 in H. injection H as <-. rewrite e2. eexists. split; [reflexivity|apply sees_same].
    - injection H as <-. eexists. split; [reflexivity|apply sees_same].
    - injection H as <-. eexists. split; [reflexivity|apply sees_same].
    - injection H as <-. eexists. split; [reflexivity|apply sees_same].
    - injection H as <-. eexists. split; [reflexivity|apply sees_same].
  Qed.

  Lemma resolve_all_copied cf fr fr' : inside cf fr fr' -> forall os os', Forall2 copied_operand os os' ->
    forall xs, resolve_all d G cf os = Some xs ->
    exists xs', resolve_all d F' fr' os' = Some xs' /\ Forall2 (sees d) xs xs'.
  Proof.
    intros I os os' A. induction A as [|o o' os os' CO _ IH]; intros xs H; cbn [resolve_all] in *.
    - injection H as <-. exists []. split; [reflexivity|constructor].
    - destruct (resolve d G cf o) as [v|] eqn:R; [|discriminate H]. cbn [InlineModel.bind] in H.
      destruct (resolve_all d G cf os) as [vs|] eqn:RA; [|discriminate H]. cbn [InlineModel.bind] in H.
      injection H as <-. destruct (resolve_copied _ _ _ _ _ _ I CO R) as [v' [R' SE]].
      destruct (IH _ eq_refl) as [vs' [RA' SES]]. rewrite R'. cbn [InlineModel.bind]. rewrite RA'.
      cbn [InlineModel.bind]. eexists. split; [reflexivity|]. constructor; auto.
  Qed.

  Lemma begin_copied cf fr fr' o o' w : inside cf fr fr' -> copied_operation o o' ->
    act_sim d (registers o) (begin d P G cf o w) (begin d P' F' fr' o' w).
  Proof.
    intros I [K [CO _]]. destruct (resolve_all d G cf (o_operands o)) as [xs|] eqn:R.
    - destruct (resolve_all_copied _ _ _ I _ _ CO _ R) as [xs' [R' SE]].
      eapply act_sim_weaken.
      2:{ eapply begin_sees; [exact R|exact R'|exact SE|exact K]. }
      intros i [v V]. unfold registers.
      assert (exists y, nth_error (o_operands o) i = Some y /\ resolve d G cf y = Some (RBound (BValue v))) as [y [Y RY]].
      { destruct (nth_error (o_operands o) i) as [y|] eqn:Y.
        - destruct (resolve_all_nth _ _ _ _ _ _ R Y) as [v0 [V0 RY]]. rewrite V in V0. injection V0 as <-. eauto.
        - exfalso. clear - R V Y. revert xs i R V Y. induction (o_operands o) as [|z l IH]; intros xs i R V Y; cbn [resolve_all] in R.
          + injection R as <-. destruct i; discriminate V.
          + destruct (resolve d G cf z); [|discriminate R]. cbn [InlineModel.bind] in R.
            destruct (resolve_all d G cf l) as [vs|] eqn:RA; [|discriminate R]. cbn [InlineModel.bind] in R.
            injection R as <-. destruct i as [|i]; cbn [nth_error] in *; [discriminate Y|].
            exact (IH _ _ eq_refl V Y). }
      destruct y as [c| | | | |n|r]; cbn [resolve] in RY; try discriminate RY.
      + destruct (nth_error (f_constants G) c); discriminate RY.
      + destruct (fr_params cf n) as [x|] eqn:X; [|discriminate RY]. injection RY as ->.
        destruct (is_params _ _ _ I _ _ X) as [a [u [_ [_ [_ SH]]]]]. destruct SH.
      + eauto.
    - unfold begin at 1. rewrite R. apply sim_panic.
  Qed.

  Lemma inside_reg cf fr fr' r r' x : inside cf fr fr' -> rho r = Some r' ->
    inside (with_reg d cf r x) fr (with_reg d fr' r' x).
  Proof.
    intros [i1 i2 i3 i4 i5 i6 i7] R. pose proof (sp_fresh SP _ _ R) as L. constructor; auto.
    - apply data_reg_r; auto. lia.
    - cbn. rewrite set_other; [exact i3|lia].
    - cbn. intros r0 y E. unfold set in E. destruct (r0 =? r) eqn:Q.
      + apply Nat.eqb_eq in Q. subst r0. injection E as <-. exists r'. split; [exact R|apply set_same].
      + destruct (i4 _ _ E) as [r1 [R1 E1]]. exists r1. split; [exact R1|].
        rewrite set_other; [exact E1|]. intros ->. apply Nat.eqb_neq in Q. apply Q.
        exact (sp_injective SP _ _ _ R1 R).
  Qed.

  Lemma inside_control cf fr fr' c c' : inside cf fr fr' -> inside (with_control d cf c) fr (with_control d fr' c').
  Proof.
    intros [i1 i2 i3 i4 i5 i6 i7]. constructor; auto. apply data_control_r. exact i2.
  Qed.

  Lemma moves_copied o o' fr ms : copied_operation o o' -> Forall (fun m => registers o (fst m)) ms ->
    forall cf fr' cf1, inside cf fr fr' -> apply_moves d cf (o_operands o) ms = Some cf1 ->
    exists fr1', apply_moves d fr' (o_operands o') ms = Some fr1' /\ inside cf1 fr fr1'.
  Proof.
    intros CO A. induction A as [|[i x] ms Q _ IH]; intros cf fr' cf1 I E; cbn [apply_moves] in *.
    - injection E as <-. eauto.
    - destruct Q as [r R]. cbn [fst] in R. rewrite R in E.
      destruct CO as [K [CO CR]].
      assert (exists r', nth_error (o_operands o') i = Some (OReg r') /\ rho r = Some r') as [r' [R' RH]].
      { clear - CO R. revert i R. induction CO as [|y y' l l' C _ IHl]; intros i R; [destruct i; discriminate R|].
        destruct i as [|i]; cbn [nth_error] in *; [|apply IHl; exact R].
        injection R as ->. inversion C; subst. eauto. }
      rewrite R'. refine (IH _ _ _ _ E). apply inside_reg; auto.
  Qed.

  Lemma result_copied cf fr fr' r r' x cf1 : copied_result rho r r' -> inside cf fr fr' ->
    apply_result d cf r x = Some cf1 ->
    exists fr1', apply_result d fr' r' x = Some fr1' /\ inside cf1 fr fr1'.
  Proof.
    intros CR I E. unfold apply_result in *. destruct x as [x|]; [|injection E as <-; eauto].
    destruct r as [r|]; [|discriminate E]. injection E as <-. destruct CR as [r0 [R ->]].
    eexists. split; [reflexivity|]. apply inside_reg; auto.
  Qed.

  Lemma failures_eq cf fr fr' cf1 fr1' : failures cf fr fr' ->
    fr_pending cf1 = fr_pending cf -> fr_cleanup cf1 = fr_cleanup cf ->
    fr_pending fr1' = fr_pending fr' -> fr_cleanup fr1' = fr_cleanup fr' -> failures cf1 fr fr1'.
  Proof. unfold failures. intros H -> -> -> ->. exact H. Qed.

  Lemma callee_goto cf fr fr' s s' c w : stack_sim s s' -> inside cf fr fr' -> failures cf fr fr' ->
    fr_control fr = CWait (direct d) call waiting_rest ->
    sim (next_or_panic d (fr :: s) (goto d G cf c) w) (next_or_panic d s' (goto d F' fr' (base + c)) w).
  Proof.
    intros S I Fl Wt. unfold goto. destruct (nth_error (f_blocks G) c) as [B|] eqn:E; [|apply sim_panicked].
    destruct (callee_code _ _ E) as [B' [E' CS]]. rewrite E'. cbn [next_or_panic].
    apply sim_running. apply st_splice; auto. constructor; auto.
    destruct I as [i1 i2 i3 i4 i5 i6 i7]. constructor; auto. destruct i2. constructor; auto.
  Qed.

  Lemma error_flow_at j B : nth_error (f_blocks G) j = Some B ->
    match b_term B with TInvoke _ _ _ | TPropagate | TFailure => true | _ => false end = true ->
    error_flow G = true.
  Proof.
    intros E H. unfold error_flow. apply existsb_exists. exists B. split; [eapply nth_error_In; eauto|exact H].
  Qed.

  Lemma callee_finishes cf fr fr' s s' r r' w : stack_sim s s' -> inside cf fr fr' -> failures cf fr fr' ->
    fr_control fr = CWait (direct d) call waiting_rest -> fr_block fr' = base + fr_block cf ->
    callee_rest (fr_block cf) r r' ->
    sim (next_or_panic d (fr :: s) (finishes d G cf r) w) (next_or_panic d s' (finishes d F' fr' r') w).
  Proof.
    intros S I Fl Wt At R. destruct r as [ops|], r' as [ops'|]; try contradiction; cbn [finishes callee_rest] in *.
    - cbn. apply sim_running. apply st_splice; auto. constructor; auto. apply inside_control. exact I.
    - destruct (nth_error (f_blocks G) (fr_block cf)) as [B|] eqn:E; [|apply sim_panicked].
      destruct (sp_copied SP _ _ E) as [B' [E' [copy [ex [e1 [e2 e3]]]]]]. rewrite At, E'.
      destruct B as [ops T], B' as [ops' T']. cbn [b_term b_ops] in *.
      destruct e3; try apply sim_panicked.
      apply callee_goto; auto.
  Qed.

  Lemma callee_fails cf fr fr' s s' r r' e w : stack_sim s s' -> inside cf fr fr' -> failures cf fr fr' ->
    fr_control fr = CWait (direct d) call waiting_rest -> fr_block fr' = base + fr_block cf ->
    callee_rest (fr_block cf) r r' ->
    sim (next_or_panic d (fr :: s) (fails d G cf r e) w) (next_or_panic d s' (fails d F' fr' r' e) w).
  Proof.
    intros S I Fl Wt At R. destruct r as [ops|], r' as [ops'|]; try contradiction; cbn [fails callee_rest] in *.
    - apply sim_panicked.
    - destruct (nth_error (f_blocks G) (fr_block cf)) as [B|] eqn:E; [|apply sim_panicked].
      pose proof (error_flow_at _ _ E) as EF.
      destruct (sp_copied SP _ _ E) as [B' [E' [copy [ex [e1 [e2 e3]]]]]]. rewrite At, E'.
      destruct B as [ops T], B' as [ops' T']. cbn [b_term b_ops] in *.
      destruct e3; try apply sim_panicked. specialize (EF eq_refl).
      destruct Fl as [[Q _]|[Pn [Cl [Ep [Ec Im]]]]]; [rewrite EF in Q; discriminate Q|].
      rewrite Ep, Ec. destruct I as [i1 [d1 d2 d3 d4 d5] i3 i4 i5 i6 i7].
      destruct (fr_pending cf) as [i|] eqn:PC; [destruct (fr_cleanup cf) eqn:CC; [apply sim_panicked|]|];
        apply callee_goto; auto; try (constructor; auto; constructor; auto; fail);
        right; cbn; repeat split; auto; intros Q; discriminate Q.
  Qed.

  Lemma step_splice cf fr fr' s s' w : splice_sim cf fr fr' -> stack_sim s s' ->
    sim (step d P (Running (cf :: fr :: s) w)) (step d P' (Running (fr' :: s') w)).
  Proof.
    intros [I Fl Wt At Ct] S.
    destruct (fr_control cf) as [ops|a o r|k o r] eqn:K.
    - destruct (fr_control fr') as [ops'|a' o' r'|k' o' r'] eqn:K'; try (exfalso; exact Ct).
      destruct Ct as [copy [ex [B [B' [-> [CO [E [E' CT]]]]]]]].
      unfold step. rewrite (is_fun _ _ _ I), (ds_fun' _ _ (is_data _ _ _ I)), (sp_callee SP), P'_caller, K, K'.
      destruct ops as [|o ops].
      + inversion CO; subst. cbn [app]. rewrite E.
        destruct B as [bo T], B' as [bo' T']. cbn [b_term] in *.
        destruct CT as [c|x x' a c CX|o o' n e COO| |e ER|]; cbn [terminate].
        * rewrite At, E'. cbn [b_term]. apply callee_goto; auto.
        * rewrite At, E'. cbn [b_term]. destruct (resolve d G cf x) as [v|] eqn:R; [|apply sim_panicked].
          destruct (resolve_copied _ _ _ _ _ _ I CX R) as [v' [R' SE]].
          destruct (branch d v w) as [t|] eqn:BR; [|apply sim_panicked]. cbn [terminate]. rewrite R'.
          rewrite (branch_transparent d law _ _ _ _ SE BR). destruct t; apply callee_goto; auto.
        * rewrite At, E'. cbn [b_term terminate]. apply sim_running. apply st_splice; auto. constructor; auto.
          -- apply inside_control. exact I.
          -- cbn. split; [exact COO|]. split; [|exact Logic.I]. apply begin_copied with (fr := fr); auto.
        * cbn [save restore o_kind o_operands resolve]. rewrite (is_marker _ _ _ I). cbn [option_map].
          destruct (fr_pending cf) eqn:PC; [apply sim_panicked|].
          cbn [return_to]. rewrite Wt. cbn [direct].
          eapply sim_returning; auto.
          -- apply data_control. exact (is_data _ _ _ I).
          -- cbn. destruct Fl as [[_ [_ [_ [-> _]]]]|[-> [_ [-> _]]]]; auto.
          -- cbn. destruct Fl as [[_ [_ [_ [_ ->]]]]|[_ [-> [_ [-> Im]]]]]; auto.
          -- exact (is_calm _ _ _ I).
          -- exact (is_block _ _ _ I).
          -- split; [reflexivity|]. cbn. rewrite At. eexists. split; [exact E'|reflexivity].
        * cbn [save restore o_kind o_operands resolve]. rewrite (is_marker _ _ _ I). cbn [option_map].
          destruct (fr_cleanup cf) eqn:CC; [apply sim_panicked|].
          destruct (fr_pending cf) as [e0|] eqn:PC; [|apply sim_panicked].
          cbn [return_to]. rewrite Wt. cbn [direct].
          destruct Fl as [[_ [Q _]]|[Pn [Cl [Ep [Ec _]]]]]; [rewrite PC in Q; discriminate Q|].
          eapply sim_failing with (e := e0) (c := e); auto.
          -- apply data_control. exact (is_data _ _ _ I).
          -- cbn. congruence.
          -- cbn. congruence.
          -- exact (is_block _ _ _ I).
          -- split; [reflexivity|]. cbn. rewrite At. eexists. split; [exact E'|reflexivity].
        * rewrite At, E'. cbn [b_term terminate].
          destruct (fr_pending cf) as [e0|] eqn:PC; [|apply sim_panicked].
          destruct (fr_cleanup cf) as [e1|] eqn:CC; [|apply sim_panicked].
          pose proof Fl as Fl0.
          destruct Fl as [[_ [Q _]]|[Pn [Cl [Ep [Ec _]]]]]; [rewrite PC in Q; discriminate Q|].
          rewrite Ep, Ec. cbn [fold_left]. unfold blame at 2. rewrite Pn.
          rewrite (blame_sim _ _ S).
          assert (stack_sim (cf :: fr :: s) (fr' :: s')) as S2.
          { apply st_splice; auto. constructor; auto. rewrite K, K'.
            exists [], [], (Block bo TFailure), (Block bo' TFailure). split; [reflexivity|].
            split; [constructor|]. split; [exact E|]. split; [exact E'|]. apply ct_failure. }
          rewrite (base_sim _ _ S2). rewrite PC, CC. apply sim_done.
      + inversion CO as [|o0 o' l0 copy1 CO1 COS]; subst. cbn [app].
        assert (RUN : forall cf1 fr1' w1, inside cf1 fr fr1' ->
           fr_pending cf1 = fr_pending cf -> fr_pending fr1' = fr_pending fr' ->
           fr_cleanup cf1 = fr_cleanup cf -> fr_cleanup fr1' = fr_cleanup fr' ->
           fr_block cf1 = fr_block cf -> fr_block fr1' = fr_block fr' ->
           sim (Running (with_control d cf1 (CRun ops) :: fr :: s) w1)
               (Running (with_control d fr1' (CRun (copy1 ++ ex)) :: s') w1)).
        { intros cf1 fr1' w1 I1 e1 e2 e3 e4 e5 e6. apply sim_running. apply st_splice; auto. constructor; auto.
          - apply inside_control. exact I1.
          - eapply failures_eq; eauto.
          - cbn. congruence.
          - cbn. rewrite e5. exists copy1, ex, B, B'. auto. }
        assert (ACT : sim (Running (with_control d cf (CAct (begin d P G cf o w) o (Some ops)) :: fr :: s) w)
                      (Running (with_control d fr' (CAct (begin d P' F' fr' o' w) o' (Some (copy1 ++ ex))) :: s') w)).
        { apply sim_running. apply st_splice; auto. constructor; auto.
          - apply inside_control. exact I.
          - cbn. split; [exact CO1|]. split; [apply begin_copied with (fr := fr); auto|].
            exists copy1, ex, B, B'. auto. }
        pose proof CO1 as CO2. destruct CO2 as [KO [CP CR]]. rewrite KO.
        destruct (o_kind o); auto.
        * destruct (o_result o) as [r|]; [|apply sim_panicked]. destruct CR as [r' [RH ->]].
          apply RUN; auto. apply inside_reg; auto.
        * destruct CP as [|x x' l l' CX _]; [apply sim_panicked|].
          destruct (resolve d G cf x) as [v|] eqn:R; [|apply sim_panicked].
          destruct v as [| | | | |[| |n| |]]; try apply sim_panicked.
          destruct (resolve_copied _ _ _ _ _ _ I CX R) as [v' [R' SE]]. rewrite R'.
          inversion SE; subst. apply RUN; auto.
    - destruct (fr_control fr') as [ops'|a' o' r'|k' o' r'] eqn:K'; try (exfalso; exact Ct).
      destruct Ct as [CO [A R]].
      unfold step. rewrite (is_fun _ _ _ I), (ds_fun' _ _ (is_data _ _ _ I)), (sp_callee SP), P'_caller, K, K'.
      destruct A as [a|w' ms x Q|w' ms e Q|w' e|h bs w' k k' Q].
      + apply sim_panicked.
      + destruct (apply_moves d cf (o_operands o) ms) as [fr1|] eqn:M; [|apply sim_panicked].
        destruct (moves_copied _ _ _ _ CO Q _ _ _ I M) as [fr1' [M' I1]]. rewrite M'.
        destruct (apply_result d fr1 (o_result o) x) as [fr2|] eqn:X; [|apply sim_panicked].
        destruct (result_copied _ _ _ _ _ _ _ (proj2 (proj2 CO)) I1 X) as [fr2' [X' I2]]. rewrite X'.
        apply apply_moves_fun in M. apply apply_moves_fun in M'. apply apply_result_fun in X. apply apply_result_fun in X'.
        destruct M as [m1 [m2 [m3 [m4 _]]]], M' as [n1 [n2 [n3 [n4 _]]]],
                 X as [x1 [x2 [x3 [x4 _]]]], X' as [y1 [y2 [y3 [y4 _]]]].
        apply callee_finishes; auto.
        * eapply failures_eq; eauto; congruence.
        * congruence.
        * rewrite x2, m2. exact R.
      + destruct (apply_moves d cf (o_operands o) ms) as [fr1|] eqn:M; [|apply sim_panicked].
        destruct (moves_copied _ _ _ _ CO Q _ _ _ I M) as [fr1' [M' I1]]. rewrite M'.
        apply apply_moves_fun in M. apply apply_moves_fun in M'.
        destruct M as [m1 [m2 [m3 [m4 _]]]], M' as [n1 [n2 [n3 [n4 _]]]].
        apply callee_fails; auto.
        * eapply failures_eq; eauto; congruence.
        * congruence.
        * rewrite m2. exact R.
      + apply poisoned_sim. apply st_splice; auto. constructor; auto. rewrite K, K'.
        cbn. split; [exact CO|]. split; [apply sim_poison|exact R].
      + destruct (P h) as [H|] eqn:PH; [|apply sim_panicked].
        destruct (P'_params _ _ PH) as [H' [PH' _]]. rewrite PH'.
        apply enter_sim; auto. apply st_splice; auto. constructor; auto.
        * apply inside_control. exact I.
        * cbn. split; [exact CO|]. split; [exact Q|exact R].
    - unfold step. rewrite (is_fun _ _ _ I), (sp_callee SP), K. apply sim_panicked.
  Qed.

  Theorem step_sim s s' : sim s s' -> sim (step d P s) (step d P' s').
  Proof.
    intros H. destruct H.
    - apply sim_panicked.
    - apply sim_done.
    - destruct H.
      + apply sim_panicked.
      + apply step_other; auto.
      + apply step_same; auto.
      + apply step_splice; auto.
    - eapply step_calling; eauto.
    - eapply step_returning; eauto.
    - eapply step_failing; eauto.
    - unfold step at 1. destruct (P (fr_fun fr)); [|apply sim_panicked]. rewrite H. apply sim_panicked.
  Qed.

  Theorem run_sim n : forall s s', sim s s' -> sim (run d P n s) (run d P' n s').
  Proof.
    induction n as [|n IH]; intros s s' H; cbn [run]; auto. apply IH. apply step_sim. exact H.
  Qed.

  Lemma sim_agrees s s' : sim s s' -> agrees s s'.
  Proof. intros H. destruct H; constructor. Qed.

  Theorem splice_agrees n h bs w :
    agrees (run d P n (start d P h bs w)) (run d P' n (start d P' h bs w)).
  Proof.
    apply sim_agrees. apply run_sim. unfold start.
    destruct (P h) as [H|] eqn:PH; [|apply sim_panicked].
    destruct (P'_params _ _ PH) as [H' [PH' _]]. rewrite PH'.
    apply enter_sim; auto. constructor.
  Qed.
End Sim.
