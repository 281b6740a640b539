(** C64: inlining a call changes no behaviour. *)
From Coq Require Import List Arith Bool Lia Sorted.
From Verif Require Import ListUtil InlineModel InlineMachine InlineSpec InlineSim InlineCopy InlinePlan InlineAll.
Import ListNotations.

Lemma planned_calls never bodies F b B c x :
  nth_error (f_blocks F) b = Some B -> planned never bodies b B c x ->
  exists o g args, call_at (f_blocks F) (fst x) = Some o /\ site_block (fst x) = b /\ o_kind o = KCall false /\
    o_operands o = OFunction g :: args /\ calls F g args /\ never g = false /\ bodies g = Some (snd x) /\
    check_inlinable (snd x) (is_terminator (fst x)) c = true.
Proof.
  intros E [o [[g [args [K [OP [NV [BD [_ CI]]]]]]] W]]. exists o, g, args.
  assert (IN : In B (f_blocks F)) by (eapply nth_error_In; eauto).
  destruct W as [[k [S N]]|[S [n [e T]]]]; rewrite S in *; cbn [call_at site_block].
  - rewrite E. cbn [bind]. split; [exact N|]. split; [reflexivity|]. split; [exact K|]. split; [exact OP|].
    split; [|auto]. exists B, o, false. split; [exact IN|]. split; [|auto].
    unfold block_operations. apply in_app_iff. left. eapply nth_error_In; eauto.
  - rewrite E. cbn [bind]. rewrite T. split; [reflexivity|]. split; [reflexivity|]. split; [exact K|]. split; [exact OP|].
    split; [|auto]. exists B, o, false. split; [exact IN|]. split; [|auto].
    unfold block_operations. rewrite T. apply in_app_iff. right. now left.
Qed.

Lemma check_parts G h c : check_inlinable G h c = true ->
  f_blocks G <> [] /\ (forall B, In B (f_blocks G) -> scoped B = false /\ guarded B = false) /\
  (error_flow G = true -> c = false) /\ (propagates G = true -> h = true).
Proof.
  unfold check_inlinable. intros H. apply andb_true_iff in H. destruct H as [H H4].
  apply andb_true_iff in H. destruct H as [H H3]. apply andb_true_iff in H. destruct H as [H1 H2].
  split; [|split; [|split]].
  - intros E. rewrite E in H1. discriminate H1.
  - rewrite forallb_forall in H2. intros B I. specialize (H2 _ I). apply negb_true_iff in H2.
    apply orb_false_iff in H2. exact H2.
  - intros E. rewrite E in H3. destruct c; [discriminate H3|reflexivity].
  - intros E. rewrite E in H4. destruct h; [reflexivity|discriminate H4].
Qed.

Lemma sorted_rev {A} (R : A -> A -> Prop) l : StronglySorted R l -> StronglySorted (fun x y => R y x) (rev l).
Proof.
  induction 1 as [|x l S IH Fa]; cbn; [constructor|]. apply sorted_app; auto.
  - constructor; constructor.
  - intros a b I [<-|[]]. rewrite Forall_forall in Fa. apply Fa. apply in_rev. exact I.
Qed.

Section Function.
  Variables (never : fid -> bool) (raw P : program) (f : fid) (F : function) (size : nat).
  Hypothesis PF : P f = Some F.
  Hypothesis OK : body_ok F.
  Hypothesis CALLEES : forall g args G, calls F g args -> raw g = Some G -> unguarded G ->
    g <> f /\ P g = Some G /\ body_ok G /\ returns_clean G.
  Hypothesis NS : no_subscript_argument raw F.

  Lemma ok_targets G : body_ok G -> targets_ok (f_blocks G).
  Proof. intros [_ [_ H]] B c I J. exact (H B c I J). Qed.

  Lemma plan_sites l : plan never raw F size = Some l ->
    StronglySorted (fun x y => site_lt (fst y) (fst x)) (rev l) /\
    (l <> [] -> operation_count F + costs l <= size + function_growth) /\
    Forall (ready P f (in_cleanup (f_blocks F)) (open F)) (rev l) /\
    Forall (fun x => exists o g args, call_at (f_blocks F) (fst x) = Some o /\
      o_operands o = OFunction g :: args /\ calls F g args /\ never g = false /\ raw g = Some (snd x) /\
      body_ok (snd x) /\ exists c, check_inlinable (snd x) (is_terminator (fst x)) c = true) (rev l).
  Proof.
    intros H. unfold plan in H. apply bind_some in H. destruct H as [cl [HC H]]. injection H as <-.
    destruct (plan_blocks_spec never raw cl (size + function_growth) (f_blocks F) 0 (operation_count F)) as [E1 [E2 E3]].
    set (l := plan_blocks never raw 0 (f_blocks F) cl (operation_count F) (size + function_growth)) in *.
    split; [apply (sorted_rev (fun x y => site_lt (fst x) (fst y))); exact E2|]. split; [exact E1|].
    rewrite Forall_forall in E3.
    assert (EACH : forall x, In x l -> exists o g args, call_at (f_blocks F) (fst x) = Some o /\ o_kind o = KCall false /\
      o_operands o = OFunction g :: args /\ calls F g args /\ never g = false /\ raw g = Some (snd x) /\
      check_inlinable (snd x) (is_terminator (fst x)) (existsb (Nat.eqb (site_block (fst x))) cl) = true /\
      unguarded (snd x)).
    { intros x I. destruct (E3 _ I) as [k [B [SB [NB PL]]]]. cbn [Nat.add] in *.
      destruct (planned_calls _ _ _ _ _ _ _ NB PL) as [o [g [args [Q1 [Q2 [Q3 [Q4 [Q5 [Q6 [Q7 Q8]]]]]]]]]].
      exists o, g, args. rewrite SB. repeat (split; [assumption|]).
      destruct (check_parts _ _ _ Q8) as [_ [UG _]]. intros B' q J JQ KQ. apply UG in J. destruct J as [_ J].
      unfold guarded in J. assert (T : existsb (fun o => match o_kind o with KCheckDepth => true | _ => false end) (b_ops B') = true)
        by (apply existsb_exists; exists q; rewrite KQ; auto).
      rewrite T in J. discriminate J. }
    split; apply Forall_forall; intros x I; apply in_rev in I;
      destruct (EACH _ I) as [o [g [args [Q1 [Q2 [Q3 [Q4 [Q5 [Q6 [Q7 Q8]]]]]]]]]];
      destruct (CALLEES _ _ _ Q4 Q6 Q8) as [C1 [C2 [C3 C4]]].
    - exists o, g, args, false. split; [exact Q1|]. split; [exact Q2|]. split; [exact Q3|]. split; [exact C1|].
      split; [exact C2|]. split; [intros q; eapply NS; eauto|]. split; [|split; [apply ok_targets; exact C3|exact C4]].
      intros EF IC. destruct (check_parts _ _ _ Q7) as [_ [_ [EC _]]]. specialize (EC EF).
      pose proof (cleanup_complete _ _ HC _ IC) as IN. apply existsb_eqb in IN. congruence.
    - exists o, g, args. repeat (split; [assumption|]). eauto.
  Qed.

  Lemma close_open : close F (open F) = F.
  Proof. destruct F. reflexivity. Qed.

  Lemma inline_function_agrees d F' : lawful d -> inline_function never raw F size = Some (Some F') ->
    forall n h bs w, agrees (run d P n (start d P h bs w))
                            (run d (replace P f F') n (start d (replace P f F') h bs w)).
  Proof.
    intros LW H n h bs w. unfold inline_function in H. apply bind_some in H. destruct H as [l [PL H]].
    destruct (plan_sites _ PL) as [S1 [_ [S2 _]]].
    assert (SA : exists e, splice_all (open F) (rev l) = Some e /\ F' = close F e).
    { destruct l as [|x l]; [discriminate H|]. apply bind_some in H. destruct H as [e [SA H]]. injection H as <-. eauto. }
    destruct SA as [e [SA ->]].
    assert (EQ : forall g, P g = replace P f (as_function (f_params F) (open F)) g).
    { intros g. unfold replace. destruct (fid_eqb g f) eqn:E; auto. apply fid_eqb_true in E. subst g.
      rewrite PF. f_equal. symmetry. exact close_open. }
    rewrite (run_ext d _ _ EQ), (start_ext d _ _ EQ).
    apply (splice_all_agrees d LW P f (f_params F) (rev l) (open F) (in_cleanup (f_blocks F))); auto.
    - apply next_value_below.
    - apply in_cleanup_closed.
    - apply ok_targets. exact OK.
  Qed.

  Lemma inline_function_total : arity_ok raw F -> inline_function never raw F size <> None.
  Proof.
    intros AR. unfold inline_function. destruct (plan never raw F size) as [l|] eqn:PL.
    - cbn [bind]. destruct (plan_sites _ PL) as [S1 [_ [_ S2]]].
      assert (splice_all (open F) (rev l) <> None) as T.
      { apply splice_all_total; [exact S1|]. eapply Forall_impl; [|exact S2].
        intros x [o [g [args [Q1 [Q2 [Q3 [Q4 [Q5 [Q6 [c Q7]]]]]]]]]].
        exists o, (OFunction g), args. split; [exact Q1|]. split; [exact Q2|].
        split; [eapply AR; eauto|]. split; [exact Q6|]. destruct (check_parts _ _ _ Q7) as [K1 [K2 [_ K3]]].
        split; [exact K1|]. split.
        - intros B z y I T. destruct (K2 _ I) as [SC _]. unfold scoped in SC. rewrite T in SC. discriminate SC.
        - intros B I T. assert (PR : propagates (snd x) = true).
          { unfold propagates. apply existsb_exists. exists B. split; [exact I|]. now rewrite T. }
          specialize (K3 PR). destruct (fst x); [discriminate K3|eauto]. }
      destruct l as [|x l]; [discriminate|]. destruct (splice_all (open F) (rev (x :: l))) as [e|]; [discriminate|].
      exfalso. apply T. reflexivity.
    - exfalso. unfold plan in PL. destruct (cleanup_blocks (f_blocks F)) eqn:CB; [discriminate PL|].
      revert CB. apply cleanup_total. apply ok_targets. exact OK.
  Qed.
End Function.

(** An operation that is not the one inlined stays. *)
Lemma made_keeps e G s e' B pre call callee args normal error after copies c mp B0 o :
  made e G s e' B pre call callee args normal error after copies c mp ->
  In B0 (e_blocks e) -> In o (block_operations B0) -> o <> call ->
  exists B1, In B1 (e_blocks e') /\ In o (block_operations B1).
Proof.
  intros MD I J NE. apply In_nth_error in I. destruct I as [x E].
  pose proof (made_in_range _ _ _ _ _ _ _ _ _ _ _ _ _ _ _ MD) as LB.
  destruct (Nat.eq_dec x (site_block s)) as [->|NX].
  - rewrite (md_block MD) in E. injection E as <-.
    pose proof (made_cut _ _ _ _ _ _ _ _ _ _ _ _ _ _ _ MD) as CUT.
    destruct (after_cases after) as [[y [tail A]]|A].
    + destruct (made_tail _ _ _ _ _ _ _ _ _ _ _ _ _ _ _ MD _ _ A) as [_ [E2 [EB _]]].
      unfold block_operations in J. rewrite EB in J. apply in_app_iff in J. destruct J as [J|J].
      * apply in_app_iff in J. destruct J as [J|[J|J]].
        -- eexists. split; [eapply nth_error_In; exact CUT|]. unfold block_operations. cbn.
           apply in_app_iff. left. apply in_app_iff. auto.
        -- congruence.
        -- eexists. split; [eapply nth_error_In; exact E2|]. unfold block_operations. cbn. apply in_app_iff. auto.
      * eexists. split; [eapply nth_error_In; exact E2|]. unfold block_operations. cbn [b_ops b_term]. apply in_app_iff. auto.
    + destruct (made_invoke _ _ _ _ _ _ _ _ _ _ _ _ _ _ _ MD A) as [EB [z [ET _]]].
      unfold block_operations in J. rewrite EB, ET in J. apply in_app_iff in J. destruct J as [J|[J|[]]]; [|congruence].
      eexists. split; [eapply nth_error_In; exact CUT|]. unfold block_operations. cbn.
      apply in_app_iff. left. apply in_app_iff. auto.
  - exists B0. split; [|exact J]. eapply nth_error_In with (n := x).
    rewrite (made_other _ _ _ _ _ _ _ _ _ _ _ _ _ _ _ MD); auto. apply nth_error_Some. congruence.
Qed.

(** * The theorems *)

(** The theorem that carries the property: for every function, every set of
    functions that must not be inlined, every run of the program from the
    host, and every number of steps, the function with its calls inlined does
    what it did.  Hypotheses: the operations of the machine are transparent
    ([lawful]); the caller and the callees are as the verifier leaves them;
    a function that calls itself, which has the guard, and no callee gets a
    symbolic subscript. *)
Theorem C64_inlining_keeps_behaviour :
  forall d never P f F size F', lawful d -> P f = Some F -> body_ok F ->
    (forall g G, P g = Some G -> body_ok G /\ returns_clean G) ->
    guards_recursion f F -> no_subscript_argument P F ->
    inline_function never P F size = Some (Some F') ->
    forall n h bs w,
      agrees (run d P n (start d P h bs w)) (run d (replace P f F') n (start d (replace P f F') h bs w)).
Proof.
  intros d never P f F size F' LW PF OK ALL GR NS H n h bs w.
  eapply inline_function_agrees; eauto.
  intros g args G CA PG UG. destruct (ALL _ _ PG) as [A1 A2].
  split; [|auto]. intros ->. rewrite PF in PG. injection PG as <-.
  destruct (GR (ex_intro _ args CA)) as [B [o [I [IO K]]]]. exact (UG _ _ I IO K).
Qed.
Print Assumptions C64_inlining_keeps_behaviour.

(** The same for a whole program: every function of a list is inlined into,
    with the callees as they were before.  A function without the guard on
    the call depth is not called by a function that comes after it. *)
Theorem C64_program_keeps_behaviour :
  forall d never P sizes fs, lawful d ->
    (forall g G, P g = Some G -> body_ok G /\ returns_clean G) ->
    (forall f F, P f = Some F -> no_subscript_argument P F) ->
    NoDup fs ->
    (forall l1 f l2 F g args G, fs = l1 ++ f :: l2 -> P f = Some F -> calls F g args -> P g = Some G ->
       unguarded G -> g <> f /\ ~ In g l1) ->
    forall n h bs w,
      agrees (run d P n (start d P h bs w))
             (run d (inline_program never P sizes fs) n (start d (inline_program never P sizes fs) h bs w)).
Proof.
  intros d never P sizes fs LW ALL NS ND ORD n h bs w.
  assert (EQ0 : forall g, P g = inline_program never P sizes [] g) by reflexivity.
  rewrite (run_ext d _ _ EQ0), (start_ext d _ _ EQ0).
  assert (GEN : forall l2 l1, fs = l1 ++ l2 ->
    agrees (run d (inline_program never P sizes l1) n (start d (inline_program never P sizes l1) h bs w))
           (run d (inline_program never P sizes fs) n (start d (inline_program never P sizes fs) h bs w))).
  { induction l2 as [|f l2 IH]; intros l1 E.
    - rewrite app_nil_r in E. rewrite E. apply agrees_refl.
    - eapply agrees_trans; [|apply (IH (l1 ++ [f])); rewrite <- app_assoc; exact E].
      assert (NI : ~ In f l1).
      { rewrite E in ND. clear - ND. induction l1 as [|x l1 IH]; [intros []|]. inversion ND as [|? ? N1 N2]; subst.
        intros [->|I]; [apply N1; apply in_app_iff; right; now left|exact (IH N2 I)]. }
      assert (FE : forall g l, existsb (fid_eqb g) l = true <-> In g l).
      { intros g l. rewrite existsb_exists. split.
        - intros [y [I Q]]. apply fid_eqb_true in Q. now subst.
        - intros I. exists g. split; [exact I|apply fid_eqb_refl]. }
      assert (OUT : forall g, ~ In g l1 -> inline_program never P sizes l1 g = P g).
      { intros g N. unfold inline_program. destruct (existsb (fid_eqb g) l1) eqn:Q; auto. apply FE in Q. contradiction. }
      assert (SAME : (forall g, inline_program never P sizes (l1 ++ [f]) g = inline_program never P sizes l1 g) \/
                exists F F', P f = Some F /\ inline_function never P F (sizes f) = Some (Some F') /\
                  forall g, inline_program never P sizes (l1 ++ [f]) g = replace (inline_program never P sizes l1) f F' g).
      { assert (AT : forall g, inline_program never P sizes (l1 ++ [f]) g =
                  if fid_eqb g f then inlined never P sizes f else inline_program never P sizes l1 g).
        { intros g. unfold inline_program. rewrite existsb_app. cbn. rewrite orb_false_r.
          destruct (fid_eqb g f) eqn:Q.
          - apply fid_eqb_true in Q. subst g. rewrite orb_true_r. reflexivity.
          - rewrite orb_false_r. reflexivity. }
        unfold inlined in AT. destruct (P f) as [F|] eqn:PF.
        - destruct (inline_function never P F (sizes f)) as [[F'|]|] eqn:IF.
          + right. exists F, F'. split; [reflexivity|]. split; [exact IF|]. intros g. rewrite AT. reflexivity.
          + left. intros g. rewrite AT. destruct (fid_eqb g f) eqn:Q; auto. apply fid_eqb_true in Q. subst g.
            rewrite OUT; auto.
          + left. intros g. rewrite AT. destruct (fid_eqb g f) eqn:Q; auto. apply fid_eqb_true in Q. subst g.
            rewrite OUT; auto.
        - left. intros g. rewrite AT. destruct (fid_eqb g f) eqn:Q; auto. apply fid_eqb_true in Q. subst g.
          rewrite OUT; auto. }
      destruct SAME as [SAME|[F [F' [PF [IF SAME]]]]].
      + rewrite (run_ext d _ _ SAME), (start_ext d _ _ SAME). apply agrees_refl.
      + rewrite (run_ext d _ _ SAME), (start_ext d _ _ SAME).
        eapply (inline_function_agrees never P); [|exact (proj1 (ALL _ _ PF))| |exact (NS _ _ PF)|exact LW|exact IF].
        * rewrite OUT; auto.
        * intros g args G CA PG UG. destruct (ORD _ _ _ _ _ _ _ E PF CA PG UG) as [O1 O2].
          split; [exact O1|]. rewrite (OUT _ O2). split; [exact PG|]. apply ALL with (g := g). exact PG. }
  apply (GEN fs []). reflexivity.
Qed.
Print Assumptions C64_program_keeps_behaviour.

(** The pass itself does not panic: it finds every block, register, constant
    and argument it looks for. *)
Theorem C64_inlining_is_total :
  forall never P f F size, P f = Some F -> body_ok F ->
    (forall g G, P g = Some G -> body_ok G /\ returns_clean G) ->
    guards_recursion f F -> no_subscript_argument P F -> arity_ok P F ->
    inline_function never P F size <> None.
Proof.
  intros never P f F size PF OK ALL GR NS AR.
  eapply inline_function_total with (P := P) (f := f); eauto.
  intros g args G CA PG UG. destruct (ALL _ _ PG) as [A1 A2].
  split; [|auto]. intros ->. rewrite PF in PG. injection PG as <-.
  destruct (GR (ex_intro _ args CA)) as [B [o [I [IO K]]]]. exact (UG _ _ I IO K).
Qed.
Print Assumptions C64_inlining_is_total.

(** A function grows by no more than its budget, over all the rounds. *)
Theorem C64_growth_is_bounded :
  forall never P F size F', inline_function never P F size = Some (Some F') ->
    operation_count F' <= size + function_growth.
Proof.
  intros never P F size F' H. unfold inline_function in H. apply bind_some in H. destruct H as [l [PL H]].
  unfold plan in PL. apply bind_some in PL. destruct PL as [cl [_ PL]]. injection PL as PL.
  destruct (plan_blocks_spec never P cl (size + function_growth) (f_blocks F) 0 (operation_count F)) as [E1 _].
  rewrite PL in E1. destruct l as [|x l]; [discriminate H|]. apply bind_some in H. destruct H as [e [SA H]]. injection H as <-.
  pose proof (splice_all_count _ _ _ SA) as CT. rewrite costs_rev in CT.
  specialize (E1 ltac:(discriminate)). change (operation_count (close F e)) with (count (e_blocks e)).
  change (operation_count F) with (count (e_blocks (open F))) in E1. lia.
Qed.
Print Assumptions C64_growth_is_bounded.

(** A call of a function that must not be inlined is still there. *)
Theorem C64_never_is_kept :
  forall never P F size F' B o g args, inline_function never P F size = Some (Some F') ->
    In B (f_blocks F) -> In o (block_operations B) -> o_operands o = OFunction g :: args -> never g = true ->
    exists B', In B' (f_blocks F') /\ In o (block_operations B').
Proof.
  intros never P F size F' B o g args H IB IO OP NV. unfold inline_function in H. apply bind_some in H. destruct H as [l [PL H]].
  unfold plan in PL. apply bind_some in PL. destruct PL as [cl [_ PL]]. injection PL as PL.
  destruct (plan_blocks_spec never P cl (size + function_growth) (f_blocks F) 0 (operation_count F)) as [_ [E2 E3]].
  rewrite PL in E2, E3.
  assert (SA : exists e, splice_all (open F) (rev l) = Some e /\ F' = close F e).
  { destruct l as [|x l]; [discriminate H|]. apply bind_some in H. destruct H as [e [SA H]]. injection H as <-. eauto. }
  destruct SA as [e [SA ->]].
  assert (CS : Forall (fun x => exists c g0 as0, call_at (f_blocks F) (fst x) = Some c /\ o_operands c = OFunction g0 :: as0 /\ never g0 = false) (rev l)).
  { apply Forall_forall. intros x I. apply in_rev in I. rewrite Forall_forall in E3.
    destruct (E3 _ I) as [k [B0 [SB [NB PLN]]]]. cbn [Nat.add] in *.
    destruct (planned_calls _ _ _ _ _ _ _ NB PLN) as [c [g0 [as0 [Q1 [_ [_ [Q4 [_ [Q6 _]]]]]]]]]. exists c, g0, as0. auto. }
  change (f_blocks (close F e)) with (e_blocks e).
  apply (sorted_rev (fun x y => site_lt (fst x) (fst y))) in E2.
  change (f_blocks F) with (e_blocks (open F)) in IB, CS. clear E3 PL H.
  revert CS E2 SA IB IO. generalize (open F). revert B.
  induction (rev l) as [|[s G] q IH]; intros B e0 CS E2 SA IB IO; cbn [splice_all] in SA.
  - injection SA as <-. eauto.
  - apply bind_some in SA. destruct SA as [e1 [H1 SA]].
    inversion E2 as [|x l0 SO' LT]; subst. inversion CS as [|x l0 C0 CS']; subst.
    destruct (inline_at_made _ _ _ _ H1) as [B1 [pre [call [callee [as1 [normal [error [after [copies [c [mp MD]]]]]]]]]]].
    destruct C0 as [c0 [g0 [as0 [Q1 [Q2 Q3]]]]]. cbn [fst] in *. rewrite (md_call MD) in Q1. injection Q1 as <-.
    destruct (made_keeps _ _ _ _ _ _ _ _ _ _ _ _ _ _ _ _ _ MD IB IO) as [B2 [I2 J2]].
    { intros ->. rewrite OP in Q2. injection Q2 as <- <-. congruence. }
    apply (IH B2 e1); auto. rewrite Forall_forall in CS', LT |- *. intros x I.
    destruct (CS' _ I) as [c1 [g1 [a1 [R1 R2]]]]. exists c1, g1, a1. split; [|exact R2].
    eapply made_call_at; [exact MD|exact (LT _ I)|exact R1].
Qed.
Print Assumptions C64_never_is_kept.

(** * A concrete machine and concrete programs *)

(** Cells of numbers; a value is a number or a place.  Operations: 0 allocates
    a cell, 1 stores a constant, 2 adds, 3 divides and fails on zero, 4 makes a
    place into a value, 5 moves the value out of a register, 6 compares a cell
    with a constant and binds the answer.  [through]: whether 6 reads through a
    value that is a place (with_runtime_value in src/mir/interpreter.rs does
    not). *)
Inductive toy_value := VNat (n : nat) | VAddr (p : nat).

Local Notation seen := (resolved nat toy_value unit).

Definition toy_place (x : seen) : option nat :=
  match x with
  | RBound (BPlace p) => Some p
  | RBound (BValue (VAddr p)) => Some p
  | _ => None
  end.

Definition toy_write (p n : nat) (w : list nat) (moves : list (nat * binding nat toy_value unit))
  : act nat toy_value unit nat (list nat) (list nat) := Finish (upd w p n) moves None.

Definition toy_exec (through : bool) (k : kind) (xs : list seen) (w : list nat)
  : act nat toy_value unit nat (list nat) (list nat) :=
  match k, xs with
  | KOther 0, [] => Finish (w ++ [0]) [] (Some (BPlace (length w)))
  | KOther 1, [x; RConst n] => match toy_place x with Some p => toy_write p n w [] | None => Panic end
  | KOther 2, [x; y; z] =>
      match toy_place x, toy_place y, toy_place z with
      | Some p, Some q, Some r => toy_write p (nth q w 0 + nth r w 0) w []
      | _, _, _ => Panic
      end
  | KOther 3, [x; y; z] =>
      match toy_place x, toy_place y, toy_place z with
      | Some p, Some q, Some r =>
          if nth r w 0 =? 0 then Fail w [] 7 else toy_write p (nth q w 0 / nth r w 0) w []
      | _, _, _ => Panic
      end
  | KOther 4, [x] => match toy_place x with Some p => Finish w [] (Some (BValue (VAddr p))) | None => Panic end
  | KOther 5, [RBound (BValue (VNat n))] => Finish w [(0, BTag tt)] (Some (BValue (VNat n)))
  | KOther 6, [x; RConst n] =>
      match x with
      | RBound (BPlace p) => Finish w [] (Some (BValue (VNat (if nth p w 0 =? n then 1 else 0))))
      | RBound (BValue (VAddr p)) =>
          if through then Finish w [] (Some (BValue (VNat (if nth p w 0 =? n then 1 else 0)))) else Panic
      | _ => Panic
      end
  | _, _ => Panic
  end.

Definition toy (through : bool) : dialect :=
  {| place := nat; value := toy_value; tag := unit; failure := nat; poisoning := list nat; world := list nat;
     value_place := fun v => match v with VAddr p => Some p | VNat _ => None end;
     height := @length nat;
     truncate := fun n w => firstn n w;
     subscript_cell := fun s w => (length w, w ++ [s]);
     poison := fun e l => e :: l;
     poison_pair := fun a b => [a; b];
     exec := toy_exec through;
     branch := fun x w =>
       match x with
       | RBound (BValue (VNat n)) => Some (negb (n =? 0))
       | _ => match toy_place x with Some p => Some (negb (nth p w 0 =? 0)) | None => None end
       end |}.

Lemma toy_place_sees t x x' p : sees (toy t) x x' -> toy_place x = Some p -> toy_place x' = Some p.
Proof.
  intros S H. inversion S as [y|q v V|n]; subst; auto.
  - cbn in V. destruct v; [discriminate V|]. injection V as ->. exact H.
Qed.

Lemma toy_lawful : lawful (toy true).
Proof.
  split.
  - intros k xs xs' w S. cbn [exec toy]. unfold toy_exec.
    destruct k as [| |y| | | |n]; try apply sim_panic.
    assert (C : forall x x' n, sees (toy true) x x' -> x = RConst n -> x' = RConst n)
      by (intros x x' m Q E; inversion Q; subst; try discriminate; auto).
    destruct n as [|[|[|[|[|[|[|n]]]]]]]; try apply sim_panic.
    + destruct S; [|apply sim_panic]. apply sim_finish. constructor.
    + destruct S as [|x x' l l' S1 S]; [apply sim_panic|]. destruct S as [|y y' l l' S2 S]; [apply sim_panic|].
      destruct y; try apply sim_panic. destruct S; [|apply sim_panic]. rewrite (C _ _ _ S2 eq_refl).
      destruct (toy_place x) eqn:E; [|apply sim_panic]. rewrite (toy_place_sees _ _ _ _ S1 E).
      apply sim_finish. constructor.
    + destruct S as [|x x' l l' S1 S]; [apply sim_panic|]. destruct S as [|y y' l l' S2 S]; [apply sim_panic|].
      destruct S as [|z z' l l' S3 S]; [apply sim_panic|]. destruct S; [|apply sim_panic].
      destruct (toy_place x) eqn:E1; [|apply sim_panic]. destruct (toy_place y) eqn:E2; [|apply sim_panic].
      destruct (toy_place z) eqn:E3; [|apply sim_panic].
      rewrite (toy_place_sees _ _ _ _ S1 E1), (toy_place_sees _ _ _ _ S2 E2), (toy_place_sees _ _ _ _ S3 E3).
      apply sim_finish. constructor.
    + destruct S as [|x x' l l' S1 S]; [apply sim_panic|]. destruct S as [|y y' l l' S2 S]; [apply sim_panic|].
      destruct S as [|z z' l l' S3 S]; [apply sim_panic|]. destruct S; [|apply sim_panic].
      destruct (toy_place x) eqn:E1; [|apply sim_panic]. destruct (toy_place y) eqn:E2; [|apply sim_panic].
      destruct (toy_place z) eqn:E3; [|apply sim_panic].
      rewrite (toy_place_sees _ _ _ _ S1 E1), (toy_place_sees _ _ _ _ S2 E2), (toy_place_sees _ _ _ _ S3 E3).
      destruct (nth _ w 0 =? 0); [apply sim_fail|apply sim_finish]; constructor.
    + destruct S as [|x x' l l' S1 S]; [apply sim_panic|]. destruct S; [|apply sim_panic].
      destruct (toy_place x) eqn:E1; [|apply sim_panic]. rewrite (toy_place_sees _ _ _ _ S1 E1).
      apply sim_finish. constructor.
    + destruct S as [|x x' l l' S1 S]; [apply sim_panic|]. destruct x as [| | | | |b]; try apply sim_panic.
      destruct b as [|v| | |]; try apply sim_panic. destruct v as [n|]; [|apply sim_panic].
      destruct S; [|apply sim_panic]. inversion S1; subst. apply sim_finish. constructor; [|constructor].
      cbn. eauto.
    + destruct S as [|x x' l l' S1 S]; [apply sim_panic|]. destruct S as [|y y' l l' S2 S]; [apply sim_panic|].
      destruct y; try apply sim_panic. destruct S; [|apply sim_panic]. rewrite (C _ _ _ S2 eq_refl).
      destruct x as [| | | | |b]; try apply sim_panic. destruct b as [p|v| | |]; try apply sim_panic.
      * inversion S1 as [q|q v V|q]; subst; [apply sim_finish; constructor|].
        cbn in V. destruct v; [discriminate V|]. injection V as ->. apply sim_finish. constructor.
      * destruct v; [apply sim_panic|]. inversion S1; subst. apply sim_finish. constructor.
  - intros x x' w b S H. inversion S as [y|q v V|n]; subst; auto.
    + cbn in V. destruct v; [discriminate V|]. injection V as ->. exact H.
Qed.

(** [divide x y z]: x := y / z, and on a failure x := 99 and fail. *)
Definition divide : function :=
  Function [PPlace; PPlace; PPlace] [99]
    [Block [] (TInvoke (Op (KOther 3) [OParam 0; OParam 1; OParam 2] None) 1 2);
     Block [] TReturn;
     Block [Op (KOther 1) [OParam 0; OConst 0] None] TPropagate].

(** [add_to x y]: x := x + y. *)
Definition add_to : function :=
  Function [PPlace; PPlace] [] [Block [Op (KOther 2) [OParam 0; OParam 0; OParam 1] None] TReturn].

(** [main r y z]: a local cell; r := y / z through an address; on a failure the
    local cell is dropped and the failure passed on; r := r + y. *)
Definition main : function :=
  Function [PPlace; PPlace; PPlace] [5]
    [Block [Op KStackSave [] (Some 0); Op (KOther 0) [] (Some 1); Op (KOther 1) [OReg 1; OConst 0] None;
            Op (KOther 4) [OParam 0] (Some 2)]
           (TInvoke (Op (KCall false) [OFunction (0, 1); OReg 2; OParam 1; OParam 2] None) 1 2);
     Block [Op (KCall false) [OFunction (0, 2); OReg 2; OReg 1] None;
            Op (KCall false) [OFunction (0, 2); OReg 2; OParam 1] None;
            Op KStackRestore [OReg 0] None] TReturn;
     Block [Op KStackRestore [OReg 0] None] TPropagate].

Definition toy_program : program := fun f =>
  if fid_eqb f (0, 0) then Some main else
  if fid_eqb f (0, 1) then Some divide else
  if fid_eqb f (0, 2) then Some add_to else None.

Definition no_never : fid -> bool := fun _ => false.

Ltac each := repeat match goal with
  | H : In _ [] |- _ => destruct H
  | H : _ \/ _ |- _ => destruct H as [H|H]; [subst|]
  | H : False |- _ => destruct H
  | H : In _ _ |- _ => progress cbn in H
  end.

Lemma main_ok : body_ok main.
Proof.
  split; [|split].
  - intros B o x I J K. unfold main in I. each; cbn; auto 20; lia.
  - intros B x a b I J. unfold main in I. each; discriminate J.
  - intros B b I J. unfold main in I. each; cbn; lia.
Qed.

Lemma divide_ok : body_ok divide.
Proof.
  split; [|split].
  - intros B o x I J K. unfold divide in I. each; cbn; auto 20; lia.
  - intros B x a b I J. unfold divide in I. each; discriminate J.
  - intros B b I J. unfold divide in I. each; cbn; lia.
Qed.

Lemma add_to_ok : body_ok add_to.
Proof.
  split; [|split].
  - intros B o x I J K. unfold add_to in I. each; cbn; auto 20; lia.
  - intros B x a b I J. unfold add_to in I. each; discriminate J.
  - intros B b I J. unfold add_to in I. each; cbn; lia.
Qed.

Lemma clean_of bs (C : nat -> bool) :
  (forall b ops o n e, nth_error bs b = Some (Block ops (TInvoke o n e)) -> C e = true) ->
  (forall b B c, C b = true -> nth_error bs b = Some B -> In c (successors (b_term B)) -> C c = true) ->
  forall b, in_cleanup bs b -> C b = true.
Proof. intros H1 H2 b H. induction H; eauto. Qed.

Lemma main_clean : returns_clean main.
Proof.
  intros b ops H E. apply (clean_of _ (fun b => b =? 2)) in H.
  - apply Nat.eqb_eq in H. subst b. discriminate E.
  - intros [|[|[|c]]] ops' o n e Q; cbn in Q; try discriminate Q; [injection Q as <- <- <- <-; reflexivity|].
    destruct c; discriminate Q.
  - intros c B x Q N I. apply Nat.eqb_eq in Q. subst c. injection N as <-. destruct I.
Qed.

Lemma divide_clean : returns_clean divide.
Proof.
  intros b ops H E. apply (clean_of _ (fun b => b =? 2)) in H.
  - apply Nat.eqb_eq in H. subst b. discriminate E.
  - intros [|[|[|c]]] ops' o n e Q; cbn in Q; try discriminate Q; [injection Q as <- <- <- <-; reflexivity|].
    destruct c; discriminate Q.
  - intros c B x Q N I. apply Nat.eqb_eq in Q. subst c. injection N as <-. destruct I.
Qed.

Lemma add_to_clean : returns_clean add_to.
Proof.
  intros b ops H E. apply (clean_of _ (fun _ => false)) in H.
  - discriminate H.
  - intros [|c] ops' o n e Q; [discriminate Q|]. destruct c; discriminate Q.
  - intros c B x Q. discriminate Q.
Qed.

Lemma toy_bodies g G : toy_program g = Some G ->
  (g = (0, 0) /\ G = main) \/ (g = (0, 1) /\ G = divide) \/ (g = (0, 2) /\ G = add_to).
Proof.
  unfold toy_program. destruct (fid_eqb g (0, 0)) eqn:E0.
  { apply fid_eqb_true in E0. intros H. injection H as <-. auto. }
  destruct (fid_eqb g (0, 1)) eqn:E1.
  { apply fid_eqb_true in E1. intros H. injection H as <-. auto. }
  destruct (fid_eqb g (0, 2)) eqn:E2.
  { apply fid_eqb_true in E2. intros H. injection H as <-. auto. }
  discriminate.
Qed.

Lemma toy_ok g G : toy_program g = Some G -> body_ok G /\ returns_clean G.
Proof.
  intros H. destruct (toy_bodies _ _ H) as [[_ ->]|[[_ ->]|[_ ->]]].
  - exact (conj main_ok main_clean).
  - exact (conj divide_ok divide_clean).
  - exact (conj add_to_ok add_to_clean).
Qed.

Lemma main_calls g args : calls main g args ->
  (g = (0, 1) /\ length args = 3 \/ g = (0, 2) /\ length args = 2) /\ forall s, ~ In (OSubscript s) args.
Proof.
  intros [B [o [y [I [J [K E]]]]]]. unfold main in I. cbn in I.
  destruct I as [<-|[<-|[<-|[]]]]; cbn in J;
    repeat (destruct J as [<-|J]; [first [discriminate K | cbn in E; injection E as <- <-;
      split; [cbn; auto|intros s N; cbn in N; repeat (destruct N as [N|N]; [discriminate N|]); exact N]]|]);
    destruct J.
Qed.

Lemma divide_calls g args : ~ calls divide g args.
Proof.
  intros [B [o [y [I [J [K E]]]]]]. unfold divide in I. cbn in I.
  destruct I as [<-|[<-|[<-|[]]]]; cbn in J; repeat (destruct J as [<-|J]; [discriminate K|]); destruct J.
Qed.

Lemma add_to_calls g args : ~ calls add_to g args.
Proof.
  intros [B [o [y [I [J [K E]]]]]]. unfold add_to in I. cbn in I.
  destruct I as [<-|[]]; cbn in J; repeat (destruct J as [<-|J]; [discriminate K|]); destruct J.
Qed.

Lemma toy_no_subscript f F : toy_program f = Some F -> no_subscript_argument toy_program F.
Proof.
  intros H g G args s CA _. destruct (toy_bodies _ _ H) as [[_ ->]|[[_ ->]|[_ ->]]].
  - apply (proj2 (main_calls _ _ CA)).
  - destruct (divide_calls _ _ CA).
  - destruct (add_to_calls _ _ CA).
Qed.

(** All three calls are inlined: no call is left, and the program divides 20
    by 4, adds 5 and 20, and drops its local cell. *)
Example C64_example_inlined :
  exists F', inline_function no_never toy_program main 8 = Some (Some F') /\
    forallb (fun B => forallb (fun o => match o_kind o with KCall _ => false | _ => true end) (block_operations B))
            (f_blocks F') = true /\
    run (toy true) toy_program 60 (start (toy true) toy_program (0, 0) [BPlace 0; BPlace 1; BPlace 2] [0; 20; 4])
      = Done (Returned [30; 20; 4]) /\
    run (toy true) (replace toy_program (0, 0) F') 60
      (start (toy true) (replace toy_program (0, 0) F') (0, 0) [BPlace 0; BPlace 1; BPlace 2] [0; 20; 4])
      = Done (Returned [30; 20; 4]) /\
    run (toy true) toy_program 60 (start (toy true) toy_program (0, 0) [BPlace 0; BPlace 1; BPlace 2] [0; 20; 0])
      = Done (Failed 7 [99; 20; 0]) /\
    run (toy true) (replace toy_program (0, 0) F') 60
      (start (toy true) (replace toy_program (0, 0) F') (0, 0) [BPlace 0; BPlace 1; BPlace 2] [0; 20; 0])
      = Done (Failed 7 [99; 20; 0]).
Proof.
  destruct (inline_function no_never toy_program main 8) as [[F'|]|] eqn:E; vm_compute in E; try discriminate E.
  exists F'. injection E as <-. repeat split; vm_compute; reflexivity.
Qed.

(** The hypotheses hold of it. *)
Example C64_example_behaviour : forall F' n h bs w,
  inline_function no_never toy_program main 8 = Some (Some F') ->
  agrees (run (toy true) toy_program n (start (toy true) toy_program h bs w))
         (run (toy true) (replace toy_program (0, 0) F') n (start (toy true) (replace toy_program (0, 0) F') h bs w)).
Proof.
  intros F' n h bs w H.
  refine (C64_inlining_keeps_behaviour (toy true) no_never toy_program (0, 0) main 8 F'
    toy_lawful eq_refl main_ok toy_ok _ (toy_no_subscript (0, 0) main eq_refl) H n h bs w).
  intros [args CA]. destruct (main_calls _ _ CA) as [[[E _]|[E _]] _]; discriminate E.
Qed.

Example C64_example_total : inline_function no_never toy_program main 8 <> None.
Proof.
  apply (C64_inlining_is_total no_never toy_program (0, 0) main 8 eq_refl main_ok toy_ok).
  - intros [args CA]. destruct (main_calls _ _ CA) as [[[E _]|[E _]] _]; discriminate E.
  - exact (toy_no_subscript (0, 0) main eq_refl).
  - intros g G args CA PG. destruct (main_calls _ _ CA) as [[[-> L]|[-> L]] _];
      injection PG as <-; exact L.
Qed.

Example C64_example_program : forall n h bs w,
  agrees (run (toy true) toy_program n (start (toy true) toy_program h bs w))
         (run (toy true) (inline_program no_never toy_program (fun _ => 8) [(0, 0); (0, 1); (0, 2)]) n
            (start (toy true) (inline_program no_never toy_program (fun _ => 8) [(0, 0); (0, 1); (0, 2)]) h bs w)).
Proof.
  apply (C64_program_keeps_behaviour (toy true) no_never toy_program (fun _ => 8) _ toy_lawful toy_ok toy_no_subscript).
  - repeat constructor; cbn; intuition discriminate.
  - intros l1 f l2 F g args G E PF CA PG UG.
    destruct (toy_bodies _ _ PF) as [[-> ->]|[[-> ->]|[-> ->]]];
      [|destruct (divide_calls _ _ CA)|destruct (add_to_calls _ _ CA)].
    assert (L1 : l1 = []).
    { destruct l1 as [|a l1]; [reflexivity|]. exfalso. cbn in E. injection E as _ E.
      assert (I : In (0, 0) [(0, 1); (0, 2)]) by (rewrite E; apply in_app_iff; right; now left).
      cbn in I. intuition discriminate. }
    subst l1. split; [|intros []].
    intros ->. destruct (main_calls _ _ CA) as [[[Q _]|[Q _]] _]; discriminate Q.
Qed.

(** A callee is priced by its operations, its blocks and one more: the division
    at 5, the addition at 3.  Both fit, then only the division, then only the
    addition, then neither. *)
Definition wide (n : nat) : function :=
  Function [PPlace; PPlace; PPlace] []
    [Block (repeat (Op (KOther 2) [OParam 0; OParam 1; OParam 2] None) n)
           (TInvoke (Op (KCall false) [OFunction (0, 1); OParam 0; OParam 1; OParam 2] None) 1 2);
     Block [Op (KCall false) [OFunction (0, 2); OParam 0; OParam 1] None] TReturn;
     Block [] TPropagate].

Example C64_example_budget :
  map (fun n => option_map (option_map operation_count) (inline_function no_never toy_program (wide n) 0))
      [119; 122; 124; 125] = [Some (Some 126); Some (Some 127); Some (Some 127); Some None].
Proof. vm_compute. reflexivity. Qed.

(** A function marked so is not inlined, and its call is kept. *)
Example C64_example_never :
  exists F', inline_function (fun g => fid_eqb g (0, 1)) toy_program main 8 = Some (Some F') /\
    existsb (fun B => existsb (fun o => match o_operands o with OFunction (0, 1) :: _ => true | _ => false end)
      (block_operations B)) (f_blocks F') = true.
Proof.
  destruct (inline_function (fun g => fid_eqb g (0, 1)) toy_program main 8) as [[F'|]|] eqn:E; vm_compute in E; try discriminate E.
  exists F'. injection E as <-. split; vm_compute; reflexivity.
Qed.

(** * What goes wrong without transparency *)

(** [is_five x]: compares its parameter with a literal, as a match does. *)
Definition is_five : function :=
  Function [PPlace] [5] [Block [Op (KOther 6) [OParam 0; OConst 0] (Some 0)] TReturn].

(** [ask x]: takes the address of x, as an addressor does, and passes it. *)
Definition ask : function :=
  Function [PPlace] []
    [Block [Op (KOther 4) [OParam 0] (Some 0); Op (KCall false) [OFunction (0, 1); OReg 0] None] TReturn].

Definition ask_program : program := fun f =>
  if fid_eqb f (0, 0) then Some ask else if fid_eqb f (0, 1) then Some is_five else None.

(** The comparison of a match with a literal reads through a place but not
    through a value that is a place, so a run that ends well before inlining
    panics after it. *)
Theorem C64_literal_match_refuted :
  exists d P F F', P (0, 0) = Some F /\
    inline_function no_never P F 2 = Some (Some F') /\
    exists n bs w w', run d P n (start d P (0, 0) bs w) = Done (Returned w') /\
      run d (replace P (0, 0) F') n (start d (replace P (0, 0) F') (0, 0) bs w) = Panicked.
Proof.
  destruct (inline_function no_never ask_program ask 2) as [[F'|]|] eqn:E.
  - exists (toy false), ask_program, ask, F'. split; [reflexivity|]. split; [exact E|].
    exists 20, [BPlace 0], [5], [5]. vm_compute in E. injection E as <-. split; vm_compute; reflexivity.
  - vm_compute in E. discriminate E.
  - vm_compute in E. discriminate E.
Qed.
Print Assumptions C64_literal_match_refuted.
