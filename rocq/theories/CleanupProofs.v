(** Cleanup (C56), proofs, part 5: loops, transfers, accessors, functions. *)
From Coq Require Import List Arith Bool Lia.
From Verif Require Import CleanupModel CleanupSpec CleanupBase CleanupSteps CleanupLeave CleanupLower.
Import ListNotations.

Section Machine.
Variable has_drop : nat -> bool.
Context {state : Type}.
Variable m : machine state.
Hypothesis m_sound : sound m.
Variable fuel : nat.

Notation eval := (eval has_drop m fuel).
Notation lower := (lower has_drop).
Notation sim := (sim m fuel).
Notation compiles := (compiles m fuel).
Notation good_node := (good_node has_drop m fuel).

Lemma op_compiles args a : Forall good_node args -> good_node (NOp args a).
Proof.
  intros F labels b W R. cbn [well_formed] in W. cbn [ends CleanupModel.lower].
  apply (compiles_then m fuel labels false b (in_turn lower args b) (in_order eval args) (insert a) (act m a));
    [exact R | now apply (in_turn_compiles has_drop m fuel labels) |].
  intros b1 _ R1. eapply insert_compiles; eassumption.
Qed.

Lemma block_compiles cleanup body : Forall good_node body -> good_node (NBlock cleanup body).
Proof.
  intros F labels b W R. cbn [well_formed] in W. cbn [ends CleanupModel.lower].
  apply (compiles_ext m fuel _ _ _ (fun s => leaving m (rev (drop_actions has_drop cleanup)) (in_order eval body s))).
  { intros s. cbn [CleanupModel.eval]. now rewrite leave_block_eq. }
  eapply scope_compiles; [exact m_sound | exact R |].
  eapply (statements_compiles has_drop m fuel labels); [exact F | exact W |]. now apply enter_ready.
Qed.

Lemma unwind_drops_ok labels to b : ready labels b ->
  exists b', emit_unwind_drops to b = Some b' /\ good b' /\ keeps b b' /\ same_context b b' /\
    unwind b' = CurrentScope /\ terminated b' = false /\
    forall g, ext (blocks b') g -> pads_run m g (pads b') ->
      travels m g b b' (flat (firstn (length (scopes b) - to) (map actions (scopes b))))
                       (flat (skipn (length (scopes b) - to) (map actions (scopes b)))).
Proof.
  intros R. unfold emit_unwind_drops.
  destruct (emit_unwind_ok m m_sound (length (scopes b) - to) 0 b) as (b' & H); try apply R.
  exists b'. exact H.
Qed.

(** A jump out of scopes. *)
Lemma jump_compiles labels b f t (r : state -> @result state) :
  ready labels b ->
  (forall g s c, goes m g (within (map actions (scopes b)) f) (beyond (map actions (scopes b)) f) t s c ->
     sim g (map actions (scopes b)) (loops b) None (r s) c) ->
  compiles true b
    (match emit_unwind_drops (depth f) b with Some b => terminate (TGoto t) b | None => None end) r.
Proof.
  intros R H. destruct (unwind_drops_ok labels (depth f) b R) as (b1 & E1 & G1 & K1 & S1 & U1 & T1 & D1).
  rewrite E1. rewrite terminate_here by exact T1.
  set (b2 := set_here [] (Some (TGoto t)) b1).
  assert (K2 : keeps b1 b2) by now apply set_here_keeps.
  assert (N2 : nth_error (blocks b2) (point b2) = Some (ops b1 ++ [], Some (TGoto t))) by exact (set_here_nth [] (Some (TGoto t)) b1 T1).
  assert (T2 : terminated b2 = true) by (unfold terminated; now rewrite N2).
  exists b2. split; [reflexivity |]. split; [now apply set_here_good |].
  split; [eapply keeps_trans; eassumption |]. split; [exact S1 |]. split; [exact U1 |]. split; [exact T2 |].
  intros g X P s. unfold exit_of. rewrite T2. apply H.
  assert (X1 : ext (blocks b1) g) by (eapply ext_trans; [apply K2 | exact X]).
  specialize (D1 g X1 P s). unfold goes, within, beyond. rewrite map_length.
  destruct (on_the_way m _ _ s) as [s' | a]; [| exact D1].
  eapply star_plus; [exact D1 |]. apply step_plus.
  exact (proj2 (step_end m g b1 (TGoto t) s' T1 X)).
Qed.

Lemma break_compiles l v : good_node v -> good_node (NBreak l v).
Proof.
  intros GV labels b W R. cbn [well_formed] in W. apply andb_prop in W. destruct W as [W1 W2].
  apply existsb_in in W1. rewrite <- (ready_labels _ _ R) in W1.
  destruct (frame_of_some _ _ W1) as [f EF].
  cbn [ends CleanupModel.lower]. rewrite EF.
  pose proof (GV labels b W2 R) as C. destruct (ends v) eqn:EV.
  - pose proof (compiles_ended m fuel _ _ _ (Breaking l) C) as C'.
    destruct C as (b1 & E1 & _ & _ & _ & _ & T1 & _). rewrite E1 in *. rewrite T1. exact C'.
  - apply (compiles_then m fuel labels true b (lower v b) (eval v)
      (fun b => if terminated b then Some b else
        match emit_unwind_drops (depth f) b with Some b => terminate (TGoto (exit f)) b | None => None end)
      (Breaking l)); [exact R | exact C |].
    intros b1 E1 R1. rewrite (ready_open _ _ R1).
    destruct C as (b1' & E1' & _ & _ & [SA SB] & _). assert (b1' = b1) by congruence. subst b1'.
    eapply jump_compiles; [exact R1 |]. intros g s c GO. exists f. split; [rewrite SB; exact EF | exact GO].
Qed.

Lemma continue_compiles l : good_node (NContinue l).
Proof.
  intros labels b W R. cbn [well_formed] in W.
  apply existsb_in in W. rewrite <- (ready_labels _ _ R) in W.
  destruct (frame_of_some _ _ W) as [f EF].
  cbn [ends CleanupModel.lower]. rewrite EF.
  apply (jump_compiles labels b f (head f) (Continuing l)); [exact R |].
  intros g s c GO. exists f. auto.
Qed.

Lemma return_compiles v : good_node v -> good_node (NReturn v).
Proof.
  intros GV labels b W R. cbn [well_formed] in W. apply andb_prop in W. destruct W as [W1 W2].
  apply negb_true_iff in W2. cbn [ends CleanupModel.lower].
  apply (compiles_then m fuel labels true b (lower v b) (eval v)
    (fun b => match emit_unwind_drops 0 b with Some b => terminate TReturn b | None => None end) Returning);
    [exact R | rewrite <- W2; now apply (GV labels) |].
  intros b0 _ R0. destruct (unwind_drops_ok labels 0 b0 R0) as (b1 & E1 & G1 & K1 & S1 & U1 & T1 & D1).
  rewrite E1. rewrite terminate_here by exact T1.
  set (b2 := set_here [] (Some TReturn) b1).
  assert (K2 : keeps b1 b2) by now apply set_here_keeps.
  assert (N2 : nth_error (blocks b2) (point b2) = Some (ops b1 ++ [], Some TReturn)) by exact (set_here_nth [] (Some TReturn) b1 T1).
  assert (T2 : terminated b2 = true) by (unfold terminated; now rewrite N2).
  exists b2. split; [reflexivity |]. split; [now apply set_here_good |].
  split; [eapply keeps_trans; eassumption |]. split; [exact S1 |]. split; [exact U1 |]. split; [exact T2 |].
  intros g X P s. assert (X1 : ext (blocks b1) g) by (eapply ext_trans; [apply K2 | exact X]).
  specialize (D1 g X1 P s). rewrite Nat.sub_0_r in D1.
  rewrite <- (map_length actions (scopes b0)) in D1. rewrite firstn_all, skipn_all in D1. cbn [CleanupLeave.sim].
  change (flat []) with (@nil action) in D1.
  destruct (on_the_way m (flat (map actions (scopes b0))) [] s) as [s' | a]; [| exact D1].
  eapply star_halts; [exact D1 |]. apply step_halts.
  exact (proj2 (step_end m g b1 TReturn s' T1 X)).
Qed.

Lemma loop_compiles l body : good_node body -> good_node (NLoop l body).
Proof.
  intros GB labels b W R. cbn [well_formed] in W. apply andb_prop in W. destruct W as [W1 W2].
  apply negb_true_iff in W1.
  assert (NI : ~ In l labels) by (rewrite <- existsb_in; congruence).
  cbn [ends CleanupModel.lower add_block blocks with_blocks loops with_loops scopes].
  set (hd := length (blocks b)).
  rewrite app_length. cbn [length]. fold hd. replace (hd + 1) with (S hd) by lia.
  assert (CB : core b) by exact (proj1 (proj1 (good_core b) (ready_good _ _ R))).
  assert (MB : memo (pads b) (scopes b)) by exact (proj2 (proj1 (good_core b) (ready_good _ _ R))).
  set (fr := LoopFrame hd (S hd) (length (scopes b))).
  match goal with |- context [with_loops _ ?x] => set (b1 := x) end.
  set (b2 := with_loops ((l, fr) :: loops b) b1).
  assert (E1 : b1 = add_blocks 2 b).
  { unfold b1. rewrite add_blocks_eq. cbn. now rewrite <- app_assoc. }
  assert (G1 : grows b b1) by (rewrite E1, add_blocks_eq; now apply app_grows).
  assert (GG1 : good b1).
  { rewrite E1, add_blocks_eq. apply good_core. split; [now apply app_core | exact MB]. }
  assert (GG2 : good b2) by (destruct GG1; constructor; auto).
  assert (T2 : terminated b2 = false).
  { change (terminated b2) with (terminated b1). rewrite (grows_terminated _ _ G1). apply R. }
  rewrite terminate_here by exact T2.
  set (b3 := set_here [] (Some (TGoto hd)) b2).
  assert (GG3 : good b3) by now apply set_here_good.
  assert (K3 : keeps b2 b3) by now apply set_here_keeps.
  assert (PB : point b2 < hd).
  { change (point b2) with (point b1). rewrite (grows_point _ _ G1). apply (ready_good _ _ R). }
  assert (F3 : forall q, hd <= q < hd + 2 -> free b3 q /\ q <> point b3).
  { intros q Hq. assert (Q2 : free b2 q).
    { change (free b1 q). rewrite E1. now apply add_blocks_free. }
    assert (N2 : q <> point b2) by lia.
    split; [eapply free_keeps; eassumption | eapply free_point; eassumption]. }
  destruct (free_not_terminated _ _ (proj1 (F3 hd ltac:(lia)))) as [T4 O4].
  set (b4 := at_point hd b3) in *.
  assert (SC4 : map actions (scopes b4) = map actions (scopes b)).
  { change (scopes b4) with (scopes b1). now rewrite (grows_scopes _ _ G1). }
  assert (SL4 : loops b4 = (l, fr) :: loops b) by reflexivity.
  assert (R4 : ready (l :: labels) b4).
  { constructor; [apply free_good; [exact GG3 | apply F3; lia] | | exact T4 | |].
    - change (unwind b4) with (unwind b1). rewrite (grows_unwind _ _ G1). apply R.
    - rewrite SC4, SL4. constructor; [cbn; now rewrite map_length | apply R].
    - rewrite SL4. cbn. f_equal. apply R. }
  destruct (GB (l :: labels) b4 W2 R4) as (b5 & E5 & G5 & K5 & S5 & U5 & T5 & D5).
  rewrite E5.
  destruct (join_ok m hd b5 G5 U5) as (b6 & E6 & G6 & K6 & S6 & U6 & D6).
  rewrite E6.
  assert (L6 : filter (fun x => negb (fst x =? l)) (loops b6) = loops b).
  { destruct S5 as [_ S5], S6 as [_ S6]. rewrite S6, S5, SL4. cbn. rewrite Nat.eqb_refl. cbn.
    apply filter_absent. rewrite (ready_labels _ _ R). exact NI. }
  rewrite L6.
  assert (F6 : free b6 (S hd)).
  { assert (FF : free b4 (S hd)) by (apply F3; lia).
    assert (NN : S hd <> point b4) by (cbn; lia).
    eapply free_keeps; [exact K6 | eapply free_keeps; eassumption | eapply free_point; eassumption]. }
  destruct (free_not_terminated _ _ F6) as [T7 O7].
  set (b7 := at_point (S hd) (with_loops (loops b) b6)).
  assert (T7' : terminated b7 = false) by exact T7.
  assert (O7' : ops b7 = []) by exact O7.
  assert (KF : keeps_from hd (point b) b b6).
  { assert (L1 : hd <= length (blocks b1)) by (pose proof (keeps_length _ _ (grows_keeps _ _ G1)); unfold hd; lia).
    assert (L2 : hd <= length (blocks b4)) by (pose proof (keeps_length _ _ K3); cbn in *; lia).
    assert (L5 : hd <= length (blocks b5)) by (pose proof (keeps_length _ _ K5); lia).
    eapply keeps_from_trans.
    { apply (keeps_weaken hd (point b) b b1); [unfold hd; lia | auto | exact (grows_keeps _ _ G1)]. }
    apply (keeps_from_trans _ _ _ b3).
    { destruct (keeps_weaken hd (point b) b2 b3 L1 (or_introl (grows_point _ _ G1)) K3) as [Y1 Y2 Y3].
      constructor; auto. }
    apply (keeps_from_at _ _ hd). eapply keeps_from_trans.
    { apply (keeps_weaken hd (point b) b4 b5); [exact L2 | right; cbn; lia | exact K5]. }
    apply keeps_weaken; [exact L5 | | exact K6].
    right. destruct K5 as [_ [Z | Z]]; [rewrite Z; cbn; lia | lia]. }
  exists b7. split; [reflexivity |].
  split. { apply free_good; [destruct G6; constructor; auto | exact F6]. }
  split. { split; [destruct KF as [X1 X2 X3]; constructor; auto | right; cbn; unfold hd; lia]. }
  split. { split; [| reflexivity]. destruct S5 as [S5 _], S6 as [S6 _]. cbn. congruence. }
  split; [exact U6 |]. split; [exact T7' |].
  intros g X P.
  assert (X5 : ext (blocks b5) g) by (eapply ext_trans; [apply K6 | exact X]).
  assert (P5 : pads_run m g (pads b5)) by (eapply pads_run_less; [exact (keeps_pads _ _ K6) | exact P]).
  assert (X3 : ext (blocks b3) g).
  { eapply ext_trans; [| exact X5]. destruct K5 as [[Y _ _] _]. exact Y. }
  specialize (D5 g X5 P5). specialize (D6 g X). rewrite SC4, SL4 in D5.
  unfold here in D5. rewrite O4 in D5. change (point b4) with hd in D5. cbn [length] in D5.
  rewrite exit_of_open by exact T7'. rewrite O7'. change (point b7) with (S hd). cbn [length].
  set (sc := map actions (scopes b)) in *.
  assert (WI : within sc fr = [] /\ forall s c t, goes m g (within sc fr) (beyond sc fr) t s c -> plus m g c (t, 0, s)).
  { assert (E : within sc fr = []).
    { unfold within, fr, sc. cbn [depth]. now rewrite map_length, Nat.sub_diag. }
    split; [exact E |]. intros s c t. rewrite E. unfold goes. cbn. auto. }
  destruct WI as [_ WI].
  assert (TU : forall k s, k <= fuel ->
    match turns (eval body) l k s with
    | NoFuel => exists n c', k <= n /\ reach m g n (hd, 0, s) c'
    | r => sim g sc (loops b) (Some (S hd, 0)) r (hd, 0, s)
    end).
  { induction k as [| k IH]; intros s LE.
    - cbn. exists 0, (hd, 0, s). split; [lia | constructor].
    - cbn [turns]. specialize (D5 s).
      assert (AG : forall s', plus m g (hd, 0, s) (hd, 0, s') ->
        match turns (eval body) l k s' with
        | NoFuel => exists n c', S k <= n /\ reach m g n (hd, 0, s) c'
        | r => sim g sc (loops b) (Some (S hd, 0)) r (hd, 0, s)
        end).
      { intros s' PL. specialize (IH s' ltac:(lia)).
        destruct (turns (eval body) l k s') as [x | y x | y x | x | x | x | x |];
          try (eapply sim_from; [apply plus_star; exact PL | exact IH]).
        destruct PL as [n PL], IH as (j & c' & LJ & RJ). exists (S n + j), c'. split; [lia |].
        eapply reach_trans; eassumption. }
      destruct (eval body s) as [x | y x | y x | x | x | x | x |].
      + apply AG. cbn [CleanupLeave.sim] in D5. specialize (D6 x).
        destruct (exit_of b5) as [[u v] |]; [| contradiction]. eapply star_plus; eassumption.
      + cbn [CleanupLeave.sim] in D5. destruct D5 as (f & EF & GO). cbn [frame_of] in EF.
        rewrite (Nat.eqb_sym l y) in EF. destruct (y =? l) eqn:EY.
        * injection EF as <-. cbn. apply plus_star. exact (WI _ _ _ GO).
        * cbn. eauto.
      + cbn [CleanupLeave.sim] in D5. destruct D5 as (f & EF & GO). cbn [frame_of] in EF.
        rewrite (Nat.eqb_sym l y) in EF. destruct (y =? l) eqn:EY.
        * injection EF as <-. apply AG. exact (WI _ _ _ GO).
        * cbn. eauto.
      + exact D5.
      + exact D5.
      + exact D5.
      + exact D5.
      + cbn in D5. destruct D5 as (n & c' & LN & RN). exists n, c'. split; [lia | exact RN]. }
  intros s. cbn [CleanupModel.eval].
  assert (GO : plus m g (here b s) (hd, 0, s)).
  { assert (HB : here b s = here b2 s).
    { unfold here. change (ops b2) with (ops b1). rewrite (grows_ops _ _ G1). cbn. reflexivity. }
    rewrite HB. apply step_plus. exact (proj2 (step_end m g b2 (TGoto hd) s T2 X3)). }
  specialize (TU fuel s (Nat.le_refl _)).
  eapply sim_from; [apply plus_star; exact GO |].
  destruct (turns (eval body) l fuel s); exact TU.
Qed.

(** Accessors. *)
Lemma quiet_result n : quiet n = true -> forall s,
  (exists s', eval n s = Normal s') \/ (exists s', eval n s = Stops s').
Proof.
  assert (L : forall ns, Forall (fun n => quiet n = true -> forall s,
     (exists s', eval n s = Normal s') \/ (exists s', eval n s = Stops s')) ns ->
     forallb quiet ns = true -> forall s,
     (exists s', in_order eval ns s = Normal s') \/ (exists s', in_order eval ns s = Stops s')).
  { induction ns as [| x ns IH]; intros F Q s; cbn; [eauto |].
    inversion F as [| ? ? F1 F2]; subst. cbn in Q. apply andb_prop in Q. destruct Q as [Q1 Q2].
    destruct (F1 Q1 s) as [[s' E] | [s' E]]; rewrite E; [apply IH; auto | eauto]. }
  induction n as [args a FA | cl body FB | v c pl alts d IHv FA IHd | l body _ | l v _ | l | v _ | ar args f k body _ _ _]
    using node_induction; intros Q s; try discriminate; cbn [quiet] in Q; cbn [CleanupModel.eval].
  - apply andb_prop in Q. destruct Q as [Q1 Q2]. apply negb_true_iff in Q2.
    destruct (L args FA Q1 s) as [[s' E] | [s' E]]; rewrite E; [| eauto].
    unfold act. destruct (perform m a s') as [x | x | x] eqn:EP; eauto. destruct (m_sound a s' x Q2 EP).
  - destruct (L body FB Q s) as [[s' E] | [s' E]]; rewrite E; [| right; exists s'; reflexivity].
    rewrite leave_block_eq by exact m_sound. cbn. rewrite tree_way_infallible by (exact m_sound || apply drops_infallible).
    destruct (perform_all m (rev (drop_actions has_drop cl)) s') as [x | x | x] eqn:EP; cbn; eauto.
    exfalso. pose proof (drops_infallible has_drop cl) as DI. revert EP DI. generalize (rev (drop_actions has_drop cl)).
    clear - m_sound. intros acts. revert s'. induction acts as [| a acts IH]; intros s' EP DI; cbn in EP; [discriminate |].
    inversion DI as [| ? ? D1 D2]; subst. destruct (perform m a s') as [y | y | y] eqn:EA; [eapply IH; eauto | | discriminate].
    exact (m_sound a s' y D1 EA).
  - apply andb_prop in Q. destruct Q as [Q Q3]. apply andb_prop in Q. destruct Q as [Q1 Q2].
    destruct (IHv Q1 s) as [[s' E] | [s' E]]; rewrite E; [| eauto].
    clear E. induction alts as [| [p n] alts IH]; cbn [select]; [apply IHd; exact Q3 |].
    inversion FA as [| ? ? F1 F2]; subst. cbn in Q2. apply andb_prop in Q2. destruct Q2 as [Q2 Q4].
    destruct (matches m c p s'); [apply F1; exact Q2 | apply IH; auto].
Qed.

Lemma quiet_all ns s : forallb quiet ns = true ->
  (exists s', in_order eval ns s = Normal s') \/ (exists s', in_order eval ns s = Stops s').
Proof.
  revert s. induction ns as [| n ns IH]; intros s Q; cbn; [eauto |].
  cbn in Q. apply andb_prop in Q. destruct Q as [Q1 Q2].
  destruct (quiet_result n Q1 s) as [[s' E] | [s' E]]; rewrite E; [apply IH; exact Q2 | eauto].
Qed.

Lemma leave_block_nothing c r : forallb (fun l => negb (has_drop l)) c = true -> leave_block has_drop m c r = r.
Proof.
  intros H. rewrite leave_block_eq by exact m_sound.
  assert (E : drop_actions has_drop c = []).
  { unfold drop_actions. induction c as [| x c IH]; [reflexivity |]. cbn in *. apply andb_prop in H.
    destruct H as [H1 H2]. apply negb_true_iff in H1. rewrite H1. auto. }
  rewrite E. destruct r; reflexivity.
Qed.

Lemma until_yield_eq around args f n s :
  no_drop has_drop around || calm around args f = true ->
  until_yield has_drop m eval args (ARamp f n) around s
  = andthen (in_order eval (flat_map fst around ++ args) s) (act m (ARamp f n)).
Proof.
  intros H. apply orb_prop in H. destruct H as [H | H].
  - revert s. induction around as [| [p c] around IH]; intros s.
    + cbn. destruct (in_order eval args s); reflexivity.
    + cbn in H. apply andb_prop in H. destruct H as [H1 H2]. specialize (IH H2).
      cbn [until_yield flat_map fst]. rewrite <- app_assoc, in_order_app.
      destruct (in_order eval p s) as [x | y x | y x | x | x | x | x |];
        try (rewrite leave_block_nothing by exact H1; reflexivity).
      rewrite IH. destruct (andthen (in_order eval (flat_map fst around ++ args) x) (act m (ARamp f n)));
        try reflexivity; rewrite leave_block_nothing by exact H1; reflexivity.
  - unfold calm in H. apply andb_prop in H. destruct H as [H H3]. apply andb_prop in H. destruct H as [H1 H2].
    apply negb_true_iff in H3. subst f.
    assert (RA : forall s, (exists s', act m (ARamp false n) s = Normal s') \/ (exists s', act m (ARamp false n) s = Stops s')).
    { intros x. unfold act. destruct (perform m (ARamp false n) x) as [y | y | y] eqn:E; eauto.
      destruct (m_sound (ARamp false n) x y eq_refl E). }
    revert s. induction around as [| [p c] around IH]; intros s.
    + cbn. destruct (in_order eval args s); reflexivity.
    + cbn in H1. apply andb_prop in H1. destruct H1 as [Q1 Q2]. specialize (IH Q2).
      cbn [until_yield flat_map fst]. rewrite <- app_assoc, in_order_app.
      destruct (quiet_all p s Q1) as [[x E] | [x E]]; rewrite E; [| reflexivity].
      rewrite IH.
      assert (QA : forallb quiet (flat_map fst around ++ args) = true).
      { rewrite forallb_app, H2, andb_true_r. clear - Q2. induction around as [| [p c] around IH]; [reflexivity |].
        cbn in *. apply andb_prop in Q2. destruct Q2. rewrite forallb_app. rewrite H. auto. }
      destruct (quiet_all _ x QA) as [[y E'] | [y E']]; rewrite E'; cbn [andthen]; [| reflexivity].
      destruct (RA y) as [[z E''] | [z E'']]; rewrite E''; reflexivity.
Qed.

Lemma prefixes_compile labels around : forall b,
  Forall (fun x => Forall good_node (fst x)) around ->
  forallb (fun x => forallb (fun n => well_formed has_drop labels n && negb (ends n)) (fst x)) around = true ->
  ready labels b -> compiles false b (prefixes lower around b) (in_order eval (flat_map fst around)).
Proof.
  induction around as [| [p c] around IH]; intros b F W R; cbn [prefixes flat_map fst].
  - cbn. eapply compiles_nothing; exact R.
  - inversion F as [| ? ? F1 F2]; subst. cbn in W. apply andb_prop in W. destruct W as [W1 W2]. cbn [fst] in F1.
    apply (compiles_ext m fuel _ _ _ (fun s => match in_order eval p s with
        Normal s => in_order eval (flat_map fst around) s | r => r end)).
    { intros s. rewrite in_order_app. reflexivity. }
    apply (compiles_then m fuel labels false b (statements lower p b) (in_order eval p) (prefixes lower around)
             (in_order eval (flat_map fst around))); [exact R | |].
    + assert (EN : existsb ends p = false).
      { clear - W1. induction p as [| n p IH]; [reflexivity |]. cbn in *. apply andb_prop in W1.
        destruct W1 as [W1 W2]. apply andb_prop in W1. destruct W1 as [_ W1]. apply negb_true_iff in W1.
        rewrite W1. auto. }
      rewrite <- EN. apply (statements_compiles has_drop m fuel labels); [exact F1 | | exact R].
      clear - W1. induction p as [| n p IH]; [reflexivity |]. cbn in *. apply andb_prop in W1.
      destruct W1 as [W1 W2]. apply andb_prop in W1. destruct W1 as [W1 _]. rewrite W1. auto.
    + intros b1 _ R1. now apply IH.
Qed.

Lemma with_compiles around args f n body :
  Forall (fun x => Forall good_node (fst x)) around -> Forall good_node args -> good_node body ->
  good_node (NWith around args f n body).
Proof.
  intros FA FR GB labels b W R. cbn [well_formed] in W.
  apply andb_prop in W. destruct W as [W W4]. apply andb_prop in W. destruct W as [W W3].
  apply andb_prop in W. destruct W as [W1 W2].
  cbn [ends CleanupModel.lower].
  set (D := drop_actions has_drop (flat_map snd around)).
  apply (compiles_ext m fuel _ _ _ (fun s => match in_order eval (flat_map fst around) s with
    | Normal s => match in_order eval args s with
        | Normal s => match act m (ARamp f n) s with
            | Normal s => leaving m (rev (D ++ [ASlide f n])) (eval body s)
            | r => r end
        | r => r end
    | r => r end)).
  { intros s. cbn [CleanupModel.eval]. rewrite until_yield_eq by exact W4. rewrite in_order_app.
    destruct (in_order eval (flat_map fst around) s) as [x | | | | | | |]; try reflexivity.
    destruct (in_order eval args x) as [y | | | | | | |]; try reflexivity. cbn [andthen].
    destruct (act m (ARamp f n) y) as [z | | | | | | |]; try reflexivity.
    rewrite leave_with_eq by exact m_sound. rewrite rev_app_distr. reflexivity. }
  apply (compiles_then m fuel labels (ends body) b (prefixes lower around b) (in_order eval (flat_map fst around))
    (fun b => match
            (if terminated b then Some (with_scopes (Scope [] None :: scopes b) b)
            else
              match in_turn lower args b with
              | None => None
              | Some b =>
                  let b := enter_scope has_drop (flat_map snd around) b in
                  match insert (ARamp f n) b with
                  | None => None
                  | Some b =>
                      match scopes b with
                      | [] => None
                      | s :: l => Some (with_scopes (Scope (actions s ++ [ASlide f n]) None :: l) b)
                      end
                  end
              end)
          with
          | None => None
          | Some b => match lower body b with Some b => exit_scope b | None => None end
          end)
    (fun s => match in_order eval args s with
        | Normal s => match act m (ARamp f n) s with
            | Normal s => leaving m (rev (D ++ [ASlide f n])) (eval body s)
            | r => r end
        | r => r end)); [exact R | now apply (prefixes_compile labels) |].
  intros b0 _ R0. clear b R. rename b0 into b, R0 into R. rewrite (ready_open _ _ R).
  destruct (in_turn_compiles has_drop m fuel labels args b FR W2 R) as (b1 & E1 & G1 & K1 & S1 & U1 & T1 & D1).
  rewrite E1. cbn zeta.
  assert (R1 : ready labels b1) by (eapply ready_next; eassumption).
  unfold enter_scope. fold D.
  set (b2 := with_scopes (Scope D None :: scopes b1) b1).
  assert (R2 : ready labels b2) by now apply enter_ready.
  destruct (insert_compiles m m_sound fuel labels b2 (ARamp f n) R2) as (b3 & E3 & G3 & K3 & S3 & U3 & T3 & D3).
  rewrite E3. destruct S3 as [SA SB]. cbn [b2 scopes with_scopes map actions] in SA.
  destruct (scopes b3) as [| sc rest] eqn:ES; [discriminate |]. cbn [map] in SA. injection SA as SA1 SA2.
  rewrite SA1.
  set (b4 := with_scopes rest b3).
  set (b5 := with_scopes (Scope (D ++ [ASlide f n]) None :: rest) b3).
  destruct S1 as [SC1 SL1].
  assert (S4 : same_context b b4).
  { split; [cbn; congruence |]. change (loops b3 = loops b). rewrite SB. exact SL1. }
  assert (G4 : good b4).
  { apply good_core. apply good_core in G3. destruct G3 as [C3 M3]. split; [destruct C3; constructor; auto |].
    rewrite ES in M3. exact (proj2 M3). }
  assert (R4 : ready labels b4) by (apply (ready_next labels b); auto).
  assert (R5 : ready labels b5) by exact (enter_ready labels b4 (D ++ [ASlide f n]) R4).
  destruct (scope_compiles m m_sound fuel labels (ends body) b4 (D ++ [ASlide f n]) (lower body b5) (eval body) R4)
    as (b6 & E6 & G6 & K6 & S6 & U6 & T6 & D6).
  { exact (GB labels b5 W3 R5). }
  exists b6. split; [exact E6 |]. split; [exact G6 |].
  assert (K14 : keeps b1 b4).
  { destruct K3 as [[Y1 Y2 Y3] Y4]. split; [constructor; auto | exact Y4]. }
  split. { eapply keeps_trans; [exact K1 |]. eapply keeps_trans; [exact K14 | exact K6]. }
  split; [eapply same_context_trans; eassumption |]. split; [exact U6 |]. split; [exact T6 |].
  intros g X P s.
  assert (X4 : ext (blocks b4) g) by (eapply ext_trans; [apply K6 | exact X]).
  assert (P4 : pads_run m g (pads b4)) by (eapply pads_run_less; [exact (keeps_pads _ _ K6) | exact P]).
  assert (X1 : ext (blocks b1) g) by (eapply ext_trans; [apply K14 | exact X4]).
  assert (P1 : pads_run m g (pads b1)) by (eapply pads_run_less; [exact (keeps_pads _ _ K14) | exact P4]).
  specialize (D1 g X1 P1 s). rewrite exit_of_open in D1 by exact T1.
  eapply sim_then; [exact D1 |]. intros s1 _.
  specialize (D3 g X4 P4 s1). rewrite exit_of_open in D3 by exact T3.
  destruct S4 as [SC4 SL4].
  assert (D3' : sim g (map actions (scopes b)) (loops b) (Some (point b4, length (ops b4)))
                  (act m (ARamp f n) s1) (here b1 s1)).
  { change (here b2 s1) with (here b1 s1) in D3. unfold act in *.
    cbn [b2 scopes with_scopes map actions] in D3.
    destruct (perform m (ARamp f n) s1) as [x | x | x] eqn:EP; [exact D3 | | exact D3].
    cbn [CleanupLeave.sim] in *. rewrite <- SC1.
    assert (DE : D = []).
    { apply orb_prop in W4. destruct W4 as [W4 | W4].
      - unfold D, drop_actions. clear - W4. unfold no_drop in W4.
        induction around as [| [p c] around IH]; [reflexivity |]. cbn in *. apply andb_prop in W4.
        destruct W4 as [W4 W5]. rewrite filter_app, map_app, (IH W5), app_nil_r.
        clear - W4. induction c as [| y c IH]; [reflexivity |]. cbn in *. apply andb_prop in W4.
        destruct W4 as [W4 W5]. apply negb_true_iff in W4. rewrite W4. auto.
      - exfalso. unfold calm in W4. apply andb_prop in W4. destruct W4 as [_ W4]. apply negb_true_iff in W4.
        subst f. exact (m_sound (ARamp false n) s1 x eq_refl EP). }
    rewrite DE in D3. exact D3. }
  eapply sim_then; [exact D3' |]. intros s2 _.
  specialize (D6 g X P s2). rewrite SC4, SL4 in D6. exact D6.
Qed.

Lemma all_good n : good_node n.
Proof.
  induction n using node_induction;
    auto using op_compiles, block_compiles, case_compiles, loop_compiles, break_compiles, continue_compiles,
      return_compiles, with_compiles.
Qed.

(** Pads. *)
Definition pad_goes (g : list block) (p : pad) : Prop :=
  forall s, match tree_failure m (pad_actions p) s with
  | Fails s' => match pad_outer p with
                | Some o => star m g (pad_block p, 0, s) (o, 0, s')
                | None => halts m g (pad_block p, 0, s) (Raised s')
                end
  | Poisons s' => halts m g (pad_block p, 0, s) (CleanupFailed s')
  | Stops s' => halts m g (pad_block p, 0, s) (Stopped s')
  | _ => False
  end.

Lemma emit_all_ok l : forall b, good b -> terminated b = false -> unwind b = FailsDuringCleanup ->
  pads b = [] -> scopes b = [] ->
  exists b', emit_all l b = Some b' /\ good b' /\ keeps b b' /\ terminated b' = false /\
    pads b' = [] /\ scopes b' = [] /\
    forall g, ext (blocks b') g -> forall s,
      match tree_failure m l s with
      | Fails s' => star m g (here b s) (here b' s')
      | Poisons s' => halts m g (here b s) (CleanupFailed s')
      | Stops s' => halts m g (here b s) (Stopped s')
      | _ => False
      end.
Proof.
  induction l as [| a l IH]; intros b G T U PE SE.
  - exists b. cbn [emit_all]. do 6 (split; [auto using keeps_refl |]). intros g X s. cbn. apply star_refl.
  - cbn [emit_all]. unfold emit_cleanup. rewrite T.
    destruct (insert_ok m m_sound b a CleanupFailed G T) as (b1 & E1 & G1 & K1 & S1 & U1 & T1 & D1).
    { intros _. unfold handles. rewrite U. reflexivity. }
    rewrite E1.
    assert (P1 : pads b1 = []).
    { unfold insert in E1. destruct (is_fallible a).
      - unfold invoke in E1. cbn [add_block] in E1. unfold error_block in E1. cbn [unwind with_blocks] in E1.
        rewrite U in E1. unfold failure_during_cleanup_block in E1. cbn [failure with_blocks] in E1.
        destruct (failure b); cbn [add_terminated] in E1.
        + unfold terminate in E1. destruct (nth_error _ _) as [[? [? |]] |]; try discriminate.
          injection E1 as <-. exact PE.
        + unfold terminate in E1. destruct (nth_error _ _) as [[? [? |]] |]; try discriminate.
          injection E1 as <-. exact PE.
      - rewrite append_here in E1 by exact T. injection E1 as <-. exact PE. }
    assert (SE1 : scopes b1 = []).
    { destruct S1 as [S1 _]. rewrite SE in S1. destruct (scopes b1); [reflexivity | discriminate]. }
    destruct (IH b1 G1 T1 (eq_trans U1 U) P1 SE1) as (b' & E' & G' & K' & T' & P' & S' & D').
    exists b'. split; [exact E' |]. split; [exact G' |]. split; [eapply keeps_trans; eassumption |].
    split; [exact T' |]. split; [exact P' |]. split; [exact S' |].
    intros g X s. assert (X1 : ext (blocks b1) g) by (eapply ext_trans; [apply K' | exact X]).
    assert (PR : pads_run m g (pads b1)).
    { rewrite P1. intros p A H. inversion H; contradiction. }
    specialize (D1 g X1 PR s). cbn [tree_failure].
    destruct (perform m a s) as [s' | s' | s']; [| exact D1 | exact D1].
    specialize (D' g X s'). destruct (tree_failure m l s') as [x | y x | y x | x | x | x | x |]; try contradiction.
    + eapply star_trans; [apply plus_star; exact D1 | exact D'].
    + eapply plus_halts; eassumption.
    + eapply plus_halts; eassumption.
Qed.

Lemma fill_pads_ok l : forall b,
  good b -> pads b = [] -> scopes b = [] -> NoDup (map pad_block l) ->
  (forall p, In p l -> free b (pad_block p)) ->
  exists b', fill_pads l b = Some b' /\ ext (blocks b) (blocks b') /\
    (forall i, i < length (blocks b) -> ~ In i (map pad_block l) -> nth_error (blocks b') i = nth_error (blocks b) i) /\
    forall g, ext (blocks b') g -> Forall (pad_goes g) l.
Proof.
  induction l as [| p l IH]; intros b G PE SE ND FR.
  - exists b. cbn [fill_pads]. split; [reflexivity |]. split; [apply ext_refl |]. split; [reflexivity |]. constructor.
  - cbn [fill_pads]. cbn [map] in ND. inversion ND as [| ? ? ND1 ND2]; subst.
    set (b1 := with_unwind FailsDuringCleanup (at_point (pad_block p) b)).
    assert (F1 : free b (pad_block p)) by (apply FR; now left).
    destruct (free_not_terminated _ _ F1) as [T1 O1].
    assert (G1 : good b1) by (apply with_unwind_good; now apply free_good).
    destruct (emit_all_ok (pad_actions p) b1 G1 T1 eq_refl PE SE) as (b2 & E2 & G2 & K2 & T2 & P2 & S2 & D2).
    rewrite E2.
    set (t := match pad_outer p with Some o => TGoto o | None => TPropagateError end).
    assert (T2' : terminated (with_unwind CurrentScope b2) = false) by exact T2.
    rewrite terminate_here by exact T2'.
    set (b3 := set_here [] (Some t) (with_unwind CurrentScope b2)).
    assert (G3 : good b3) by (apply set_here_good; [now apply with_unwind_good | exact T2']).
    assert (K3 : keeps b2 b3).
    { pose proof (set_here_keeps [] (Some t) (with_unwind CurrentScope b2) T2') as [[Y1 Y2 Y3] Y4].
      split; [constructor; auto | exact Y4]. }
    assert (K13 : keeps b1 b3) by (eapply keeps_trans; eassumption).
    destruct (IH b3 G3 P2 S2 ND2) as (b' & E' & X' & N' & D').
    { intros q Hq. eapply free_keeps; [exact K13 | |].
      - assert (FQ : free b (pad_block q)) by (apply FR; now right). exact FQ.
      - cbn. intros EQ. apply ND1. rewrite <- EQ. now apply in_map. }
    assert (X13 : ext (blocks b) (blocks b3)) by (destruct K13 as [[Y _ _] _]; exact Y).
    exists b'. split; [exact E' |]. split; [eapply ext_trans; eassumption |].
    split.
    { intros i Hi NI. cbn in NI. rewrite N'.
      - destruct K13 as [[_ Y _] _]. apply Y; [exact Hi | cbn; intros ->; tauto].
      - apply ext_length in X13. lia.
      - tauto. }
    intros g X. constructor; [| apply D'; exact X].
    intros s. assert (X3 : ext (blocks b3) g) by (eapply ext_trans; eassumption).
    assert (X2 : ext (blocks b2) g) by (eapply ext_trans; [apply K3 | exact X3]).
    specialize (D2 g X2 s).
    assert (HB : here b1 s = (pad_block p, 0, s)) by (unfold here; change (ops b1) with (ops (at_point (pad_block p) b)); rewrite O1; reflexivity).
    rewrite HB in D2.
    destruct (tree_failure m (pad_actions p) s) as [x | y x | y x | x | x | x | x |]; try exact D2.
    pose proof (proj2 (step_end m g (with_unwind CurrentScope b2) t x T2' X3)) as ST.
    unfold t in ST. destruct (pad_outer p) as [o |].
    + eapply star_trans; [exact D2 | apply plus_star, step_plus; exact ST].
    + eapply star_halts; [exact D2 | apply step_halts; exact ST].
Qed.

Lemma filled_run g P : Forall (pad_goes g) P -> pads_run m g P.
Proof.
  intros F p A H. rewrite Forall_forall in F. induction H as [p I O | p o A I O H IH]; intros s.
  - specialize (F p I s). rewrite O in F. rewrite <- (app_nil_r (pad_actions p)), after_failure_app.
    destruct (tree_failure m (pad_actions p) s); try contradiction; exact F.
  - specialize (F p I s). rewrite O in F. rewrite after_failure_app.
    destruct (tree_failure m (pad_actions p) s); try contradiction; try exact F.
    eapply star_halts; [exact F | apply IH].
Qed.
End Machine.

(** Functions. *)
Section Function.
Variable has_drop : nat -> bool.
Variable body : node.
Hypothesis wf : well_formed has_drop [] body = true.

Definition start : builder := Builder [([], None)] 0 [] [] [] CurrentScope None None.

Lemma start_ready : ready [] start.
Proof.
  constructor; try reflexivity; [| constructor].
  constructor; cbn; try (intros; contradiction || discriminate); try constructor.
Qed.

Lemma compile_ok : exists g, compile has_drop body = Some g /\
  forall (state : Type) (m : machine state), sound m -> forall fuel s,
    match eval has_drop m fuel body s with
    | Normal s' | Returning s' => halts m g (0, 0, s) (Returned s')
    | Fails s' => halts m g (0, 0, s) (Raised s')
    | Poisons s' => halts m g (0, 0, s) (CleanupFailed s')
    | Stops s' => halts m g (0, 0, s) (Stopped s')
    | Breaking _ _ | Continuing _ _ => False
    | NoFuel => exists n c', fuel <= n /\ reach m g n (0, 0, s) c'
    end.
Proof.
  assert (Q : exists b1 b2 b3, lower has_drop body start = Some b1 /\
    (if terminated b1 then Some b1 else terminate TReturn b1) = Some b2 /\
    fill_pads (pads b2) (with_pads [] b2) = Some b3).
  { set (m0 := Machine unit (fun _ s => Done s) (fun _ _ => true) (fun _ _ _ => true)).
    assert (S0 : sound m0) by (intros a s s' _; discriminate).
    destruct (all_good has_drop m0 S0 0 body [] start wf start_ready) as (b1 & E1 & G1 & K1 & [SA SB] & U1 & T1 & _).
    assert (SE : scopes b1 = []) by (destruct (scopes b1); [reflexivity | discriminate]).
    assert (B2 : exists b2, (if terminated b1 then Some b1 else terminate TReturn b1) = Some b2 /\ good b2 /\ scopes b2 = []).
    { destruct (terminated b1) eqn:T; [eauto |]. rewrite terminate_here by exact T. eexists.
      split; [reflexivity |]. split; [now apply set_here_good | exact SE]. }
    destruct B2 as (b2 & E2 & G2 & SE2).
    destruct (fill_pads_ok has_drop m0 S0 0 (pads b2) (with_pads [] b2)) as (b3 & E3 & _).
    - destruct G2 as [A B C D E F]. constructor; cbn; auto; [contradiction | constructor |]. rewrite SE2. exact I.
    - reflexivity.
    - exact SE2.
    - apply G2.
    - intros p I. split; [apply (good_pads _ G2 p I) | intros q []].
    - eauto 6. }
  destruct Q as (b1 & b2 & b3 & E1 & E2 & E3). exists (blocks b3). split.
  { unfold compile. fold start. rewrite E1, E2, E3. reflexivity. }
  intros state m m_sound fuel s.
  destruct (all_good has_drop m m_sound fuel body [] start wf start_ready)
    as (b1' & E1' & G1 & K1 & [SA SB] & U1 & T1 & D1).
  assert (b1' = b1) by congruence. subst b1'.
  assert (SE : scopes b1 = []) by (destruct (scopes b1); [reflexivity | discriminate]).
  assert (G2 : good b2 /\ scopes b2 = [] /\ pads b2 = pads b1 /\ ext (blocks b1) (blocks b2) /\
            (terminated b1 = false -> forall g, ext (blocks b2) g -> forall s, halts m g (here b1 s) (Returned s))).
  { destruct (terminated b1) eqn:T.
    - injection E2 as <-. split; [exact G1 |]. split; [exact SE |]. split; [reflexivity |].
      split; [apply ext_refl | congruence].
    - rewrite terminate_here in E2 by exact T. injection E2 as <-.
      split; [now apply set_here_good |]. split; [exact SE |]. split; [reflexivity |].
      split. { destruct (set_here_keeps [] (Some TReturn) b1 T) as [[Y _ _] _]. exact Y. }
      intros _ g X x. apply step_halts. exact (proj2 (step_end m g b1 TReturn x T X)). }
  destruct G2 as (G2 & SE2 & PE2 & X12 & RET).
  destruct (fill_pads_ok has_drop m m_sound fuel (pads b2) (with_pads [] b2)) as (b3' & E3' & X23 & _ & D3).
  { destruct G2 as [A B C D E F]. constructor; cbn; auto; [contradiction | constructor |]. rewrite SE2. exact I. }
  { reflexivity. } { exact SE2. } { apply G2. }
  { intros p I. split; [apply (good_pads _ G2 p I) | intros q []]. }
  assert (b3' = b3) by congruence. subst b3'. cbn [blocks with_pads] in X23.
  set (g := blocks b3).
  assert (PR : pads_run m g (pads b1)).
  { rewrite <- PE2. apply filled_run. apply D3. apply ext_refl. }
  assert (X1 : ext (blocks b1) g) by (eapply ext_trans; eassumption).
  specialize (D1 g X1 PR s). change (here start s) with (0, 0, s) in D1.
  change (map actions (scopes start)) with (@nil (list action)) in D1. change (loops start) with (@nil (nat * loop_frame)) in D1.
  destruct (eval has_drop m fuel body s) as [x | y x | y x | x | x | x | x |]; cbn in D1; try exact D1.
  - unfold exit_of in D1. destruct (terminated b1) eqn:T; [contradiction |].
    eapply star_halts; [exact D1 |]. exact (RET eq_refl g X23 x).
  - destruct D1 as (f & EF & _). discriminate.
  - destruct D1 as (f & EF & _). discriminate.
Qed.

Lemma compiled_agrees : exists g, compile has_drop body = Some g /\
  forall (state : Type) (m : machine state), sound m -> forall s,
    same_answers (fun fuel => call_tree has_drop m fuel body s) (fun n => call_graph m g n s).
Proof.
  destruct compile_ok as (g & E & H). exists g. split; [exact E |].
  intros state m MS s. specialize (H state m MS).
  assert (FW : forall fuel a, call_tree has_drop m fuel body s = Some a -> halts m g (0, 0, s) a).
  { intros fuel a. specialize (H fuel s). unfold call_tree.
    destruct (eval has_drop m fuel body s); intros Q; try (injection Q as <-; exact H); try contradiction. discriminate. }
  intros a. split.
  - intros [fuel Q]. exact (FW fuel a Q).
  - intros [n Q]. exists n.
    destruct (call_tree has_drop m n body s) as [a' |] eqn:CT.
    + f_equal. apply FW in CT. apply (halts_one m g (0, 0, s)); [exact CT |]. exists n. exact Q.
    + exfalso. specialize (H n s). unfold call_tree in CT.
      destruct (eval has_drop m n body s); try discriminate.
      destruct H as (k & c' & L & R). unfold call_graph in Q.
      rewrite (reach_no_answer m g k n _ _ R L) in Q. discriminate.
Qed.
End Function.
