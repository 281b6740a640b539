(** Cleanup (C56), proofs, part 4: every node compiles to what it evaluates to. *)
From Coq Require Import List Arith Bool Lia.
From Verif Require Import CleanupModel CleanupSpec CleanupBase CleanupSteps CleanupLeave.
Import ListNotations.

Lemma frame_of_some l lps : In l (map fst lps) -> exists f, frame_of l lps = Some f.
Proof.
  induction lps as [| [x f] lps IH]; [contradiction |]. cbn. intros H.
  destruct (x =? l) eqn:E; [eauto |]. destruct H as [-> | H]; [| auto].
  rewrite Nat.eqb_refl in E. discriminate.
Qed.

Lemma existsb_in l labels : existsb (Nat.eqb l) labels = true <-> In l labels.
Proof.
  rewrite existsb_exists. split.
  - intros (x & I & E). apply Nat.eqb_eq in E. now subst.
  - intros I. exists l. now rewrite Nat.eqb_refl.
Qed.

Lemma filter_absent l (lps : list (nat * loop_frame)) :
  ~ In l (map fst lps) -> filter (fun x => negb (fst x =? l)) lps = lps.
Proof.
  induction lps as [| [x f] lps IH]; intros H; [reflexivity |]. cbn in *.
  destruct (x =? l) eqn:E; [apply Nat.eqb_eq in E; tauto |]. cbn. f_equal. tauto.
Qed.

Lemma add_blocks_eq n : forall b, add_blocks n b = with_blocks (blocks b ++ repeat ([], None) n) b.
Proof.
  induction n as [| n IH]; intros b; cbn [add_blocks repeat].
  - rewrite app_nil_r. destruct b; reflexivity.
  - rewrite IH. cbn. rewrite <- app_assoc. reflexivity.
Qed.

Lemma nth_repeat_some {A} (x : A) n i : i < n -> nth_error (repeat x n) i = Some x.
Proof. revert i. induction n; intros [| i] H; cbn; try lia; [reflexivity |]. apply IHn. lia. Qed.

Lemma add_blocks_free n b q : core b -> length (blocks b) <= q < length (blocks b) + n -> free (add_blocks n b) q.
Proof.
  intros [_ B _ _ _ _] H. cbn in B. rewrite add_blocks_eq. split; cbn.
  - rewrite nth_error_app2 by lia. apply nth_repeat_some. lia.
  - intros p I E. destruct (B p I) as [B1 _].
    assert (pad_block p < length (blocks b)) by (apply nth_error_Some; rewrite B1; discriminate). lia.
Qed.

Lemma keeps_from_at n p q x y : keeps_from n p (at_point q x) y -> keeps_from n p x y.
Proof. intros [A B C]. constructor; auto. Qed.

Section Machine.
Variable has_drop : nat -> bool.
Context {state : Type}.
Variable m : machine state.
Hypothesis m_sound : sound m.
Variable fuel : nat.

Notation eval := (eval has_drop m fuel).
Notation lower := (lower has_drop).
Notation sim := (sim m fuel).

(** The drops of the tree. *)
Lemma tree_way_infallible l k s : Forall (fun a => is_fallible a = false) l ->
  tree_way m l k s = then_go (perform_all m l s) k.
Proof.
  revert s. induction l as [| a l IH]; intros s F; cbn; [reflexivity |]. inversion F as [| ? ? F1 F2]; subst.
  destruct (perform m a s) as [s' | s' | s'] eqn:E; [now apply IH | | reflexivity].
  destruct (m_sound a s s' F1 E).
Qed.

Lemma tree_failure_all l s : tree_failure m l s = cleanup_after_error (perform_all m l s).
Proof.
  revert s. induction l as [| a l IH]; intros s; cbn; [reflexivity |].
  destruct (perform m a s); auto.
Qed.

Lemma drops_infallible cleanup : Forall (fun a => is_fallible a = false) (rev (drop_actions has_drop cleanup)).
Proof.
  apply Forall_rev. unfold drop_actions. induction (filter has_drop cleanup); constructor; auto.
Qed.

Lemma leave_block_eq cleanup r : leave_block has_drop m cleanup r = leaving m (rev (drop_actions has_drop cleanup)) r.
Proof.
  destruct r; cbn; rewrite ?tree_way_infallible, ?tree_failure_all by apply drops_infallible; reflexivity.
Qed.

Lemma perform_all_app l k s :
  perform_all m (l ++ k) s = match perform_all m l s with Done s => perform_all m k s | r => r end.
Proof.
  revert s. induction l as [| a l IH]; intros s; cbn; [reflexivity |]. destruct (perform m a s); auto.
Qed.

Lemma drop_actions_app x y : drop_actions has_drop (x ++ y) = drop_actions has_drop x ++ drop_actions has_drop y.
Proof. unfold drop_actions. now rewrite filter_app, map_app. Qed.

Lemma drop_scopes_app x y s :
  drop_scopes has_drop m (x ++ y) s =
  match drop_scopes has_drop m x s with Done s => drop_scopes has_drop m y s | r => r end.
Proof.
  revert s. induction x as [| c x IH]; intros s; cbn; [reflexivity |].
  destruct (drop_locals has_drop m c s); auto.
Qed.

Lemma drop_scopes_eq (around : list (list node * list nat)) : forall s,
  drop_scopes has_drop m (map snd (rev around)) s
  = perform_all m (rev (drop_actions has_drop (flat_map snd around))) s.
Proof.
  induction around as [| [p c] around IH]; intros s; [reflexivity |].
  cbn [rev flat_map snd]. rewrite map_app, drop_scopes_app, IH, drop_actions_app, rev_app_distr, perform_all_app.
  destruct (perform_all m (rev (drop_actions has_drop (flat_map snd around))) s) as [s' | s' | s']; try reflexivity.
  cbn [map snd drop_scopes]. fold (drop_locals has_drop m c s').
  destruct (drop_locals has_drop m c s'); reflexivity.
Qed.

Lemma leave_with_eq (around : list (list node * list nat)) slide r :
  leave_with has_drop m slide (map snd (rev around)) r
  = leaving m (slide :: rev (drop_actions has_drop (flat_map snd around))) r.
Proof.
  destruct r; cbn; try reflexivity;
    destruct (perform m slide s) as [s' | s' | s']; try reflexivity;
    rewrite ?drop_scopes_eq, ?tree_way_infallible, ?tree_failure_all by apply drops_infallible; reflexivity.
Qed.

(** Compilation. *)
Definition compiles (e : bool) (b : builder) (r : option builder) (f : state -> @result state) : Prop :=
  exists b', r = Some b' /\ good b' /\ keeps b b' /\ same_context b b' /\ unwind b' = CurrentScope /\
    terminated b' = e /\
    forall g, ext (blocks b') g -> pads_run m g (pads b') ->
      forall s, sim g (map actions (scopes b)) (loops b) (exit_of b') (f s) (here b s).

Record ready (labels : list nat) (b : builder) : Prop := Ready {
  ready_good : good b;
  ready_unwind : unwind b = CurrentScope;
  ready_open : terminated b = false;
  ready_depth : Forall (fun x => depth (snd x) <= length (map actions (scopes b))) (loops b);
  ready_labels : map fst (loops b) = labels }.

Lemma ready_next labels b b' : ready labels b -> good b' -> same_context b b' -> unwind b' = CurrentScope ->
  terminated b' = false -> ready labels b'.
Proof.
  intros [A B C D E] G [S1 S2] U T. constructor; auto; rewrite S2; [rewrite S1; exact D | exact E].
Qed.

Lemma exit_of_open b : terminated b = false -> exit_of b = Some (point b, length (ops b)).
Proof. unfold exit_of. intros ->. reflexivity. Qed.

Lemma compiles_then labels e b r1 f1 (k : builder -> option builder) f2 :
  ready labels b -> compiles false b r1 f1 ->
  (forall b1, r1 = Some b1 -> ready labels b1 -> compiles e b1 (k b1) f2) ->
  compiles e b (match r1 with Some b => k b | None => None end)
    (fun s => match f1 s with Normal s => f2 s | r => r end).
Proof.
  intros R (b1 & E1 & G1 & K1 & S1 & U1 & T1 & D1) H.
  destruct (H b1 E1 (ready_next _ _ _ R G1 S1 U1 T1)) as (b2 & E2 & G2 & K2 & S2 & U2 & T2 & D2).
  subst r1. exists b2. split; [exact E2 |]. split; [exact G2 |]. split; [eapply keeps_trans; eassumption |].
  split; [eapply same_context_trans; eassumption |]. split; [exact U2 |]. split; [exact T2 |].
  intros g X P s. destruct S1 as [SA SB].
  assert (X1 : ext (blocks b1) g) by (eapply ext_trans; [apply K2 | exact X]).
  assert (P1 : pads_run m g (pads b1)) by (eapply pads_run_less; [exact (keeps_pads _ _ K2) | exact P]).
  specialize (D1 g X1 P1 s). rewrite exit_of_open in D1 by exact T1.
  eapply sim_then; [exact D1 |]. intros s' _. specialize (D2 g X P s'). rewrite SA, SB in D2. exact D2.
Qed.

(** A node that ends: what comes after is not compiled. *)
Lemma compiles_ended b r f k : compiles true b r f ->
  compiles true b r (fun s => match f s with Normal s => k s | r => r end).
Proof.
  intros (b1 & E1 & G1 & K1 & S1 & U1 & T1 & D1). exists b1.
  do 6 (split; [assumption |]). intros g X P s. specialize (D1 g X P s).
  unfold exit_of in *. rewrite T1 in *. apply sim_none. exact D1.
Qed.

Lemma compiles_ext e b r f f' : (forall s, f s = f' s) -> compiles e b r f -> compiles e b r f'.
Proof.
  intros H (b1 & E1 & G1 & K1 & S1 & U1 & T1 & D1). exists b1.
  do 6 (split; [assumption |]). intros g X P s. rewrite <- H. now apply D1.
Qed.

Lemma compiles_nothing labels b : ready labels b -> compiles false b (Some b) Normal.
Proof.
  intros R. exists b. split; [reflexivity |]. split; [apply R |].
  split; [apply keeps_refl |]. split; [apply same_context_refl |]. split; [apply R |]. split; [apply R |].
  intros g X P s. rewrite exit_of_open by apply R. cbn. apply star_refl.
Qed.

Lemma insert_compiles labels b a : ready labels b -> compiles false b (insert a b) (act m a).
Proof.
  intros R.
  destruct (insert_ok m m_sound b a (after_failure m (flat (map actions (scopes b)))))
    as (b' & E & G & K & S & U & T & D); [apply R | apply R | |].
  { intros _. unfold handles. rewrite (ready_unwind _ _ R). reflexivity. }
  exists b'. do 4 (split; [assumption |]). split; [rewrite U; apply R |]. split; [exact T |].
  intros g X P s. specialize (D g X P s). unfold act. rewrite exit_of_open by exact T.
  destruct (perform m a s); cbn; [apply plus_star; exact D | exact D | exact D].
Qed.

Definition good_node (n : node) : Prop :=
  forall labels b, well_formed has_drop labels n = true -> ready labels b -> compiles (ends n) b (lower n b) (eval n).

Lemma in_turn_compiles labels ns : forall b,
  Forall good_node ns -> forallb (fun n => well_formed has_drop labels n && negb (ends n)) ns = true ->
  ready labels b -> compiles false b (in_turn lower ns b) (in_order eval ns).
Proof.
  induction ns as [| n ns IH]; intros b F W R; cbn [in_turn in_order].
  - eapply compiles_nothing; exact R.
  - inversion F as [| ? ? F1 F2]; subst. cbn in W. apply andb_prop in W. destruct W as [W1 W2].
    apply andb_prop in W1. destruct W1 as [W1 W3]. apply negb_true_iff in W3.
    eapply compiles_then; [exact R | rewrite <- W3; now apply (F1 labels) |].
    intros b1 _ R1. now apply IH.
Qed.

Lemma statements_compiles labels ns : forall b,
  Forall good_node ns -> forallb (well_formed has_drop labels) ns = true ->
  ready labels b -> compiles (existsb ends ns) b (statements lower ns b) (in_order eval ns).
Proof.
  induction ns as [| n ns IH]; intros b F W R; cbn [statements in_order existsb].
  - eapply compiles_nothing; exact R.
  - inversion F as [| ? ? F1 F2]; subst. cbn in W. apply andb_prop in W. destruct W as [W1 W2].
    rewrite (ready_open _ _ R). pose proof (F1 labels b W1 R) as C. destruct (ends n) eqn:EN; cbn [orb].
    + pose proof (compiles_ended _ _ _ (in_order eval ns) C) as C'.
      destruct C as (b1 & E1 & _ & _ & _ & _ & T1 & _). rewrite E1 in *.
      destruct ns as [| n' ns]; cbn [statements]; [exact C' |]. rewrite T1. exact C'.
    + eapply compiles_then; [exact R | exact C |]. intros b1 _ R1. now apply IH.
Qed.

Lemma in_order_app x y s :
  in_order eval (x ++ y) s = match in_order eval x s with Normal s => in_order eval y s | r => r end.
Proof.
  revert s. induction x as [| n x IH]; intros s; cbn; [reflexivity |]. destruct (eval n s); auto.
Qed.

(** Scopes. *)
Lemma enter_ready labels b a : ready labels b -> ready labels (with_scopes (Scope a None :: scopes b) b).
Proof.
  intros [G U T D L]. constructor; auto.
  - apply good_core. apply good_core in G. destruct G as [C M]. split; [destruct C; constructor; auto |].
    cbn. split; [discriminate | exact M].
  - cbn [loops with_scopes scopes map]. eapply Forall_impl; [| exact D]. cbn. intros x. lia.
Qed.

Lemma scope_compiles labels e b a (r : option builder) f :
  ready labels b ->
  compiles e (with_scopes (Scope a None :: scopes b) b) r f ->
  compiles e b (match r with Some b => exit_scope b | None => None end) (fun s => leaving m (rev a) (f s)).
Proof.
  intros R (b1 & E1 & G1 & K1 & [S1 S2] & U1 & T1 & D1). subst r. cbn in S1.
  destruct (scopes b1) as [| s l] eqn:ES; [discriminate |]. injection S1 as S1 S3.
  destruct (exit_scope_ok m m_sound b1 s l G1 ES) as (b2 & E2 & G2 & K2 & L2 & P2 & U2 & T2 & D2).
  exists b2. split; [exact E2 |]. split; [exact G2 |].
  assert (KB : keeps b b1) by (destruct K1 as [[X1 X2 X3] X4]; split; [constructor; auto | exact X4]).
  split; [eapply keeps_trans; eassumption |].
  split; [split; [congruence | rewrite P2, S2; reflexivity] |].
  split; [exact U2 |]. split; [congruence |].
  intros g X P x.
  assert (X1 : ext (blocks b1) g) by (eapply ext_trans; [apply K2 | exact X]).
  assert (P1 : pads_run m g (pads b1)) by (eapply pads_run_less; [exact (keeps_pads _ _ K2) | exact P]).
  specialize (D1 g X1 P1 x). cbn [scopes with_scopes map actions loops] in D1.
  change (here (with_scopes (Scope a None :: scopes b) b) x) with (here b x) in D1.
  eapply sim_leave; [apply R | exact T2 | | exact D1].
  intros T. specialize (D2 T g X P). rewrite S1, S3 in D2. exact D2.
Qed.

(** Joins. *)
Lemma join_ok t b : good b -> unwind b = CurrentScope ->
  exists b', join t b = Some b' /\ good b' /\ keeps b b' /\ same_context b b' /\ unwind b' = CurrentScope /\
    forall g, ext (blocks b') g -> forall s : state,
      match exit_of b with Some (x, k) => plus m g (x, k, s) (t, 0, s) | None => True end.
Proof.
  intros G U. unfold join, exit_of. destruct (terminated b) eqn:T.
  - exists b. do 5 (split; [auto using keeps_refl, same_context_refl |]). auto.
  - rewrite terminate_here by exact T. eexists. split; [reflexivity |].
    split; [now apply set_here_good |]. split; [now apply set_here_keeps |].
    split; [apply set_here_context |]. split; [exact U |].
    intros g X s. apply step_plus. exact (proj2 (step_end m g b (TGoto t) s T X)).
Qed.

Lemma branch_step c pl p x y s :
  (match branch c pl p x y with TBranch t u v => if holds m t s then u else v | _ => 0 end)
  = if matches m c p s then x else y.
Proof.
  destruct p as [e | n]; [| reflexivity]. cbn. destruct pl; [| reflexivity].
  destruct e; cbn; destruct (truth m c s); reflexivity.
Qed.

Lemma branch_is c pl p x y : exists t u v, branch c pl p x y = TBranch t u v.
Proof. destruct p as [e | n]; cbn; [destruct pl; [destruct e |] |]; eauto. Qed.

Section Arms.
Variables (c : nat) (pl : bool) (base p0 : nat).

Lemma arms_compile labels alts : forall i b,
  Forall (fun x => good_node (snd x)) alts ->
  forallb (fun x => well_formed has_drop labels (snd x)) alts = true ->
  good b -> unwind b = CurrentScope ->
  Forall (fun x => depth (snd x) <= length (map actions (scopes b))) (loops b) ->
  map fst (loops b) = labels ->
  (forall q, base + 2 * i <= q < base + 2 * (i + length alts) + 2 -> free b q /\ q <> point b) ->
  exists b', arms lower c pl base (base + 2 * (i + length alts) + 1) i alts b = Some b' /\
    good b' /\ keeps_from base p0 b b' /\ same_context b b' /\ unwind b' = CurrentScope /\
    (forall q, base + 2 * (i + length alts) <= q < base + 2 * (i + length alts) + 2 -> free b' q /\ q <> point b') /\
    forall g, ext (blocks b') g -> pads_run m g (pads b') -> forall s,
      ((forall d, select m eval c d s alts = eval d s) /\
        star m g (base + 2 * i, 0, s) (base + 2 * (i + length alts), 0, s))
      \/ (forall d, sim g (map actions (scopes b)) (loops b) (Some (base + 2 * (i + length alts) + 1, 0))
           (select m eval c d s alts) (base + 2 * i, 0, s)).
Proof.
  induction alts as [| [p n] alts IH]; intros i b F W G U FD FL Q.
  - exists b. cbn [arms]. split; [reflexivity |]. split; [exact G |]. split; [apply keeps_from_refl |].
    split; [apply same_context_refl |]. split; [exact U |].
    split; [intros q H; apply Q; cbn [length] in *; lia |].
    intros g X P s. left. split; [reflexivity |]. cbn [length]. rewrite Nat.add_0_r. apply star_refl.
  - pose proof (Forall_inv F) as F1. pose proof (Forall_inv_tail F) as F2. cbn [forallb snd] in W, F1. apply andb_prop in W. destruct W as [W1 W2].
    cbn [arms length]. set (h := base + 2 * i).
    set (tl := base + 2 * (i + S (length alts)) + 1).
    replace (base + 2 * (i + S (length alts))) with (base + 2 * (S i + length alts)) in * by lia.
    assert (TL : tl = base + 2 * (S i + length alts) + 1) by (unfold tl; lia).
    rewrite TL. clear TL. clear tl.
    assert (FH : free b h) by (apply Q; cbn [length]; lia).
    assert (FB : free b (h + 1)) by (apply Q; cbn [length]; lia).
    destruct (free_not_terminated _ _ FH) as [TH OH].
    set (bh := at_point h b) in *.
    assert (GH : good bh) by now apply free_good.
    rewrite terminate_here by exact TH.
    set (t := branch c pl p (h + 1) (h + 2)).
    set (b1 := set_here [] (Some t) bh).
    assert (G1 : good b1) by now apply set_here_good.
    assert (K1 : keeps bh b1) by now apply set_here_keeps.
    assert (FB1 : free b1 (h + 1)) by (eapply free_keeps; [exact K1 | exact FB | cbn; lia]).
    destruct (free_not_terminated _ _ FB1) as [T1 O1].
    set (bd := at_point (h + 1) b1) in *.
    assert (R : ready labels bd).
    { constructor; [now apply free_good | exact U | exact T1 | exact FD | exact FL]. }
    destruct (F1 labels bd W1 R) as (b2 & E2 & G2 & K2 & S2 & U2 & T2 & D2).
    rewrite E2.
    destruct (join_ok (base + 2 * (S i + length alts) + 1) b2 G2 U2) as (b3 & E3 & G3 & K3 & S3 & U3 & D3).
    rewrite E3.
    assert (SS : same_context b b3) by (eapply same_context_trans; [exact S2 | exact S3]).
    destruct (IH (S i) b3 F2 W2 G3 U3) as (b' & E' & G' & K' & S' & U' & Q' & D').
    { destruct SS as [Y1 Y2]. rewrite Y1, Y2. exact FD. }
    { destruct SS as [Y1 Y2]. rewrite Y2. exact FL. }
    { intros q Hq.
      assert (FQ : free b q /\ q <> point b) by (apply Q; cbn [length]; lia).
      assert (FQ1 : free bd q).
      { change (free b1 q). eapply free_keeps; [exact K1 | exact (proj1 FQ) | cbn; lia]. }
      assert (N1 : q <> point bd) by (cbn; lia).
      assert (FQ2 : free b2 q) by (eapply free_keeps; eassumption).
      assert (N2 : q <> point b2) by (eapply free_point; eassumption).
      split; [eapply free_keeps; eassumption | eapply free_point; eassumption]. }
    assert (LB : base <= length (blocks b)).
    { pose proof (free_bound _ _ FH). unfold h in *. lia. }
    assert (KF : keeps_from base p0 b b3).
    { apply (keeps_from_at _ _ h).
      eapply keeps_from_trans; [exact (keeps_weaken base p0 bh b1 LB (or_intror (Nat.le_add_r _ _)) K1) |].
      apply (keeps_from_at _ _ (h + 1)).
      assert (L1 : base <= length (blocks bd)).
      { pose proof (keeps_length _ _ K1). cbn in *. lia. }
      eapply keeps_from_trans.
      - apply (keeps_weaken base p0 bd b2 L1); [right; unfold bd; cbn; unfold h; lia | exact K2].
      - apply keeps_weaken; [pose proof (keeps_length _ _ K2); lia | | exact K3].
        destruct K2 as [_ [Z | Z]]; right; [rewrite Z; unfold bd; cbn; unfold h; lia | lia]. }
    exists b'. split; [exact E' |]. split; [exact G' |].
    split; [eapply keeps_from_trans; eassumption |].
    split; [eapply same_context_trans; eassumption |]. split; [exact U' |]. split; [exact Q' |].
    intros g X P s.
    assert (X3 : ext (blocks b3) g) by (eapply ext_trans; [apply K' | exact X]).
    assert (X2 : ext (blocks b2) g) by (eapply ext_trans; [apply K3 | exact X3]).
    assert (X1 : ext (blocks b1) g).
    { eapply ext_trans; [| exact X2]. destruct K2 as [[Y _ _] _]. exact Y. }
    assert (P3 : pads_run m g (pads b3)) by (eapply pads_run_less; [exact (keeps_from_pads _ _ _ _ K') | exact P]).
    assert (P2 : pads_run m g (pads b2)) by (eapply pads_run_less; [exact (keeps_pads _ _ K3) | exact P3]).
    assert (ST : plus m g (h, 0, s) (if matches m c p s then h + 1 else h + 2, 0, s)).
    { apply step_plus. pose proof (proj2 (step_end m g bh t s TH X1)) as E. unfold here in E. rewrite OH in E.
      change (point bh) with h in E. cbn [length] in E. rewrite E.
      rewrite <- (branch_step c pl p (h + 1) (h + 2) s). fold t.
      destruct (branch_is c pl p (h + 1) (h + 2)) as (t1 & u & v & ET). fold t in ET. rewrite ET. reflexivity. }
    cbn [select]. destruct (matches m c p s).
    + right. intros d. specialize (D2 g X2 P2 s). unfold here in D2. rewrite O1 in D2.
      eapply sim_from; [apply plus_star; exact ST |].
      eapply sim_exit; [| exact D2]. intros x. specialize (D3 g X3 x).
      destruct (exit_of b2) as [[y k] |]; [apply plus_star; exact D3 | exact I].
    + destruct SS as [Y1 Y2].
      replace (base + 2 * S i) with (h + 2) in D' by (unfold h; lia).
      destruct (D' g X P s) as [[E1 ST'] | SI].
      * left. split; [exact E1 |]. eapply star_trans; [apply plus_star; exact ST | exact ST'].
      * right. intros d. eapply sim_from; [apply plus_star; exact ST |]. rewrite Y1, Y2 in SI. apply SI.
Qed.
End Arms.

Lemma case_compiles v c pl alts d :
  good_node v -> Forall (fun x => good_node (snd x)) alts -> good_node d -> good_node (NCase v c pl alts d).
Proof.
  intros GV GA GD labels b W R. cbn [well_formed] in W.
  apply andb_prop in W. destruct W as [W W4]. apply andb_prop in W. destruct W as [W W3].
  apply andb_prop in W. destruct W as [W1 W2]. apply negb_true_iff in W2.
  cbn [ends CleanupModel.lower]. set (base := length (blocks b)). set (k := length alts).
  replace (2 * k + 2) with (2 * (0 + k) + 2) by lia.
  assert (CB : core b) by exact (proj1 (proj1 (good_core b) (ready_good _ _ R))).
  set (b0 := add_blocks (2 * (0 + k) + 2) b).
  assert (G0 : grows b b0) by (unfold b0; rewrite add_blocks_eq; now apply app_grows).
  assert (R0 : ready labels b0).
  { destruct (grows_grows' _ _ G0) as (_ & _ & _ & S0 & U0).
    apply (ready_next labels b); [exact R | | exact S0 | rewrite U0; apply R
      | rewrite (grows_terminated _ _ G0); apply R].
    apply good_core. split; [unfold b0; rewrite add_blocks_eq; now apply app_core |].
    unfold b0. rewrite add_blocks_eq. cbn. apply R. }
  destruct (GV labels b0 W1 R0) as (b1 & E1 & G1 & K1 & S1 & U1 & T1 & D1).
  rewrite E1. rewrite W2 in T1. rewrite terminate_here by exact T1.
  set (b2 := set_here [] (Some (TGoto base)) b1).
  assert (G2 : good b2) by now apply set_here_good.
  assert (K2 : keeps b1 b2) by now apply set_here_keeps.
  assert (S02 : same_context b b2).
  { destruct (grows_grows' _ _ G0) as (_ & _ & _ & S0 & _). eapply same_context_trans; [exact S0 | exact S1]. }
  assert (PB : point b0 < base) by (rewrite (grows_point _ _ G0); apply (ready_good _ _ R)).
  assert (Q2 : forall q, base + 2 * 0 <= q < base + 2 * (0 + k) + 2 -> free b2 q /\ q <> point b2).
  { intros q Hq.
    assert (Q0 : free b0 q) by (unfold b0; apply add_blocks_free; [exact CB | fold base; lia]).
    assert (N0 : q <> point b0) by lia.
    assert (Q1 : free b1 q) by (eapply free_keeps; eassumption).
    assert (N1 : q <> point b1) by (eapply free_point; eassumption).
    split; [eapply free_keeps; eassumption | eapply free_point; eassumption]. }
  destruct S02 as [SA SB].
  destruct (arms_compile c pl base (point b) labels alts 0 b2 GA W3 G2 U1)
    as (b3 & E3 & G3 & K3 & S3 & U3 & Q3 & D3).
  { rewrite SA, SB. apply R. } { rewrite SB. apply R. } { exact Q2. }
  replace (base + 2 * k + 1) with (base + 2 * (0 + k) + 1) by lia. fold k in E3. rewrite E3.
  assert (F3 : free b3 (base + 2 * (0 + k))) by (apply Q3; fold k; lia).
  replace (base + 2 * k) with (base + 2 * (0 + k)) by lia.
  set (b4 := at_point (base + 2 * (0 + k)) b3).
  destruct (free_not_terminated _ _ F3) as [T4 O4]. fold b4 in T4, O4.
  assert (S04 : same_context b b4) by (eapply same_context_trans; [split; [exact SA | exact SB] | exact S3]).
  assert (R4 : ready labels b4).
  { apply (ready_next labels b); [exact R | now apply free_good | exact S04 | exact U3 | exact T4]. }
  destruct (GD labels b4 W4 R4) as (b5 & E5 & G5 & K5 & S5 & U5 & T5 & D5).
  rewrite E5.
  destruct (join_ok (base + 2 * (0 + k) + 1) b5 G5 U5) as (b6 & E6 & G6 & K6 & S6 & U6 & D6).
  rewrite E6. cbn [option_map].
  assert (F6 : free b6 (base + 2 * (0 + k) + 1)).
  { assert (F4 : free b4 (base + 2 * (0 + k) + 1)) by (apply Q3; fold k; lia).
    assert (N4 : base + 2 * (0 + k) + 1 <> point b4) by (cbn; lia).
    eapply free_keeps; [exact K6 | eapply free_keeps; eassumption | eapply free_point; eassumption]. }
  destruct (free_not_terminated _ _ F6) as [T7 O7].
  set (b7 := at_point (base + 2 * (0 + k) + 1) b6) in *.
  assert (LB : forall x y, keeps x y -> base <= length (blocks x) -> base <= length (blocks y)).
  { intros x y H. pose proof (keeps_length _ _ H). lia. }
  assert (KF : keeps_from base (point b) b b6).
  { pose proof (grows_keeps _ _ G0) as K0.
    assert (L0 : base <= length (blocks b0)) by (apply (LB b b0 K0); unfold base; lia).
    assert (L1 : base <= length (blocks b1)) by exact (LB _ _ K1 L0).
    assert (L2 : base <= length (blocks b2)) by exact (LB _ _ K2 L1).
    assert (L3 : base <= length (blocks b4)) by (pose proof (keeps_from_length _ _ _ _ K3); cbn in *; lia).
    assert (L5 : base <= length (blocks b5)) by exact (LB _ _ K5 L3).
    assert (PP0 : point b0 = point b \/ base <= point b0) by (left; apply (grows_point _ _ G0)).
    assert (PP1 : point b1 = point b \/ base <= point b1).
    { destruct K1 as [_ [Z | Z]]; [left; rewrite Z; apply (grows_point _ _ G0) | right; lia]. }
    assert (PP5 : point b5 = point b \/ base <= point b5).
    { right. destruct K5 as [_ [Z | Z]]; [rewrite Z; cbn; lia | lia]. }
    eapply keeps_from_trans; [apply (keeps_weaken base (point b) b b0); auto |].
    eapply keeps_from_trans; [apply (keeps_weaken base (point b) b0 b1); auto |].
    eapply keeps_from_trans; [apply (keeps_weaken base (point b) b1 b2); auto |].
    eapply keeps_from_trans; [exact K3 |].
    apply (keeps_from_at _ _ (base + 2 * (0 + k))).
    eapply keeps_from_trans; [apply (keeps_weaken base (point b) b4 b5); auto; right; cbn; lia |].
    apply keeps_weaken; auto. }
  exists b7. split; [reflexivity |]. split; [now apply free_good |].
  split. { split; [destruct KF as [X1 X2 X3]; constructor; auto | right; cbn; unfold base; lia]. }
  split. { eapply same_context_trans; [exact S04 |]. eapply same_context_trans; [exact S5 | exact S6]. }
  split; [exact U6 |]. split; [exact T7 |].
  intros g X P s.
  assert (X5 : ext (blocks b5) g) by (eapply ext_trans; [apply K6 | exact X]).
  assert (P5 : pads_run m g (pads b5)) by (eapply pads_run_less; [exact (keeps_pads _ _ K6) | exact P]).
  assert (X3 : ext (blocks b3) g).
  { eapply ext_trans; [| exact X5]. destruct K5 as [[Y _ _] _]. exact Y. }
  assert (P3 : pads_run m g (pads b3)).
  { eapply pads_run_less; [| exact P5]. exact (keeps_pads _ _ K5). }
  assert (X2 : ext (blocks b2) g) by (eapply ext_trans; [apply K3 | exact X3]).
  assert (P2 : pads_run m g (pads b2)) by (eapply pads_run_less; [exact (keeps_from_pads _ _ _ _ K3) | exact P3]).
  assert (X1 : ext (blocks b1) g) by (eapply ext_trans; [apply K2 | exact X2]).
  assert (P1 : pads_run m g (pads b1)) by (eapply pads_run_less; [exact (keeps_pads _ _ K2) | exact P2]).
  specialize (D1 g X1 P1 s).
  assert (HB : here b0 s = here b s).
  { unfold here. now rewrite (grows_point _ _ G0), (grows_ops _ _ G0). }
  destruct (grows_grows' _ _ G0) as (_ & _ & _ & [SC0 SL0] & _).
  rewrite HB, SC0, SL0, exit_of_open in D1 by exact T1.
  assert (EX : exit_of b7 = Some (base + 2 * (0 + k) + 1, 0)).
  { rewrite exit_of_open by exact T7. unfold b7. cbn [point at_point]. fold b7. rewrite O7. reflexivity. }
  rewrite EX. cbn [CleanupModel.eval].
  eapply sim_then; [exact D1 |]. intros s' _.
  eapply sim_from.
  { apply plus_star, step_plus. exact (proj2 (step_end m g b1 (TGoto base) s' T1 X2)). }
  specialize (D3 g X3 P3 s'). fold k in D3. replace (base + 2 * 0) with base in D3 by lia.
  rewrite SA, SB in D3.
  destruct D3 as [[E ST] | SI]; [| apply SI].
  rewrite E. eapply sim_from; [exact ST |].
  specialize (D5 g X5 P5 s'). unfold here in D5. rewrite O4 in D5. destruct S04 as [SC4 SL4].
  rewrite SC4, SL4 in D5. eapply sim_exit; [| exact D5]. intros x. specialize (D6 g X x).
  destruct (exit_of b5) as [[y j] |]; [apply plus_star; exact D6 | exact I].
Qed.
End Machine.
