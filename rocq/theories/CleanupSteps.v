(** Cleanup (C56), proofs, part 2: the steps of the builder. *)
From Coq Require Import List Arith Bool Lia.
From Verif Require Import CleanupModel CleanupSpec CleanupBase.
Import ListNotations.

(** Good but for the pads of the scopes. *)
Definition core (b : builder) : Prop := good (with_scopes [] b).

Lemma good_core b : good b <-> core b /\ memo (pads b) (scopes b).
Proof.
  split.
  - intros [A B C D E G]. split; [constructor; cbn; auto | exact D].
  - intros [[A B C D E G] M]. constructor; auto.
Qed.

(** Builders with more blocks and pads. *)
Record grows (b b' : builder) : Prop := Grows {
  grows_keeps : keeps b b';
  grows_point : point b' = point b;
  grows_here : nth_error (blocks b') (point b) = nth_error (blocks b) (point b);
  grows_loops : loops b' = loops b;
  grows_unwind : unwind b' = unwind b;
  grows_scopes : scopes b' = scopes b }.

Lemma grows_refl b : grows b b.
Proof. constructor; auto using keeps_refl. Qed.

Lemma grows_trans x y z : grows x y -> grows y z -> grows x z.
Proof.
  intros [A1 A2 A3 A4 A5 A6] [B1 B2 B3 B4 B5 B6]. constructor; try congruence.
  eapply keeps_trans; eassumption.
Qed.

Lemma grows_terminated x y : grows x y -> terminated y = terminated x.
Proof. intros [_ P H _ _ _]. unfold terminated. now rewrite P, H. Qed.

Lemma grows_ops x y : grows x y -> ops y = ops x.
Proof. intros [_ P H _ _ _]. unfold ops. now rewrite P, H. Qed.

Lemma core_nth_old b l : core b -> nth_error (blocks b ++ l) (point b) = nth_error (blocks b) (point b).
Proof. intros [A _ _ _ _ _]. cbn in A. now apply nth_error_app1. Qed.

Lemma app_core b l : core b -> core (with_blocks (blocks b ++ l) b).
Proof.
  intros [A B C D E G]. cbn in *. constructor; cbn; auto.
  - rewrite app_length. lia.
  - intros p H. destruct (B p H) as [B1 B2]. split; [now apply nth_app_old | exact B2].
  - intros x H. now apply nth_app_old, E.
  - intros x H. now apply nth_app_old, G.
Qed.

Lemma app_grows b l : core b -> grows b (with_blocks (blocks b ++ l) b).
Proof.
  intros C. constructor; cbn; try reflexivity; [| now apply core_nth_old].
  split; [| now left]. constructor; cbn.
  - apply ext_app.
  - intros i L _. now apply nth_error_app1.
  - exists []. rewrite app_nil_r. auto.
Qed.

Lemma add_pad_core b p : core b -> free b (pad_block p) -> pad_block p <> point b ->
  core (with_pads (pads b ++ [p]) b).
Proof.
  intros [A B C D E G] [F1 F2] N. cbn in *. constructor; cbn; auto.
  - intros q H. apply in_app_or in H. destruct H as [H | [<- | []]]; auto.
  - rewrite map_app. cbn.
    apply NoDup_rev in C. rewrite <- (rev_involutive (map pad_block (pads b) ++ _)).
    apply NoDup_rev. rewrite rev_app_distr. cbn. constructor; [| exact C].
    rewrite <- in_rev. intros H. apply in_map_iff in H. destruct H as (q & Q1 & Q2).
    exact (F2 q Q2 Q1).
Qed.

Lemma add_pad_grows' b0 b p : grows b0 b -> length (blocks b0) <= pad_block p ->
  grows b0 (with_pads (pads b ++ [p]) b).
Proof.
  intros [[[K1 K2 (l & K3 & K4)] K5] P H L U S0] N. constructor; cbn; auto.
  split; [| exact K5]. constructor; cbn; auto.
  exists (l ++ [p]). rewrite K3, app_assoc. split; [reflexivity |]. apply Forall_app. auto.
Qed.

Lemma new_block_free b : core b -> free (with_blocks (blocks b ++ [([], None)]) b) (length (blocks b)).
Proof.
  intros [_ B _ _ _ _]. cbn in B. split; cbn; [apply nth_app_new |].
  intros p H E. destruct (B p H) as [B1 _].
  assert (pad_block p < length (blocks b)) by (apply nth_error_Some; rewrite B1; discriminate). lia.
Qed.

Lemma allocate_pad_ok l : forall b p l' b',
  allocate_pad l b = (p, l', b') -> core b -> memo (pads b) l ->
  core b' /\ grows b b' /\ map actions l' = map actions l /\ memo (pads b') l' /\
  match p with
  | None => flat (map actions l) = []
  | Some x => pad_runs (pads b') x (flat (map actions l))
  end.
Proof.
  induction l as [| s l IH]; intros b p l' b' E C M.
  - cbn in E. injection E as <- <- <-. auto using grows_refl.
  - cbn [allocate_pad] in E. destruct M as [M1 M2]. destruct (actions s) as [| a A] eqn:EA.
    + destruct (allocate_pad l b) as [[p1 l1] b1] eqn:E1. injection E as <- <- <-.
      destruct (IH b p1 l1 b1 E1 C M2) as (C1 & G1 & L1 & N1 & P1).
      split; [exact C1 |]. split; [exact G1 |]. cbn [map]. rewrite L1, EA.
      split; [reflexivity |]. split; [| exact P1].
      split; [| exact N1]. intros q Q. specialize (M1 q Q). cbn [map]. rewrite L1.
      eapply pad_runs_more; [exact (keeps_pads _ _ (grows_keeps _ _ G1)) | exact M1].
    + destruct (scope_pad s) as [q |] eqn:EP.
      * injection E as <- <- <-. split; [exact C |]. split; [apply grows_refl |].
        split; [reflexivity |]. split; [| now apply M1].
        split; [rewrite EP; exact M1 | exact M2].
      * cbn [add_block] in E.
        set (b1 := with_blocks (blocks b ++ [([], None)]) b) in *.
        destruct (allocate_pad l b1) as [[outer l2] b2] eqn:E1. injection E as <- <- <-.
        assert (C1 : core b1) by now apply app_core.
        destruct (IH b1 outer l2 b2 E1 C1 M2) as (C2 & G2 & L2 & N2 & P2).
        set (q := Pad (length (blocks b)) (rev (a :: A)) outer).
        assert (F1 : free b1 (length (blocks b))) by now apply new_block_free.
        assert (NP : length (blocks b) <> point b1).
        { destruct C as [X _ _ _ _ _]. cbn in X |- *. lia. }
        assert (F2 : free b2 (length (blocks b))).
        { eapply free_keeps; [apply grows_keeps; exact G2 | exact F1 | exact NP]. }
        assert (I : incl (pads b2) (pads b2 ++ [q])) by (intros x X; apply in_or_app; auto).
        assert (R : pad_runs (pads b2 ++ [q]) (length (blocks b)) (flat (map actions (s :: l)))).
        { cbn [map flat flat_map]. fold (flat (map actions l)). rewrite EA.
          assert (Q : In q (pads b2 ++ [q])) by (apply in_or_app; right; now left).
          destruct outer as [o |].
          - exact (pad_more _ q o _ Q eq_refl (pad_runs_more _ _ _ _ I P2)).
          - rewrite P2, app_nil_r. exact (pad_last _ q Q eq_refl). }
        split. { apply add_pad_core; [exact C2 | exact F2 |]. cbn. rewrite (grows_point _ _ G2). exact NP. }
        split. { apply add_pad_grows'; [| cbn; lia].
                 eapply grows_trans; [apply app_grows; exact C | exact G2]. }
        cbn [map actions]. rewrite L2, EA. split; [reflexivity |].
        split; [| cbn [map] in R; rewrite EA in R; exact R].
        cbn [pads with_pads]. split; [| exact (memo_more _ _ _ I N2)].
        cbn [scope_pad actions map]. intros x X. injection X as <-. rewrite L2.
        cbn [map] in R. rewrite EA in R. exact R.
Qed.

(** The answer a failure leads to. *)
Section Machine.
Context {state : Type}.
Variable m : machine state.

Definition pads_run (g : list block) (P : list pad) : Prop :=
  forall p A, pad_runs P p A -> forall s, halts m g (p, 0, s) (after_failure m A s).

Lemma pads_run_less g P P' : incl P P' -> pads_run g P' -> pads_run g P.
Proof. intros I H p A R. apply H. eapply pad_runs_more; eassumption. Qed.

Definition handles (b : builder) (H : state -> answer state) : Prop :=
  match unwind b with
  | CurrentScope => H = after_failure m (flat (map actions (scopes b)))
  | ToPad p => exists A, pad_runs (pads b) p A /\ H = after_failure m A
  | PropagateWithoutPad => H = Raised
  | FailsDuringCleanup => H = CleanupFailed
  end.

Lemma terminated_block_step g x t b :
  nth_error (blocks b) x = Some ([], Some t) -> ext (blocks b) g -> nth_error g x = Some ([], Some t).
Proof.
  intros H E. destruct (E _ _ _ H) as (k & t' & H1 & H2). destruct (H2 t eq_refl) as [-> ->]. exact H1.
Qed.

Definition grows' (b b' : builder) : Prop :=
  keeps b b' /\ point b' = point b /\ nth_error (blocks b') (point b) = nth_error (blocks b) (point b) /\
  same_context b b' /\ unwind b' = unwind b.

Lemma grows_grows' b b' : grows b b' -> grows' b b'.
Proof.
  intros [A B C D E G]. unfold grows', same_context. rewrite D, E, G. auto 6.
Qed.

Lemma special_block_ok b t (f : builder -> option nat) setf (b' : builder) :
  good b ->
  (forall x b, blocks (setf x b) = blocks b /\ point (setf x b) = point b /\ scopes (setf x b) = scopes b
     /\ loops (setf x b) = loops b /\ unwind (setf x b) = unwind b /\ pads (setf x b) = pads b) ->
  b' = setf (Some (length (blocks b))) (with_blocks (blocks b ++ [([], Some t)]) b) ->
  (forall x, propagate b' = Some x -> nth_error (blocks b') x = Some ([], Some TPropagateError)) ->
  (forall x, failure b' = Some x -> nth_error (blocks b') x = Some ([], Some TFailureDuringCleanup)) ->
  good b' /\ grows' b b' /\ nth_error (blocks b') (length (blocks b)) = Some ([], Some t).
Proof.
  intros G S -> P F. set (b1 := with_blocks (blocks b ++ [([], Some t)]) b) in *.
  destruct (S (Some (length (blocks b))) b1) as (S1 & S2 & S3 & S4 & S5 & S6).
  apply good_core in G. destruct G as [C M].
  pose proof (app_core b [([], Some t)] C) as [A1 A2 A3 A4 A5 A6]. fold b1 in A1, A2, A3, A4, A5, A6.
  pose proof (app_grows b [([], Some t)] C) as [[[G1 G2 G3] G4] G5 G6 G7 G8 G9].
  fold b1 in G1, G2, G3, G4, G5, G6, G7, G8, G9. cbn [blocks with_scopes point pads] in A1, A2, A3.
  split; [constructor; rewrite ?S1, ?S2, ?S3, ?S6; auto |].
  { rewrite S1 in P. exact P. } { rewrite S1 in F. exact F. }
  split; [| rewrite S1; cbn; apply nth_app_new].
  split; [split; [constructor; rewrite ?S1, ?S2, ?S6; auto | rewrite S2; exact G4] |].
  unfold same_context. rewrite ?S1, S2, S3, S4, S5. auto 6.
Qed.

Lemma propagate_block_ok b e b' : good b -> propagate_error_block b = (e, b') ->
  good b' /\ grows' b b' /\ nth_error (blocks b') e = Some ([], Some TPropagateError).
Proof.
  intros G E. unfold propagate_error_block in E. destruct (propagate b) as [x |] eqn:EP.
  - injection E as <- <-. split; [exact G |]. split; [apply grows_grows', grows_refl |].
    now apply (good_propagate b G).
  - cbn [add_terminated] in E. injection E as <- <-.
    apply (special_block_ok b TPropagateError propagate with_propagate); auto.
    + intros x c. cbn. auto 8.
    + cbn. intros x X. injection X as <-. apply nth_app_new.
    + cbn. intros x X. apply nth_app_old. now apply (good_failure b G).
Qed.

Lemma failure_block_ok b e b' : good b -> failure_during_cleanup_block b = (e, b') ->
  good b' /\ grows' b b' /\ nth_error (blocks b') e = Some ([], Some TFailureDuringCleanup).
Proof.
  intros G E. unfold failure_during_cleanup_block in E. destruct (failure b) as [x |] eqn:EP.
  - injection E as <- <-. split; [exact G |]. split; [apply grows_grows', grows_refl |].
    now apply (good_failure b G).
  - cbn [add_terminated] in E. injection E as <- <-.
    apply (special_block_ok b TFailureDuringCleanup failure with_failure); auto.
    + intros x c. cbn. auto 8.
    + cbn. intros x X. apply nth_app_old. now apply (good_propagate b G).
    + cbn. intros x X. injection X as <-. apply nth_app_new.
Qed.

Lemma halts_terminated g x t s a :
  nth_error g x = Some ([], Some t) -> step m g (x, 0, s) = inr a -> halts m g (x, 0, s) a.
Proof. intros _. apply step_halts. Qed.

Lemma innermost_ok b p b' : good b -> innermost_pad b = (p, b') ->
  good b' /\ grows' b b' /\
  match p with
  | None => flat (map actions (scopes b)) = []
  | Some x => pad_runs (pads b') x (flat (map actions (scopes b)))
  end.
Proof.
  intros G E. unfold innermost_pad in E. apply good_core in G. destruct G as [C M].
  destruct (allocate_pad (scopes b) b) as [[q l] b1] eqn:EA. injection E as <- <-.
  destruct (allocate_pad_ok _ _ _ _ _ EA C M) as (C1 & G1 & L1 & N1 & P1).
  split. { apply good_core. split; [destruct C1; constructor; auto | exact N1]. }
  split; [| exact P1].
  destruct (grows_grows' _ _ G1) as ([[K1 K2 K3] K4] & A & B & D & U).
  split; [split; [constructor; auto | exact K4] |].
  unfold same_context. cbn. rewrite L1. destruct D as [_ D]. auto 6.
Qed.

Lemma grows'_refl b : grows' b b.
Proof. apply grows_grows', grows_refl. Qed.

Lemma grows'_trans x y z : grows' x y -> grows' y z -> grows' x z.
Proof.
  intros (A1 & A2 & A3 & A4 & A5) (B1 & B2 & B3 & B4 & B5). rewrite A2 in B3.
  split; [eapply keeps_trans; eassumption |]. split; [congruence |]. split; [congruence |].
  split; [eapply same_context_trans; eassumption | congruence].
Qed.

Lemma grows'_terminated x y : grows' x y -> terminated y = terminated x.
Proof. intros (_ & P & H & _). unfold terminated. now rewrite P, H. Qed.

Lemma grows'_ops x y : grows' x y -> ops y = ops x.
Proof. intros (_ & P & H & _). unfold ops. now rewrite P, H. Qed.

Lemma error_block_ok b H e b' : good b -> handles b H -> error_block b = (e, b') ->
  good b' /\ grows' b b' /\
  forall g, ext (blocks b') g -> pads_run g (pads b') -> forall s, halts m g (e, 0, s) (H s).
Proof.
  intros G HH E. unfold error_block, handles in *. destruct (unwind b).
  - destruct (innermost_pad b) as [[x |] b1] eqn:E1; destruct (innermost_ok _ _ _ G E1) as (G1 & R1 & P1).
    + injection E as <- <-. split; [exact G1 |]. split; [exact R1 |]. intros g _ P s. subst H. now apply P.
    + destruct (propagate_block_ok _ _ _ G1 E) as (G2 & R2 & N2). split; [exact G2 |].
      split; [eapply grows'_trans; eassumption |]. intros g X _ s. subst H. rewrite P1. cbn.
      apply step_halts. cbn. now rewrite (terminated_block_step _ _ _ _ N2 X).
  - injection E as <- <-. destruct HH as (A & R & ->). split; [exact G |]. split; [apply grows'_refl |].
    intros g _ P s. now apply P.
  - destruct (propagate_block_ok _ _ _ G E) as (G2 & R2 & N2). split; [exact G2 |]. split; [exact R2 |].
    intros g X _ s. subst H. apply step_halts. cbn. now rewrite (terminated_block_step _ _ _ _ N2 X).
  - destruct (failure_block_ok _ _ _ G E) as (G2 & R2 & N2). split; [exact G2 |]. split; [exact R2 |].
    intros g X _ s. subst H. apply step_halts. cbn. now rewrite (terminated_block_step _ _ _ _ N2 X).
Qed.

(** Where a builder stands. *)
Definition here (b : builder) (s : state) : config := (point b, length (ops b), s).

Lemma step_op g b l t s :
  terminated b = false -> ext (blocks (set_here (l :: t) None b)) g ->
  step m g (here b s) =
  match perform m l s with
  | Done s => inl (point b, S (length (ops b)), s)
  | Err _ => inr Panicked
  | Stop s => inr (Stopped s)
  end.
Proof.
  intros T X. destruct (X _ _ _ (set_here_nth (l :: t) None b T)) as (k & t' & N & _).
  unfold here, step. rewrite N.
  rewrite <- app_assoc. rewrite nth_error_app2 by lia. rewrite Nat.sub_diag. reflexivity.
Qed.

Lemma nth_past {A} (l : list A) : nth_error l (length l) = None.
Proof. now apply nth_error_None. Qed.

Lemma step_end g b t s :
  terminated b = false -> ext (blocks (set_here [] (Some t) b)) g ->
  nth_error g (point b) = Some (ops b, Some t) /\
  step m g (here b s) =
  match t with
  | TGoto b => inl (b, 0, s)
  | TBranch t b b' => inl (if holds m t s then b else b', 0, s)
  | TInvoke a b b' =>
      match perform m a s with
      | Done s => inl (b, 0, s)
      | Err s => inl (b', 0, s)
      | Stop s => inr (Stopped s)
      end
  | TReturn => inr (Returned s)
  | TPropagateError => inr (Raised s)
  | TFailureDuringCleanup => inr (CleanupFailed s)
  end.
Proof.
  intros T X. destruct (X _ _ _ (set_here_nth [] (Some t) b T)) as (k & t' & N & E).
  destruct (E t eq_refl) as [-> ->]. rewrite !app_nil_r in N. split; [exact N |].
  unfold here, step. rewrite N, nth_past. reflexivity.
Qed.

Definition arrives (g : list block) (H : state -> answer state) (b b' : builder) (a : action) : Prop :=
  forall s, match perform m a s with
  | Done s' => plus m g (here b s) (here b' s')
  | Err s' => halts m g (here b s) (H s')
  | Stop s' => halts m g (here b s) (Stopped s')
  end.

Hypothesis m_sound : sound m.

Lemma insert_ok b a H : good b -> terminated b = false -> (is_fallible a = true -> handles b H) ->
  exists b', insert a b = Some b' /\ good b' /\ keeps b b' /\ same_context b b' /\ unwind b' = unwind b /\
    terminated b' = false /\
    forall g, ext (blocks b') g -> pads_run g (pads b') -> arrives g H b b' a.
Proof.
  intros G T HH. unfold insert. destruct (is_fallible a) eqn:EF.
  - unfold invoke. cbn [add_block].
    set (b1 := with_blocks (blocks b ++ [([], None)]) b).
    apply good_core in G as GG. destruct GG as [C M].
    assert (GR1 : grows b b1) by now apply app_grows.
    assert (G1 : good b1).
    { apply good_core. split; [now apply app_core | exact M]. }
    assert (F1 : free b1 (length (blocks b))) by now apply new_block_free.
    assert (NP : length (blocks b) <> point b1) by (pose proof (good_point _ G); cbn; lia).
    destruct (error_block b1) as [e b2] eqn:EE.
    destruct (error_block_ok b1 H e b2 G1) as (G2 & R2 & D2); [exact (HH eq_refl) | exact EE |].
    assert (GR2 : grows' b b2) by (eapply grows'_trans; [apply grows_grows'; exact GR1 | exact R2]).
    assert (T2 : terminated b2 = false) by (rewrite (grows'_terminated _ _ GR2); exact T).
    rewrite terminate_here by exact T2. cbn [option_map].
    set (b3 := set_here [] (Some (TInvoke a (length (blocks b)) e)) b2).
    assert (G3 : good b3) by now apply set_here_good.
    assert (K3 : keeps b2 b3) by now apply set_here_keeps.
    destruct R2 as (K2 & P2 & _). destruct GR2 as (K02 & P02 & H02 & S02 & U02).
    assert (F3 : free b3 (length (blocks b))).
    { eapply free_keeps; [exact K3 | | rewrite P2; exact NP].
      eapply free_keeps; [exact K2 | exact F1 | exact NP]. }
    destruct (free_not_terminated _ _ F3) as [T4 O4].
    exists (at_point (length (blocks b)) b3). split; [reflexivity |].
    split; [now apply free_good |].
    split.
    { pose proof (keeps_trans _ _ _ K02 K3) as [K _]. split; [| right; cbn; lia].
      destruct K as [X1 X2 X3]. constructor; auto. }
    split; [destruct S02; split; cbn; assumption |].
    split; [exact U02 |]. split; [exact T4 |].
    intros g X P s.
    assert (HE : here b s = here b2 s).
    { unfold here. rewrite P02. f_equal. f_equal. unfold ops. now rewrite P02, H02. }
    destruct (step_end g b2 (TInvoke a (length (blocks b)) e) s T2 X) as [_ E].
    assert (X2 : ext (blocks b2) g).
    { eapply ext_trans; [| exact X]. destruct K3 as [[Y _ _] _]. exact Y. }
    rewrite HE. destruct (perform m a s) as [s' | s' | s'] eqn:EP.
    + apply step_plus. unfold here at 2. rewrite O4. exact E.
    + eapply plus_halts; [apply step_plus; exact E |].
      apply D2; [exact X2 | exact P].
    + now apply step_halts.
  - rewrite append_here by exact T. exists (set_here [a] None b). split; [reflexivity |].
    split; [now apply set_here_good |]. split; [now apply set_here_keeps |].
    split; [apply set_here_context |]. split; [reflexivity |].
    assert (N : nth_error (blocks (set_here [a] None b)) (point b) = Some (ops b ++ [a], None)).
    { now apply set_here_nth. }
    assert (O : ops (set_here [a] None b) = ops b ++ [a]).
    { unfold ops at 1. change (point (set_here [a] None b)) with (point b). now rewrite N. }
    split. { apply not_terminated. rewrite O. exact N. }
    intros g X P s. pose proof (step_op g b a [] s T X) as E.
    destruct (perform m a s) as [s' | s' | s'] eqn:EP.
    + apply step_plus. rewrite E. unfold here. rewrite O, app_length. cbn. now rewrite Nat.add_1_r.
    + exfalso. exact (m_sound a s s' EF EP).
    + now apply step_halts.
Qed.

(** The outer pad. *)
Definition outer_ok (P : list pad) (outer : option nat) (A : list action) : Prop :=
  match outer with Some p => pad_runs P p A | None => A = [] end.

Lemma outer_ok_more P P' o A : incl P P' -> outer_ok P o A -> outer_ok P' o A.
Proof. intros I. destruct o; cbn; [apply pad_runs_more; exact I | auto]. Qed.

Lemma with_unwind_good t b : good b -> good (with_unwind t b).
Proof. intros [A B C D E G]. constructor; auto. Qed.

Lemma with_unwind_keeps t b : keeps b (with_unwind t b).
Proof. destruct (keeps_refl b) as [[A B C] D]. split; [constructor; auto | exact D]. Qed.

Lemma actions_pad_ok l outer b p b' : good b -> allocate_actions_pad l outer b = (p, b') ->
  good b' /\ grows b b' /\ In (Pad p l outer) (pads b').
Proof.
  intros G E. unfold allocate_actions_pad in E. cbn [add_block] in E. injection E as <- <-.
  apply good_core in G as GG. destruct GG as [C M].
  set (b1 := with_blocks (blocks b ++ [([], None)]) b).
  set (q := Pad (length (blocks b)) l outer).
  assert (C1 : core b1) by now apply app_core.
  assert (NP : length (blocks b) <> point b1) by (pose proof (good_point _ G); cbn; lia).
  split; [| split].
  - apply good_core. split.
    + change (pads b) with (pads b1). apply add_pad_core; [exact C1 | now apply new_block_free | exact NP].
    + cbn. eapply memo_more; [| exact M]. intros x X. apply in_or_app. auto.
  - change (pads b) with (pads b1). apply add_pad_grows'; [now apply app_grows | cbn; lia].
  - cbn. apply in_or_app. right. now left.
Qed.

Definition travels (g : list block) (b b' : builder) (l outer : list action) : Prop :=
  forall s, match on_the_way m l outer s with
  | inl s' => star m g (here b s) (here b' s')
  | inr a => halts m g (here b s) a
  end.

Lemma emit_inline_ok l : forall outer A b, good b ->
  (existsb is_fallible l = true -> outer_ok (pads b) outer A) ->
  exists b', emit_inline l outer b = Some b' /\ good b' /\ keeps b b' /\ same_context b b' /\
    unwind b' = CurrentScope /\ terminated b' = terminated b /\
    (terminated b = false -> forall g, ext (blocks b') g -> pads_run g (pads b') -> travels g b b' l A).
Proof.
  induction l as [| a l IH]; intros outer A b G O.
  - cbn [emit_inline]. exists (with_unwind CurrentScope b). split; [reflexivity |].
    split; [now apply with_unwind_good |]. split; [apply with_unwind_keeps |].
    split; [split; reflexivity |]. split; [reflexivity |]. split; [reflexivity |].
    intros T g X P s. cbn. apply star_refl.
  - cbn [emit_inline].
    match goal with |- context [emit_cleanup a ?x] => set (b1 := x) end.
    assert (B1 : good b1 /\ keeps b b1 /\ same_context b b1 /\ terminated b1 = terminated b
                 /\ (forall s, here b1 s = here b s)
                 /\ (is_fallible a = true -> handles b1 (after_failure m (l ++ A)))).
    { assert (W : forall t c, good c -> keeps b c -> same_context b c -> terminated c = terminated b ->
                (forall s, here c s = here b s) ->
                good (with_unwind t c) /\ keeps b (with_unwind t c) /\ same_context b (with_unwind t c)
                /\ terminated (with_unwind t c) = terminated b /\ (forall s, here (with_unwind t c) s = here b s)).
      { intros t c C1 C2 C3 C4 C5. split; [now apply with_unwind_good |].
        split; [eapply keeps_trans; [exact C2 | apply with_unwind_keeps] |]. auto. }
      subst b1. cbn [existsb] in O. destruct (is_fallible a).
      - specialize (O eq_refl). destruct l as [| a' l].
        + destruct outer as [p |].
          * destruct (W (ToPad p) b) as (W1 & W2 & W3 & W4 & W5);
              auto using keeps_refl, same_context_refl.
            do 5 (split; [assumption |]). intros _. cbn. exists A. auto.
          * destruct (W PropagateWithoutPad b) as (W1 & W2 & W3 & W4 & W5);
              auto using keeps_refl, same_context_refl.
            do 5 (split; [assumption |]). intros _. cbn in *. subst A. reflexivity.
        + destruct (allocate_actions_pad (a' :: l) outer b) as [p c] eqn:EP.
          destruct (actions_pad_ok _ _ _ _ _ G EP) as (C1 & C2 & C3).
          destruct (grows_grows' _ _ C2) as (K & P & N & S & U).
          destruct (W (ToPad p) c) as (W1 & W2 & W3 & W4 & W5); auto.
          { now apply grows_terminated. }
          { intros s. unfold here. now rewrite P, (grows_ops _ _ C2). }
          do 5 (split; [assumption |]). intros _. cbn [handles unwind with_unwind].
          exists ((a' :: l) ++ A). split; [| reflexivity].
          cbn [pads with_unwind]. apply (outer_ok_more _ _ _ _ (keeps_pads _ _ K)) in O.
          destruct outer as [o |]; cbn in O.
          * exact (pad_more _ (Pad p (a' :: l) (Some o)) o A C3 eq_refl O).
          * subst A. rewrite app_nil_r. exact (pad_last _ (Pad p (a' :: l) None) C3 eq_refl).
      - split; [exact G |]. split; [apply keeps_refl |]. split; [apply same_context_refl |].
        split; [reflexivity |]. split; [reflexivity |]. discriminate. }
    clearbody b1. destruct B1 as (G1 & K1 & S1 & T1 & H1 & U1).
    unfold emit_cleanup. destruct (terminated b1) eqn:ET.
    + destruct (IH outer A b1 G1) as (b' & E & G' & K' & S' & U' & T' & _).
      { intros F. eapply outer_ok_more; [exact (keeps_pads _ _ K1) |]. apply O. cbn. rewrite F. apply orb_true_r. }
      exists b'. split; [exact E |]. split; [exact G' |]. split; [eapply keeps_trans; eassumption |].
      split; [eapply same_context_trans; eassumption |]. split; [exact U' |]. split; [congruence |].
      congruence.
    + destruct (insert_ok b1 a (after_failure m (l ++ A)) G1 ET U1)
        as (b2 & E2 & G2 & K2 & S2 & _ & T2 & D2).
      rewrite E2.
      assert (K02 : keeps b b2) by (eapply keeps_trans; eassumption).
      destruct (IH outer A b2 G2) as (b' & E & G' & K' & S' & U' & T' & D').
      { intros F. eapply outer_ok_more; [exact (keeps_pads _ _ K02) |]. apply O. cbn. rewrite F. apply orb_true_r. }
      exists b'. split; [exact E |]. split; [exact G' |]. split; [eapply keeps_trans; eassumption |].
      split; [eapply same_context_trans; [exact S1 | eapply same_context_trans; eassumption] |].
      split; [exact U' |]. split; [congruence |].
      intros T g X P s.
      assert (X2 : ext (blocks b2) g) by (eapply ext_trans; [apply K' | exact X]).
      assert (P2 : pads_run g (pads b2)) by (eapply pads_run_less; [exact (keeps_pads _ _ K') | exact P]).
      specialize (D2 g X2 P2 s). specialize (D' T2 g X P). rewrite (H1 s) in D2. cbn [on_the_way].
      destruct (perform m a s) as [s' | s' | s'].
      * specialize (D' s'). destruct (on_the_way m l A s') as [s'' | x].
        -- eapply star_trans; [apply plus_star; exact D2 | exact D'].
        -- eapply plus_halts; eassumption.
      * exact D2.
      * exact D2.
Qed.
End Machine.
