(** Cleanup (C56), proofs, part 3: leaving scopes. *)
From Coq Require Import List Arith Bool Lia.
From Verif Require Import CleanupModel CleanupSpec CleanupBase CleanupSteps.
Import ListNotations.

Lemma outer_pad_ok t l b o l' b' : outer_pad t l b = (o, l', b') -> core b -> memo (pads b) l ->
  core b' /\ grows b b' /\ map actions l' = map actions l /\ memo (pads b') l' /\
  (existsb is_fallible t = true -> outer_ok (pads b') o (flat (map actions l))).
Proof.
  intros E C M. unfold outer_pad in E. destruct (existsb is_fallible t).
  - destruct (allocate_pad_ok _ _ _ _ _ E C M) as (C1 & G1 & L1 & N1 & P1).
    do 4 (split; [assumption |]). intros _. destruct o; exact P1.
  - injection E as <- <- <-. do 2 (split; [auto using grows_refl |]). repeat split; auto. discriminate.
Qed.

Section Machine.
Context {state : Type}.
Variable m : machine state.
Hypothesis m_sound : sound m.

Lemma exit_scope_ok b s l : good b -> scopes b = s :: l ->
  exists b', exit_scope b = Some b' /\ good b' /\ keeps b b' /\
    map actions (scopes b') = map actions l /\ loops b' = loops b /\
    unwind b' = CurrentScope /\ terminated b' = terminated b /\
    (terminated b = false -> forall g, ext (blocks b') g -> pads_run m g (pads b') ->
       travels m g b b' (rev (actions s)) (flat (map actions l))).
Proof.
  intros G E. unfold exit_scope. rewrite E. apply good_core in G as GG. destruct GG as [C M].
  rewrite E in M. destruct M as [_ M].
  destruct (outer_pad (rev (actions s)) l b) as [[o l1] b1] eqn:EO.
  destruct (outer_pad_ok _ _ _ _ _ _ EO C M) as (C1 & G1 & L1 & N1 & P1).
  set (b2 := with_scopes l1 b1).
  assert (GG2 : good b2) by (apply good_core; split; [destruct C1; constructor; auto | exact N1]).
  destruct (grows_grows' _ _ G1) as ([[K1 K2 K3] K4] & A & B & D & U).
  assert (KK : keeps b b2) by (split; [constructor; auto | exact K4]).
  assert (TT : terminated b2 = terminated b) by exact (grows_terminated _ _ G1).
  assert (HH : forall s : state, here b2 s = here b s).
  { intros x. unfold here. change (ops b2) with (ops b1). rewrite (grows_ops _ _ G1). cbn. now rewrite A. }
  destruct (emit_inline_ok m m_sound (rev (actions s)) o (flat (map actions l)) b2 GG2 P1)
    as (b' & E' & G' & K' & S' & U' & T' & D').
  exists b'. split; [exact E' |]. split; [exact G' |]. split; [eapply keeps_trans; eassumption |].
  destruct S' as [S1 S2]. split; [rewrite S1; exact L1 |]. split; [rewrite S2; apply D |].
  split; [exact U' |]. split; [congruence |].
  intros T g X P x. rewrite <- TT in T. specialize (D' T g X P x). rewrite HH in D'. exact D'.
Qed.

Lemma emit_unwind_ok k : forall d b, good b -> terminated b = false -> unwind b = CurrentScope ->
  exists b', emit_unwind k d b = Some b' /\ good b' /\ keeps b b' /\ same_context b b' /\
    unwind b' = CurrentScope /\ terminated b' = false /\
    forall g, ext (blocks b') g -> pads_run m g (pads b') ->
      travels m g b b' (flat (firstn k (skipn d (map actions (scopes b)))))
                       (flat (skipn k (skipn d (map actions (scopes b))))).
Proof.
  induction k as [| k IH]; intros d b G T U.
  - exists b. cbn [emit_unwind]. do 6 (split; [auto using keeps_refl, same_context_refl |]).
    intros g X P s. cbn. apply star_refl.
  - cbn [emit_unwind]. destruct (skipn d (scopes b)) as [| s l] eqn:ES.
    + exists b. do 6 (split; [auto using keeps_refl, same_context_refl |]).
      intros g X P x. rewrite skipn_map, ES. cbn. apply star_refl.
    + apply good_core in G as GG. destruct GG as [C M].
      assert (EB : scopes b = firstn d (scopes b) ++ s :: l) by (rewrite <- ES; symmetry; apply firstn_skipn).
      assert (M1 : memo (pads b) (s :: l)) by (rewrite EB in M; now apply memo_app_r in M).
      destruct (outer_pad (rev (actions s)) l b) as [[o l1] b1] eqn:EO.
      destruct (outer_pad_ok _ _ _ _ _ _ EO C (proj2 M1)) as (C1 & G1 & L1 & N1 & P1).
      destruct (grows_grows' _ _ G1) as (KK & A & B & D & U1).
      pose proof (keeps_pads _ _ KK) as I. destruct KK as [[K1 K2 K3] K4].
      rewrite (grows_scopes _ _ G1).
      set (b2 := with_scopes (firstn d (scopes b) ++ s :: l1) b1).
      assert (ML : map actions (s :: l1) = map actions (s :: l)) by (cbn; now rewrite L1).
      assert (GG2 : good b2).
      { apply good_core. split; [destruct C1; constructor; auto |]. cbn [scopes with_scopes b2 pads].
        eapply memo_below; [exact I | exact ML | rewrite <- EB; exact M |].
        split; [| exact N1]. intros p Hp. rewrite ML. eapply pad_runs_more; [exact I | now apply (proj1 M1)]. }
      assert (KK : keeps b b2) by (split; [constructor; auto | exact K4]).
      assert (SS : same_context b b2).
      { split; [| apply D]. cbn [scopes with_scopes b2]. rewrite map_app, ML, <- map_app, <- EB. reflexivity. }
      assert (TT : terminated b2 = false) by (rewrite <- T; exact (grows_terminated _ _ G1)).
      assert (HH : forall s : state, here b2 s = here b s).
      { intros x. unfold here. change (ops b2) with (ops b1). rewrite (grows_ops _ _ G1). cbn. now rewrite A. }
      destruct (emit_inline_ok m m_sound (rev (actions s)) o (flat (map actions l)) b2 GG2 P1)
        as (b3 & E3 & G3 & K3' & S3 & U3 & T3 & D3).
      rewrite E3. rewrite TT in T3. specialize (D3 TT).
      destruct (IH (S d) b3 G3 T3 U3) as (b' & E' & G' & K' & S' & U' & T' & D').
      exists b'. split; [exact E' |]. split; [exact G' |].
      split; [eapply keeps_trans; [exact KK | eapply keeps_trans; eassumption] |].
      split; [eapply same_context_trans; [exact SS | eapply same_context_trans; eassumption] |].
      split; [exact U' |]. split; [exact T' |].
      intros g X P x.
      assert (X3 : ext (blocks b3) g) by (eapply ext_trans; [apply K' | exact X]).
      assert (P3 : pads_run m g (pads b3)) by (eapply pads_run_less; [exact (keeps_pads _ _ K') | exact P]).
      specialize (D3 g X3 P3 x). specialize (D' g X P). rewrite HH in D3.
      assert (SC : map actions (scopes b3) = map actions (scopes b)).
      { destruct SS as [Q1 _], S3 as [Q2 _]. congruence. }
      assert (SK : skipn (S d) (scopes b) = l).
      { rewrite EB at 1. rewrite skipn_app.
        assert (LD : length (firstn d (scopes b)) = d).
        { rewrite firstn_length. destruct (le_lt_dec d (length (scopes b))); [lia |].
          rewrite skipn_all2 in ES by lia. discriminate. }
        rewrite LD. rewrite skipn_all2 by lia. replace (S d - d) with 1 by lia. reflexivity. }
      rewrite SC in D'. rewrite skipn_map in *. rewrite SK in D'. rewrite ES.
      cbn [map firstn skipn]. unfold flat at 1. cbn [flat_map].
      fold (flat (firstn k (map actions l))).
      rewrite on_the_way_app. rewrite <- flat_app, firstn_skipn.
      destruct (on_the_way m (rev (actions s)) (flat (map actions l)) x) as [y | a]; [| exact D3].
      specialize (D' y). destruct (on_the_way m (flat (firstn k (map actions l))) _ y) as [z | a].
      * eapply star_trans; eassumption.
      * eapply star_halts; eassumption.
Qed.

(** What a node compiles to. *)
Variable fuel : nat.

Definition goes (g : list block) (inner outer : list action) (target : nat) (s : state) (c : config) : Prop :=
  match on_the_way m inner outer s with
  | inl s' => plus m g c (target, 0, s')
  | inr a => halts m g c a
  end.

Definition within (sc : list (list action)) (f : loop_frame) := flat (firstn (length sc - depth f) sc).
Definition beyond (sc : list (list action)) (f : loop_frame) := flat (skipn (length sc - depth f) sc).

(** [e]: where control comes out, if it does. *)
Definition sim (g : list block) (sc : list (list action)) (lps : list (nat * loop_frame))
    (e : option (nat * nat)) (r : @result state) (c : config) : Prop :=
  match r with
  | Normal s => match e with Some (b, k) => star m g c (b, k, s) | None => False end
  | Breaking l s => exists f, frame_of l lps = Some f /\ goes g (within sc f) (beyond sc f) (exit f) s c
  | Continuing l s => exists f, frame_of l lps = Some f /\ goes g (within sc f) (beyond sc f) (head f) s c
  | Returning s =>
      match on_the_way m (flat sc) [] s with
      | inl s' => halts m g c (Returned s')
      | inr a => halts m g c a
      end
  | Fails s => halts m g c (after_failure m (flat sc) s)
  | Poisons s => halts m g c (CleanupFailed s)
  | Stops s => halts m g c (Stopped s)
  | NoFuel => exists n c', fuel <= n /\ reach m g n c c'
  end.

Definition exit_of (b : builder) : option (nat * nat) :=
  if terminated b then None else Some (point b, length (ops b)).

Lemma goes_from g i o t s c c' : star m g c' c -> goes g i o t s c -> goes g i o t s c'.
Proof.
  intros S. unfold goes. destruct (on_the_way m i o s); intros H.
  - eapply star_plus; eassumption.
  - eapply star_halts; eassumption.
Qed.

Lemma sim_from g sc lps e r c c' : star m g c' c -> sim g sc lps e r c -> sim g sc lps e r c'.
Proof.
  intros S H. destruct r as [s | l s | l s | s | s | s | s |]; cbn in *.
  - destruct e as [[b k] |]; [| exact H]. eapply star_trans; eassumption.
  - destruct H as (f & E & H). exists f. split; [exact E | eapply goes_from; eassumption].
  - destruct H as (f & E & H). exists f. split; [exact E | eapply goes_from; eassumption].
  - destruct (on_the_way m (flat sc) [] s); eapply star_halts; eassumption.
  - eapply star_halts; eassumption.
  - eapply star_halts; eassumption.
  - eapply star_halts; eassumption.
  - destruct S as [n S], H as (k & c2 & L & R). exists (n + k), c2. split; [lia |].
    eapply reach_trans; eassumption.
Qed.

(** Another way out. *)
Lemma sim_exit g sc lps e e' r c :
  (forall s, match e with Some (b, k) => match e' with Some (b', k') => star m g (b, k, s) (b', k', s) | None => False end
             | None => True end) ->
  sim g sc lps e r c -> sim g sc lps e' r c.
Proof.
  intros H S. destruct r as [s | l s | l s | s | s | s | s |]; try exact S. cbn in *.
  specialize (H s). destruct e as [[b k] |]; [| contradiction]. destruct e' as [[b' k'] |]; [| contradiction].
  eapply star_trans; eassumption.
Qed.

(** Going on after a normal end. *)
Definition andthen (r : @result state) (f : state -> @result state) : @result state :=
  match r with
  | Normal s => f s
  | Breaking l s => Breaking l s
  | Continuing l s => Continuing l s
  | Returning s => Returning s
  | Fails s => Fails s
  | Poisons s => Poisons s
  | Stops s => Stops s
  | NoFuel => NoFuel
  end.

Lemma sim_then g sc lps b k e r f c :
  sim g sc lps (Some (b, k)) r c ->
  (forall s, r = Normal s -> sim g sc lps e (f s) (b, k, s)) ->
  sim g sc lps e (andthen r f) c.
Proof.
  intros S H. destruct r as [s | l s | l s | s | s | s | s |]; try exact S. cbn in S.
  eapply sim_from; [exact S | now apply H].
Qed.

Lemma sim_none g sc lps e r f c :
  sim g sc lps None r c -> sim g sc lps e (andthen r f) c.
Proof. intros S. destruct r as [s | l s | l s | s | s | s | s |]; try exact S. destruct S. Qed.

(** Leaving a scope. *)
Lemma sim_leave g a sc lps b b' r c :
  Forall (fun x => depth (snd x) <= length sc) lps ->
  terminated b' = terminated b ->
  (terminated b = false -> travels m g b b' (rev a) (flat sc)) ->
  sim g (a :: sc) lps (exit_of b) r c -> sim g sc lps (exit_of b') (leaving m (rev a) r) c.
Proof.
  intros FR T TR HS.
  assert (J : forall f s k,
    (exists l, frame_of l lps = Some f) ->
    goes g (within (a :: sc) f) (beyond (a :: sc) f) k s c ->
    forall R : state -> @result state,
      (forall s', goes g (within sc f) (beyond sc f) k s' c -> sim g sc lps (exit_of b') (R s') c) ->
      sim g sc lps (exit_of b') (tree_way m (rev a) R s) c).
  { intros f s k [l EF] GO R HR.
    assert (D : depth f <= length sc).
    { clear - FR EF. induction FR as [| [x y] lps L FR IH]; [discriminate |]. cbn in EF.
      destruct (x =? l); [injection EF as ->; exact L | auto]. }
    unfold goes in GO.
    assert (W : within (a :: sc) f = rev a ++ within sc f).
    { unfold within. cbn [length]. replace (S (length sc) - depth f) with (S (length sc - depth f)) by lia. reflexivity. }
    assert (B : beyond (a :: sc) f = beyond sc f).
    { unfold beyond. cbn [length]. replace (S (length sc) - depth f) with (S (length sc - depth f)) by lia. reflexivity. }
    assert (WB : within sc f ++ beyond sc f = flat sc).
    { unfold within, beyond. rewrite <- flat_app, firstn_skipn. reflexivity. }
    rewrite W, B, on_the_way_app, WB in GO.
    destruct (tree_way_cases m (rev a) (flat sc) R s) as [(s' & E1 & E2) | (r' & E1 & E2 & E3)].
    - rewrite E2. rewrite E1 in GO. apply HR. exact GO.
    - rewrite E1. rewrite E2 in GO. destruct E3 as [[s' ->] | [[s' ->] | [s' ->]]]; exact GO. }
  destruct r as [s | l s | l s | s | s | s | s |]; cbn [leaving].
  - unfold sim, exit_of in HS. destruct (terminated b) eqn:ET; [contradiction |].
    specialize (TR eq_refl s).
    destruct (tree_way_cases m (rev a) (flat sc) Normal s) as [(s' & E1 & E2) | (r' & E1 & E2 & E3)].
    + rewrite E2. rewrite E1 in TR. cbn. unfold exit_of. rewrite T. eapply star_trans; eassumption.
    + rewrite E1. rewrite E2 in TR. eapply sim_from; [exact HS |].
      destruct E3 as [[s' ->] | [[s' ->] | [s' ->]]]; exact TR.
  - destruct HS as (f & E & GO). eapply J; [eauto | exact GO |].
    intros s' Q. exists f. auto.
  - destruct HS as (f & E & GO). eapply J; [eauto | exact GO |].
    intros s' Q. exists f. auto.
  - cbn in HS. rewrite on_the_way_app in HS. rewrite app_nil_r in HS.
    destruct (tree_way_cases m (rev a) (flat sc) Returning s) as [(s' & E1 & E2) | (r' & E1 & E2 & E3)].
    + rewrite E2. unfold flat in E1. rewrite E1 in HS. exact HS.
    + rewrite E1. unfold flat in E2 at 1. rewrite E2 in HS.
      destruct E3 as [[s' ->] | [[s' ->] | [s' ->]]]; exact HS.
  - cbn in HS. rewrite after_failure_app in HS. cbn [sim].
    destruct (tree_failure_ends m (rev a) s) as [[s' E] | [[s' E] | [s' E]]]; rewrite E in *; exact HS.
  - exact HS.
  - exact HS.
  - exact HS.
Qed.
End Machine.
