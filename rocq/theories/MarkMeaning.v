(** The states of the analysis are the markers that are current on every walk. *)
From Coq Require Import List Arith Bool Lia Sorted.
From Verif Require Import MarkModel MarkSpec MarkLattice.
Import ListNotations.

Lemma saves_fun : forall o m m', saves o m -> saves o m' -> m = m'.
Proof. intros o m m' [_ A] [_ B]. congruence. Qed.

Lemma restores_fun : forall o m m', restores o m -> restores o m' -> m = m'.
Proof. intros o m m' [_ [x A]] [_ [y B]]. congruence. Qed.

Lemma saves_not_restores : forall o m m', saves o m -> restores o m' -> False.
Proof. intros o m m' [A _] [B _]. congruence. Qed.

Lemma firstn_snoc : forall {A} i (l : list A) x, nth_error l i = Some x ->
  firstn (S i) l = firstn i l ++ [x].
Proof.
  intros A i. induction i as [|i IH]; intros [|a l] x H; try discriminate.
  - cbn in H. inversion H; subst. reflexivity.
  - cbn in H. cbn [firstn app]. f_equal. exact (IH l x H).
Qed.

(** The state before the operation [i] of a block. *)
Definition before (bl : block) (s : frontier) (i : nat) : frontier :=
  fold_left (fun s o => step o s) (firstn i (ops bl)) s.

Lemma before_0 : forall bl s, before bl s 0 = s.
Proof. reflexivity. Qed.

Lemma before_S : forall bl s i o, nth_error (ops bl) i = Some o ->
  before bl s (S i) = step o (before bl s i).
Proof.
  intros bl s i o H. unfold before. rewrite (firstn_snoc i (ops bl) o H), fold_left_app. reflexivity.
Qed.

Lemma before_end : forall bl s, before bl s (length (ops bl)) = fold_left (fun s o => step o s) (ops bl) s.
Proof. intros. unfold before. rewrite firstn_all. reflexivity. Qed.

(** A step adds nothing that is not current. *)
Lemma step_below : forall o s q tr x,
  (forall m, In m s -> current_after tr m) -> In x (step o s) ->
  (okind o = StackSave -> exists m, saves o m) -> (okind o = StackRestore -> exists m, restores o m) ->
  current_after ((q, o) :: tr) x.
Proof.
  intros o s q tr x A I Sv Rs. cbn [current_after]. unfold step in I.
  destruct (okind o) eqn:K;
    try (destruct (may_leave_frame_storage o) eqn:L; [destruct I|];
         right; right; right; right;
         repeat split; try discriminate; [|exact (A x I)];
         rewrite <- leave_moves; congruence).
  - destruct (Sv eq_refl) as [m Hm]. destruct Hm as [_ R]. rewrite R in I. apply record_in in I.
    destruct I as [->|I]; [left; split; assumption|]. right. right. left. split; [reflexivity|exact (A x I)].
  - destruct (Rs eq_refl) as [m Hm]. pose proof Hm as [_ [l R]]. rewrite R in I.
    destruct (holds s m) eqn:Q.
    + apply holds_in in Q. right. right. right. left. exists m. auto.
    + destruct I as [->|[]]. right. left. exact Hm.
Qed.

(** A step loses nothing that is current on every walk. *)
Lemma step_above : forall (P : list (site * op) -> Prop) o s q x,
  (exists tr, P tr) ->
  (forall m, (forall tr, P tr -> current_after tr m) -> In m s) ->
  (forall tr, P tr -> current_after ((q, o) :: tr) x) ->
  In x (step o s).
Proof.
  intros P o s q x [tr0 P0] A C. cbn [current_after] in C. unfold step.
  assert (other : okind o <> StackSave -> okind o <> StackRestore ->
                  In x (if may_leave_frame_storage o then [] else s)).
  { intros N1 N2. destruct (C tr0 P0) as [[H _]|[[H _]|[[H _]|[(r & [H _] & _)|(_ & _ & H & _)]]]];
      try contradiction.
    destruct (may_leave_frame_storage o) eqn:L; [apply leave_moves in L; contradiction|].
    apply A. intros tr Pt. destruct (C tr Pt) as [[H' _]|[[H' _]|[[H' _]|[(r & [H' _] & _)|(_ & _ & _ & H')]]]];
      try contradiction. exact H'. }
  destruct (okind o) eqn:K; try (apply other; discriminate).
  - destruct (result o) as [r|] eqn:R.
    + apply record_in. destruct (Nat.eq_dec x r) as [->|N]; [left; reflexivity|right].
      apply A. intros tr Pt.
      destruct (C tr Pt) as [[_ H]|[[H _]|[[_ H]|[(y & [H _] & _)|(H & _)]]]]; try congruence.
    + apply A. intros tr Pt.
      destruct (C tr Pt) as [[_ H]|[[H _]|[[_ H]|[(y & [H _] & _)|(H & _)]]]]; try congruence.
  - assert (Rs : exists r l, operands o = Reg r :: l).
    { destruct (C tr0 P0) as [[H _]|[[_ [l H]]|[[H _]|[(y & [_ [l H]] & _)|(_ & H & _)]]]]; try congruence; eauto. }
    destruct Rs as (r & l & R). rewrite R.
    assert (cases : x = r \/ (forall tr, P tr -> current_after tr r /\ current_after tr x)).
    { destruct (Nat.eq_dec x r) as [E|N]; [left; exact E|right]. intros tr Pt.
      destruct (C tr Pt) as [[H _]|[[_ [l' H]]|[[H _]|[(y & [_ [l' H]] & Y & Z)|(_ & H & _)]]]]; try congruence.
      rewrite R in H. inversion H; subst. auto. }
    destruct (holds s r) eqn:Q.
    + apply holds_in in Q. destruct cases as [->|H]; [exact Q|]. apply A. intros tr Pt. exact (proj2 (H tr Pt)).
    + destruct cases as [->|H]; [left; reflexivity|]. exfalso.
      assert (I : In r s) by (apply A; intros tr Pt; exact (proj1 (H tr Pt))).
      apply holds_in in I. congruence.
Qed.

Section Meaning.
Variable f : function.
Hypothesis V : verified f.

Lemma op_at_intro : forall b bl i o, nth_error f b = Some bl -> nth_error (ops bl) i = Some o -> op_at f (b, i) o.
Proof. intros b bl i o A C. exists bl. auto. Qed.

(** Soundness. *)
Section Sound.
Variable e : states.
Hypothesis Fe : fine f e.
Hypothesis Se : settled f e.

Lemma edge : forall b bl s t, nth_error f b = Some bl -> get_state e b = Some s ->
  In t (successors (tail bl)) ->
  exists old, get_state e t = Some old /\ (forall m, In m old -> In m (transfer bl s)).
Proof.
  intros b bl s t H G I. destruct (Se b bl s t H G I) as (old & G' & Q). exists old. split; [exact G'|].
  intros m M. rewrite <- Q in M. destruct Fe as (_ & _ & Fs).
  apply intersect_in in M; [exact (proj2 M)| |].
  - exact (proj1 (Fs _ _ G')).
  - exact (proj1 (transfer_sound f b bl s H (Fs _ _ G))).
Qed.

Lemma below : forall tr p, walk f tr p -> exists s, get_state e (fst p) = Some s /\
  forall bl, nth_error f (fst p) = Some bl -> forall m, In m (before bl s (snd p)) -> current_after tr m.
Proof.
  induction 1 as [|tr b i bl o W IH H N|tr b bl o n er t W IH H T Q|tr b bl t W IH H Q]; cbn [fst snd] in *.
  - exists []. split; [exact (proj1 (proj2 Fe))|]. intros bl _ m. rewrite before_0. intros [].
  - destruct IH as (s & G & A). exists s. split; [exact G|]. intros bl' H' m I.
    assert (bl' = bl) by congruence. subst bl'. rewrite (before_S bl s i o N) in I.
    apply (step_below o (before bl s i) (b, i) tr m); [exact (A bl H)|exact I| |].
    + intros K. exact (save_result f V (b, i) o (op_at_intro b bl i o H N) K).
    + intros K. exact (restore_operand f V (b, i) o (op_at_intro b bl i o H N) K).
  - destruct IH as (s & G & A).
    destruct (edge b bl s t H G) as (old & G' & Lo); [rewrite T; cbn; intuition|].
    exists old. split; [exact G'|]. intros bl' _ m I. rewrite before_0 in I. specialize (Lo m I).
    unfold transfer in Lo. rewrite T, <- before_end in Lo.
    destruct (invoked_fallible f V b bl o n er H T) as [K1 K2].
    apply (step_below o _ (b, length (ops bl)) tr m (A bl H) Lo); intros; contradiction.
  - destruct IH as (s & G & A).
    destruct (edge b bl s t H G) as (old & G' & Lo).
    { destruct Q as [->|[(c & x & [->| ->])|(v & ->)]]; cbn; intuition. }
    exists old. split; [exact G'|]. intros bl' _ m I. rewrite before_0 in I. specialize (Lo m I).
    unfold transfer in Lo. rewrite <- before_end in Lo.
    assert (Lo' : In m (before bl s (length (ops bl)))).
    { destruct Q as [E|[(c & x & [E|E])|(v & E)]]; rewrite E in Lo; exact Lo. }
    exact (A bl H m Lo').
Qed.
End Sound.

(** Completeness. *)
Definition above (e : states) : Prop :=
  forall b s, get_state e b = Some s ->
    (exists tr, walk f tr (b, 0)) /\ forall m, current f (b, 0) m -> In m s.

Lemma above_before : forall b bl s, nth_error f b = Some bl ->
  (exists tr, walk f tr (b, 0)) -> (forall m, current f (b, 0) m -> In m s) ->
  forall i, i <= length (ops bl) ->
    (exists tr, walk f tr (b, i)) /\ forall m, current f (b, i) m -> In m (before bl s i).
Proof.
  intros b bl s H R A. induction i as [|i IH]; intros L; [split; assumption|].
  destruct (IH ltac:(lia)) as [[tr W] C].
  destruct (nth_error (ops bl) i) as [o|] eqn:N; [|apply nth_error_None in N; lia].
  split; [exists (((b, i), o) :: tr); exact (walk_op f tr b i bl o W H N)|].
  intros m Cm. rewrite (before_S bl s i o N).
  apply (step_above (fun tr => walk f tr (b, i)) o (before bl s i) (b, i) m).
  - exists tr. exact W.
  - exact C.
  - intros tr' W'. apply Cm. exact (walk_op f tr' b i bl o W' H N).
Qed.

Lemma above_transfer : forall b bl s t, nth_error f b = Some bl ->
  (exists tr, walk f tr (b, 0)) -> (forall m, current f (b, 0) m -> In m s) ->
  In t (successors (tail bl)) ->
  (exists tr, walk f tr (t, 0)) /\ forall m, current f (t, 0) m -> In m (transfer bl s).
Proof.
  intros b bl s t H R A I.
  destruct (above_before b bl s H R A (length (ops bl)) (le_n _)) as [[tr W] C].
  unfold transfer. rewrite <- before_end. destruct (tail bl) as [x|c x y|o n er| | | |v x] eqn:T; cbn in I.
  - destruct I as [->|[]].
    assert (Q : forall tr, walk f tr (b, length (ops bl)) -> walk f tr (t, 0))
      by (intros tr' W'; apply (walk_goto f tr' b bl t W' H); left; exact T).
    split; [exists tr; exact (Q tr W)|]. intros m Cm. apply C. intros tr' W'. exact (Cm tr' (Q tr' W')).
  - assert (Q : forall tr, walk f tr (b, length (ops bl)) -> walk f tr (t, 0)).
    { intros tr' W'. apply (walk_goto f tr' b bl t W' H). right. left.
      destruct I as [->|[->|[]]]; [exists c, y|exists c, x]; auto. }
    split; [exists tr; exact (Q tr W)|]. intros m Cm. apply C. intros tr' W'. exact (Cm tr' (Q tr' W')).
  - assert (Q : forall tr, walk f tr (b, length (ops bl)) -> walk f (((b, length (ops bl)), o) :: tr) (t, 0)).
    { intros tr' W'. apply (walk_invoke f tr' b bl o n er t W' H T). intuition. }
    split; [eexists; exact (Q tr W)|]. intros m Cm.
    apply (step_above (fun tr => walk f tr (b, length (ops bl))) o _ (b, length (ops bl)) m).
    + exists tr. exact W.
    + exact C.
    + intros tr' W'. exact (Cm _ (Q tr' W')).
  - destruct I.
  - destruct I.
  - destruct I.
  - destruct I as [->|[]].
    assert (Q : forall tr, walk f tr (b, length (ops bl)) -> walk f tr (t, 0)).
    { intros tr' W'. apply (walk_goto f tr' b bl t W' H). right. right. exists v. exact T. }
    split; [exists tr; exact (Q tr W)|]. intros m Cm. apply C. intros tr' W'. exact (Cm tr' (Q tr' W')).
Qed.

Lemma flow_above : forall succ s e ch e' ch',
  flow s succ e ch = (e', ch') -> fine f e -> sound_state f s -> above e ->
  (forall t, In t succ -> t < length f) ->
  (forall t, In t succ -> (exists tr, walk f tr (t, 0)) /\ forall m, current f (t, 0) m -> In m s) ->
  above e'.
Proof.
  induction succ as [|t succ IH]; intros s e ch e' ch' E F S A R X.
  - cbn in E. inversion E; subst. exact A.
  - cbn [flow] in E.
    assert (R' : forall x, In x succ -> x < length f) by (intros; apply R; right; assumption).
    assert (X' : forall t, In t succ -> (exists tr, walk f tr (t, 0)) /\ forall m, current f (t, 0) m -> In m s)
      by (intros; apply X; right; assumption).
    destruct (X t (or_introl eq_refl)) as [Xr Xc].
    destruct (get_state e t) as [old|] eqn:G.
    + destruct (same_frontier old (intersect old s)) eqn:Q; [exact (IH s e ch e' ch' E F S A R' X')|].
      assert (E1 : flow s [t] e false = (set_state t (intersect old s) e, true)).
      { cbn [flow]. rewrite G, Q. reflexivity. }
      assert (F1 : fine f (set_state t (intersect old s) e)).
      { refine (proj1 (flow_ok f [t] s e false _ _ E1 F S _)). intros x [<-|[]]. apply R. left. reflexivity. }
      apply (IH s _ true e' ch' E F1 S); [|exact R'|exact X'].
      intros b s' H. rewrite get_set in H. destruct ((b =? t) && (t <? length e)) eqn:Z; [|exact (A b s' H)].
      inversion H; subst. apply andb_true_iff in Z. destruct Z as [Z _]. apply Nat.eqb_eq in Z. subst b.
      split; [exact Xr|]. intros m C. apply intersect_in.
      * exact (proj1 (proj2 (proj2 F) t old G)).
      * exact (proj1 S).
      * split; [exact (proj2 (A t old G) m C)|exact (Xc m C)].
    + assert (E1 : flow s [t] e false = (set_state t s e, true)).
      { cbn [flow]. rewrite G. reflexivity. }
      assert (F1 : fine f (set_state t s e)).
      { refine (proj1 (flow_ok f [t] s e false _ _ E1 F S _)). intros x [<-|[]]. apply R. left. reflexivity. }
      apply (IH s _ true e' ch' E F1 S); [|exact R'|exact X'].
      intros b s' H. rewrite get_set in H. destruct ((b =? t) && (t <? length e)) eqn:Z; [|exact (A b s' H)].
      inversion H; subst. apply andb_true_iff in Z. destruct Z as [Z _]. apply Nat.eqb_eq in Z. subst b.
      split; assumption.
Qed.

Lemma sweep_above : forall bls b e ch e' ch',
  sweep bls b e ch = (e', ch') -> fine f e -> above e ->
  (forall i bl, nth_error bls i = Some bl -> nth_error f (b + i) = Some bl) ->
  above e'.
Proof.
  induction bls as [|bl bls IH]; intros b e ch e' ch' E F A N.
  - cbn in E. inversion E; subst. exact A.
  - cbn [sweep] in E.
    assert (N' : forall i x, nth_error bls i = Some x -> nth_error f (S b + i) = Some x).
    { intros i x H. replace (S b + i) with (b + S i) by lia. apply N. exact H. }
    assert (H0 : nth_error f b = Some bl) by (rewrite <- (Nat.add_0_r b); apply N; reflexivity).
    destruct (get_state e b) as [s|] eqn:G; [|exact (IH _ _ _ _ _ E F A N')].
    destruct (flow (transfer bl s) (successors (tail bl)) e ch) as [e1 ch1] eqn:Fl.
    pose proof (transfer_sound f b bl s H0 (proj2 (proj2 F) b s G)) as S.
    assert (R : forall t, In t (successors (tail bl)) -> t < length f)
      by (intros t I; exact (jumps_inside f V b bl t H0 I)).
    destruct (A b s G) as [Ar Ac].
    pose proof (proj1 (flow_ok f _ _ _ _ _ _ Fl F S R)) as F1.
    apply (IH _ _ _ _ _ E F1); [|exact N'].
    apply (flow_above _ _ _ _ _ _ Fl F S A R).
    intros t I. exact (above_transfer b bl s t H0 Ar Ac I).
Qed.

Lemma sweeps_above : forall n e e', fine f e -> above e -> sweeps n f e = Some e' -> above e'.
Proof.
  induction n as [|n IH]; intros e e' F A E; [discriminate|].
  cbn [sweeps] in E. destruct (sweep f 0 e false) as [e1 ch] eqn:Q.
  assert (N : forall i bl, nth_error f i = Some bl -> nth_error f (0 + i) = Some bl) by auto.
  pose proof (sweep_above f 0 e false e1 ch Q F A N) as A1.
  pose proof (proj1 (sweep_ok f (jumps_inside f V) f 0 e false e1 ch Q F N)) as F1.
  destruct ch; [exact (IH e1 e' F1 A1 E)|]. inversion E; subst. exact A1.
Qed.

Lemma initial_above : above (initial f).
Proof.
  intros b s H. unfold initial in H. rewrite get_set, repeat_length in H.
  assert (X : (0 <? length f) = true) by (apply Nat.ltb_lt; exact (has_entry f V)).
  rewrite X in H. destruct (b =? 0) eqn:Z; cbn in H.
  - apply Nat.eqb_eq in Z. subst b. inversion H; subst. split; [exists []; constructor|].
    intros m C. destruct (C [] (walk_start f)).
  - rewrite get_repeat in H. discriminate.
Qed.

(** The analysis is exact. *)
Theorem analyze_exact : exists e, analyze f = Some e /\
  (forall tr p, walk f tr p -> exists s, get_state e (fst p) = Some s) /\
  (forall b bl s, nth_error f b = Some bl -> get_state e b = Some s ->
     forall i, i <= length (ops bl) -> (exists tr, walk f tr (b, i)) /\
       forall m, In m (before bl s i) <-> current f (b, i) m).
Proof.
  destruct (analyze_ok f (jumps_inside f V) (has_entry f V)) as (e & E & F & Se).
  exists e. split; [exact E|]. split.
  - intros tr p W. destruct (below e F Se tr p W) as (s & G & _). exists s. exact G.
  - intros b bl s H G i L.
    pose proof (sweeps_above _ _ e (initial_fine f (has_entry f V)) initial_above E) as A.
    destruct (A b s G) as [Ar Ac].
    destruct (above_before b bl s H Ar Ac i L) as [Br Bc].
    split; [exact Br|]. intros m. split; [|exact (Bc m)].
    intros I tr W. destruct (below e F Se tr (b, i) W) as (s' & G' & C). cbn [fst snd] in *.
    assert (s' = s) by congruence. subst s'. exact (C bl H m I).
Qed.
End Meaning.
