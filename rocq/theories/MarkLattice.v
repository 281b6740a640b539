(** The analysis of the frontier: its lists, its end and its meaning. *)
From Coq Require Import List Arith Bool Lia Sorted.
From Verif Require Import MarkModel MarkSpec.
Import ListNotations.

Definition sorted (l : frontier) : Prop := StronglySorted lt l.

Lemma holds_in : forall l m, holds l m = true <-> In m l.
Proof.
  intros l m. unfold holds. rewrite existsb_exists. split.
  - intros (x & I & E). apply Nat.eqb_eq in E. subst. exact I.
  - intros I. exists m. split; [exact I | apply Nat.eqb_refl].
Qed.

Lemma record_in : forall l m x, In x (record l m) <-> x = m \/ In x l.
Proof.
  induction l as [|a l IH]; intros m x; cbn [record].
  - cbn. intuition.
  - destruct (m <? a) eqn:L; [cbn; intuition|].
    destruct (m =? a) eqn:E.
    + apply Nat.eqb_eq in E. subst. cbn. intuition.
    + cbn [In]. rewrite IH. intuition.
Qed.

Lemma record_sorted : forall l m, sorted l -> sorted (record l m).
Proof.
  induction l as [|a l IH]; intros m H; cbn [record].
  - constructor; constructor.
  - inversion H as [|? ? H1 H2]; subst. destruct (m <? a) eqn:L.
    + apply Nat.ltb_lt in L. constructor; [exact H|]. constructor; [exact L|].
      eapply Forall_impl; [|exact H2]. cbn. intros. lia.
    + destruct (m =? a) eqn:E; [exact H|]. constructor; [apply IH; exact H1|].
      apply Nat.ltb_ge in L. apply Nat.eqb_neq in E.
      apply Forall_forall. intros x I. apply record_in in I. destruct I as [->|I]; [lia|].
      rewrite Forall_forall in H2. exact (H2 x I).
Qed.

Lemma intersect_nil_l : forall r, intersect [] r = [].
Proof. destruct r; reflexivity. Qed.

Lemma intersect_nil_r : forall l, intersect l [] = [].
Proof. destruct l; reflexivity. Qed.

Lemma intersect_cons : forall a l b r,
  intersect (a :: l) (b :: r) =
    if a =? b then a :: intersect l r else if a <? b then intersect l (b :: r) else intersect (a :: l) r.
Proof. reflexivity. Qed.

Lemma sorted_head : forall a l x, sorted (a :: l) -> In x l -> a < x.
Proof. intros a l x H I. inversion H as [|? ? ? F]; subst. rewrite Forall_forall in F. exact (F x I). Qed.

Lemma sorted_tail : forall a l, sorted (a :: l) -> sorted l.
Proof. intros a l H. inversion H; assumption. Qed.

Lemma intersect_in : forall l r x, sorted l -> sorted r ->
  (In x (intersect l r) <-> In x l /\ In x r).
Proof.
  induction l as [|a l IH]; intros r x Hl Hr.
  - rewrite intersect_nil_l. cbn. tauto.
  - induction r as [|b r IHr].
    + rewrite intersect_nil_r. cbn. tauto.
    + rewrite intersect_cons. destruct (a =? b) eqn:E.
      * apply Nat.eqb_eq in E. subst b. cbn [In].
        rewrite (IH r x (sorted_tail _ _ Hl) (sorted_tail _ _ Hr)). split; [intuition|].
        intros [[->|A] [B|B]]; auto.
      * apply Nat.eqb_neq in E. destruct (a <? b) eqn:L.
        { apply Nat.ltb_lt in L. rewrite (IH (b :: r) x (sorted_tail _ _ Hl) Hr). cbn [In].
          split; [intuition|]. intros [[->|A] B]; [|tauto]. exfalso.
          destruct B as [->|B]; [lia|]. pose proof (sorted_head _ _ _ Hr B). lia. }
        { apply Nat.ltb_ge in L. rewrite (IHr (sorted_tail _ _ Hr)). cbn [In].
          split; [intuition|]. intros [A [->|B]]; [|tauto]. exfalso.
          destruct A as [->|A]; [lia|]. pose proof (sorted_head _ _ _ Hl A). lia. }
Qed.

Lemma intersect_sorted : forall l r, sorted l -> sorted r -> sorted (intersect l r).
Proof.
  induction l as [|a l IH]; intros r Hl Hr.
  - rewrite intersect_nil_l. constructor.
  - induction r as [|b r IHr].
    + rewrite intersect_nil_r. constructor.
    + rewrite intersect_cons. destruct (a =? b) eqn:E.
      * constructor; [apply IH; eapply sorted_tail; eassumption|].
        apply Forall_forall. intros x I.
        apply intersect_in in I; [|eapply sorted_tail; eassumption..]. exact (sorted_head _ _ _ Hl (proj1 I)).
      * destruct (a <? b); [apply IH; [eapply sorted_tail; eassumption|exact Hr]|].
        apply IHr. eapply sorted_tail; eassumption.
Qed.

Lemma intersect_short : forall l r,
  length (intersect l r) <= length l /\ (length (intersect l r) = length l -> intersect l r = l).
Proof.
  induction l as [|a l IH]; intros r.
  - rewrite intersect_nil_l. auto.
  - induction r as [|b r IHr].
    + rewrite intersect_nil_r. cbn. split; [lia|discriminate].
    + rewrite intersect_cons. destruct (a =? b).
      * cbn [length]. destruct (IH r) as [A B]. split; [lia|]. intros Q. f_equal. apply B. lia.
      * destruct (a <? b); [|exact IHr].
        destruct (IH (b :: r)) as [A B]. cbn [length]. split; [lia|]. intros Q. lia.
Qed.

Lemma step_sorted : forall o s, sorted s -> sorted (step o s).
Proof.
  intros o s H. unfold step.
  assert (N : sorted []) by constructor.
  assert (O : forall m, sorted [m]) by (intros m; constructor; constructor).
  destruct (okind o); try (destruct (may_leave_frame_storage o); assumption).
  - destruct (result o); [apply record_sorted; exact H|exact H].
  - destruct (operands o) as [|[r|q|c] l]; try exact H. destruct (holds s r); [exact H|apply O].
Qed.

Lemma step_incl : forall o s x, In x (step o s) -> In x s \/ In x (markers_of o).
Proof.
  intros o s x. unfold step, markers_of.
  destruct (okind o);
    try (destruct (may_leave_frame_storage o); [intros []|left; assumption]).
  - destruct (result o); [|left; assumption]. rewrite record_in. cbn. intuition.
  - destruct (operands o) as [|[r|q|c] l]; try (left; assumption).
    destruct (holds s r); [left; assumption|right; assumption].
Qed.

Lemma leave_moves : forall o, may_leave_frame_storage o = true <-> moves_frontier o.
Proof.
  intros o. unfold may_leave_frame_storage, moves_frontier.
  destruct (okind o); try (split; [discriminate|tauto]); try tauto.
  rewrite existsb_exists. split.
  - intros ([r|s|c] & I & E); try discriminate. exists s. exact I.
  - intros (s & I). exists (Subscript s). split; [exact I|reflexivity].
Qed.

(** ** The end of the analysis *)

Lemma get_set : forall e b s t, get_state (set_state b s e) t =
  if (t =? b) && (b <? length e) then Some s else get_state e t.
Proof.
  unfold get_state. induction e as [|x e IH]; intros b s t.
  - cbn. rewrite andb_false_r. destruct b; destruct t; reflexivity.
  - destruct b as [|b]; destruct t as [|t]; cbn [set_state nth]; try reflexivity.
    rewrite IH. reflexivity.
Qed.

Lemma set_length : forall e b s, length (set_state b s e) = length e.
Proof. induction e as [|x e IH]; intros [|b] s; cbn; try reflexivity. f_equal. apply IH. Qed.

Section Bound.
Variable f : function.

Let B := length (all_markers f).

Definition sound_state (s : frontier) : Prop := sorted s /\ incl s (all_markers f).

Definition fine (e : states) : Prop :=
  length e = length f /\ get_state e 0 = Some [] /\
  forall b s, get_state e b = Some s -> sound_state s.

Definition cost (x : option frontier) : nat := match x with None => S B | Some l => length l end.
Definition weight (e : states) : nat := fold_right (fun x n => cost x + n) 0 e.

Lemma weight_set : forall e b s, b < length e ->
  weight (set_state b s e) + cost (get_state e b) = weight e + length s.
Proof.
  induction e as [|x e IH]; intros b s H; [cbn in H; lia|].
  destruct b as [|b]; cbn [set_state]; unfold weight in *; cbn [fold_right].
  - unfold get_state. cbn [nth]. cbn [cost]. lia.
  - cbn in H. specialize (IH b s ltac:(lia)). change (get_state (x :: e) (S b)) with (get_state e b). lia.
Qed.

Lemma sorted_nodup : forall l, sorted l -> NoDup l.
Proof.
  induction 1 as [|a l H IH F]; constructor; [|exact IH].
  intros I. rewrite Forall_forall in F. specialize (F a I). lia.
Qed.

Lemma sound_length : forall s, sound_state s -> length s <= B.
Proof. intros s [H I]. apply NoDup_incl_length; [apply sorted_nodup; exact H|exact I]. Qed.

Lemma same_frontier_true : forall a b, same_frontier a b = true <-> a = b.
Proof. intros a b. unfold same_frontier. destruct (list_eq_dec Nat.eq_dec a b); split; congruence. Qed.

Lemma flow_ok : forall succ s e ch e' ch',
  flow s succ e ch = (e', ch') -> fine e -> sound_state s -> (forall t, In t succ -> t < length f) ->
  fine e' /\ weight e' <= weight e /\
  (ch' = true -> ch = true \/ weight e' < weight e) /\
  (ch' = false -> ch = false /\ e' = e /\
     forall t, In t succ -> exists old, get_state e t = Some old /\ intersect old s = old).
Proof.
  induction succ as [|t succ IH]; intros s e ch e' ch' E F S R.
  - cbn in E. inversion E; subst. split; [exact F|]. split; [lia|]. split; [auto|].
    intros Q. split; [exact Q|]. split; [reflexivity|]. intros t [].
  - cbn [flow] in E.
    assert (R' : forall x, In x succ -> x < length f) by (intros x I; apply R; right; exact I).
    assert (T : t < length f) by (apply R; left; reflexivity).
    destruct F as (Le & F0 & Fs).
    destruct (get_state e t) as [old|] eqn:G.
    + destruct (same_frontier old (intersect old s)) eqn:Q.
      * destruct (IH s e ch e' ch' E ltac:(repeat split; auto; apply (Fs _ _ H)) S R') as (A & C & D & K).
        split; [exact A|]. split; [exact C|]. split; [exact D|].
        intros X. destruct (K X) as (K1 & K2 & K3). split; [exact K1|]. split; [exact K2|].
        intros x [<-|I]; [|exact (K3 x I)]. exists old. split; [exact G|].
        apply same_frontier_true in Q. auto.
      * assert (W : weight (set_state t (intersect old s) e) < weight e).
        { pose proof (weight_set e t (intersect old s) ltac:(lia)) as W. rewrite G in W. cbn [cost] in W.
          destruct (intersect_short old s) as [L1 L2].
          assert (length (intersect old s) <> length old).
          { intros Z. specialize (L2 Z). rewrite L2 in Q.
            assert (same_frontier old old = true) by (apply same_frontier_true; reflexivity). congruence. }
          lia. }
        assert (F' : fine (set_state t (intersect old s) e)).
        { split; [rewrite set_length; exact Le|]. split.
          - rewrite get_set. destruct ((0 =? t) && (t <? length e)) eqn:Z; [|exact F0].
            apply andb_true_iff in Z. destruct Z as [Z _]. apply Nat.eqb_eq in Z. subst t.
            rewrite F0 in G. inversion G; subst. rewrite intersect_nil_l. reflexivity.
          - intros b s' H. rewrite get_set in H. destruct ((b =? t) && (t <? length e)); [|exact (Fs b s' H)].
            inversion H; subst. destruct (Fs t old G) as [O1 O2]. destruct S as [S1 S2].
            split; [apply intersect_sorted; assumption|].
            intros x I. apply intersect_in in I; [|assumption..]. exact (O2 x (proj1 I)). }
        destruct (IH s _ true e' ch' E F' S R') as (A & C & D & K).
        split; [exact A|]. split; [lia|]. split; [intros; right; lia|].
        intros X. destruct (K X) as (K1 & _). discriminate.
    + assert (W : weight (set_state t s e) < weight e).
      { pose proof (weight_set e t s ltac:(lia)) as W. rewrite G in W. cbn [cost] in W.
        pose proof (sound_length s S). lia. }
      assert (F' : fine (set_state t s e)).
      { split; [rewrite set_length; exact Le|]. split.
        - rewrite get_set. destruct ((0 =? t) && (t <? length e)) eqn:Z; [|exact F0].
          apply andb_true_iff in Z. destruct Z as [Z _]. apply Nat.eqb_eq in Z. subst t. congruence.
        - intros b s' H. rewrite get_set in H. destruct ((b =? t) && (t <? length e)); [|exact (Fs b s' H)].
          inversion H; subst. exact S. }
      destruct (IH s _ true e' ch' E F' S R') as (A & C & D & K).
      split; [exact A|]. split; [lia|]. split; [intros; right; lia|].
      intros X. destruct (K X) as (K1 & _). discriminate.
Qed.

Lemma markers_in : forall b bl o x, nth_error f b = Some bl -> In o (block_ops bl) ->
  In x (markers_of o) -> In x (all_markers f).
Proof.
  intros b bl o x H I X. unfold all_markers. apply in_flat_map. exists o. split; [|exact X].
  apply in_flat_map. exists bl. split; [|exact I]. exact (nth_error_In _ _ H).
Qed.

Lemma step_sound : forall b bl o s, nth_error f b = Some bl -> In o (block_ops bl) ->
  sound_state s -> sound_state (step o s).
Proof.
  intros b bl o s H I [A C]. split; [apply step_sorted; exact A|].
  intros x X. apply step_incl in X. destruct X as [X|X]; [exact (C x X)|].
  exact (markers_in b bl o x H I X).
Qed.

Lemma fold_sound : forall b bl l s, nth_error f b = Some bl -> incl l (block_ops bl) ->
  sound_state s -> sound_state (fold_left (fun s o => step o s) l s).
Proof.
  intros b bl l. induction l as [|o l IH]; intros s H I S; cbn [fold_left]; [exact S|].
  apply IH; [exact H|intros x X; apply I; right; exact X|].
  apply (step_sound b bl); [exact H|apply I; left; reflexivity|exact S].
Qed.

Lemma transfer_sound : forall b bl s, nth_error f b = Some bl -> sound_state s ->
  sound_state (transfer bl s).
Proof.
  intros b bl s H S. unfold transfer.
  assert (A : sound_state (fold_left (fun s o => step o s) (ops bl) s)).
  { apply (fold_sound b bl); [exact H| |exact S]. intros x X. unfold block_ops. apply in_or_app. left. exact X. }
  destruct (tail bl) eqn:T; try exact A.
  apply (step_sound b bl); [exact H| |exact A].
  unfold block_ops. rewrite T. apply in_or_app. right. left. reflexivity.
Qed.

Hypothesis inside : forall b bl t, nth_error f b = Some bl -> In t (successors (tail bl)) -> t < length f.

Lemma sweep_ok : forall bls b e ch e' ch',
  sweep bls b e ch = (e', ch') -> fine e ->
  (forall i bl, nth_error bls i = Some bl -> nth_error f (b + i) = Some bl) ->
  fine e' /\ weight e' <= weight e /\
  (ch' = true -> ch = true \/ weight e' < weight e) /\
  (ch' = false -> ch = false /\ e' = e /\
     forall i bl s t, nth_error bls i = Some bl -> get_state e (b + i) = Some s ->
       In t (successors (tail bl)) -> exists old, get_state e t = Some old /\ intersect old (transfer bl s) = old).
Proof.
  induction bls as [|bl bls IH]; intros b e ch e' ch' E F N.
  - cbn in E. inversion E; subst. split; [exact F|]. split; [lia|]. split; [auto|].
    intros Q. split; [exact Q|]. split; [reflexivity|]. intros [|i]; discriminate.
  - cbn [sweep] in E.
    assert (N' : forall i x, nth_error bls i = Some x -> nth_error f (S b + i) = Some x).
    { intros i x H. replace (S b + i) with (b + S i) by lia. apply N. exact H. }
    assert (H0 : nth_error f b = Some bl) by (rewrite <- (Nat.add_0_r b); apply N; reflexivity).
    destruct (get_state e b) as [s|] eqn:G.
    + destruct (flow (transfer bl s) (successors (tail bl)) e ch) as [e1 ch1] eqn:Fl.
      destruct F as (Le & F0 & Fs).
      destruct (flow_ok _ _ _ _ _ _ Fl (conj Le (conj F0 Fs)) (transfer_sound b bl s H0 (Fs b s G))
                  (fun t I => inside b bl t H0 I)) as (A & C & D & K).
      destruct (IH _ _ _ _ _ E A N') as (A' & C' & D' & K').
      split; [exact A'|]. split; [lia|]. split.
      * intros Q. destruct (D' Q) as [Q'|Q']; [|right; lia]. destruct (D Q') as [?|?]; [left; assumption|right; lia].
      * intros Q. destruct (K' Q) as (K1 & K2 & K3). destruct (K K1) as (J1 & J2 & J3).
        subst e' e1. split; [exact J1|]. split; [reflexivity|].
        intros [|i] x s' t X Y Z.
        { cbn in X. inversion X; subst. rewrite Nat.add_0_r in Y. rewrite G in Y. inversion Y; subst. exact (J3 t Z). }
        { apply (K3 i x s' t X); [|exact Z]. replace (S b + i) with (b + S i) by lia. exact Y. }
    + destruct (IH _ _ _ _ _ E F N') as (A' & C' & D' & K').
      split; [exact A'|]. split; [exact C'|]. split; [exact D'|].
      intros Q. destruct (K' Q) as (K1 & K2 & K3). split; [exact K1|]. split; [exact K2|].
      intros [|i] x s' t X Y Z.
      * rewrite Nat.add_0_r in Y. congruence.
      * apply (K3 i x s' t X); [|exact Z]. replace (S b + i) with (b + S i) by lia. exact Y.
Qed.

(** The states flow along every edge. *)
Definition settled (e : states) : Prop :=
  forall b bl s t, nth_error f b = Some bl -> get_state e b = Some s -> In t (successors (tail bl)) ->
    exists old, get_state e t = Some old /\ intersect old (transfer bl s) = old.

Lemma sweeps_ok : forall n e, fine e -> weight e < n ->
  exists e', sweeps n f e = Some e' /\ fine e' /\ settled e'.
Proof.
  induction n as [|n IH]; intros e F L; [lia|].
  cbn [sweeps]. destruct (sweep f 0 e false) as [e1 ch] eqn:E.
  destruct (sweep_ok f 0 e false e1 ch E F ltac:(intros; assumption)) as (A & C & D & K).
  destruct ch.
  - destruct (D eq_refl) as [D'|D']; [discriminate|]. apply IH; [exact A|lia].
  - destruct (K eq_refl) as (_ & K2 & K3). subst e1. exists e. split; [reflexivity|]. split; [exact A|].
    intros b bl s t X Y Z. exact (K3 b bl s t X Y Z).
Qed.

Lemma get_repeat : forall n b, get_state (repeat None n) b = None.
Proof. unfold get_state. induction n as [|n IH]; intros [|b]; cbn; try reflexivity. apply IH. Qed.

Lemma weight_repeat : forall n, weight (repeat None n) = n * S B.
Proof.
  induction n as [|n IH]; [reflexivity|]. cbn [repeat]. unfold weight in *. cbn [fold_right].
  rewrite IH. cbn [cost]. lia.
Qed.

Hypothesis entry : 0 < length f.

Definition initial : states := set_state 0 [] (repeat None (length f)).

Lemma initial_fine : fine initial.
Proof.
  unfold initial. split; [rewrite set_length, repeat_length; reflexivity|].
  assert (X : (0 <? length (@repeat (option frontier) None (length f))) = true)
    by (rewrite repeat_length; apply Nat.ltb_lt; exact entry).
  split; [rewrite get_set, X; reflexivity|].
  intros b s H. rewrite get_set, X in H. destruct (b =? 0); cbn in H.
  - inversion H; subst. split; [constructor|intros x []].
  - rewrite get_repeat in H. discriminate.
Qed.

Lemma analyze_ok : exists e, analyze f = Some e /\ fine e /\ settled e.
Proof.
  unfold analyze. apply sweeps_ok; [exact initial_fine|].
  unfold sweeps_enough. fold B.
  pose proof (weight_set (repeat None (length f)) 0 [] ltac:(rewrite repeat_length; exact entry)) as W.
  rewrite get_repeat, weight_repeat in W. cbn [cost length] in W. fold initial in *.
  change (set_state 0 [] (repeat None (length f))) with initial in *. lia.
Qed.
End Bound.
