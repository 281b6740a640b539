(** The edits keep the behaviour of a body. *)
From Coq Require Import List Arith Bool Lia.
From Verif Require Import ListUtil GraphSpec GraphProofs MirModel TermSpec WillReturnSpec SimSpec
  GraphModel WillReturnModel WillReturnCfg EditModel SimProofs EditSpec.
Import ListNotations.

Lemma fid_eqb_spec : forall a b, reflect (a = b) (fid_eqb a b).
Proof.
  intros [a1 a2] [b1 b2]. unfold fid_eqb. cbn [fst snd].
  destruct (Nat.eqb_spec a1 b1); [|constructor; congruence].
  destruct (Nat.eqb_spec a2 b2); constructor; congruence.
Qed.

Lemma with_body_same : forall P C bodies f (fn : function P C), with_body bodies f fn f = Some fn.
Proof. intros. unfold with_body. destruct (fid_eqb_spec f f); congruence. Qed.
Lemma with_body_other : forall P C bodies f (fn : function P C) h, h <> f -> with_body bodies f fn h = bodies h.
Proof. intros. unfold with_body. destruct (fid_eqb_spec h f); congruence. Qed.

Lemma renamed_refl : forall P C (R : nat -> nat -> Prop) (t : terminator P C),
  (forall b, In b (successors t) -> R b b) -> renamed R t t.
Proof. intros P C R t H. destruct t; cbn in *; auto 10. Qed.

Lemma renamed_weaken : forall P C (R R' : nat -> nat -> Prop) (t t' : terminator P C),
  (forall a a', In a (successors t) -> R a a' -> R' a a') -> renamed R t t' -> renamed R' t t'.
Proof. intros P C R R' t t' H. destruct t, t'; cbn in *; intuition auto 10. Qed.

(** Two bodies of one function that can be matched block by block. *)
Lemma body_equivalent : forall m bodies f (fn fn' : function (payload m) (cond m)) (R : nat -> nat -> Prop),
  R entry entry ->
  (forall b b', R b b' -> exists ops t t', chain m fn b ops t /\ chain m fn' b' ops t' /\ renamed R t t') ->
  equivalent any_event m (with_body bodies f fn) (with_body bodies f fn').
Proof.
  intros m bodies f fn fn' R E H.
  apply rearranged_equivalent with (P := fun h b b' => (h = f /\ R b b') \/ (h <> f /\ b = b')).
  - intros h. unfold with_body. destruct (fid_eqb h f); [split; discriminate|tauto].
  - intros h. destruct (fid_eqb_spec h f); auto.
  - intros h b b' g g' HP E1 E2. destruct HP as [(-> & HR)|(NE & <-)].
    + rewrite with_body_same in E1, E2. injection E1 as <-. injection E2 as <-.
      right. destruct (H b b' HR) as (ops & t & t' & A & B & C). exists ops, t, t'.
      split; auto. split; auto. eapply renamed_weaken; [|exact C]. auto.
    + rewrite with_body_other in E1, E2 by exact NE.
      assert (g' = g) by congruence. subst g'.
      destruct (nth_error g b) as [blk|] eqn:N; [right|left; auto].
      exists (operations blk), (term blk), (term blk).
      split; [constructor; auto|]. split; [constructor; auto|]. apply renamed_refl. auto.
Qed.

Lemma rearranged_same : forall m bodies f (fn fn' : function (payload m) (cond m)) order,
  rearranged fn order fn' -> nth_error order 0 = Some entry ->
  equivalent any_event m (with_body bodies f fn) (with_body bodies f fn').
Proof.
  intros m bodies f fn fn' order (_ & H) E.
  apply body_equivalent with (R := fun b i => nth_error order i = Some b); [exact E|].
  intros b i N. destruct (H i b N) as (blk & blk' & A & B & O & T).
  exists (operations blk), (term blk), (term blk'). split; [constructor; exact A|].
  split; [rewrite <- O; constructor; exact B|exact T].
Qed.

Section Edit.
Context {prim cnd : Type}.
Notation function := (function prim cnd).

(** ** Renumbering targets *)
Lemma lookup_val : forall tbl b i, lookup tbl b = Val i <-> nth_error tbl b = Some (Some i).
Proof.
  intros tbl b i. unfold lookup. destruct (nth_error tbl b) as [[j|]|]; split; intros H; try discriminate; congruence.
Qed.

Lemma retarget_ok : forall tbl (t : terminator prim cnd),
  (forall s, In s (successors t) -> exists i, lookup tbl s = Val i) ->
  exists t', retarget tbl t = Val t' /\ renamed (fun a b => lookup tbl a = Val b) t t'.
Proof.
  intros tbl t H. destruct t as [b|q a b|o a b|p b| | |]; cbn [retarget successors] in *.
  - destruct (H b) as (i & E); [left; reflexivity|]. rewrite E. cbn [bind]. eexists. split; [reflexivity|]. exact E.
  - destruct (H a) as (i & E); [left; reflexivity|]. destruct (H b) as (j & E'); [right; left; reflexivity|].
    rewrite E. cbn [bind]. rewrite E'. cbn [bind]. eexists. split; [reflexivity|]. cbn. auto.
  - destruct (H a) as (i & E); [left; reflexivity|]. destruct (H b) as (j & E'); [right; left; reflexivity|].
    rewrite E. cbn [bind]. rewrite E'. cbn [bind]. eexists. split; [reflexivity|]. cbn. auto.
  - destruct (H b) as (i & E); [left; reflexivity|]. rewrite E. cbn [bind]. eexists. split; [reflexivity|]. cbn. auto.
  - eexists. split; [reflexivity|]. exact I.
  - eexists. split; [reflexivity|]. exact I.
  - eexists. split; [reflexivity|]. exact I.
Qed.

Lemma retarget_all_ok : forall tbl (blks : list (block prim cnd)),
  (forall blk s, In blk blks -> In s (successors (term blk)) -> exists i, lookup tbl s = Val i) ->
  exists blks', retarget_all tbl blks = Val blks' /\
    Forall2 (fun blk blk' => operations blk' = operations blk /\
               renamed (fun a b => lookup tbl a = Val b) (term blk) (term blk')) blks blks'.
Proof.
  intros tbl blks. induction blks as [|blk blks IH]; intros H.
  - exists []. split; [reflexivity|constructor].
  - destruct (retarget_ok tbl (term blk)) as (t' & E & R).
    { intros s I. apply (H blk s); [left; reflexivity|exact I]. }
    destruct IH as (blks' & E' & F).
    { intros b s I1 I2. apply (H b s); [right; exact I1|exact I2]. }
    cbn [retarget_all]. unfold retarget_block. rewrite E. cbn [bind]. rewrite E'. cbn [bind].
    eexists. split; [reflexivity|]. constructor; [|exact F]. cbn. auto.
Qed.

Lemma Forall2_nth : forall A B (R : A -> B -> Prop) l l', Forall2 R l l' -> forall i x, nth_error l i = Some x ->
  exists y, nth_error l' i = Some y /\ R x y.
Proof.
  intros A B R l l' H. induction H as [|a b l l' HR H IH]; intros [|i] x E; cbn in *; try discriminate.
  - injection E as <-. eauto.
  - apply IH, E.
Qed.

Lemma Forall2_same_length : forall A B (R : A -> B -> Prop) l l', Forall2 R l l' -> length l = length l'.
Proof. intros A B R l l' H. induction H; cbn; auto. Qed.

(** Blocks [order] renumbered by the inverse of [order]. *)
Lemma retarget_rearranged : forall (fn blks : function) order tbl,
  length blks = length order ->
  (forall i b, nth_error order i = Some b -> exists blk, nth_error fn b = Some blk /\ nth_error blks i = Some blk) ->
  (forall b i, nth_error tbl b = Some (Some i) <-> nth_error order i = Some b) ->
  (forall b b', In b order -> flows fn b b' -> In b' order) ->
  exists fn', retarget_all tbl blks = Val fn' /\ rearranged fn order fn'.
Proof.
  intros fn blks order tbl LE PL TB CL.
  destruct (retarget_all_ok tbl blks) as (fn' & E & F).
  { intros blk s I1 I2. destruct (In_nth_error _ _ I1) as (i & Ni).
    assert (Li : i < length order) by (rewrite <- LE; apply nth_error_Some; congruence).
    destruct (in_range _ order i Li) as (b & Nb).
    destruct (PL i b Nb) as (blk' & A & B). assert (blk' = blk) by congruence. subst blk'.
    assert (IS : In s order).
    { apply (CL b s); [eapply nth_error_In; eauto|]. exists blk. auto. }
    destruct (In_nth_error _ _ IS) as (j & Nj). exists j. apply lookup_val, TB, Nj. }
  exists fn'. split; [exact E|]. split.
  - rewrite <- LE. symmetry. eapply Forall2_same_length; eauto.
  - intros i b Nb. destruct (PL i b Nb) as (blk & A & B).
    destruct (Forall2_nth _ _ _ _ _ F i blk B) as (blk' & A' & O & T).
    exists blk, blk'. repeat split; auto.
    eapply renamed_weaken; [|exact T]. cbn. intros a a' _ K. apply TB, lookup_val, K.
Qed.

Lemma rearranged_id : forall fn : function, well_formed_body fn -> rearranged fn (seq 0 (length fn)) fn.
Proof.
  intros fn WF. split; [rewrite seq_length; reflexivity|].
  intros i b N.
  assert (L : i < length fn) by (rewrite <- (seq_length (length fn) 0); apply nth_error_Some; congruence).
  assert (b = i) by (rewrite (nth_error_nth' _ 0), seq_nth in N by (rewrite ?seq_length; exact L); cbn in N; congruence).
  subst b. destruct (in_range _ fn i L) as (blk & E). exists blk, blk. repeat split; auto.
  apply renamed_refl. intros b I.
  assert (LB : b < length fn) by (apply (proj2 WF i b); exists blk; auto).
  rewrite (nth_error_nth' _ 0) by (rewrite seq_length; exact LB). rewrite seq_nth by exact LB. reflexivity.
Qed.

(** ** Dropping blocks *)
Fixpoint positions (k : nat) (R : list bool) : list nat :=
  match R with
  | [] => []
  | true :: R => k :: positions (S k) R
  | false :: R => positions (S k) R
  end.

Lemma positions_in : forall R k b, In b (positions k R) <-> k <= b /\ nth (b - k) R false = true.
Proof.
  induction R as [|r R IH]; intros k b.
  - cbn [positions]. split; [intros []|]. intros (_ & H). destruct (b - k); discriminate.
  - assert (ST : k < b -> nth (b - k) (r :: R) false = nth (b - S k) R false).
    { intros L. replace (b - k) with (S (b - S k)) by lia. reflexivity. }
    assert (Z : nth (k - k) (r :: R) false = r) by (rewrite Nat.sub_diag; reflexivity).
    destruct r; cbn [positions In]; rewrite ?IH; split.
    + intros [<-|(L & N)]; [split; [lia|exact Z]|]. split; [lia|]. rewrite ST by lia. exact N.
    + intros (L & N). destruct (Nat.eq_dec k b); [left; auto|right]. split; [lia|]. rewrite ST in N by lia. exact N.
    + intros (L & N). split; [lia|]. rewrite ST by lia. exact N.
    + intros (L & N). destruct (Nat.eq_dec k b) as [->|NE]; [rewrite Z in N; discriminate|].
      split; [lia|]. rewrite ST in N by lia. exact N.
Qed.

Lemma positions_increasing : forall R k, increasing (positions k R) /\ forall b, In b (positions k R) -> k <= b.
Proof.
  induction R as [|r R IH]; intros k.
  - split; [|intros b []]. intros i j a b _ E. destruct i; discriminate.
  - destruct (IH (S k)) as (I & J). destruct r; cbn [positions]; split.
    + intros [|i] [|j] a b L E1 E2; try lia; cbn in E1, E2.
      * injection E1 as <-. apply nth_error_In in E2. apply J in E2. lia.
      * apply (I i j); auto. lia.
    + intros b [<-|H]; [lia|]. apply J in H. lia.
    + exact I.
    + intros b H. apply J in H. lia.
Qed.

Lemma number_kept_ok : forall R k n b i,
  nth_error (number_kept n R) b = Some (Some i) <-> n <= i /\ nth_error (positions k R) (i - n) = Some (k + b).
Proof.
  induction R as [|r R IH]; intros k n b i.
  - cbn. split; [destruct b; discriminate|]. intros (_ & H). destruct (i - n); discriminate.
  - destruct r; cbn [number_kept positions].
    + destruct b as [|b]; cbn [nth_error].
      * split.
        -- intros H. injection H as <-. rewrite Nat.sub_diag. split; [lia|]. cbn. f_equal. lia.
        -- intros (L & H). destruct (i - n) as [|j] eqn:E; [f_equal; f_equal; lia|].
           cbn in H. apply nth_error_In, positions_in in H. lia.
      * rewrite (IH (S k) (S n) b i). split.
        -- intros (L & H). split; [lia|]. replace (i - n) with (S (i - S n)) by lia. cbn. rewrite H. f_equal. lia.
        -- intros (L & H). destruct (i - n) as [|j] eqn:E.
           ++ cbn in H. injection H as H. lia.
           ++ cbn in H. split; [lia|]. replace (i - S n) with j by lia. rewrite H. f_equal. lia.
    + destruct b as [|b]; cbn [nth_error].
      * split; [discriminate|]. intros (L & H). apply nth_error_In, positions_in in H. lia.
      * rewrite (IH (S k) n b i). replace (S k + b) with (k + S b) by lia. reflexivity.
Qed.

Lemma retain_ok : forall R k (fn : function), length R = length fn ->
  length (retain fn R) = length (positions k R) /\
  forall i b, nth_error (positions k R) i = Some b ->
  exists blk, nth_error fn (b - k) = Some blk /\ nth_error (retain fn R) i = Some blk.
Proof.
  induction R as [|r R IH]; intros k [|blk fn] L; try discriminate.
  - split; [reflexivity|]. intros [|i] b E; discriminate.
  - injection L as L. destruct (IH (S k) fn L) as (A & B).
    assert (ST : forall i b, nth_error (positions (S k) R) i = Some b ->
      nth_error (blk :: fn) (b - k) = nth_error fn (b - S k)).
    { intros i b E. apply nth_error_In, positions_in in E. replace (b - k) with (S (b - S k)) by lia. reflexivity. }
    destruct r; cbn [retain positions length].
    + split; [congruence|]. intros [|i] b E; cbn in E.
      * injection E as <-. rewrite Nat.sub_diag. exists blk. auto.
      * rewrite (ST i b E). apply B, E.
    + split; [exact A|]. intros i b E. rewrite (ST i b E). apply B, E.
Qed.

Lemma positions_count : forall R k, length (positions k R) = length (filter (fun r => r) R).
Proof. induction R as [|[|] R IH]; intros k; cbn; auto. Qed.

Lemma filter_full : forall R : list bool, length (filter (fun r => r) R) = length R -> forall i, i < length R -> nth i R false = true.
Proof.
  assert (LE : forall R : list bool, length (filter (fun r => r) R) <= length R).
  { induction R as [|[|] R IH]; cbn; lia. }
  induction R as [|[|] R IH]; intros E i L; cbn in *; try lia.
  - destruct i as [|i]; [reflexivity|]. apply IH; lia.
  - specialize (LE R). lia.
Qed.

Theorem remove_unreachable_blocks_ok : forall fn : function, well_formed_body fn ->
  exists fn' order, remove_unreachable_blocks fn = Val fn' /\ rearranged fn order fn' /\
    increasing order /\ forall b, In b order <-> reachable_block fn b.
Proof.
  intros fn WF. destruct (reachable_blocks_ok fn WF) as (R & E & LR & RR).
  unfold remove_unreachable_blocks. rewrite E. cbn [bind].
  assert (POS : forall b, In b (positions 0 R) <-> reachable_block fn b).
  { intros b. rewrite positions_in, Nat.sub_0_r, RR. intuition lia. }
  destruct (length (filter (fun r => r) R) =? length fn) eqn:EL.
  - apply Nat.eqb_eq in EL. exists fn, (seq 0 (length fn)).
    split; [reflexivity|]. split; [apply rearranged_id, WF|]. split.
    + intros i j a b L E1 E2.
      assert (L1 : i < length fn) by (rewrite <- (seq_length (length fn) 0); apply nth_error_Some; congruence).
      assert (L2 : j < length fn) by (rewrite <- (seq_length (length fn) 0); apply nth_error_Some; congruence).
      rewrite (nth_error_nth' _ 0), seq_nth in E1 by (rewrite ?seq_length; exact L1).
      rewrite (nth_error_nth' _ 0), seq_nth in E2 by (rewrite ?seq_length; exact L2).
      injection E1 as <-. injection E2 as <-. lia.
    + intros b. rewrite in_seq, <- RR. split.
      * intros (_ & L). apply filter_full; [congruence|]. lia.
      * intros N. split; [lia|]. destruct (Nat.lt_ge_cases b (length fn)); [lia|].
        rewrite nth_overflow in N by lia. discriminate.
  - destruct (retain_ok R 0 fn LR) as (LE & PL).
    destruct (retarget_rearranged fn (retain fn R) (positions 0 R) (number_kept 0 R)) as (fn' & E' & RA).
    + exact LE.
    + intros i b N. destruct (PL i b N) as (blk & A & B). rewrite Nat.sub_0_r in A. eauto.
    + intros b i. rewrite (number_kept_ok R 0 0 b i). rewrite Nat.sub_0_r. cbn. intuition lia.
    + intros b b' I F. apply POS. apply POS in I. apply (reachable_next fn b b' I F).
    + exists fn', (positions 0 R). split; [exact E'|]. split; [exact RA|].
      split; [apply positions_increasing|exact POS].
Qed.

(** ** Rearranged bodies *)
Lemma renamed_to : forall (R : nat -> nat -> Prop) (t t' : terminator prim cnd), renamed R t t' ->
  forall b', In b' (successors t') -> exists b, In b (successors t) /\ R b b'.
Proof.
  intros R t t' H b' I. destruct t, t'; cbn in *; try contradiction.
  - destruct I as [<-|[]]. eauto.
  - destruct H as (-> & A & B). destruct I as [<-|[<-|[]]]; eauto.
  - destruct H as (-> & A & B). destruct I as [<-|[<-|[]]]; eauto.
  - destruct H as (-> & A). destruct I as [<-|[]]. eauto.
Qed.

Lemma renamed_from : forall (R : nat -> nat -> Prop) (t t' : terminator prim cnd), renamed R t t' ->
  forall b, In b (successors t) -> exists b', In b' (successors t') /\ R b b'.
Proof.
  intros R t t' H b I. apply renamed_flip in H. destruct (renamed_to _ _ _ H b I) as (b' & A & B). eauto.
Qed.

Section Rearranged.
Variables (fn fn' : function) (order : list nat).
Hypothesis RA : rearranged fn order fn'.
Notation at_ i b := (nth_error order i = Some b).

Lemma rearranged_index : forall i, i < length fn' <-> exists b, at_ i b.
Proof.
  intros i. rewrite (proj1 RA). split.
  - intros L. destruct (in_range _ order i L) as (b & E). eauto.
  - intros (b & E). apply nth_error_Some. congruence.
Qed.

Lemma rearranged_flows_to : forall i j, flows fn' i j -> exists b b', at_ i b /\ at_ j b' /\ flows fn b b'.
Proof.
  intros i j (blk' & N & I).
  assert (L : i < length fn') by (apply nth_error_Some; congruence).
  apply rearranged_index in L. destruct L as (b & E).
  destruct (proj2 RA i b E) as (blk & blk1 & A & B & O & T).
  assert (blk1 = blk') by congruence. subst blk1.
  destruct (renamed_to _ _ _ T j I) as (b' & I' & E'). exists b, b'.
  split; [exact E|]. split; [exact E'|]. exists blk. auto.
Qed.

Lemma rearranged_flows_from : forall i b b', at_ i b -> flows fn b b' -> exists j, at_ j b' /\ flows fn' i j.
Proof.
  intros i b b' E (blk0 & N & I).
  destruct (proj2 RA i b E) as (blk & blk1 & A & B & O & T).
  assert (blk0 = blk) by congruence. subst blk0.
  destruct (renamed_from _ _ _ T b' I) as (j & I' & E'). exists j. split; [exact E'|]. exists blk1. auto.
Qed.

Hypothesis first : at_ 0 entry.

Lemma rearranged_well_formed : well_formed_body fn'.
Proof.
  split.
  - intros E. assert (L : 0 < length fn') by (apply rearranged_index; eauto).
    rewrite E in L. cbn in L. lia.
  - intros i j F. destruct (rearranged_flows_to i j F) as (b & b' & _ & E & _).
    apply rearranged_index. eauto.
Qed.

Lemma rearranged_reachable_to : forall i, reachable_block fn' i -> exists b, at_ i b /\ reachable_block fn b.
Proof.
  intros i H. induction H as [|i j H (b & E & IH) F].
  - exists entry. split; [exact first|constructor].
  - destruct (rearranged_flows_to i j F) as (b1 & b' & E1 & E2 & F').
    assert (b1 = b) by congruence. subst b1. exists b'. split; [exact E2|].
    apply (reachable_next fn b b' IH F').
Qed.

Hypothesis distinct : NoDup order.

Lemma rearranged_reachable_from : forall b, reachable_block fn b -> exists i, at_ i b /\ reachable_block fn' i.
Proof.
  intros b H. induction H as [|b b' H (i & E & IH) F].
  - exists 0. split; [exact first|constructor].
  - destruct (rearranged_flows_from i b b' E F) as (j & E' & F'). exists j. split; [exact E'|].
    apply (reachable_next fn' i j IH F').
Qed.

Lemma rearranged_reachable : forall i b, at_ i b -> reachable_block fn' i <-> reachable_block fn b.
Proof.
  intros i b E. split; intros H.
  - destruct (rearranged_reachable_to i H) as (b' & E' & H'). congruence.
  - destruct (rearranged_reachable_from b H) as (j & E' & H').
    assert (j = i); [|congruence].
    apply (proj1 (NoDup_nth_error order) distinct); [apply nth_error_Some; congruence|congruence].
Qed.
End Rearranged.

Lemma increasing_nodup : forall l, increasing l -> NoDup l.
Proof.
  intros l H. apply NoDup_nth_error. intros i j L E.
  destruct (in_range _ l i L) as (a & Ea). rewrite Ea in E. symmetry in E.
  destruct (Nat.lt_trichotomy i j) as [LT|[EQ|LT]]; auto.
  - specialize (H i j a a LT Ea E). lia.
  - specialize (H j i a a LT E Ea). lia.
Qed.

Lemma increasing_first : forall l, increasing l -> In entry l -> nth_error l 0 = Some entry.
Proof.
  intros l H I. destruct (In_nth_error _ _ I) as (i & E). destruct i as [|i]; [exact E|].
  assert (L : 0 < length l) by (destruct l; [destruct I|cbn; lia]).
  destruct (in_range _ l 0 L) as (a & Ea).
  specialize (H 0 (S i) a entry (Nat.lt_0_succ i) Ea E). unfold entry in H. lia.
Qed.

Lemma removed_ok : forall fn fn' : function, well_formed_body fn -> remove_unreachable_blocks fn = Val fn' ->
  exists order, rearranged fn order fn' /\ increasing order /\
    (forall b, In b order <-> reachable_block fn b) /\ nth_error order 0 = Some entry /\
    well_formed_body fn' /\ (forall b, b < length fn' -> reachable_block fn' b).
Proof.
  intros fn fn' WF E. destruct (remove_unreachable_blocks_ok fn WF) as (fn1 & order & E1 & RA & INC & IN).
  assert (fn1 = fn') by congruence. subst fn1.
  assert (FI : nth_error order 0 = Some entry).
  { apply increasing_first; [exact INC|]. apply IN. constructor. }
  exists order. split; [exact RA|]. split; [exact INC|]. split; [exact IN|]. split; [exact FI|]. split.
  - apply (rearranged_well_formed fn fn' order RA FI).
  - intros b L. apply (rearranged_index fn fn' order RA) in L. destruct L as (b0 & Eb).
    apply (rearranged_reachable fn fn' order RA FI (increasing_nodup _ INC) b b0 Eb).
    apply IN. eapply nth_error_In; eauto.
Qed.

(** ** Reverse postorder *)
Lemma flow_graph_edge : forall (fn : function) b b', edge (flow_graph fn) b b' <-> flows fn b b'.
Proof.
  intros fn b b'. unfold edge, flows, flow_graph. split.
  - intros (ss & E & I). rewrite nth_error_map in E. destruct (nth_error fn b) as [blk|]; [|discriminate].
    injection E as <-. eauto.
  - intros (blk & E & I). exists (successors (term blk)). rewrite nth_error_map, E. auto.
Qed.

Lemma flow_graph_reach : forall (fn : function) b, reach (flow_graph fn) entry b <-> reachable_block fn b.
Proof.
  intros fn b. split; intros H.
  - induction H as [|v w H IH E]; [constructor|]. apply (reachable_next fn v w IH). apply flow_graph_edge, E.
  - induction H as [|v w H IH E]; [constructor|]. apply (reach_step _ _ v w IH). apply flow_graph_edge, E.
Qed.

Lemma number_order_ok : forall order k tbl, NoDup order -> (forall b, In b order -> b < length tbl) ->
  exists tbl', number_order k order tbl = Val tbl' /\ length tbl' = length tbl /\
  forall b, nth_error tbl' b =
    match find (fun p => fst p =? b) (combine order (seq k (length order))) with
    | Some (_, i) => Some (Some i)
    | None => nth_error tbl b
    end.
Proof.
  induction order as [|a order IH]; intros k tbl ND L; cbn [number_order].
  - exists tbl. repeat split; auto.
  - inversion ND as [|? ? NI ND']; subst. rewrite wr_val by (apply L; left; reflexivity). cbn [bind].
    destruct (IH (S k) (upd tbl a (Some k)) ND') as (tbl' & E & LE & N).
    { intros b I. rewrite upd_length. apply L. right. exact I. }
    exists tbl'. split; [exact E|]. split; [rewrite LE, upd_length; reflexivity|].
    intros b. rewrite N. cbn [length seq combine find fst].
    assert (NF : a = b -> find (fun p => fst p =? b) (combine order (seq (S k) (length order))) = None).
    { intros <-. destruct (find _ _) as [[p q]|] eqn:F; [|reflexivity].
      apply find_some in F. destruct F as (I & EQ). cbn in EQ. apply Nat.eqb_eq in EQ. subst p.
      apply in_combine_l in I. contradiction. }
    destruct (Nat.eqb_spec a b) as [EQ|NE].
    + rewrite (NF EQ). subst b. apply nth_error_upd_same. apply L. left. reflexivity.
    + destruct (find _ _) as [[p q]|]; [reflexivity|]. apply nth_error_upd_other. exact NE.
Qed.

Lemma find_combine : forall order k b i, NoDup order ->
  (exists p, find (fun p => fst p =? b) (combine order (seq k (length order))) = Some (p, i)) <->
  k <= i /\ nth_error order (i - k) = Some b.
Proof.
  induction order as [|a order IH]; intros k b i ND; cbn [length seq combine find fst].
  - split; [intros (p & E); discriminate|]. intros (_ & E). destruct (i - k); discriminate.
  - inversion ND as [|? ? NI ND']; subst. destruct (Nat.eqb_spec a b) as [->|NE].
    + split.
      * intros (p & E). injection E as <- <-. rewrite Nat.sub_diag. auto.
      * intros (L & E). destruct (i - k) as [|j] eqn:D.
        -- exists b. f_equal. f_equal. lia.
        -- cbn in E. apply nth_error_In in E. contradiction.
    + rewrite (IH (S k) b i ND'). split; intros (L & E).
      * split; [lia|]. replace (i - k) with (S (i - S k)) by lia. exact E.
      * destruct (i - k) as [|j] eqn:D; [cbn in E; congruence|]. cbn in E.
        split; [lia|]. replace (i - S k) with j by lia. exact E.
Qed.

Lemma place_blocks_ok : forall order (prev : list (option (block prim cnd))), NoDup order ->
  (forall b, In b order -> exists blk, nth_error prev b = Some (Some blk)) ->
  exists blks, place_blocks order prev = Val blks /\ length blks = length order /\
  forall i b, nth_error order i = Some b -> nth_error prev b = Some (nth_error blks i).
Proof.
  induction order as [|a order IH]; intros prev ND H; cbn [place_blocks].
  - exists []. repeat split; auto. intros [|i] b E; discriminate.
  - inversion ND as [|? ? NI ND']; subst. destruct (H a (or_introl eq_refl)) as (blk & E).
    rewrite (rd_val _ _ _ _ E). cbn [bind]. rewrite wr_val by (apply nth_error_Some; congruence). cbn [bind].
    destruct (IH (upd prev a None) ND') as (blks & E' & LE & N).
    { intros b I. rewrite nth_error_upd_other by congruence. apply H. right. exact I. }
    rewrite E'. cbn [bind]. exists (blk :: blks). split; [reflexivity|]. split; [cbn; congruence|].
    intros [|i] b Eb; cbn in Eb |- *.
    + injection Eb as <-. exact E.
    + rewrite <- (N i b Eb). symmetry. apply nth_error_upd_other.
      intros ->. apply nth_error_In in Eb. contradiction.
Qed.

Lemma in_place_ok : forall order k, in_place k order = true -> order = seq k (length order).
Proof.
  induction order as [|a order IH]; intros k H; [reflexivity|].
  cbn in *. apply andb_true_iff in H. destruct H as (A & B). apply Nat.eqb_eq in A. subst a.
  f_equal. apply IH, B.
Qed.

Lemma before_chain : forall (fn : function) order, hd_error order = Some entry -> NoDup order ->
  (forall v, In v order -> v <> entry -> exists u, edge (flow_graph fn) u v /\ before order u v) ->
  forall i b, nth_error order i = Some b -> exists l, walk (flows fn) (entry :: l) /\
    last (entry :: l) entry = b /\
    forall a, In a (entry :: l) -> exists j, j <= i /\ nth_error order j = Some a.
Proof.
  intros fn order HD ND PA i. induction i as [i IH] using lt_wf_ind. intros b E.
  destruct (Nat.eq_dec b entry) as [->|NE].
  - exists []. split; [exact I|]. split; [reflexivity|]. intros a [<-|[]]. exists 0.
    split; [lia|]. destruct order; [discriminate|]. exact HD.
  - destruct (PA b (nth_error_In _ _ E) NE) as (u & ED & (j & k & LT & Ej & Ek)).
    assert (k = i).
    { apply (proj1 (NoDup_nth_error order) ND); [apply nth_error_Some; congruence|congruence]. }
    subst k. destruct (IH j LT u Ej) as (l & W & LA & IN).
    exists (l ++ [b]). split; [|split].
    + change (entry :: l ++ [b]) with ((entry :: l) ++ [b]).
      apply flow_graph_edge in ED.
      clear - W LA ED. revert W LA ED. generalize entry at 1 2 4. intros x W LA ED.
      revert x W LA. induction l as [|y l IHl]; intros x W LA; cbn in *.
      * subst u. auto.
      * destruct W as (A & B). split; [exact A|]. apply IHl; [exact B|].
        destruct l; [exact LA|exact LA].
    + change (entry :: l ++ [b]) with ((entry :: l) ++ [b]). apply last_last.
    + intros a I. change (entry :: l ++ [b]) with ((entry :: l) ++ [b]) in I. apply in_app_or in I.
      destruct I as [I|[<-|[]]].
      * destruct (IN a I) as (q & A & B). exists q. split; [lia|exact B].
      * exists i. auto.
Qed.

Theorem reorder_ok : forall fn : function, well_formed_body fn ->
  exists fn' order, reorder_blocks_in_reverse_postorder fn = Val fn' /\ rearranged fn order fn' /\
    NoDup order /\ (forall b, In b order <-> b < length fn) /\ nth_error order 0 = Some entry /\
    forall i j a b, nth_error order i = Some a -> nth_error order j = Some b -> reachable_block fn b ->
    dominates fn a b -> i <= j.
Proof.
  intros fn WF. unfold reorder_blocks_in_reverse_postorder.
  assert (LG : length (flow_graph fn) = length fn) by apply map_length.
  assert (EN : entry < length (flow_graph fn)).
  { rewrite LG. apply reachable_range; [exact WF|constructor]. }
  assert (WG : well_formed (flow_graph fn)).
  { intros u v E. rewrite LG. apply flow_graph_edge in E. apply (proj2 WF u v E). }
  destruct (reverse_postorder_ok (flow_graph fn) WG entry EN) as (vis & E & ND & IN & HD & _ & PA).
  rewrite E. cbn [bind].
  set (rest := filter (fun b => negb (existsb (Nat.eqb b) vis)) (seq 0 (length fn))).
  assert (RI : forall b, In b rest <-> b < length fn /\ ~ In b vis).
  { intros b. unfold rest. rewrite filter_In, in_seq, negb_true_iff. split.
    - intros (L & X). split; [lia|]. intros I.
      assert (T : existsb (Nat.eqb b) vis = true) by (apply existsb_exists; exists b; split; [exact I|apply Nat.eqb_refl]).
      congruence.
    - intros (L & X). split; [lia|]. destruct (existsb (Nat.eqb b) vis) eqn:T; [|reflexivity].
      apply existsb_exists in T. destruct T as (y & I & EQ). apply Nat.eqb_eq in EQ. subst y. contradiction. }
  set (order := vis ++ rest).
  assert (VR : forall b, In b vis -> b < length fn).
  { intros b I. apply IN, flow_graph_reach in I. apply (reachable_range fn WF b I). }
  assert (NDO : NoDup order).
  { apply nodup_app; [exact ND|apply NoDup_filter, seq_NoDup|]. intros b I. apply RI in I. tauto. }
  assert (INO : forall b, In b order <-> b < length fn).
  { intros b. unfold order. rewrite in_app_iff, RI. split.
    - intros [I|(L & _)]; [apply VR, I|exact L].
    - intros L. destruct (in_dec Nat.eq_dec b vis); tauto. }
  assert (FI : nth_error order 0 = Some entry).
  { unfold order. destruct vis; [discriminate|]. exact HD. }
  assert (DO : forall i j a b, nth_error order i = Some a -> nth_error order j = Some b -> reachable_block fn b ->
    dominates fn a b -> i <= j).
  { intros i j a b Ea Eb RB DM.
    assert (IV : In b vis) by (apply IN, flow_graph_reach, RB).
    assert (EB : nth_error vis j = Some b).
    { destruct (In_nth_error _ _ IV) as (k & Ek).
      assert (K : nth_error order k = Some b).
      { unfold order. rewrite nth_error_app1; [exact Ek|apply nth_error_Some; congruence]. }
      assert (k = j); [|congruence].
      apply (proj1 (NoDup_nth_error order) NDO); [apply nth_error_Some; congruence|congruence]. }
    destruct (before_chain fn vis HD ND PA j b EB) as (l & W & LA & CH).
    destruct (CH a (DM l W LA)) as (k & LK & Ek).
    assert (K : nth_error order k = Some a).
    { unfold order. rewrite nth_error_app1; [exact Ek|apply nth_error_Some; congruence]. }
    assert (k = i); [|lia].
    apply (proj1 (NoDup_nth_error order) NDO); [apply nth_error_Some; congruence|congruence]. }
  destruct (in_place 0 order) eqn:IP.
  - assert (ES : order = seq 0 (length fn)).
    { pose proof (in_place_ok order 0 IP) as EO.
      assert (LE : length order = length fn); [|congruence].
      apply Nat.le_antisymm.
      - rewrite <- (seq_length (length fn) 0). apply NoDup_incl_length; [exact NDO|].
        intros b I. apply INO in I. apply in_seq. lia.
      - rewrite <- (seq_length (length fn) 0) at 1. apply NoDup_incl_length; [apply seq_NoDup|].
        intros b I. apply in_seq in I. apply INO. lia. }
    exists fn, order. split; [reflexivity|]. split; [rewrite ES; apply rearranged_id, WF|].
    repeat (split; [assumption|]). assumption.
  - destruct (number_order_ok order 0 (repeat None (length fn)) NDO) as (tbl & ET & LT & NT).
    { intros b I. rewrite repeat_length. apply INO, I. }
    rewrite ET. cbn [bind].
    destruct (place_blocks_ok order (map Some fn) NDO) as (blks & EB & LB & NB).
    { intros b I. apply INO in I. destruct (in_range _ fn b I) as (blk & Eb).
      exists blk. rewrite nth_error_map, Eb. reflexivity. }
    rewrite EB. cbn [bind].
    destruct (retarget_rearranged fn blks order tbl LB) as (fn' & EF & RA).
    + intros i b Eb. specialize (NB i b Eb). rewrite nth_error_map in NB.
      destruct (nth_error fn b) as [blk|]; [|discriminate].
      cbn in NB. injection NB as NB. exists blk. auto.
    + intros b i. rewrite NT. pose proof (find_combine order 0 b i NDO) as FC. rewrite Nat.sub_0_r in FC.
      destruct (find _ _) as [[p q]|].
      * split.
        -- intros EQ. injection EQ as <-. apply FC. exists p. reflexivity.
        -- intros EQ. destruct (proj2 FC (conj (Nat.le_0_l i) EQ)) as (p' & EP). congruence.
      * split.
        -- intros EQ. exfalso. rewrite nth_error_nth' with (d := None) in EQ.
           ++ rewrite nth_repeat_any in EQ. discriminate.
           ++ apply nth_error_Some. congruence.
        -- intros EQ. destruct (proj2 FC (conj (Nat.le_0_l i) EQ)) as (p' & EP). discriminate.
    + intros b b' _ F. apply INO. apply (proj2 WF b b' F).
    + exists fn', order. repeat (split; [assumption|]). assumption.
Qed.

End Edit.
