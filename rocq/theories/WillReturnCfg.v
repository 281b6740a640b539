(** Reachable blocks and control-flow cycles: the analyses of [derive]. *)
From Coq Require Import List Arith Bool Lia Permutation.
From Verif Require Import ListUtil MirModel TermSpec TermProofs GraphSpec GraphModel GraphProofs SccProofs TopoProofs
  WillReturnModel WillReturnSpec.
Import ListNotations.

(** A graph in which each node of a finite set has a predecessor in the set
    has a cycle there. *)
Lemma backwards_cycle : forall (e : nat -> nat -> Prop) (P : nat -> Prop) U,
  (forall x, P x -> In x U) -> (forall x, P x -> exists y, P y /\ e y x) ->
  (exists x, P x) -> exists l, cycle e l /\ forall x, In x l -> P x.
Proof.
  intros e P U FIN PRED [x0 P0].
  assert (K : forall n seen x, length U - length seen <= n -> NoDup (x :: seen) ->
    (forall y, In y (x :: seen) -> P y) -> walk e (x :: seen) ->
    exists l, cycle e l /\ forall x, In x l -> P x).
  { induction n as [|n IH]; intros seen x LN ND PS W.
    - exfalso. assert (incl (x :: seen) U) by (intros y I; auto).
      pose proof (NoDup_incl_length ND H). cbn [length] in *. lia.
    - destruct (PRED x (PS x (or_introl eq_refl))) as (y & PY & E).
      destruct (in_dec Nat.eq_dec y (x :: seen)) as [I|NI].
      + apply in_split in I. destruct I as (l1 & l2 & EQ).
        exists (y :: l1). split.
        * unfold cycle. destruct l1 as [|z l1].
          -- cbn [app] in EQ. injection EQ as -> _. cbn [app walk]. auto.
          -- assert (z = x) by (cbn [app] in EQ; congruence). subst z.
             cbn [app]. split; [exact E|].
             rewrite EQ in W. apply (walk_app_inv _ e (x :: l1) y l2) in W. destruct W as [W _]. exact W.
        * intros z [<-|I]; [exact PY|]. apply PS. rewrite EQ. apply in_or_app. auto.
      + apply (IH (x :: seen) y); auto.
        * cbn [length] in *. lia.
        * constructor; auto.
        * intros z [<-|I]; auto.
        * split; auto. }
  apply (K (length U) [] x0); auto.
  - simpl. lia.
  - constructor; [intros []|constructor].
  - intros y [<-|[]]. exact P0.
  - exact I.
Qed.

Section Cfg.
Context {prim cnd : Type}.
Variable fn : function prim cnd.
Hypothesis WF : well_formed_body fn.

Definition ss (i : nat) : list nat :=
  match nth_error fn i with Some blk => successors (term blk) | None => [] end.

Lemma flows_ss : forall b b', flows fn b b' <-> In b' (ss b).
Proof.
  intros b b'. unfold flows, ss. destruct (nth_error fn b) as [blk|].
  - split; [intros (k & E & I); injection E as ->; exact I|intros I; eauto].
  - split; [intros (k & E & I); discriminate|intros []].
Qed.

Lemma block_successors_ss : forall b, b < length fn -> block_successors fn b = Val (ss b).
Proof.
  intros b L. unfold block_successors, ss. destruct (in_range _ _ _ L) as [blk E].
  rewrite (rd_val _ _ _ _ E), E. reflexivity.
Qed.

Lemma ss_range : forall b b', In b' (ss b) -> b' < length fn.
Proof. intros b b' I. apply flows_ss in I. apply (proj2 WF b b' I). Qed.

Lemma reachable_range : forall b, reachable_block fn b -> b < length fn.
Proof.
  intros b H. destruct H as [|b b' _ F].
  - destruct WF as [N _]. unfold entry. destruct fn; [congruence|simpl; lia].
  - apply (proj2 WF _ _ F).
Qed.

(** ** Reachable blocks *)
Definition todo (R : list bool) : nat :=
  sumf (fun b => if nth b R false then 0 else length (ss b)) (seq 0 (length fn)).

Lemma sumf_split : forall f l b, NoDup l -> In b l ->
  forall h, h b = 0 -> (forall x, x <> b -> h x = f x) -> sumf f l = f b + sumf h l.
Proof.
  intros f l b N I h HB HX. apply in_split in I. destruct I as (l1 & l2 & ->).
  apply NoDup_remove_2 in N.
  rewrite !sumf_app, !sumf_cons, HB.
  rewrite (sumf_ext h f l1), (sumf_ext h f l2); [lia| |];
    intros x I; apply HX; intros ->; apply N; apply in_or_app; auto.
Qed.

Lemma todo_mark : forall R b, length R = length fn -> b < length fn -> nth b R false = false ->
  todo R = length (ss b) + todo (upd R b true).
Proof.
  intros R b LR LB F. unfold todo.
  rewrite (sumf_split _ (seq 0 (length fn)) b (seq_NoDup _ _)
    ltac:(apply in_seq; lia) (fun x => if nth x (upd R b true) false then 0 else length (ss x))).
  - rewrite F. reflexivity.
  - rewrite nth_upd, Nat.eqb_refl. destruct (Nat.ltb_spec b (length R)); [reflexivity|lia].
  - intros x NE. rewrite nth_upd. destruct (Nat.eqb_spec b x); [congruence|reflexivity].
Qed.

Lemma todo_init : todo (repeat false (length fn)) = edge_count fn.
Proof.
  unfold todo, edge_count.
  rewrite (sumf_ext _ (fun b => length (ss b))) by (intros; rewrite nth_repeat_any; reflexivity).
  assert (K : forall pre post, fn = pre ++ post ->
    sumf (fun b => length (ss b)) (seq (length pre) (length post)) =
    fold_right (fun blk n => length (successors (term blk)) + n) 0 post).
  { intros pre post. revert pre. induction post as [|blk post IH]; intros pre E; [reflexivity|].
    cbn [length seq fold_right]. rewrite sumf_cons. f_equal.
    - unfold ss. rewrite E, nth_error_app2, Nat.sub_diag by lia. reflexivity.
    - rewrite <- (IH (pre ++ [blk])).
      + rewrite app_length. cbn [length]. rewrite Nat.add_1_r. reflexivity.
      + rewrite E, <- app_assoc. reflexivity. }
  apply (K []). reflexivity.
Qed.

Lemma reach_loop_ok : forall fuel R pending, length R = length fn ->
  (forall b, nth b R false = true -> reachable_block fn b) ->
  (forall b, In b pending -> reachable_block fn b) ->
  (forall b b', nth b R false = true -> In b' (ss b) -> nth b' R false = true \/ In b' pending) ->
  (nth entry R false = true \/ In entry pending) ->
  length pending + todo R < fuel ->
  exists R', reach_loop fuel fn R pending = Val R' /\ length R' = length fn /\
    forall b, nth b R' false = true <-> reachable_block fn b.
Proof.
  induction fuel as [|fuel IH]; intros R pending LR SR SP CL EN F; [lia|].
  destruct pending as [|b pending]; cbn [reach_loop].
  - exists R. split; [reflexivity|]. split; [exact LR|]. intros b. split; [apply SR|].
    intros H. induction H as [|b b' H IHb FL]; [destruct EN as [EN|[]]; exact EN|].
    apply flows_ss in FL. destruct (CL b b' IHb FL) as [|[]]; auto.
  - assert (RB : reachable_block fn b) by (apply SP; left; reflexivity).
    pose proof (reachable_range b RB) as LB.
    rewrite (rd_val _ _ _ (nth b R false)) by (apply nth_some; lia). cbn [bind].
    rewrite wr_val by lia. cbn [bind].
    assert (NT : forall x, nth x (upd R b true) false = if b =? x then true else nth x R false).
    { intros x. rewrite nth_upd. destruct (b =? x); auto. destruct (Nat.ltb_spec b (length R)); [auto|lia]. }
    destruct (nth b R false) eqn:SEEN.
    + apply IH.
      * rewrite upd_length. exact LR.
      * intros x. rewrite NT. destruct (Nat.eqb_spec b x); [subst; auto|apply SR].
      * intros x I. apply SP. right. exact I.
      * intros x y. rewrite !NT. destruct (Nat.eqb_spec b x) as [<-|NE].
        -- intros _ I. destruct (b =? y) eqn:EY; [left; reflexivity|].
           apply Nat.eqb_neq in EY. destruct (CL b y SEEN I) as [|[|]]; auto; congruence.
        -- intros H I. destruct (b =? y) eqn:EY; [left; reflexivity|].
           apply Nat.eqb_neq in EY. destruct (CL x y H I) as [|[|]]; auto; congruence.
      * rewrite NT. destruct (Nat.eqb_spec b entry); [left; reflexivity|].
        destruct EN as [|[|]]; auto; congruence.
      * assert (E : todo (upd R b true) = todo R).
        { unfold todo. apply sumf_ext. intros x _. rewrite NT.
          destruct (Nat.eqb_spec b x); [subst; rewrite SEEN; reflexivity|reflexivity]. }
        rewrite E. cbn [length] in F. lia.
    + rewrite block_successors_ss by exact LB. cbn [bind]. apply IH.
      * rewrite upd_length. exact LR.
      * intros x. rewrite NT. destruct (Nat.eqb_spec b x); [subst; auto|apply SR].
      * intros x I. apply in_app_or in I. destruct I as [I|I].
        -- apply in_rev in I. apply (reachable_next fn b); [exact RB|apply flows_ss; exact I].
        -- apply SP. right. exact I.
      * intros x y. rewrite !NT. destruct (Nat.eqb_spec b x) as [<-|NE].
        -- intros _ I. right. apply in_or_app. left. apply in_rev. rewrite rev_involutive. exact I.
        -- intros H I. destruct (Nat.eqb_spec b y) as [|NY]; [left; reflexivity|].
           destruct (CL x y H I) as [|[|]]; auto; try congruence; right; apply in_or_app; auto.
      * rewrite NT. destruct (Nat.eqb_spec b entry); [left; reflexivity|].
        destruct EN as [|[|]]; auto; try congruence; right; apply in_or_app; auto.
      * rewrite (todo_mark R b LR LB SEEN) in F. rewrite app_length, rev_length.
        cbn [length] in F. lia.
Qed.

Lemma reachable_blocks_ok : exists R, reachable_blocks fn = Val R /\ length R = length fn /\
  forall b, nth b R false = true <-> reachable_block fn b.
Proof.
  unfold reachable_blocks. apply reach_loop_ok.
  - apply repeat_length.
  - intros b. rewrite nth_repeat_any. discriminate.
  - intros b [<-|[]]. constructor.
  - intros b b'. rewrite nth_repeat_any. discriminate.
  - right. left. reflexivity.
  - rewrite todo_init. cbn [length]. lia.
Qed.

(** ** Removing blocks without predecessors *)
Section Kahn.
Variable R : list bool.
Hypothesis LR : length R = length fn.
Hypothesis RR : forall b, nth b R false = true <-> reachable_block fn b.

Notation K := (kept fn R).

Lemma kept_in : forall b, In b K <-> reachable_block fn b.
Proof.
  intros b. unfold kept. rewrite filter_In, in_seq, RR. split; [tauto|].
  intros H. split; [|exact H]. apply reachable_range in H. lia.
Qed.

Lemma kept_nodup : NoDup K.
Proof. apply NoDup_filter, seq_NoDup. Qed.

Lemma kept_range : forall b, In b K -> b < length fn.
Proof. intros b I. apply reachable_range, kept_in, I. Qed.

Lemma kept_closed : forall i j, In i K -> In j (ss i) -> In j K.
Proof.
  intros i j I J. apply kept_in. apply kept_in in I. apply (reachable_next fn i); [exact I|].
  apply flows_ss. exact J.
Qed.

Lemma kept_marked : forall j, In j K -> rd R j = Val true.
Proof.
  intros j I. apply rd_val. pose proof (kept_range j I). apply kept_in in I. apply RR in I.
  rewrite <- I. apply nth_some. lia.
Qed.

Lemma kept_count : length (filter (fun r => r) R) = length K.
Proof.
  unfold kept. rewrite <- LR. clear. 
  assert (H : forall pre post : list bool,
    length (filter (fun r => r) post) =
    length (filter (fun b => nth b (pre ++ post) false) (seq (length pre) (length post)))).
  { intros pre post. revert pre. induction post as [|r post IH]; intros pre; [reflexivity|].
    cbn [length seq filter]. rewrite app_nth2, Nat.sub_diag by lia. cbn [nth].
    specialize (IH (pre ++ [r])). rewrite app_length in IH. cbn [length] in IH.
    rewrite Nat.add_1_r, <- app_assoc in IH. cbn [app] in IH.
    destruct r; cbn [length]; rewrite IH; reflexivity. }
  apply (H [] R).
Qed.

Definition into (j : nat) (i : nat) : nat := cnt (ss i) j.
Definition indeg (j : nat) : nat := sumf (into j) K.

Lemma into_pos : forall i j, In j (ss i) <-> 0 < into j i.
Proof. intros i j. unfold into, cnt. rewrite (count_occ_In Nat.eq_dec). lia. Qed.

Lemma cnt_cons : forall y l x, cnt (y :: l) x = cnt l x + (if y =? x then 1 else 0).
Proof.
  intros y l x. unfold cnt. cbn [count_occ]. destruct (Nat.eq_dec y x), (Nat.eqb_spec y x); try congruence; lia.
Qed.

Lemma cnt_pos : forall l x, In x l <-> 0 < cnt l x.
Proof. intros l x. unfold cnt. rewrite (count_occ_In Nat.eq_dec). lia. Qed.

Lemma count_successors_ok : forall ns deg, (forall x, In x ns -> In x K) -> length deg = length fn ->
  exists deg', count_successors ns R deg = Val deg' /\ length deg' = length fn /\
    forall x, nth x deg' 0 = nth x deg 0 + cnt ns x.
Proof.
  induction ns as [|y ns IH]; intros deg IN LD; cbn [count_successors].
  - exists deg. split; [reflexivity|]. split; [exact LD|]. intros x. simpl. lia.
  - assert (KY : In y K) by (apply IN; left; reflexivity). pose proof (kept_range y KY).
    rewrite (kept_marked y KY). cbn [bind].
    rewrite (rd_val _ _ _ (nth y deg 0)) by (apply nth_some; lia). cbn [bind].
    rewrite wr_val by lia. cbn [bind].
    destruct (IH (upd deg y (S (nth y deg 0)))) as (deg' & E & L & H').
    + intros x I. apply IN. right. exact I.
    + rewrite upd_length. exact LD.
    + exists deg'. split; [exact E|]. split; [exact L|]. intros x. rewrite H', cnt_cons, nth_upd.
      destruct (Nat.eqb_spec y x); [subst|lia]. destruct (Nat.ltb_spec x (length deg)); lia.
Qed.

Lemma count_blocks_ok : forall bs deg, (forall x, In x bs -> In x K) -> length deg = length fn ->
  exists deg', count_blocks fn bs R deg = Val deg' /\ length deg' = length fn /\
    forall x, nth x deg' 0 = nth x deg 0 + sumf (into x) bs.
Proof.
  induction bs as [|b bs IH]; intros deg IN LD; cbn [count_blocks].
  - exists deg. split; [reflexivity|]. split; [exact LD|]. intros x. simpl. lia.
  - assert (KB : In b K) by (apply IN; left; reflexivity). pose proof (kept_range b KB).
    rewrite block_successors_ss by lia. cbn [bind].
    destruct (count_successors_ok (ss b) deg) as (d1 & E1 & L1 & H1); [|exact LD|].
    { intros x I. apply (kept_closed b); auto. }
    rewrite E1. cbn [bind].
    destruct (IH d1) as (d2 & E2 & L2 & H2); [intros x I; apply IN; right; exact I|exact L1|].
    exists d2. split; [exact E2|]. split; [exact L2|]. intros x. rewrite H2, H1, sumf_cons. unfold into. lia.
Qed.

Lemma remove_successors_ok : forall ns deg q, (forall x, In x ns -> In x K) -> length deg = length fn ->
  (forall x, In x ns -> cnt ns x <= nth x deg 0) ->
  exists deg' fresh, remove_successors ns R deg q = Val (deg', q ++ fresh) /\
    length deg' = length fn /\ NoDup fresh /\
    (forall x, nth x deg' 0 = nth x deg 0 - cnt ns x) /\
    (forall x, In x fresh <-> In x ns /\ nth x deg 0 = cnt ns x).
Proof.
  induction ns as [|y ns IH]; intros deg q IN LD LE; cbn [remove_successors].
  - exists deg, []. rewrite app_nil_r. split; [reflexivity|]. split; [exact LD|].
    split; [constructor|]. split; [intros; simpl; lia|]. simpl. tauto.
  - assert (KY : In y K) by (apply IN; left; reflexivity). pose proof (kept_range y KY) as LY.
    rewrite (kept_marked y KY). cbn [bind negb].
    rewrite (rd_val _ _ _ (nth y deg 0)) by (apply nth_some; lia). cbn [bind].
    pose proof (LE y (or_introl eq_refl)) as LEY. rewrite cnt_cons, Nat.eqb_refl in LEY.
    destruct (nth y deg 0) as [|d] eqn:ED; [lia|]. rewrite wr_val by lia. cbn [bind].
    assert (NT : forall x, nth x (upd deg y d) 0 = if y =? x then d else nth x deg 0).
    { intros x. rewrite nth_upd. destruct (y =? x); auto. destruct (Nat.ltb_spec y (length deg)); [auto|lia]. }
    destruct (IH (upd deg y d) (if d =? 0 then q ++ [y] else q)) as (deg' & fresh & E & L & NF & HD & HF).
    + intros x I. apply IN. right. exact I.
    + rewrite upd_length. exact LD.
    + intros x I. rewrite NT. pose proof (LE x (or_intror I)) as H. rewrite cnt_cons in H.
      destruct (Nat.eqb_spec y x); [subst y; lia|lia].
    + exists deg', (if d =? 0 then y :: fresh else fresh). rewrite E.
      split; [destruct (d =? 0); [rewrite <- app_assoc|]; reflexivity|].
      split; [exact L|].
      assert (FD : d = 0 -> ~ In y ns).
      { intros -> I. apply cnt_pos in I. lia. }
      split; [|split].
      * destruct (Nat.eqb_spec d 0); [|exact NF]. constructor; [|exact NF].
        rewrite HF. intros [I _]. apply FD; assumption.
      * intros x. rewrite HD, NT, cnt_cons. destruct (Nat.eqb_spec y x); [subst y; lia|lia].
      * intros x. specialize (HF x). rewrite NT in HF. rewrite cnt_cons.
        destruct (Nat.eqb_spec y x) as [EYX|NE].
        -- subst x. rewrite ED. pose proof (cnt_pos ns y) as CP. destruct (Nat.eqb_spec d 0) as [->|NZ].
           ++ simpl In. split; [|auto]. intros _. split; [auto|].
              destruct (cnt ns y) eqn:EC; [lia|]. exfalso. apply FD; [reflexivity|]. apply CP. lia.
           ++ rewrite HF. simpl In. split; [intros [I ->]; split; auto; lia|].
              intros [_ EQ]. split; [apply CP; lia|lia].
        -- destruct (d =? 0); simpl In; rewrite HF, Nat.add_0_r; intuition congruence.
Qed.

Record kinv (P Q deg : list nat) : Prop := {
  k_len : length deg = length fn;
  k_nodup : NoDup (P ++ Q);
  k_kept : forall x, In x (P ++ Q) -> In x K;
  k_deg : forall j, In j K -> nth j deg 0 + sumf (into j) P = indeg j;
  k_zero : forall j, In j K -> (nth j deg 0 = 0 <-> In j (P ++ Q));
  k_order : forall i j, In i K -> In j (ss i) -> In j P -> before P i j
}.

Lemma preds_in : forall P Q deg i j, kinv P Q deg -> In i K -> In j (ss i) -> nth j deg 0 = 0 -> In i P.
Proof.
  intros P Q deg i j KI I H Z.
  pose proof (k_deg _ _ _ KI j (kept_closed i j I H)) as D. rewrite Z in D. simpl in D.
  destruct (in_dec Nat.eq_dec i P); auto. exfalso.
  assert (LE : sumf (into j) (i :: P) <= sumf (into j) K).
  { apply sumf_incl.
    - constructor; auto. eapply NoDup_app_remove_r. apply (k_nodup _ _ _ KI).
    - intros x [<-|Hx]; [exact I|]. apply (k_kept _ _ _ KI). apply in_app_iff. auto. }
  rewrite sumf_cons in LE. apply into_pos in H. unfold indeg in D. lia.
Qed.

Lemma nodup_app : forall (l r : list nat), NoDup l -> NoDup r -> (forall x, In x r -> ~ In x l) -> NoDup (l ++ r).
Proof.
  induction l as [|a l IH]; intros r N NR D; simpl; auto. inversion N; subst.
  constructor; [|apply IH; auto; intros x Hx Hl; apply (D x Hx); simpl; auto].
  rewrite in_app_iff. intros [H|H]; auto. apply (D a H). simpl. auto.
Qed.

Lemma kahn_step : forall P i Q deg, kinv P (i :: Q) deg ->
  exists deg' fresh, remove_successors (ss i) R deg Q = Val (deg', Q ++ fresh)
    /\ kinv (P ++ [i]) (Q ++ fresh) deg'.
Proof.
  intros P i Q deg KI. assert (IK : In i K) by (apply (k_kept _ _ _ KI), in_app_iff; simpl; auto).
  assert (NP : ~ In i P /\ ~ In i Q).
  { pose proof (k_nodup _ _ _ KI) as N. apply NoDup_remove_2 in N. rewrite in_app_iff in N. tauto. }
  assert (LEs : forall j, sumf (into j) P + into j i <= indeg j).
  { intros j. assert (LE : sumf (into j) (i :: P) <= indeg j); [|rewrite sumf_cons in LE; lia].
    apply sumf_incl.
    - constructor; [tauto|]. eapply NoDup_app_remove_r. apply (k_nodup _ _ _ KI).
    - intros x [<-|Hx]; [exact IK|]. apply (k_kept _ _ _ KI). apply in_app_iff. auto. }
  destruct (remove_successors_ok (ss i) deg Q) as (deg' & fresh & E & L & NF & HD & HF).
  - intros x I. apply (kept_closed i); auto.
  - apply (k_len _ _ _ KI).
  - intros j J. pose proof (k_deg _ _ _ KI j (kept_closed i j IK J)). specialize (LEs j). fold (into j i). lia.
  - exists deg', fresh. split; [exact E|]. fold (into) in HD.
    assert (FP : forall x, In x fresh -> In x K /\ nth x deg 0 = into x i /\ In x (ss i)).
    { intros x Hx. apply HF in Hx. destruct Hx as [H1 H2]. split; [apply (kept_closed i); auto|auto]. }
    constructor.
    + exact L.
    + rewrite <- app_assoc. cbn [app].
      replace (P ++ i :: Q ++ fresh) with ((P ++ i :: Q) ++ fresh) by (rewrite <- app_assoc; reflexivity).
      apply nodup_app; [apply (k_nodup _ _ _ KI)|exact NF|].
      intros x Hx Hin. destruct (FP x Hx) as (F1 & F2 & F3). apply (k_zero _ _ _ KI x F1) in Hin.
      apply into_pos in F3. lia.
    + intros x Hx. rewrite <- app_assoc in Hx. cbn [app] in Hx. rewrite in_app_iff in Hx. simpl in Hx.
      rewrite in_app_iff in Hx.
      destruct Hx as [Hx|[<-|[Hx|Hx]]]; [|exact IK| |apply FP; exact Hx];
        apply (k_kept _ _ _ KI), in_app_iff; simpl; auto.
    + intros j J. rewrite sumf_app, HD. fold (into j i). unfold sumf at 2. cbn [fold_right].
      pose proof (k_deg _ _ _ KI j J). specialize (LEs j). lia.
    + intros j J. rewrite HD. fold (into j i). pose proof (k_zero _ _ _ KI j J) as Z.
      pose proof (k_deg _ _ _ KI j J). specialize (LEs j).
      rewrite <- app_assoc. cbn [app]. rewrite in_app_iff in *. simpl in *. rewrite in_app_iff. split.
      * intros HZ. destruct (Nat.eq_dec (nth j deg 0) 0) as [Z0|Z0]; [apply Z in Z0; tauto|].
        assert (In j fresh); [|tauto]. apply HF. fold (into j i). split; [apply into_pos; lia|lia].
      * intros HZ. assert (D : (In j P \/ i = j \/ In j Q) \/ In j fresh) by tauto.
        destruct D as [D|D]; [apply Z in D; lia|]. apply FP in D. lia.
    + intros a j A Ha Hj. apply in_app_or in Hj. destruct Hj as [Hj|[<-|[]]].
      * apply before_app_l. apply (k_order _ _ _ KI); auto.
      * apply before_new. apply (preds_in P (i :: Q) deg a i KI A Ha).
        apply (k_zero _ _ _ KI i IK). apply in_app_iff. simpl. auto.
Qed.

Lemma remove_blocks_ok : forall fuel P Q deg, kinv P Q deg -> length fn - length P < fuel ->
  exists P' deg', remove_blocks fuel fn R deg Q (length P) = Val (length P') /\ kinv P' [] deg'.
Proof.
  induction fuel as [|fuel IH]; intros P Q deg KI L; [lia|]. cbn [remove_blocks].
  destruct Q as [|i Q]; [eauto|].
  assert (IK : In i K) by (apply (k_kept _ _ _ KI), in_app_iff; simpl; auto).
  rewrite block_successors_ss by (apply kept_range; exact IK). cbn [bind].
  destruct (kahn_step P i Q deg KI) as (deg' & fresh & -> & K'). cbn [bind].
  replace (S (length P)) with (length (P ++ [i])) by (rewrite app_length; cbn [length]; lia).
  apply IH; [exact K'|].
  assert (length (P ++ [i]) <= length (seq 0 (length fn))).
  { apply NoDup_incl_length.
    - eapply NoDup_app_remove_r. apply (k_nodup _ _ _ K').
    - intros x Hx. apply in_seq. assert (In x K) by (apply (k_kept _ _ _ K'), in_app_iff; auto).
      apply kept_range in H. lia. }
  rewrite app_length, seq_length in H. rewrite app_length. cbn [length] in *. lia.
Qed.

Lemma kept_cycle : forall l b, cycle (flows fn) l -> In b l -> reachable_block fn b ->
  forall x, In x l -> In x K.
Proof.
  intros l b C IB RB x IX. destruct l as [|a q]; [destruct C|].
  assert (STEP : forall l y z, walk (flows fn) (y :: l ++ [z]) -> reachable_block fn y ->
    (forall x, In x (y :: l) -> reachable_block fn x) /\ reachable_block fn z).
  { induction l as [|c l IH]; intros y z W RY.
    - destruct W as [F _]. split; [intros ? [<-|[]]; exact RY|].
      apply (reachable_next fn y); assumption.
    - cbn [app] in W. destruct W as [F W].
      assert (RC : reachable_block fn c) by (apply (reachable_next fn y); assumption).
      destruct (IH c z W RC) as [A B]. split; [intros w [<-|I]; auto|exact B]. }
  assert (RA : reachable_block fn a).
  { destruct IB as [<-|IB]; [exact RB|]. apply in_split in IB. destruct IB as (l1 & l2 & ->).
    cbn [cycle] in C. unfold cycle in C.
    replace ((a :: l1 ++ b :: l2) ++ [a]) with ((a :: l1) ++ b :: (l2 ++ [a])) in C
      by (cbn [app]; rewrite <- app_assoc; reflexivity).
    apply walk_app_inv in C. destruct C as [_ C]. apply (STEP _ _ _ C RB). }
  apply kept_in. apply (proj1 (STEP q a a C RA) x IX).
Qed.

Lemma all_removed_acyclic : forall P deg, kinv P [] deg -> (forall x, In x K -> In x P) -> acyclic fn.
Proof.
  intros P deg KI ALL l C b IB RB. pose proof (kept_cycle l b C IB RB) as IK.
  assert (NP : NoDup P) by (eapply NoDup_app_remove_r; apply (k_nodup _ _ _ KI)).
  assert (T : forall q x y, (forall z, In z (x :: q) -> In z K) -> In y K ->
    walk (flows fn) (x :: q ++ [y]) -> before P x y).
  { induction q as [|c q IH]; intros x y I Y W.
    - destruct W as [F _]. apply flows_ss in F. apply (k_order _ _ _ KI); auto.
      apply I. left. reflexivity.
    - cbn [app] in W. destruct W as [F W]. apply flows_ss in F.
      apply (before_trans _ P x c y NP).
      + apply (k_order _ _ _ KI); auto; [apply I; left; reflexivity|apply ALL, I; right; left; reflexivity].
      + apply IH; auto. intros z Z. apply I. right. exact Z. }
  destruct l as [|a q]; [destruct C|].
  apply (before_irrefl _ P a NP). apply (T q a a); auto. apply IK. left. reflexivity.
Qed.

Lemma acyclic_all_removed : forall P deg, kinv P [] deg -> acyclic fn -> forall x, In x K -> In x P.
Proof.
  intros P deg KI AC x IX. destruct (in_dec Nat.eq_dec x P) as [|NI]; [assumption|exfalso].
  destruct (backwards_cycle (flows fn) (fun x => In x K /\ ~ In x P) K) as (l & C & HL).
  - tauto.
  - intros j [J NJ].
    assert (Z : nth j deg 0 <> 0).
    { intros Z. apply (k_zero _ _ _ KI j J) in Z. rewrite app_nil_r in Z. tauto. }
    pose proof (k_deg _ _ _ KI j J) as D.
    destruct (Exists_dec (fun i => ~ In i P /\ 0 < into j i) K) as [H|H].
    + intros i. destruct (in_dec Nat.eq_dec i P); [right; tauto|].
      destruct (Nat.eq_dec (into j i) 0); [right; lia|left; split; auto; lia].
    + apply Exists_exists in H. destruct H as (i & H1 & H2 & H3). exists i.
      split; [auto|]. apply flows_ss, into_pos. exact H3.
    + exfalso. assert (LE : indeg j <= sumf (into j) P); [|lia]. unfold indeg.
      assert (G : forall l, incl l K ->
        sumf (into j) l <= sumf (into j) (filter (fun i => if in_dec Nat.eq_dec i P then true else false) l)).
      { induction l as [|y l IH]; intros I; cbn [filter]; auto.
        specialize (IH (fun z Hz => I z (or_intror Hz))). destruct (in_dec Nat.eq_dec y P).
        - rewrite !sumf_cons. lia.
        - rewrite sumf_cons. assert (into j y = 0); [|lia].
          destruct (Nat.eq_dec (into j y) 0); auto. exfalso. apply H. apply Exists_exists.
          exists y. split; [apply I; simpl; auto|]. split; auto. lia. }
      eapply Nat.le_trans; [apply G; apply incl_refl|].
      apply sumf_incl; [apply NoDup_filter, kept_nodup|].
      intros y Hy. apply filter_In in Hy. destruct Hy as [_ Hy].
      destruct (in_dec Nat.eq_dec y P); [auto|discriminate].
  - eauto.
  - destruct l as [|a q]; [destruct C|]. apply (AC _ C a (or_introl eq_refl)).
    apply kept_in. apply HL. left. reflexivity.
Qed.

Lemma has_cycle_ok : exists b, has_cycle fn R = Val b /\ (b = false <-> acyclic fn).
Proof.
  unfold has_cycle.
  destruct (count_blocks_ok K (repeat 0 (length R))) as (deg & E & L & HD); [auto|rewrite repeat_length; exact LR|].
  rewrite E. cbn [bind].
  assert (KI : kinv [] (filter (fun b => nth b deg 0 =? 0) K) deg).
  { constructor; cbn [app].
    - exact L.
    - apply NoDup_filter, kept_nodup.
    - intros x I. apply filter_In in I. tauto.
    - intros j J. rewrite HD, nth_repeat_any. unfold sumf at 2. cbn [fold_right]. unfold indeg. lia.
    - intros j J. rewrite filter_In, Nat.eqb_eq. tauto.
    - intros i j _ _ []. }
  destruct (remove_blocks_ok (S (length fn)) [] _ deg KI ltac:(cbn [length]; lia)) as (P & deg' & E' & KP).
  cbn [length] in E'. rewrite E'. cbn [bind]. eexists. split; [reflexivity|].
  rewrite kept_count, negb_false_iff, Nat.eqb_eq.
  assert (NP : NoDup P) by (eapply NoDup_app_remove_r; apply (k_nodup _ _ _ KP)).
  assert (IP : incl P K) by (intros x I; apply (k_kept _ _ _ KP), in_app_iff; auto).
  split.
  - intros EQ. apply (all_removed_acyclic P deg' KP).
    apply NoDup_length_incl; auto. lia.
  - intros AC. apply Nat.le_antisymm; apply NoDup_incl_length; auto; [apply kept_nodup|].
    intros x I. apply (acyclic_all_removed P deg' KP AC x I).
Qed.

End Kahn.
End Cfg.
