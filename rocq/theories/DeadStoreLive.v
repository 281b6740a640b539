(** The liveness analysis of DeadStoreModel ends and is exact. *)
From Coq Require Import List Arith Bool Lia.
From Verif Require Import FrameModel FrameSpec DeadStoreModel DeadStoreSpec DeadStoreProofs.
Import ListNotations.

(** ** Positions *)
Lemma whole_write_index : forall o i,
  whole_place_write_index o = Some i -> (i < length (op_operands o) -> writes_whole o i).
Proof.
  intros o i E Hi. unfold whole_place_write_index in E. unfold writes_whole.
  destruct (op_kind o) eqn:Hk; try discriminate.
  - inversion E; subst. left. auto.
  - inversion E; subst. left. auto.
  - right. unfold call_result_operand_index in E.
    destruct (Nat.leb_spec (visible + 2) (length (op_operands o))); [|discriminate].
    inversion E. exists visible, id. repeat split; auto. lia.
Qed.

Lemma writes_index : forall o i, writes_whole o i -> whole_place_write_index o = Some i.
Proof.
  intros o i [(-> & [E|E])|(visible & id & E & Hl & Hi)]; unfold whole_place_write_index;
    rewrite E; auto.
  unfold call_result_operand_index.
  destruct (Nat.leb_spec (visible + 2) (length (op_operands o))); [|lia]. f_equal. lia.
Qed.

Lemma reads_whole_iff : forall o i, is_exact_place_read o i = true <-> reads_whole o i.
Proof.
  intros o i. unfold is_exact_place_read, reads_whole.
  destruct (op_kind o); (split; [intros E|intros (-> & E)]);
    try discriminate; try (apply Nat.eqb_eq in E; auto); auto;
    destruct E as [E|[E|E]]; discriminate.
Qed.

Lemma allowed_iff : forall o i, i < length (op_operands o) ->
  (allowed o i = true <-> reads_whole o i \/ writes_whole o i).
Proof.
  intros o i Hi. unfold allowed. rewrite orb_true_iff, reads_whole_iff. split.
  - intros [H|H]; auto. right. destruct (whole_place_write_index o) as [j|] eqn:E; [|discriminate].
    apply Nat.eqb_eq in H. subst. now apply whole_write_index.
  - intros [H|H]; auto. left. rewrite (writes_index _ _ H). apply Nat.eqb_refl.
Qed.

Lemma excluded_at_inv : forall o os pos r, In r (excluded_at o pos os) ->
  exists j, nth_error os j = Some (OReg r) /\ allowed o (pos + j) = false.
Proof.
  intros o. induction os as [|x os IH]; intros pos r H; [easy|]. cbn in H.
  assert (Hrec : In r (excluded_at o (S pos) os) ->
    exists j, nth_error (x :: os) j = Some (OReg r) /\ allowed o (pos + j) = false).
  { intros Hx. destruct (IH _ _ Hx) as (j & E & A). exists (S j). split; auto.
    now rewrite <- Nat.add_succ_comm. }
  destruct x as [l|l|n|n|r']; auto.
  apply in_app_or in H. destruct H as [H|H]; auto.
  fold (allowed o pos) in H. destruct (allowed o pos) eqn:A; [easy|].
  destruct H as [-> |[]]. exists 0. rewrite Nat.add_0_r. auto.
Qed.

Lemma registers_In : forall os r, In r (registers os) <-> In (OReg r) os.
Proof.
  intros os r. unfold registers. rewrite in_flat_map. split.
  - intros (x & Hx & H). destruct x; cbn in H; try easy. now destruct H as [-> |[]].
  - intros H. exists (OReg r). split; auto. now left.
Qed.

Lemma allocas_In : forall trivial p r, In r (allocas trivial p) <->
  exists o ty, In o (flat_map operations p) /\ op_kind o = KAlloca ty /\ trivial ty = true
    /\ op_result o = Some r.
Proof.
  intros trivial p r. unfold allocas. rewrite in_flat_map. split.
  - intros (b & Hb & H). apply in_flat_map in H. destruct H as (o & Ho & H).
    destruct (op_kind o) eqn:Hk; try easy. destruct (op_result o) as [r'|] eqn:Er; [|easy].
    destruct (trivial ty) eqn:Ht; [|easy]. destruct H as [-> |[]].
    exists o, ty. repeat split; auto. apply in_flat_map. eauto.
  - intros (o & ty & Ho & Hk & Ht & Er). apply in_flat_map in Ho. destruct Ho as (b & Hb & Ho).
    exists b. split; auto. apply in_flat_map. exists o. split; auto. rewrite Hk, Er, Ht. now left.
Qed.

Lemma candidates_In : forall trivial p r, In r (candidates trivial p) <-> private trivial p r.
Proof.
  intros trivial p r. unfold candidates. rewrite filter_In, allocas_In, negb_true_iff, mem_not_In.
  unfold private. split.
  - intros (Ha & Hx). split; [exact Ha|]. split.
    + intros o i Ho E.
      assert (Hi : i < length (op_operands o)) by (apply nth_error_Some; congruence).
      apply allowed_iff; auto. destruct (allowed o i) eqn:A; auto. exfalso. apply Hx.
      unfold excluded. apply in_flat_map in Ho. destruct Ho as (b & Hb & Hob).
      apply in_flat_map. exists b. split; auto. apply in_or_app. left.
      apply in_flat_map. exists o. split; auto. now apply (excluded_at_In o _ 0 i).
    + intros b Hb H. apply Hx. unfold excluded. apply in_flat_map. exists b. split; auto.
      apply in_or_app. right. now apply registers_In.
  - intros (Ha & Hd & Ht). split; [exact Ha|]. intros Hx. unfold excluded in Hx.
    apply in_flat_map in Hx. destruct Hx as (b & Hb & Hx). apply in_app_or in Hx.
    destruct Hx as [Hx|Hx].
    + apply in_flat_map in Hx. destruct Hx as (o & Ho & Hx).
      apply excluded_at_inv in Hx. destruct Hx as (j & E & A). cbn in A.
      assert (Hi : j < length (op_operands o)) by (apply nth_error_Some; congruence).
      assert (allowed o j = true); [|congruence]. apply allowed_iff; auto.
      apply Hd; auto. apply in_flat_map. eauto.
    + apply registers_In in Hx. now apply (Ht b).
Qed.

Lemma consuming_In : forall p r, In r (consuming_results p) <-> owned_result p r.
Proof.
  intros p r. unfold consuming_results, owned_result. rewrite in_flat_map. split.
  - intros (b & Hb & H). apply in_flat_map in H. destruct H as (o & Ho & H).
    destruct (op_result o) as [r'|] eqn:Er; [|easy].
    unfold requires_consuming_use in H. destruct (op_kind o) eqn:Hk; try easy.
    destruct owned; [|easy]. destruct H as [-> |[]]. exists o, id. repeat split; auto.
    apply in_flat_map. eauto.
  - intros (o & id & Ho & Hk & Er). apply in_flat_map in Ho. destruct Ho as (b & Hb & Ho).
    exists b. split; auto. apply in_flat_map. exists o. split; auto.
    unfold requires_consuming_use. rewrite Hk, Er. now left.
Qed.

(** ** One operation *)
Section Live.
Variable p : body.
Variables cands consuming : list nat.

Notation T os L := (fst (transfer cands consuming os L)).

Lemma reads_at_inv : forall o os pos r, In r (reads_at cands o pos os) ->
  In r cands /\ exists j, nth_error os j = Some (OReg r) /\ is_exact_place_read o (pos + j) = true.
Proof.
  intros o. induction os as [|x os IH]; intros pos r H; [easy|]. cbn in H.
  assert (Hrec : In r (reads_at cands o (S pos) os) -> In r cands /\
    exists j, nth_error (x :: os) j = Some (OReg r) /\ is_exact_place_read o (pos + j) = true).
  { intros Hx. destruct (IH _ _ Hx) as (Hc & j & E & A). split; auto. exists (S j). split; auto.
    now rewrite <- Nat.add_succ_comm. }
  destruct x as [l|l|n|n|r']; auto.
  apply in_app_or in H. destruct H as [H|H]; auto.
  destruct (is_exact_place_read o pos) eqn:A; [|easy]. cbn in H.
  destruct (mem r' cands) eqn:Hm; [|easy]. destruct H as [-> |[]].
  apply mem_In in Hm. split; auto. exists 0. rewrite Nat.add_0_r. auto.
Qed.

Lemma written_iff : forall o r, In r cands -> (written cands o = Some r <-> writes_cell o r).
Proof.
  intros o r Hr. unfold written, writes_cell. split.
  - destruct (whole_place_write_index o) as [i|] eqn:Ei; [|discriminate].
    destruct (nth_error (op_operands o) i) as [[l|l|n|n|r']|] eqn:E; try discriminate.
    destruct (mem r' cands); [|discriminate]. intros H. inversion H; subst. exists i. split; auto.
    apply whole_write_index; auto. apply nth_error_Some. congruence.
  - intros (i & E & W). rewrite (writes_index _ _ W), E.
    apply mem_In in Hr. now rewrite Hr.
Qed.

Lemma transfer_operation_iff : forall o L r, In r cands ->
  (In r (transfer_operation cands o L) <-> reads_cell o r \/ (~ writes_cell o r /\ In r L)).
Proof.
  intros o L r Hr. unfold transfer_operation. rewrite in_app_iff. split.
  - intros [H|H].
    + left. apply reads_at_inv in H. destruct H as (_ & j & E & A). cbn in A.
      exists j. split; auto. now apply reads_whole_iff.
    + right. destruct (written cands o) as [r'|] eqn:Hw.
      * unfold remove in H. apply filter_In in H. destruct H as [H Hn].
        apply negb_true_iff, Nat.eqb_neq in Hn. split; auto. intros W.
        apply (written_iff o r Hr) in W. congruence.
      * split; auto. intros W. apply (written_iff o r Hr) in W. congruence.
  - intros [(i & E & R)|(Hn & H)].
    + left. apply (reads_at_In cands o _ 0 i r); auto. now apply reads_whole_iff.
    + right. destruct (written cands o) as [r'|] eqn:Hw; auto.
      apply filter_In. split; auto. apply negb_true_iff, Nat.eqb_neq. intros ->.
      apply Hn. now apply written_iff.
Qed.

Lemma transfer_operation_cands : forall o L, incl L cands -> incl (transfer_operation cands o L) cands.
Proof.
  intros o L H r Hr. unfold transfer_operation in Hr. apply in_app_or in Hr. destruct Hr as [Hr|Hr].
  - now apply reads_at_inv in Hr.
  - destruct (written cands o); auto. apply filter_In in Hr. now apply H.
Qed.

Lemma transfer_cons : forall o os L, T (o :: os) L = transfer_operation cands o (T os L).
Proof. intros. cbn. now destruct (transfer cands consuming os L). Qed.

Lemma transfer_cands : forall os L, incl L cands -> incl (T os L) cands.
Proof.
  induction os as [|o os IH]; intros L H; [exact H|]. rewrite transfer_cons.
  apply transfer_operation_cands. auto.
Qed.

Lemma transfer_mono : forall os L L', incl L L' -> incl L' cands -> incl (T os L) (T os L').
Proof.
  induction os as [|o os IH]; intros L L' H Hc; [exact H|]. rewrite !transfer_cons.
  intros r Hr.
  assert (Hrc : In r cands).
  { apply (transfer_operation_cands o (T os L)); auto. apply transfer_cands.
    intros x Hx. auto. }
  apply transfer_operation_iff; auto. apply transfer_operation_iff in Hr; auto.
  destruct Hr as [Hr|(Hn & Hr)]; auto. right. split; auto. now apply (IH L L').
Qed.

(** ** The work list *)
Definition out (live_in : list (list nat)) (bl : block) : list nat :=
  T (operations bl) (live_out live_in bl).

Lemma replace_length : forall l i x, length (replace i x l) = length l.
Proof. induction l as [|y l IH]; intros [|i] x; cbn; auto. Qed.

Lemma nth_replace_eq : forall l i x, i < length l -> nth i (replace i x l) [] = x.
Proof.
  induction l as [|y l IH]; intros [|i] x H; cbn in *; try lia; auto. apply IH. lia.
Qed.

Lemma nth_replace_neq : forall l i j x, i <> j -> nth j (replace i x l) [] = nth j l [].
Proof.
  induction l as [|y l IH]; intros [|i] [|j] x H; cbn in *; try lia; auto.
Qed.

Definition missing (l : list nat) : nat :=
  length (filter (fun r => negb (mem r l)) (nodup Nat.eq_dec cands)).

Definition measure (live_in : list (list nat)) : nat := list_sum (map missing live_in).

Lemma filter_le : forall (U : list nat) f g, (forall x, g x = true -> f x = true) ->
  length (filter g U) <= length (filter f U).
Proof.
  induction U as [|u U IH]; intros f g H; cbn; auto.
  specialize (IH f g H). destruct (g u) eqn:Eg.
  - rewrite (H u Eg). cbn. lia.
  - destruct (f u); cbn; lia.
Qed.

Lemma filter_lt : forall (U : list nat) f g r, (forall x, g x = true -> f x = true) ->
  In r U -> f r = true -> g r = false -> length (filter g U) < length (filter f U).
Proof.
  induction U as [|u U IH]; intros f g r H Hr Ef Eg; [easy|]. cbn.
  destruct Hr as [-> |Hr].
  - rewrite Ef, Eg. cbn. pose proof (filter_le U f g H). lia.
  - specialize (IH f g r H Hr Ef Eg). destruct (g u) eqn:Egu.
    + rewrite (H u Egu). cbn. lia.
    + destruct (f u); cbn; lia.
Qed.

Lemma missing_lt : forall l l' r, incl l l' -> In r cands -> In r l' -> ~ In r l ->
  missing l' < missing l.
Proof.
  intros l l' r Hi Hc Hr Hn. unfold missing. apply (filter_lt _ _ _ r).
  - intros x Hx. apply negb_true_iff, mem_not_In. apply negb_true_iff, mem_not_In in Hx. auto.
  - now apply nodup_In.
  - now apply negb_true_iff, mem_not_In.
  - apply negb_false_iff. now apply mem_In.
Qed.

Lemma missing_le : forall l, missing l <= length cands.
Proof.
  intros l. unfold missing.
  assert (length (nodup Nat.eq_dec cands) <= length cands).
  { clear. induction cands as [|c l0 IH]; cbn; auto. destruct (in_dec _ _ _); cbn; lia. }
  eapply Nat.le_trans; [|exact H]. generalize (nodup Nat.eq_dec cands). clear.
  induction l0 as [|x l0 IH]; cbn; auto. destruct (negb (mem x l)); cbn; lia.
Qed.

Lemma measure_replace : forall live_in b x, b < length live_in ->
  missing x < missing (nth b live_in []) -> measure (replace b x live_in) < measure live_in.
Proof.
  unfold measure, list_sum.
  induction live_in as [|y l IH]; intros [|b] x Hb H;
    cbn [length nth replace map fold_right] in *; try lia.
  specialize (IH b x). assert (b < length l) by lia. specialize (IH H0 H). lia.
Qed.

Lemma predecessors_bound : forall b, length (predecessors p b) <= 2 * length p.
Proof.
  intros b. unfold predecessors.
  assert (G : forall n i, length (flat_map (fun i =>
    match nth_error p i with
    | Some bl => flat_map (fun s => if s =? b then [i] else []) (successors (term bl))
    | None => [] end) (seq i n)) <= 2 * n).
  { induction n as [|n IH]; intros i; cbn; [lia|]. rewrite app_length. specialize (IH (S i)).
    assert (length (match nth_error p i with
      | Some bl => flat_map (fun s => if s =? b then [i] else []) (successors (term bl))
      | None => [] end) <= 2); [|lia].
    destruct (nth_error p i) as [bl|]; [|cbn; lia].
    destruct (term bl) as [t|c t e|o t e|pl t| | |]; cbn;
      repeat (match goal with |- context [?x =? b] => destruct (x =? b) end; cbn); lia. }
  apply G.
Qed.

Lemma predecessors_In : forall b i bl, nth_error p i = Some bl -> In b (successors (term bl)) ->
  In i (predecessors p b).
Proof.
  intros b i bl E H. unfold predecessors. apply in_flat_map. exists i. split.
  - apply in_seq. split; [lia|]. cbn. apply nth_error_Some. congruence.
  - rewrite E. apply in_flat_map. exists b. split; auto. rewrite Nat.eqb_refl. now left.
Qed.

Lemma predecessors_lt : forall b i, In i (predecessors p b) -> i < length p.
Proof.
  intros b i H. unfold predecessors in H. apply in_flat_map in H. destruct H as (j & Hj & H).
  apply in_seq in Hj. destruct (nth_error p j) as [bl|]; [|easy].
  apply in_flat_map in H. destruct H as (s & _ & H). destruct (s =? b); [|easy].
  destruct H as [-> |[]]. lia.
Qed.

Record invariant (pending : list nat) (live_in : list (list nat)) : Prop := {
  i_length : length live_in = length p;
  i_pending : forall b, In b pending -> b < length p;
  i_cands : forall b, incl (nth b live_in []) cands;
  i_grows : forall b bl, nth_error p b = Some bl -> incl (nth b live_in []) (out live_in bl);
  i_done : forall b bl, nth_error p b = Some bl -> ~ In b pending ->
    incl (out live_in bl) (nth b live_in []);
  i_sound : forall b r, In r (nth b live_in []) -> may_read p r b 0 }.

Lemma live_out_cands : forall live_in bl, (forall b, incl (nth b live_in []) cands) ->
  incl (live_out live_in bl) cands.
Proof.
  intros live_in bl H r Hr. unfold live_out in Hr. apply in_flat_map in Hr.
  destruct Hr as (s & _ & Hr). now apply (H s).
Qed.

(** What the transfer adds is read on some path. *)
Lemma transfer_sound : forall live_in b bl i, nth_error p b = Some bl ->
  (forall b, incl (nth b live_in []) cands) ->
  (forall b r, In r (nth b live_in []) -> may_read p r b 0) ->
  i <= length (operations bl) ->
  forall r, In r (T (skipn i (operations bl)) (live_out live_in bl)) -> may_read p r b i.
Proof.
  intros live_in b bl i Eb Hc Hs Hi. remember (length (operations bl) - i) as n eqn:En.
  revert i Hi En. induction n as [|n IH]; intros i Hi En r Hr.
  - assert (i = length (operations bl)) by lia. subst i. rewrite skipn_all in Hr. cbn in Hr.
    unfold live_out in Hr. apply in_flat_map in Hr. destruct Hr as (s & Hs' & Hr).
    eapply may_leave; eauto.
  - destruct (nth_error (operations bl) i) as [o|] eqn:Eo.
    2:{ apply nth_error_None in Eo. lia. }
    assert (Esk : skipn i (operations bl) = o :: skipn (S i) (operations bl)).
    { clear - Eo. revert i Eo. induction (operations bl) as [|x l IH]; intros [|i] Eo; cbn in *;
        try discriminate.
      - now inversion Eo.
      - now apply IH. }
    rewrite Esk, transfer_cons in Hr.
    assert (Hrc : In r cands).
    { apply (transfer_operation_cands o (T (skipn (S i) (operations bl)) (live_out live_in bl))); auto.
      apply transfer_cands. now apply live_out_cands. }
    apply transfer_operation_iff in Hr; auto. destruct Hr as [Hr|(Hn & Hr)].
    + eapply may_here; eauto.
    + eapply may_later; eauto. apply IH; auto; lia.
Qed.

Lemma invariant_same : forall b bl pending live_in, nth_error p b = Some bl ->
  invariant (b :: pending) live_in ->
  same_set (out live_in bl) (nth b live_in []) = true -> invariant pending live_in.
Proof.
  intros b bl pending live_in Eb [I1 I2 I3 I4 I5 I6] S. constructor; auto.
  - intros x Hx. apply I2. now right.
  - intros b' bl' Eb' Hn. destruct (Nat.eq_dec b' b) as [-> |Hd].
    + rewrite Eb in Eb'. inversion Eb'; subst. unfold same_set in S. apply andb_true_iff in S.
      now apply subset_incl.
    + apply I5; auto. intros [H|H]; auto.
Qed.

Lemma live_out_mono : forall live_in live_in' bl,
  (forall b, incl (nth b live_in []) (nth b live_in' [])) ->
  incl (live_out live_in bl) (live_out live_in' bl).
Proof.
  intros live_in live_in' bl H r Hr. unfold live_out in *. apply in_flat_map in Hr.
  destruct Hr as (s & Hs & Hr). apply in_flat_map. exists s. split; auto. now apply (H s).
Qed.

Lemma invariant_change : forall b bl pending live_in, nth_error p b = Some bl ->
  invariant (b :: pending) live_in ->
  same_set (out live_in bl) (nth b live_in []) = false ->
  invariant (rev (predecessors p b) ++ pending) (replace b (out live_in bl) live_in) /\
  measure (replace b (out live_in bl) live_in) < measure live_in.
Proof.
  intros b bl pending live_in Eb [I1 I2 I3 I4 I5 I6] S.
  assert (Hb : b < length live_in) by (rewrite I1; apply nth_error_Some; congruence).
  assert (Hup : forall x, incl (nth x live_in []) (nth x (replace b (out live_in bl) live_in) [])).
  { intros x. destruct (Nat.eq_dec x b) as [-> |Hd].
    - rewrite nth_replace_eq by auto. now apply I4.
    - rewrite nth_replace_neq by auto. apply incl_refl. }
  assert (Hoc : incl (out live_in bl) cands).
  { apply transfer_cands. now apply live_out_cands. }
  assert (Hc' : forall x, incl (nth x (replace b (out live_in bl) live_in) []) cands).
  { intros x. destruct (Nat.eq_dec x b) as [-> |Hd].
    - now rewrite nth_replace_eq by auto.
    - now rewrite nth_replace_neq by auto. }
  assert (Hmono : forall bl', incl (out live_in bl') (out (replace b (out live_in bl) live_in) bl')).
  { intros bl'. apply transfer_mono; [apply live_out_mono; exact Hup|apply live_out_cands; exact Hc']. }
  split.
  - constructor; auto.
    + now rewrite replace_length.
    + intros x Hx. apply in_app_or in Hx. destruct Hx as [Hx|Hx].
      * apply in_rev in Hx. now apply predecessors_lt in Hx.
      * apply I2. now right.
    + intros b' bl' Eb'. destruct (Nat.eq_dec b' b) as [-> |Hd].
      * rewrite nth_replace_eq by auto. rewrite Eb in Eb'. inversion Eb'; subst. apply Hmono.
      * rewrite nth_replace_neq by auto. eapply incl_tran; [exact (I4 _ _ Eb')|apply Hmono].
    + intros b' bl' Eb' Hn.
      assert (Hnp : ~ In b (successors (term bl'))).
      { intros H. apply Hn. apply in_or_app. left. apply -> in_rev.
        eapply predecessors_In; eauto. }
      assert (Eo : live_out (replace b (out live_in bl) live_in) bl' = live_out live_in bl').
      { unfold live_out. clear - Hnp. induction (successors (term bl')) as [|s l IH]; cbn; auto.
        rewrite IH by (intros H; apply Hnp; now right). f_equal.
        apply nth_replace_neq. intros ->. apply Hnp. now left. }
      unfold out at 1. rewrite Eo. fold (out live_in bl').
      destruct (Nat.eq_dec b' b) as [-> |Hd].
      * rewrite nth_replace_eq by auto. rewrite Eb in Eb'. inversion Eb'; subst. apply incl_refl.
      * rewrite nth_replace_neq by auto. apply I5; auto. intros [H|H]; auto.
        apply Hn. apply in_or_app. now right.
    + intros b' r Hr. destruct (Nat.eq_dec b' b) as [-> |Hd].
      * rewrite nth_replace_eq in Hr by auto.
        eapply (transfer_sound live_in b bl 0); eauto. lia.
      * rewrite nth_replace_neq in Hr by auto. auto.
  - apply measure_replace; auto.
    unfold same_set in S. apply andb_false_iff in S.
    assert (Hsub : subset (nth b live_in []) (out live_in bl) = true)
      by (apply subset_incl; now apply I4).
    destruct S as [S|S]; [|congruence].
    assert (Hex : exists r, In r (out live_in bl) /\ ~ In r (nth b live_in [])).
    { unfold subset in S. clear - S. induction (out live_in bl) as [|x l IH]; [discriminate|].
      cbn in S. apply andb_false_iff in S. destruct S as [S|S].
      - exists x. split; [now left|]. now apply mem_not_In.
      - destruct (IH S) as (r & H & H'). exists r. split; auto. now right. }
    destruct Hex as (r & Hr & Hn). apply (missing_lt _ _ r); auto.
Qed.

Lemma liveness_ends : forall fuel pending live_in, invariant pending live_in ->
  length pending + measure live_in * (2 * length p) < fuel ->
  exists live_in', liveness fuel cands consuming p pending live_in = Some live_in' /\
    invariant [] live_in'.
Proof.
  induction fuel as [|fuel IH]; intros pending live_in I Hf; [lia|].
  destruct pending as [|b pending]; cbn [liveness]; [eauto|].
  assert (Hb : b < length p) by (apply (i_pending _ _ I); now left).
  destruct (nth_error p b) as [bl|] eqn:Eb.
  2:{ apply nth_error_None in Eb. lia. }
  fold (out live_in bl).
  destruct (same_set (out live_in bl) (nth b live_in [])) eqn:S.
  - apply IH; [eapply invariant_same; eauto|]. cbn in Hf. lia.
  - destruct (invariant_change _ _ _ _ Eb I S) as [I' Hm].
    apply IH; auto. rewrite app_length, rev_length. pose proof (predecessors_bound b).
    cbn [length] in Hf. nia.
Qed.

Lemma nth_repeat_nil : forall n b, nth b (repeat (@nil nat) n) [] = [].
Proof. induction n as [|n IH]; intros [|b]; cbn; auto. Qed.

Lemma measure_repeat : forall n, measure (repeat [] n) <= n * length cands.
Proof.
  unfold measure, list_sum. induction n as [|n IH]; cbn [repeat map fold_right Nat.mul]; auto.
  pose proof (missing_le []). lia.
Qed.

Lemma initial : invariant (rev (seq 0 (length p))) (repeat [] (length p)).
Proof.
  constructor.
  - apply repeat_length.
  - intros b Hb. apply in_rev, in_seq in Hb. lia.
  - intros b r Hr. now rewrite nth_repeat_nil in Hr.
  - intros b bl _ r Hr. now rewrite nth_repeat_nil in Hr.
  - intros b bl Eb Hn. exfalso. apply Hn. apply -> in_rev. apply in_seq.
    split; [lia|]. cbn. apply nth_error_Some. congruence.
  - intros b r Hr. now rewrite nth_repeat_nil in Hr.
Qed.

Lemma liveness_ok : exists live_in,
  liveness (liveness_fuel cands p) cands consuming p (rev (seq 0 (length p)))
    (repeat [] (length p)) = Some live_in /\ invariant [] live_in.
Proof.
  apply liveness_ends; [apply initial|].
  rewrite rev_length, seq_length. unfold liveness_fuel. pose proof (measure_repeat (length p)). nia.
Qed.

(** ** Exactness *)
Variable live_in : list (list nat).
Hypothesis I : invariant [] live_in.

Lemma skipn_nth : forall (l : list operation) i o, nth_error l i = Some o ->
  skipn i l = o :: skipn (S i) l.
Proof.
  induction l as [|x l IH]; intros [|i] o E; cbn in *; try discriminate.
  - now inversion E.
  - now apply IH.
Qed.

Lemma live_exact : forall r b i bl, In r cands -> nth_error p b = Some bl ->
  i <= length (operations bl) ->
  (In r (T (skipn i (operations bl)) (live_out live_in bl)) <-> may_read p r b i).
Proof.
  intros r b i bl Hr Eb Hi. split.
  - intros H. eapply transfer_sound; eauto; apply I.
  - intros H. clear Hi. revert bl Eb. 
    induction H as [b i bl o Eb Eo R|b i bl o Eb Eo Hn _ IH|b bl s Eb Hs Hm IH];
      intros bl' Eb'; rewrite Eb in Eb'; inversion Eb'; subst bl'.
    + rewrite (skipn_nth _ _ _ Eo), transfer_cons. apply transfer_operation_iff; auto.
    + rewrite (skipn_nth _ _ _ Eo), transfer_cons. apply transfer_operation_iff; auto.
    + rewrite skipn_all. cbn. unfold live_out. apply in_flat_map. exists s. split; auto.
      destruct (nth_error p s) as [bs|] eqn:Es.
      * specialize (IH bs eq_refl). cbn [skipn] in IH. apply (i_done _ _ I s bs Es); auto.
      * exfalso. clear - Es Hm. inversion Hm; subst; congruence.
Qed.

Lemma fixpoint : forall b bl, nth_error p b = Some bl ->
  same_set (out live_in bl) (nth b live_in []) = true.
Proof.
  intros b bl Eb. unfold same_set. apply andb_true_iff. split; apply subset_incl.
  - now apply (i_done _ _ I).
  - now apply (i_grows _ _ I).
Qed.

(** ** Which operations stay *)
Fixpoint flags (os : list operation) (L : list nat) : list bool :=
  match os with
  | [] => []
  | o :: os => keeps cands consuming o (T os L) :: flags os L
  end.

Lemma flags_length : forall os L, length (flags os L) = length os.
Proof. induction os as [|o os IH]; intros L; cbn; auto. Qed.

Lemma flags_kept : forall os L, snd (transfer cands consuming os L) = kept (flags os L) os.
Proof.
  induction os as [|o os IH]; intros L; cbn; auto.
  specialize (IH L). destruct (transfer cands consuming os L) as [l k] eqn:E. cbn in *.
  destruct (keeps cands consuming o l); now rewrite IH.
Qed.

Lemma flags_nth : forall os L i o, nth_error os i = Some o ->
  nth_error (flags os L) i = Some (keeps cands consuming o (T (skipn (S i) os) L)).
Proof.
  induction os as [|x os IH]; intros L [|i] o E; cbn in E |- *; try discriminate.
  - inversion E; subst. reflexivity.
  - rewrite (IH L i o E). reflexivity.
Qed.

Lemma keeps_iff : forall o L, keeps cands consuming o L = false <->
  op_kind o = KStore /\ exists v r rest, op_operands o = v :: OReg r :: rest /\ In r cands /\
    (forall x, v = OReg x -> ~ In x consuming) /\ ~ In r L.
Proof.
  intros o L. unfold keeps, written, is_dead_store, whole_place_write_index. split.
  - destruct (op_kind o) eqn:Hk.
    all: try discriminate.
    + destruct (op_operands o) as [|v [|x rest]] eqn:Eo; cbn; try discriminate.
      destruct x as [l|l|n|n|r]; try discriminate.
      destruct (mem r cands) eqn:Hm; [|discriminate]. intros H.
      apply negb_false_iff, andb_true_iff in H. destruct H as [H1 H2].
      split; auto. exists v, r, rest. split; auto. split; [now apply mem_In|]. split.
      * intros x ->. apply negb_true_iff in H1. now apply mem_not_In.
      * apply negb_true_iff in H2. now apply mem_not_In.
    + destruct (nth_error (op_operands o) 1) as [[l|l|n|n|r]|]; try discriminate.
      destruct (mem r cands); discriminate.
    + destruct (call_result_operand_index (op_operands o) visible) as [i|]; [|discriminate].
      destruct (nth_error (op_operands o) i) as [[l|l|n|n|r]|]; try discriminate.
      destruct (mem r cands); discriminate.
  - intros (Hk & v & r & rest & Eo & Hc & Hv & Hl). rewrite Hk, Eo. cbn.
    apply mem_In in Hc. rewrite Hc. apply mem_not_In in Hl. rewrite Hl.
    destruct v as [l|l|n|n|x]; cbn; auto. specialize (Hv x eq_refl). apply mem_not_In in Hv.
    now rewrite Hv.
Qed.
End Live.

Lemma private_In : forall trivial p, forall r, In r (candidates trivial p) ->
  (exists o ty, In o (flat_map operations p) /\ op_kind o = KAlloca ty /\ op_result o = Some r)
  /\ ~ In r (excluded p).
Proof.
  intros trivial p r H. split.
  - apply candidates_In in H. destruct H as ((o & ty & Ho & Hk & _ & Er) & _). eauto.
  - unfold candidates in H. apply filter_In in H. destruct H as [_ H].
    now apply negb_true_iff, mem_not_In in H.
Qed.

Lemma flag_removable : forall trivial p live_in b bl i,
  invariant p (candidates trivial p) (consuming_results p) [] live_in ->
  nth_error p b = Some bl -> i < length (operations bl) ->
  (nth_error (flags (candidates trivial p) (consuming_results p) (operations bl)
                (live_out live_in bl)) i = Some false <-> removable trivial p b i).
Proof.
  intros trivial p live_in b bl i I Eb Hi.
  destruct (nth_error (operations bl) i) as [o|] eqn:Eo.
  2:{ apply nth_error_None in Eo. lia. }
  rewrite (flags_nth _ _ _ _ _ _ Eo). split.
  - intros E. assert (E' : keeps (candidates trivial p) (consuming_results p) o
      (fst (transfer (candidates trivial p) (consuming_results p) (skipn (S i) (operations bl))
         (live_out live_in bl))) = false) by congruence.
    apply keeps_iff in E'. destruct E' as (Hk & v & r & rest & Er & Hc & Hv & Hl).
    exists bl, o, v, r, rest. split; [auto|]. split; [auto|]. split; [auto|]. split; [auto|].
    split; [now apply candidates_In|]. split.
    + intros x Ex Ho. apply consuming_In in Ho. now apply (Hv x).
    + intros Hm. apply Hl.
      apply (live_exact p (candidates trivial p) (consuming_results p) live_in I r b (S i) bl); auto.
  - intros (bl' & o' & v & r & rest & Eb' & Eo' & Hk & Er & Hpr & Hv & Hm).
    rewrite Eb in Eb'. inversion Eb'; subst bl'. rewrite Eo in Eo'. inversion Eo'; subst o'.
    f_equal. apply keeps_iff. split; auto. exists v, r, rest. split; auto.
    apply candidates_In in Hpr. split; auto. split.
    + intros x Ex Ho. apply consuming_In in Ho. now apply (Hv x).
    + intros Hl. apply Hm.
      apply (live_exact p (candidates trivial p) (consuming_results p) live_in I r b (S i) bl); auto.
Qed.

Lemma pass_ends : forall trivial p, remove_overwritten_stores trivial p <> None.
Proof.
  intros trivial p. unfold remove_overwritten_stores.
  destruct (liveness_ok p (candidates trivial p) (consuming_results p)) as (live_in & -> & _).
  destruct (candidates trivial p); [discriminate|].
  match goal with |- context [if ?x then _ else _] => destruct x end; discriminate.
Qed.

Lemma kept_le : forall A k (l : list A), length (kept k l) <= length l.
Proof.
  induction k as [|b k IH]; intros [|x l]; cbn; try lia. specialize (IH l). destruct b; cbn; lia.
Qed.

Lemma kept_all : forall A k (l : list A) i, length k = length l ->
  length (kept k l) = length l -> nth_error k i <> Some false.
Proof.
  induction k as [|b k IH]; intros [|x l] i Hk H; cbn in *; try lia.
  - now destruct i.
  - pose proof (kept_le _ k l). destruct b; cbn in H; [|lia]. destruct i as [|i]; [easy|].
    cbn. apply (IH l); lia.
Qed.

Lemma pass_exact : forall trivial p,
  match remove_overwritten_stores trivial p with
  | Some (Some p') => drops_removable trivial p p' /\ exists b i, removable trivial p b i
  | Some None => forall b i, ~ removable trivial p b i
  | None => False
  end.
Proof.
  intros trivial p. pose proof (pass_ends trivial p) as Hends. unfold remove_overwritten_stores in *.
  destruct (liveness_ok p (candidates trivial p) (consuming_results p)) as (live_in & E & I).
  rewrite E in *. clear E.
  assert (Hflag := fun b bl i => flag_removable trivial p live_in b bl i I).
  destruct (candidates trivial p) as [|c cs] eqn:Ec.
  { intros b i (bl & o & v & r & rest & _ & _ & _ & _ & Hpr & _).
    apply candidates_In in Hpr. now rewrite Ec in Hpr. }
  rewrite <- Ec in *. clear c cs Ec.
  set (cands := candidates trivial p) in *. set (cons := consuming_results p) in *.
  destruct (forallb _ _) eqn:Hall.
  - intros b i Hr. assert (Hr' := Hr). destruct Hr as (bl & o & v & r & rest & Eb & Eo & _).
    assert (Hi : i < length (operations bl)) by (apply nth_error_Some; congruence).
    apply (Hflag b bl i Eb Hi) in Hr'.
    rewrite forallb_forall in Hall. specialize (Hall (bl, remove_in_block cands cons live_in bl)).
    assert (Hin : In (bl, remove_in_block cands cons live_in bl)
                     (combine p (map (remove_in_block cands cons live_in) p))).
    { apply nth_error_In in Eb. clear - Eb. clearbody cands cons. induction p as [|x l IH]; [easy|].
      cbn. destruct Eb as [-> |H]; [now left|right]. now apply IH. }
    specialize (Hall Hin). cbn in Hall. apply Nat.eqb_eq in Hall.
    rewrite flags_kept in Hall. symmetry in Hall.
    apply (kept_all _ _ _ i) in Hall; [now apply Hall|]. apply flags_length.
  - split.
    + split; [apply map_length|]. intros b bl Eb.
      exists (flags cands cons (operations bl) (live_out live_in bl)), (remove_in_block cands cons live_in bl).
      split; [now apply map_nth_error|]. split; [reflexivity|].
      split; [apply flags_length|]. split; [apply flags_kept|].
      intros i Hi. rewrite flags_length in Hi. now apply Hflag.
    + assert (Hex : exists b bl, nth_error p b = Some bl /\
        length (operations bl) <> length (operations (remove_in_block cands cons live_in bl))).
      { clear - Hall. clearbody cands cons. induction p as [|x l IH]; [discriminate|].
        cbn [map combine forallb] in Hall. apply andb_false_iff in Hall. destruct Hall as [H|H].
        - apply Nat.eqb_neq in H. exists 0, x. auto.
        - destruct (IH H) as (b & bl & Eb & Hd). exists (S b), bl. auto. }
      destruct Hex as (b & bl & Eb & Hd). exists b.
      cbn in Hd. rewrite flags_kept in Hd.
      assert (Hf : exists i, i < length (operations bl) /\
        nth_error (flags cands cons (operations bl) (live_out live_in bl)) i = Some false).
      { pose proof (flags_length cands cons (operations bl) (live_out live_in bl)) as Hl.
        revert Hd Hl. generalize (flags cands cons (operations bl) (live_out live_in bl)).
        generalize (operations bl). clear. induction l as [|o l IH]; intros [|k l0] Hd Hl;
          cbn in *; try lia. destruct k.
        - destruct (IH l0) as (i & Hi & Ei); [cbn in Hd; lia|lia|]. exists (S i). split; [lia|auto].
        - exists 0. split; [lia|auto]. }
      destruct Hf as (i & Hi & Ei). exists i. now apply (Hflag b bl i Eb Hi).
Qed.

(** ** Behaviour *)
Lemma pass_same : forall (other world : Type) (m : machine other world) trivial p p',
  single_definitions p -> no_address_in_cell p ->
  remove_overwritten_stores trivial p = Some (Some p') -> same_calls m p p'.
Proof.
  intros other world m trivial p p' Hs Ha E n params w Hp. unfold remove_overwritten_stores in E.
  destruct (liveness_ok p (candidates trivial p) (consuming_results p)) as (live_in & El & I).
  rewrite El in E. pose proof (private_In trivial p) as Hpriv.
  destruct (candidates trivial p) as [|c cs] eqn:Ec; [discriminate|].
  rewrite <- Ec in *. clear c cs Ec. destruct (forallb _ _); [discriminate|].
  inversion E; subst p'. unfold call in *. eapply run_related; eauto.
  - intros r Hr. now apply Hpriv.
  - intros r Hr. now apply Hpriv.
  - apply (fixpoint p _ _ _ I).
  - constructor; auto.
    constructor; cbn; intros; discriminate.
Qed.

