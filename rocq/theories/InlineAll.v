(** All the splices of one function. *)
From Coq Require Import List Arith Bool Lia Sorted.
From Verif Require Import ListUtil InlineModel InlineMachine InlineSpec InlineSim InlineCopy InlinePlan.
Import ListNotations.

(** * The order of the sites *)
Definition site_lt (s1 s2 : site) : Prop :=
  site_block s1 < site_block s2 \/
  (site_block s1 = site_block s2 /\
   match s1, s2 with
   | SOperation _ i, SOperation _ j => i < j
   | SOperation _ _, STerminator _ => True
   | _, _ => False
   end).

Lemma call_at_range bs s o : call_at bs s = Some o -> site_block s < length bs.
Proof.
  intros H. apply nth_error_Some. destruct s as [b i|b]; cbn in *; apply bind_some in H;
    destruct H as [B [E _]]; congruence.
Qed.

Lemma call_at_block bs bs' s : nth_error bs' (site_block s) = nth_error bs (site_block s) ->
  call_at bs' s = call_at bs s.
Proof. destruct s as [b i|b]; cbn; intros ->; reflexivity. Qed.

Lemma made_call_at e G s e' B pre call callee args normal error after copies c mp s' o :
  made e G s e' B pre call callee args normal error after copies c mp ->
  site_lt s' s -> call_at (e_blocks e) s' = Some o -> call_at (e_blocks e') s' = Some o.
Proof.
  intros MD LT CA. pose proof (call_at_range _ _ _ CA) as L. destruct LT as [LT|[EQ LT]].
  - rewrite <- CA. apply call_at_block. apply (made_other _ _ _ _ _ _ _ _ _ _ _ _ _ _ _ MD); auto. lia.
  - destruct s' as [b' i|b']; [|destruct s; contradiction]. cbn [site_block call_at] in *. subst b'.
    pose proof (made_cut _ _ _ _ _ _ _ _ _ _ _ _ _ _ _ MD) as CUT. cbn in CUT.
    rewrite CUT. cbn [bind b_ops].
    rewrite (md_block MD) in CA. cbn [bind] in CA.
    pose proof (md_site MD) as ST. destruct s as [b j|b].
    + destruct ST as [tail [_ [E1 [E2 _]]]]. rewrite E1 in CA.
      rewrite nth_error_app1 in CA by lia. rewrite nth_error_app1 by lia. exact CA.
    + destruct ST as [_ [E1 _]]. rewrite E1 in CA. rewrite nth_error_app1; auto.
      apply nth_error_Some. congruence.
Qed.

(** * Programs that are equal *)
Section Ext.
  Variables (d : dialect) (P Q : program).
  Hypothesis E : forall g, P g = Q g.

  Lemma begin_ext F fr o w : begin d P F fr o w = begin d Q F fr o w.
  Proof.
    unfold begin. destruct (resolve_all d F fr (o_operands o)) as [xs|]; auto.
    destruct (o_kind o); auto. destruct xs as [|[| | | |h|] ys]; auto. rewrite E. reflexivity.
  Qed.

  Lemma step_ext s : step d P s = step d Q s.
  Proof.
    destruct s as [[|fr s] w| |]; auto. unfold step. rewrite E.
    destruct (Q (fr_fun fr)) as [F|]; auto.
    destruct (fr_control fr) as [[|o ops]|a o r|k o r]; auto.
    - destruct (nth_error (f_blocks F) (fr_block fr)) as [B|]; auto.
      destruct (b_term B); cbn [terminate]; auto. rewrite begin_ext. reflexivity.
    - rewrite begin_ext. reflexivity.
    - destruct a; auto. rewrite E. reflexivity.
  Qed.

  Lemma run_ext n : forall s, run d P n s = run d Q n s.
  Proof. induction n as [|n IH]; intros s; cbn [run]; auto. rewrite step_ext. apply IH. Qed.

  Lemma start_ext f bs w : start d P f bs w = start d Q f bs w.
  Proof. unfold start. rewrite E. reflexivity. Qed.
End Ext.

Lemma agrees_trans {pl v t fa po w} (s1 s2 s3 : status pl v t fa po w) :
  agrees s1 s2 -> agrees s2 s3 -> agrees s1 s3.
Proof.
  intros H K. destruct H.
  - constructor.
  - inversion K; subst; constructor.
  - inversion K; subst; constructor.
Qed.

Lemma agrees_refl {pl v t fa po w} (s : status pl v t fa po w) : agrees s s.
Proof. destruct s; constructor. Qed.

Lemma replace_replace P f A B g : replace (replace P f A) f B g = replace P f B g.
Proof. unfold replace. destruct (fid_eqb g f); reflexivity. Qed.

(** * One splice after the other *)
Section All.
  Variable d : dialect.
  Hypothesis law : lawful d.
  Variables (P : program) (f : fid) (ps : list passing).

  Definition as_function (e : edit) : function := Function ps (e_constants e) (e_blocks e).

  Definition ready (C : nat -> Prop) (e : edit) (x : site * function) : Prop :=
    exists o g args y, call_at (e_blocks e) (fst x) = Some o /\ o_kind o = KCall y /\
      o_operands o = OFunction g :: args /\ g <> f /\ P g = Some (snd x) /\
      (forall q, ~ In (OSubscript q) args) /\
      (error_flow (snd x) = true -> ~ C (site_block (fst x))) /\
      targets_ok (f_blocks (snd x)) /\ returns_clean (snd x).

  Lemma ready_later C e G s e' B pre call callee args normal error after copies c mp x :
    made e G s e' B pre call callee args normal error after copies c mp ->
    site_lt (fst x) s -> ready C e x ->
    ready (cleanup' e G s after c C) e' x.
  Proof.
    intros MD LT [o [g [as' [y [R1 [R2 [R3 [R4 [R5 [R6 [R7 [R8 R9]]]]]]]]]]]].
    exists o, g, as', y. split; [eapply made_call_at; eauto|].
    split; [exact R2|]. split; [exact R3|]. split; [exact R4|]. split; [exact R5|]. split; [exact R6|].
    split; [|auto]. intros EF. eapply made_still; eauto. eapply call_at_range; eauto.
  Qed.

  Lemma splice_all_agrees : forall l e C e',
    StronglySorted (fun a b => site_lt (fst b) (fst a)) l -> Forall (ready C e) l ->
    results_below (e_blocks e) (e_next e) -> closed (e_blocks e) C -> targets_ok (e_blocks e) ->
    splice_all e l = Some e' ->
    forall n h bs w,
      agrees (run d (replace P f (as_function e)) n (start d (replace P f (as_function e)) h bs w))
             (run d (replace P f (as_function e')) n (start d (replace P f (as_function e')) h bs w)).
  Proof.
    induction l as [|[s G] l IH]; intros e C e' SO RE RB CL TG H n h bs w; cbn [splice_all] in H.
    - injection H as <-. apply agrees_refl.
    - apply bind_some in H. destruct H as [e1 [H1 H]].
      inversion SO as [|x l0 SO' LT]; subst. inversion RE as [|x l0 R0 RE']; subst.
      destruct (inline_at_made _ _ _ _ H1) as [B [pre [call [callee [args [normal [error [after [copies [c [mp MD]]]]]]]]]]].
      destruct R0 as [o [g [as' [y [R1 [R2 [R3 [R4 [R5 [R6 [R7 [R8 R9]]]]]]]]]]]]. cbn [fst snd] in *.
      rewrite (md_call MD) in R1. injection R1 as <-.
      pose proof (md_operands MD) as OP. rewrite R3 in OP. injection OP as <- <-.
      assert (PF : replace P f (as_function e) f = Some (Function ps (e_constants e) (e_blocks e))) by apply replace_same.
      assert (PG : replace P f (as_function e) g = Some G) by (rewrite replace_other; auto).
      pose proof (made_spliced _ _ _ _ _ _ _ _ _ _ _ _ _ _ _ MD ps (replace P f (as_function e)) f g C
        PF PG (ex_intro _ y R2) eq_refl R6 RB CL R7) as SP.
      eapply agrees_trans.
      + eapply splice_agrees; [exact law|exact SP].
      + change (Function ps (e_constants e1) (e_blocks e1)) with (as_function e1).
        rewrite (run_ext d _ _ (replace_replace P f (as_function e) (as_function e1))).
        rewrite (start_ext d _ _ (replace_replace P f (as_function e) (as_function e1))).
        eapply IH; [exact SO'| | | | |exact H].
        * rewrite Forall_forall in RE', LT |- *. intros x I. eapply ready_later; eauto.
        * eapply made_results; eauto.
        * eapply made_closed; eauto.
        * eapply made_targets; eauto.
  Qed.
End All.

(** * It succeeds *)
Definition spliceable (e : edit) (x : site * function) : Prop :=
  exists o callee args, call_at (e_blocks e) (fst x) = Some o /\ o_operands o = callee :: args /\
    length args = length (f_params (snd x)) /\ body_ok (snd x) /\ f_blocks (snd x) <> [] /\
    (forall B z c, In B (f_blocks (snd x)) -> b_term B <> TYield z c) /\
    (forall B, In B (f_blocks (snd x)) -> b_term B = TPropagate -> exists b, fst x = STerminator b).

Lemma skipn_nth {A} (l : list A) : forall i x, nth_error l i = Some x -> exists r, skipn i l = x :: r.
Proof.
  induction l as [|a l IH]; intros i x H; [destruct i; discriminate H|].
  destruct i as [|i]; cbn in *; [injection H as ->; eauto|apply IH; exact H].
Qed.

Lemma inline_at_total e x : spliceable e x -> inline_at e (snd x) (fst x) <> None.
Proof.
  intros [o [callee [args [R1 [R2 [R3 [R4 [R5 [R6 R7]]]]]]]]]. destruct x as [s G]. cbn [fst snd] in *.
  assert (TA : exists normal error bs B, take_apart (e_blocks e) s = Some (o, normal, error, bs) /\
            nth_error bs (site_block s) = Some B /\ ((exists b, s = STerminator b) -> error <> None)).
  { destruct s as [b i|b]; cbn [call_at take_apart site_block] in *; apply bind_some in R1; destruct R1 as [B [EB R1]]; rewrite EB; cbn [bind].
    - destruct (skipn_nth _ _ _ R1) as [r ->]. repeat eexists.
      + assert (L : b < length (e_blocks e)) by (apply nth_error_Some; congruence).
        rewrite nth_error_app1 by (rewrite upd_length; exact L). apply nth_error_upd_same. exact L.
      + intros [b0 Q]. discriminate Q.
    - destruct (b_term B); try discriminate R1. injection R1 as ->. repeat eexists; eauto. discriminate. }
  destruct TA as [normal [error [bs [B [TA [NB ER]]]]]]. unfold inline_at. rewrite TA. cbn [bind].
  rewrite NB. cbn [bind]. rewrite R2, R3, Nat.eqb_refl.
  destruct (allocate (flat_map results (f_blocks G)) (S (e_next e)) []) as [m next] eqn:AL.
  destruct (allocate_spec (S (e_next e)) _ _ _ _ _ AL) as [_ [_ [_ [LK _]]]].
  { lia. } { constructor. } { intros p []. }
  match goal with |- bind (copy_all (copy_block ?c) _ _) _ <> None => set (cp := c) end.
  destruct (copy_all (copy_block cp) (f_blocks G) (e_constants e, [])) as [q|] eqn:CA.
  - cbn [bind]. unfold c_block, cp at 1. cbn [c_count].
    destruct (f_blocks G); [contradiction|]. cbn. discriminate.
  - exfalso. revert CA. apply copy_all_fine. apply Forall_forall. intros Bx I.
    apply (copy_block_fine G cp eq_refl eq_refl R3 LK Bx R4 I).
    + intros z c. exact (R6 _ z c I).
    + intros T. destruct (R7 _ I T) as [b ->]. apply ER. eauto.
Qed.

Lemma splice_all_total : forall l e,
  StronglySorted (fun a b => site_lt (fst b) (fst a)) l -> Forall (spliceable e) l -> splice_all e l <> None.
Proof.
  induction l as [|[s G] l IH]; intros e SO RE; cbn [splice_all]; [discriminate|].
  inversion SO as [|x l0 SO' LT]; subst. inversion RE as [|x l0 R0 RE']; subst.
  destruct (inline_at e G s) as [e1|] eqn:E; [|exfalso; exact (inline_at_total _ _ R0 E)].
  cbn [bind]. apply IH; auto.
  destruct (inline_at_made _ _ _ _ E) as [B [pre [call [callee [args [normal [error [after [copies [c [mp MD]]]]]]]]]]].
  rewrite Forall_forall in RE', LT |- *. intros x I.
  destruct (RE' _ I) as [o [cl [as' [R1 R2]]]]. exists o, cl, as'. split; [|exact R2].
  eapply made_call_at; [exact MD|exact (LT _ I)|exact R1].
Qed.

(** * How large it gets *)
Definition cost (G : function) : nat := operation_count G + length (f_blocks G) + 1.

Definition count (bs : list block) : nat := fold_right (fun b n => length (b_ops b) + n) 0 bs.

Lemma count_app a b : count (a ++ b) = count a + count b.
Proof. induction a as [|x a IH]; cbn; auto. unfold count in *. rewrite IH. lia. Qed.

Lemma count_upd l : forall i B B', nth_error l i = Some B ->
  count (upd l i B') + length (b_ops B) = count l + length (b_ops B').
Proof.
  induction l as [|x l IH]; intros i B B' E; [destruct i; discriminate E|].
  destruct i as [|i]; cbn in *.
  - injection E as ->. lia.
  - specialize (IH _ _ B' E). unfold count in *. lia.
Qed.

Lemma count_copies G F' args N base normal error rho l l' :
  Forall2 (copied_block G F' args N base normal error rho) l l' -> count l' <= count l + length l.
Proof.
  induction 1 as [|B B' l l' [ops [ex [E1 [E2 E3]]]] _ IH]; cbn; auto.
  rewrite E1, app_length, <- (Forall2_len _ _ _ E2).
  assert (length ex <= 1) by (destruct E3; cbn; lia). unfold count in *. lia.
Qed.

Lemma made_count e G s e' B pre call callee args normal error after copies c mp :
  made e G s e' B pre call callee args normal error after copies c mp ->
  count (e_blocks e') <= count (e_blocks e) + cost G.
Proof.
  intros MD. rewrite (md_blocks MD), !count_app.
  pose proof (count_upd _ _ _ (Block (pre ++ [save (e_next e)]) (TGoto (c_base c))) (md_block MD)) as CU.
  cbn [b_ops] in CU. rewrite app_length in CU. cbn [length] in CU.
  pose proof (count_copies _ _ _ _ _ _ _ _ _ _ (proj2 (made_copies _ _ _ _ _ _ _ _ _ _ _ _ _ _ _ MD []))) as CC.
  change (operation_count G) with (count (f_blocks G)) in *. unfold cost. change (operation_count G) with (count (f_blocks G)).
  assert (count (tail_blocks after (b_term B)) + length pre <= length (b_ops B)).
  { pose proof (md_site MD) as ST. destruct s as [b i|b].
    - destruct ST as [tail [-> [-> _]]]. rewrite app_length. cbn. lia.
    - destruct ST as [-> [-> _]]. cbn. lia. }
  lia.
Qed.

Definition costs (l : list (site * function)) : nat := fold_right (fun x n => cost (snd x) + n) 0 l.

Lemma costs_cons x l : costs (x :: l) = cost (snd x) + costs l.
Proof. reflexivity. Qed.

Lemma splice_all_count : forall l e e', splice_all e l = Some e' ->
  count (e_blocks e') <= count (e_blocks e) + costs l.
Proof.
  induction l as [|[s G] l IH]; intros e e' H; cbn [splice_all] in H.
  - injection H as <-. cbn. lia.
  - apply bind_some in H. destruct H as [e1 [H1 H]].
    destruct (inline_at_made _ _ _ _ H1) as [B [pre [call [callee [args [normal [error [after [copies [c [mp MD]]]]]]]]]]].
    specialize (IH _ _ H). pose proof (made_count _ _ _ _ _ _ _ _ _ _ _ _ _ _ _ MD).
    change (costs ((s, G) :: l)) with (cost G + costs l). lia.
Qed.

Lemma costs_app a b : costs (a ++ b) = costs a + costs b.
Proof. induction a as [|x a IH]; cbn [app]; auto. rewrite !costs_cons, IH. lia. Qed.
Lemma costs_rev l : costs (rev l) = costs l.
Proof. induction l as [|x l IH]; cbn [rev]; auto. rewrite costs_app, !costs_cons, IH. cbn [costs fold_right]. lia. Qed.

(** * The plan *)
Section Plans.
  Variables (never : fid -> bool) (bodies : program).

  Definition chosen (o : operation) (h c : bool) (G : function) : Prop :=
    exists g args, o_kind o = KCall false /\ o_operands o = OFunction g :: args /\ never g = false /\
      bodies g = Some G /\ operation_count G <= callee_operations /\ check_inlinable G h c = true.

  Lemma candidate_spec o h c size limit G size' : candidate never bodies o h c size limit = Some (G, size') ->
    chosen o h c G /\ size' = size + cost G /\ size' <= limit.
  Proof.
    unfold candidate. destruct (o_kind o) as [| |[|]| | | |] eqn:K; try (intros H; discriminate H).
    destruct (o_operands o) as [|[| | | |g| |] args] eqn:OP; try (intros H; discriminate H).
    destruct (never g) eqn:NV; [intros H; discriminate H|]. intros H. apply bind_some in H. destruct H as [B [E H]].
    destruct (callee_operations <? operation_count B) eqn:L1; [discriminate H|].
    destruct (check_inlinable B h c) eqn:CI; [|discriminate H].
    destruct (limit <? size + (operation_count B + length (f_blocks B) + 1)) eqn:L2; [discriminate H|].
    injection H as <- <-. apply Nat.ltb_ge in L1. apply Nat.ltb_ge in L2.
    split; [exists g, args; auto 10|]. split; [reflexivity|exact L2].
  Qed.

  Definition from (b : nat) (s : site) : Prop := b <= site_block s.

  Lemma plan_operations_spec b c limit : forall os i size l size',
    plan_operations never bodies b i os c size limit = (l, size') ->
    size' = size + costs l /\ (l <> [] -> size' <= limit) /\
    StronglySorted (fun x y => site_lt (fst x) (fst y)) l /\
    Forall (fun x => exists k o, fst x = SOperation b (i + k) /\ nth_error os k = Some o /\
      chosen o false c (snd x)) l.
  Proof.
    induction os as [|o os IH]; intros i size l size' H; cbn [plan_operations] in H.
    - injection H as <- <-. split; [cbn; lia|]. split; [congruence|]. split; constructor.
    - destruct (candidate never bodies o false c size limit) as [[G s1]|] eqn:CD.
      + destruct (plan_operations never bodies b (S i) os c s1 limit) as [l1 s2] eqn:PO. injection H as <- <-.
        destruct (candidate_spec _ _ _ _ _ _ _ CD) as [CH [-> LE]].
        destruct (IH _ _ _ _ PO) as [E1 [E2 [E3 E4]]].
        split; [rewrite costs_cons; cbn [snd]; lia|]. split.
        { intros _. destruct l1; [cbn in E1; lia|]. apply E2. discriminate. }
        split.
        * constructor; [exact E3|]. eapply Forall_impl; [|exact E4]. intros x [k [o1 [F1 _]]]. cbn. rewrite F1.
          right. cbn. split; [reflexivity|lia].
        * constructor.
          -- exists 0, o. cbn. rewrite Nat.add_0_r. auto.
          -- eapply Forall_impl; [|exact E4]. intros x [k [o1 [F1 [F2 F3]]]]. exists (S k), o1. split; [|auto].
             rewrite F1. f_equal. lia.
      + destruct (IH _ _ _ _ H) as [E1 [E2 [E3 E4]]]. split; [exact E1|]. split; [exact E2|]. split; [exact E3|].
        eapply Forall_impl; [|exact E4]. intros x [k [o1 [F1 [F2 F3]]]]. exists (S k), o1. split; [|auto].
        rewrite F1. f_equal. lia.
  Qed.

  Definition is_terminator (s : site) : bool := match s with STerminator _ => true | _ => false end.

  (** What is planned for one block. *)
  Definition planned (b : nat) (B : block) (c : bool) (x : site * function) : Prop :=
    exists o, chosen o (is_terminator (fst x)) c (snd x) /\
      ((exists k, fst x = SOperation b k /\ nth_error (b_ops B) k = Some o) \/
       (fst x = STerminator b /\ exists n e, b_term B = TInvoke o n e)).

  Lemma sorted_app {A} (R : A -> A -> Prop) l1 l2 : StronglySorted R l1 -> StronglySorted R l2 ->
    (forall x y, In x l1 -> In y l2 -> R x y) -> StronglySorted R (l1 ++ l2).
  Proof.
    induction 1 as [|x l1 S IH Fa]; intros S2 H; cbn; auto. constructor.
    - apply IH; auto. intros. apply H; auto. now right.
    - apply Forall_app. split; [exact Fa|]. apply Forall_forall. intros y I. apply H; auto. now left.
  Qed.

  Lemma plan_block_spec b B c size limit l size' :
    plan_block never bodies b B c size limit = (l, size') ->
    size' = size + costs l /\ (l <> [] -> size' <= limit) /\
    StronglySorted (fun x y => site_lt (fst x) (fst y)) l /\ Forall (planned b B c) l.
  Proof.
    unfold plan_block. destruct (plan_operations never bodies b 0 (b_ops B) c size limit) as [l1 s1] eqn:PO.
    destruct (plan_operations_spec _ _ _ _ _ _ _ _ PO) as [E1 [E2 [E3 E4]]].
    assert (PL : Forall (planned b B c) l1).
    { eapply Forall_impl; [|exact E4]. intros x [k [o [F1 [F2 F3]]]]. exists o. rewrite F1. cbn in *. split; [exact F3|].
      left. eauto. }
    assert (BASE : (l1, s1) = (l, size') -> size' = size + costs l /\ (l <> [] -> size' <= limit) /\
      StronglySorted (fun x y => site_lt (fst x) (fst y)) l /\ Forall (planned b B c) l).
    { intros H. injection H as <- <-. auto. }
    destruct (b_term B) as [|x y z|o n e| | | |] eqn:T; auto.
    destruct (candidate never bodies o true c s1 limit) as [[G s2]|] eqn:CD; auto.
    intros H. injection H as <- <-. destruct (candidate_spec _ _ _ _ _ _ _ CD) as [CH [-> LE]].
    split; [rewrite costs_app, costs_cons; cbn [snd costs fold_right]; lia|]. split; [auto|]. split.
    - apply sorted_app; auto.
      + constructor; constructor.
      + intros x y I [<-|[]]. rewrite Forall_forall in E4. destruct (E4 _ I) as [k [o1 [F1 _]]]. rewrite F1.
        right. cbn. auto.
    - apply Forall_app. split; [exact PL|]. constructor; [|constructor]. exists o. cbn. split; [exact CH|]. right. eauto.
  Qed.

  Lemma plan_blocks_spec cl limit : forall bs b size,
    let l := plan_blocks never bodies b bs cl size limit in
    (l <> [] -> size + costs l <= limit) /\
    StronglySorted (fun x y => site_lt (fst x) (fst y)) l /\
    Forall (fun x => exists k B, site_block (fst x) = b + k /\ nth_error bs k = Some B /\
      planned (b + k) B (existsb (Nat.eqb (b + k)) cl) x) l.
  Proof.
    induction bs as [|B bs IH]; intros b size; cbn [plan_blocks].
    - split; [congruence|]. split; constructor.
    - destruct (plan_block never bodies b B (existsb (Nat.eqb b) cl) size limit) as [l1 s1] eqn:PB.
      destruct (plan_block_spec _ _ _ _ _ _ _ PB) as [E1 [E2 [E3 E4]]].
      destruct (IH (S b) s1) as [F1 [F2 F3]]. set (l2 := plan_blocks never bodies (S b) bs cl s1 limit) in *.
      assert (SB : forall x, planned b B (existsb (Nat.eqb b) cl) x -> site_block (fst x) = b).
      { intros x [o [_ [[k [-> _]]|[-> _]]]]; reflexivity. }
      split; [|split].
      + intros NE. rewrite costs_app. destruct l2 as [|y l2'] eqn:EL.
        * rewrite app_nil_r in NE. specialize (E2 NE). cbn. lia.
        * assert (s1 + costs (y :: l2') <= limit) by (apply F1; discriminate). lia.
      + apply sorted_app; auto. intros x y I J. rewrite Forall_forall in E4, F3. left.
        rewrite (SB _ (E4 _ I)). destruct (F3 _ J) as [k [B' [-> _]]]. lia.
      + apply Forall_app. split.
        * eapply Forall_impl; [|exact E4]. intros x PL. exists 0, B. rewrite Nat.add_0_r. split; [apply SB; exact PL|].
          split; [reflexivity|exact PL].
        * eapply Forall_impl; [|exact F3]. intros x [k [B' [G1 [G2 G3]]]]. exists (S k), B'.
          replace (b + S k) with (S b + k) by lia. auto.
  Qed.
End Plans.

(** * Blocks on an error path *)
Lemma existsb_eqb x l : existsb (Nat.eqb x) l = true <-> In x l.
Proof.
  rewrite existsb_exists. split.
  - intros [y [I E]]. apply Nat.eqb_eq in E. now subst.
  - intros I. exists x. split; auto. apply Nat.eqb_refl.
Qed.

Lemma reach_sound bs : forall fuel work seen r, reach fuel bs work seen = Some r ->
  (forall x B y, In x seen -> nth_error bs x = Some B -> In y (successors (b_term B)) -> In y seen \/ In y work) ->
  (forall x, In x seen \/ In x work -> In x r) /\
  (forall x B y, In x r -> nth_error bs x = Some B -> In y (successors (b_term B)) -> In y r).
Proof.
  induction fuel as [|fuel IH]; intros work seen r H CL; destruct work as [|b work]; cbn [reach] in H; try discriminate H.
  - injection H as <-. split; [intros x [I|[]]; exact I|]. intros x B y I E J. destruct (CL _ _ _ I E J) as [K|[]]. exact K.
  - injection H as <-. split; [intros x [I|[]]; exact I|]. intros x B y I E J. destruct (CL _ _ _ I E J) as [K|[]]. exact K.
  - destruct (existsb (Nat.eqb b) seen) eqn:ES.
    + apply existsb_eqb in ES. destruct (IH _ _ _ H) as [A1 A2].
      * intros x B y I E J. destruct (CL _ _ _ I E J) as [K|[<-|K]]; auto.
      * split; [|exact A2]. intros x [I|[<-|I]]; apply A1; auto.
    + apply bind_some in H. destruct H as [B [EB H]]. destruct (IH _ _ _ H) as [A1 A2].
      * intros x B' y [<-|I] E J.
        -- rewrite EB in E. injection E as <-. right. apply in_app_iff. auto.
        -- destruct (CL _ _ _ I E J) as [K|[<-|K]]; [left; now right|left; now left|right; apply in_app_iff; auto].
      * split; [|exact A2]. intros x [I|[<-|I]]; apply A1.
        -- left. now right.
        -- left. now left.
        -- right. apply in_app_iff. auto.
Qed.

Lemma error_targets_in bs b ops o n e : nth_error bs b = Some (Block ops (TInvoke o n e)) -> In e (error_targets bs).
Proof.
  intros E. unfold error_targets. apply in_flat_map. eexists. split; [eapply nth_error_In; exact E|]. now left.
Qed.

Lemma cleanup_complete bs cl : cleanup_blocks bs = Some cl -> forall b, in_cleanup bs b -> In b cl.
Proof.
  intros H. destruct (reach_sound _ _ _ _ _ H) as [A1 A2]; [intros x B y []|].
  intros b I. induction I as [b ops o n e E|b B c _ IH E J].
  - apply A1. right. eapply error_targets_in; eauto.
  - eapply A2; eauto.
Qed.

Lemma succ_len t : length (successors t) <= 2.
Proof. destruct t; cbn; lia. Qed.

Lemma reach_total bs : targets_ok bs -> forall fuel work seen,
  NoDup seen -> (forall x, In x seen -> x < length bs) -> (forall x, In x work -> x < length bs) ->
  length work + 2 * (length bs - length seen) <= fuel -> reach fuel bs work seen <> None.
Proof.
  intros TG. induction fuel as [|fuel IH]; intros work seen ND SL WL L; destruct work as [|b work]; cbn [reach]; try discriminate.
  - cbn in L. lia.
  - destruct (existsb (Nat.eqb b) seen) eqn:ES.
    + apply IH; auto; [intros x I; apply WL; now right|cbn in L; lia].
    + assert (LB : b < length bs) by (apply WL; now left).
      assert (NB : ~ In b seen) by (intros I; apply existsb_eqb in I; congruence).
      destruct (nth_error bs b) as [B|] eqn:EB; [|apply nth_error_None in EB; lia]. cbn [bind]. apply IH.
      * constructor; auto.
      * intros x [<-|I]; auto.
      * intros x I. apply in_app_iff in I. destruct I as [I|I]; [|apply WL; now right].
        eapply TG; eauto. eapply nth_error_In; eauto.
      * assert (LS : length (b :: seen) <= length bs).
        { rewrite <- (seq_length (length bs) 0). apply NoDup_incl_length; [constructor; auto|].
          intros x [<-|I]; apply in_seq; [lia|]. specialize (SL _ I). lia. }
        rewrite app_length. pose proof (succ_len (b_term B)). cbn in *. lia.
Qed.

Lemma cleanup_total bs : targets_ok bs -> cleanup_blocks bs <> None.
Proof.
  intros TG. unfold cleanup_blocks. apply reach_total; auto.
  - constructor.
  - intros x [].
  - intros x I. unfold error_targets in I. apply in_flat_map in I. destruct I as [B [I J]].
    eapply TG; eauto. destruct (b_term B); try destruct J as [<-|[]]; try destruct J. cbn. auto.
  - assert (forall l, length (error_targets l) <= length l) as EL.
    { induction l as [|B l IH]; cbn; auto. unfold error_targets in *. rewrite app_length.
      destruct (b_term B); cbn; lia. }
    specialize (EL bs). cbn [length]. lia.
Qed.

(** * The first splice *)
Lemma next_value_below bs : results_below bs (next_value bs).
Proof.
  intros B o r I J R. unfold next_value.
  assert (IN : In r (flat_map results bs)).
  { apply in_flat_map. exists B. split; [exact I|]. unfold results. apply in_flat_map. exists o. split; [exact J|].
    rewrite R. now left. }
  induction (flat_map results bs) as [|x l IH]; [destruct IN|]. cbn [fold_right]. destruct IN as [<-|IN].
  - apply Nat.le_max_l.
  - apply Nat.lt_le_trans with (2 := Nat.le_max_r _ _). apply IH. exact IN.
Qed.

Lemma in_cleanup_closed bs : closed bs (in_cleanup bs).
Proof.
  split.
  - intros. eapply cleanup_edge; eauto.
  - intros. eapply cleanup_flow; eauto.
Qed.
