(** The walks of the forwarding of boolean conditions end. *)
From Coq Require Import List Arith Bool Lia.
From Verif Require DomSpec.
From Verif Require Import FrameModel FrameSpec FrameCells.
From Verif Require Import NegationModel NegationSpec NegationProofs NegationRuns.
Import ListNotations.

Section Ends.
Variable p : body.
Hypothesis Hsingle : single_definitions p.
Hypothesis Hfirst : definitions_first p.
Hypothesis Htargets : targets_exist p.
Hypothesis Hreach : all_reachable p.

Lemma point_reachable : forall b i o, next_operation p (b, i) o -> avoiding p (fun _ => False) (b, i).
Proof.
  intros b i o (bl & Eb & Ei). cbn in Eb, Ei.
  assert (Hb : avoiding p (fun _ => False) (b, 0)).
  { apply Hreach. apply nth_error_Some. congruence. }
  assert (Hi : i < length (operations bl)) by (apply nth_error_Some; congruence). clear o Ei.
  induction i as [|i IH]; auto.
  destruct (nth_error (operations bl) i) as [o|] eqn:Eo.
  - apply (avoiding_next p _ b i o); [apply IH; lia| |easy]. exists bl. auto.
  - apply nth_error_None in Eo. lia.
Qed.

Lemma walk_ends : forall fuel cur resolved V, NoDup V -> incl V (map fst (sites p)) ->
  (forall d o, definition_of p (svalue cur) = Some (d, o) -> forall v, In v V -> always_before p d v) ->
  length (sites p) <= fuel + length V -> walk fuel p cur resolved <> None.
Proof.
  intros fuel. induction fuel as [|fuel IH]; intros [r n] resolved V Hn Hi Hb Hl; cbn [walk];
    rewrite step_back_negated; destruct (step_back p (Source r false)) as [[s neg]|] eqn:Es; cbn [option_map];
    try discriminate; cbn [svalue] in Hb;
    (assert (Hm := step_back_materialized p _ _ Es); cbn in Hm;
     destruct (materialized_definition p r Hm) as (d & o & Hd & _);
     destruct (definition_at p r d o Hd) as [Hnx _];
     assert (Hd2 : ~ In d V)
       by (intros G; destruct d as [b i]; apply (before_irrefl p (b, i)); eauto using point_reachable);
     assert (Hn2 : NoDup (d :: V)) by (constructor; auto);
     assert (Hi2 : incl (d :: V) (map fst (sites p)))
       by (intros v [<- |Hv]; auto; apply (in_map fst (sites p) (d, o)); now apply sites_in);
     assert (L := NoDup_incl_length Hn2 Hi2); rewrite map_length in L; cbn [length] in L).
  - lia.
  - apply (IH _ _ (d :: V)); auto; [|cbn [length]; lia].
    cbn [svalue]. intros d' o' Hd' v [<- |Hv].
    + eapply chain_before; eauto.
    + apply (before_trans p d' d v); eauto. eapply chain_before; eauto.
Qed.

Lemma walk_enough : forall cur resolved, walk (enough p) p cur resolved <> None.
Proof.
  intros. apply (walk_ends _ _ _ []).
  - constructor.
  - intros x Hx. easy.
  - intros d o _ v Hv. easy.
  - unfold enough. cbn [length]. lia.
Qed.

Lemma forward_operations_ends : forall b os i, forward_operations p b i os <> None.
Proof.
  intros b. induction os as [|o os IH]; intros i; cbn; [discriminate|].
  assert (H : forward_operation p (b, i) o <> None).
  { unfold forward_operation. destruct (op_kind o); try discriminate.
    destruct (op_operands o) as [|y [|q [|]]]; try discriminate.
    destruct (bool_operand q); [|discriminate]. unfold resolve_scrutinee.
    destruct (read_back p y (b, i)) as [r|]; [|discriminate].
    assert (W := walk_enough (Source r false) None).
    destruct (walk (enough p) p (Source r false) None); [|contradiction]. discriminate. }
  destruct (forward_operation p (b, i) o) as [[o' c]|]; [|contradiction].
  specialize (IH (S i)). destruct (forward_operations p b (S i) os) as [[os' c']|]; [discriminate|contradiction].
Qed.

Lemma forward_terminator_ends : forall t, forward_terminator p t <> None.
Proof.
  intros [c|c a a'|o a a'|q a| | |]; cbn; try discriminate.
  destruct c; try discriminate. unfold resolve.
  assert (W := walk_enough (Source n false) None).
  destruct (walk (enough p) p (Source n false) None); [|contradiction]. discriminate.
Qed.

Lemma forward_blocks_ends : forall bls b, forward_blocks p b bls <> None.
Proof.
  induction bls as [|bl bls IH]; intros b; cbn; [discriminate|].
  assert (H1 := forward_operations_ends b (operations bl) 0).
  assert (H2 := forward_terminator_ends (term bl)). specialize (IH (S b)).
  destruct (forward_operations p b 0 (operations bl)) as [[os c]|]; [|contradiction].
  destruct (forward_terminator p (term bl)) as [[t c']|]; [|contradiction].
  destruct (forward_blocks p (S b) bls) as [[bls' c'']|]; [discriminate|contradiction].
Qed.

Theorem pass_ends : forward_boolean_negations p <> None.
Proof.
  unfold forward_boolean_negations. destruct (may_forward p); [|discriminate].
  assert (H := forward_blocks_ends p 0). destruct (forward_blocks p 0 p); [discriminate|contradiction].
Qed.
End Ends.

(** ** A tested negation is looked through *)

Section Skips.
Variable p : body.
Hypothesis Hsingle : single_definitions p.
Hypothesis Hfirst : definitions_first p.
Hypothesis Htargets : targets_exist p.

Lemma walk_earlier : forall d fuel cur resolved res,
  walk fuel p cur resolved = Some (Some res) ->
  (forall d' o', definition_of p (svalue cur) = Some (d', o') -> d' = d \/ always_before p d' d) ->
  (forall s, resolved = Some s -> forall d' o', definition_of p (svalue s) = Some (d', o') -> always_before p d' d) ->
  forall d' o', definition_of p (svalue res) = Some (d', o') -> always_before p d' d.
Proof.
  intros d fuel. induction fuel as [|fuel IH]; intros [r n] resolved res E Hc Hr d' o' Hd; cbn [walk] in E;
    rewrite step_back_negated in E; destruct (step_back p (Source r false)) as [[s neg]|] eqn:Es;
    cbn [option_map] in E; try discriminate; try (inversion E; subst; eauto; fail).
  cbn [svalue negated] in Hc, E.
  assert (K : forall d' o', definition_of p s = Some (d', o') -> always_before p d' d).
  { intros d1 o1 Hd1. assert (Hm := step_back_materialized p _ _ Es). cbn in Hm.
    destruct (materialized_definition p r Hm) as (d2 & o2 & Hd2 & _).
    assert (B : always_before p d1 d2) by (eapply chain_before; eauto).
    destruct (Hc _ _ Hd2) as [-> |B']; auto. eapply before_trans; eauto. }
  eapply IH; eauto.
  destruct (is_materialized p s); auto. intros s' Hs'. inversion Hs'; subst s'. auto.
Qed.

Lemma walk_keeps : forall fuel cur s, walk fuel p cur (Some s) <> Some None.
Proof.
  induction fuel as [|fuel IH]; intros cur s; cbn; destruct (step_back p cur) as [n|]; try discriminate.
  destruct (is_materialized p (svalue n)); auto.
Qed.

Lemma forward_blocks_changed : forall bls b bls' c i bl t, forward_blocks p b bls = Some (bls', c) ->
  nth_error bls i = Some bl -> forward_terminator p (term bl) = Some (t, true) -> c = true.
Proof.
  induction bls as [|bl0 bls IH]; intros b bls' c i bl t E Hi Ht; [now destruct i|]. cbn in E.
  destruct (forward_operations p b 0 (operations bl0)) as [[os c1]|]; [|discriminate].
  destruct (forward_terminator p (term bl0)) as [[t' c2]|] eqn:E2; [|discriminate].
  destruct (forward_blocks p (S b) bls) as [[bls1 c3]|] eqn:E3; [|discriminate].
  inversion E; subst. destruct i as [|i]; cbn in Hi.
  - inversion Hi; subst. rewrite E2 in Ht. inversion Ht; subst. now rewrite orb_true_r.
  - rewrite (IH _ _ _ _ _ _ E3 Hi Ht). now rewrite orb_true_r.
Qed.

Theorem pass_skips_negation : forall b bl r yes no d s q d' o',
  all_reachable p ->
  nth_error p b = Some bl -> term bl = TCondBr (OReg r) yes no ->
  next_operation p d (Op KCompareEqual [OReg s; OPattern (LBool q)] (Some r)) ->
  next_operation p d' o' -> op_result o' = Some s -> (op_kind o' = KLoad \/ op_kind o' = KCompareEqual) ->
  exists p' bl' s', forward_boolean_negations p = Some (Some p') /\ nth_error p' b = Some bl' /\ s' <> r /\
    (term bl' = TCondBr (OReg s') yes no \/ term bl' = TCondBr (OReg s') no yes).
Proof.
  intros b bl r yes no d s q d' o' Hreach Eb Et Hd Hd' Er' K.
  assert (Hgate : may_forward p = true).
  { unfold may_forward. apply existsb_exists. exists (d, Op KCompareEqual [OReg s; OPattern (LBool q)] (Some r)).
    split; [now apply sites_in|reflexivity]. }
  assert (Hends := pass_ends p Hfirst Htargets Hreach). unfold forward_boolean_negations in *.
  rewrite Hgate in *.
  destruct (forward_blocks p 0 p) as [[p' c]|] eqn:Ef; [|now destruct Hends]. clear Hends. cbn.
  destruct (forward_blocks_nth p p 0 p' c b bl Ef Eb) as (os & c1 & t & c2 & _ & E2 & E3).
  assert (Hc2 : c2 = true -> c = true).
  { intros ->. exact (forward_blocks_changed _ _ _ _ _ _ _ Ef Eb E2). }
  exists p'.
  rewrite Et in E2. cbn in E2. exists (Block os t).
  assert (Dr : definition_of p r = Some (d, Op KCompareEqual [OReg s; OPattern (LBool q)] (Some r)))
    by now apply result_definition.
  assert (Ds : definition_of p s = Some (d', o')) by (apply result_definition; auto).
  assert (Hm : is_materialized p s = true).
  { unfold is_materialized. rewrite Ds. unfold is_load, is_compare. destruct K as [-> | ->]; auto. }
  assert (Hc : is_cell p s = false).
  { destruct (is_cell p s) eqn:Ec; auto. exfalso.
    destruct (is_cell_at p s Ec) as (x & o & ty & Hx & Hk & Hr).
    destruct (definition_unique p s d' o' x o Hsingle Ds Hx Hr) as [_ ->]. destruct K; congruence. }
  assert (Es : forall n, step_back p (Source r n) = Some (Source s (xorb n (negb q)))).
  { intros n. unfold step_back. cbn [svalue negated]. rewrite Dr. cbn [op_kind op_operands bool_operand].
    unfold read_back. cbn [as_register]. now rewrite Hc. }
  unfold resolve in E2.
  destruct (walk (enough p) p (Source r false) None) as [found|] eqn:Ew.
  2:{ exfalso. eapply walk_enough; eauto. }
  assert (Hpos : enough p <> 0).
  { intros G. unfold enough in G. apply sites_in in Hd. destruct (sites p); [easy|discriminate]. }
  destruct (enough p) as [|fuel] eqn:Een; [contradiction|].
  assert (B : forall d1 o1, definition_of p s = Some (d1, o1) -> always_before p d1 d).
  { intros d1 o1 Hd1. eapply chain_before; eauto. }
  destruct found as [[s1 neg]|].
  - assert (Hne : s1 <> r).
    { intros ->. assert (W := walk_earlier d _ _ _ _ Ew). cbn [svalue] in W.
      destruct d as [db di].
      apply (before_irrefl p (db, di)); [eapply point_reachable; eauto|].
      eapply W; [| |exact Dr].
      - intros d1 o1 H1. rewrite Dr in H1. inversion H1; subst. auto.
      - discriminate. }
    cbn in E2. destruct (s1 =? r) eqn:G; [apply Nat.eqb_eq in G; contradiction|]. cbn in E2.
    exists s1. inversion E2; subst. rewrite Hc2 by auto. split; auto. split; auto. split; auto.
    cbn. destruct neg; auto.
  - exfalso. cbn [walk] in Ew. rewrite Es in Ew. cbn [svalue] in Ew. rewrite Hm in Ew.
    eapply walk_keeps; eauto.
Qed.
End Skips.

(** ** Bodies whose order is easy to see *)

Lemma path_entry : forall g u l v, DomSpec.path g u l v -> In u l.
Proof. intros g u l v H. induction H; [now left|]. apply in_or_app. auto. Qed.

Definition in_order (d : site) (b i : nat) : bool :=
  ((fst d =? b) && (snd d <? i)) || ((fst d =? 0) && negb (b =? 0)).

Lemma in_order_before : forall p d o b i, next_operation p d o -> in_order d b i = true ->
  always_before p d (b, i).
Proof.
  intros p [a j] o b i Hd H A. destruct (avoiding_path p a j o Hd _ A) as [P1 P2]. cbn in P1, P2.
  unfold in_order in H. cbn in H. apply orb_true_iff in H. destruct H as [H|H];
    apply andb_true_iff in H; destruct H as [H1 H2]; apply Nat.eqb_eq in H1.
  - apply Nat.ltb_lt in H2. specialize (P1 (eq_sym H1)). lia.
  - subst a. apply negb_true_iff, Nat.eqb_neq in H2. destruct (P2 H2) as (l & Hl & Hn).
    apply path_entry in Hl. auto.
Qed.

Definition ordered (p : body) : bool :=
  forallb (fun '(d, o) =>
    match op_result o with
    | None => true
    | Some r =>
        forallb (fun '((b, i), o') =>
          negb (existsb (fun x => is_register x r) (op_operands o')) || in_order d b i) (sites p) &&
        forallb (fun '(b, bl) =>
          negb (existsb (fun x => is_register x r) (term_operands (term bl))) ||
          in_order d b (length (operations bl))) (numbered 0 p)
    end) (sites p).

Lemma ordered_first : forall p, ordered p = true -> definitions_first p.
Proof.
  intros p H d o r [b i] Hd Er U. unfold ordered in H. rewrite forallb_forall in H.
  assert (Hs := proj2 (sites_in p d o) Hd). specialize (H _ Hs). cbn in H. rewrite Er in H.
  apply andb_true_iff in H. destruct H as [H1 H2]. rewrite forallb_forall in H1, H2.
  eapply in_order_before; eauto. destruct U as [(o' & Ho' & Hi)|(t & Ht & Hi)].
  - assert (Hs' := proj2 (sites_in p (b, i) o') Ho'). specialize (H1 _ Hs'). cbn in H1.
    apply orb_true_iff in H1. destruct H1 as [H1|H1]; auto. exfalso. apply negb_true_iff in H1.
    assert (T : existsb (fun x => is_register x r) (op_operands o') = true).
    { apply existsb_exists. exists (OReg r). split; auto. now apply is_register_spec. }
    congruence.
  - destruct Ht as (bl & Eb & Ei & ->). cbn in Eb, Ei.
    assert (Hs' : In (b, bl) (numbered 0 p)) by (apply numbered_nth; exists b; auto).
    specialize (H2 _ Hs'). cbn in H2. rewrite <- Ei in H2.
    apply orb_true_iff in H2. destruct H2 as [H2|H2]; auto. exfalso. apply negb_true_iff in H2.
    assert (T : existsb (fun x => is_register x r) (term_operands (term bl)) = true).
    { apply existsb_exists. exists (OReg r). split; auto. now apply is_register_spec. }
    congruence.
Qed.
