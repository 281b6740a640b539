(** Forwarding boolean conditions does not change a run. *)
From Coq Require Import List Arith Bool Lia Relations.
From Verif Require Import FrameModel FrameSpec FrameChange FrameCells.
From Verif Require Import NegationModel NegationSpec NegationProofs.
Import ListNotations.

Section Runs.
Context {other world : Type}.
Variable m : machine other world.
Variable p : body.
Hypothesis Hbool : boolean_machine m.
Hypothesis Hsingle : single_definitions p.
Hypothesis Hfirst : definitions_first p.
Hypothesis Htargets : targets_exist p.
Hypothesis Hload : loads_no_address p.

(** A register is not changed while it holds a value that may be copied. *)
Lemma change_keeps : forall o f f1 r v, change m o f f1 -> regs f r = Some (BVal v) ->
  copyable m v = true -> op_result o <> Some r -> regs f1 r = Some (BVal v).
Proof.
  intros o f f1 r v C Er Hc Hr. destruct C as [r0 v0 f Hi E0 Hc0|i r0 c x q f Hi Hp E0 Ec|i r0 c x y f Hi Hw E0 Ec
    |r0 b f E0 Hb Hk|ty f Hk|h f Hk]; cbn; auto.
  - rewrite upd_other; auto. intros ->. congruence.
  - rewrite upd_other by congruence; auto.
  - unfold allocate, bind. destruct (op_result o) as [r0|]; cbn; auto.
    rewrite upd_other by congruence; auto.
Qed.

Lemma changes_keep : forall o f f1 r v, changes m o f f1 -> regs f r = Some (BVal v) ->
  copyable m v = true -> op_result o <> Some r -> regs f1 r = Some (BVal v).
Proof.
  intros o f f1 r v C. induction C as [|f f2 f3 C1 C IH]; auto. intros Er Hc Hr. apply IH; auto.
  eapply change_keeps; eauto.
Qed.

(** A register that holds a value, or none any more, or nothing yet. *)
Definition valued (b : option (binding other)) : Prop :=
  match b with None | Some BMoved | Some (BVal _) => True | _ => False end.

Lemma change_valued : forall o f f1 r, change m o f f1 -> valued (regs f r) ->
  op_result o <> Some r -> valued (regs f1 r).
Proof.
  intros o f f1 r C V Hr. destruct C as [r0 v0 f Hi E0 Hc0|i r0 c x q f Hi Hp E0 Ec|i r0 c x y f Hi Hw E0 Ec
    |r0 b f E0 Hb Hk|ty f Hk|h f Hk]; cbn; auto.
  - destruct (Nat.eq_dec r r0) as [-> |Hn]; [now rewrite upd_same|now rewrite upd_other].
  - rewrite upd_other by congruence; auto.
  - unfold allocate, bind. destruct (op_result o) as [r0|]; cbn; auto.
    rewrite upd_other by congruence; auto.
Qed.

Lemma changes_valued : forall o f f1 r, changes m o f f1 -> valued (regs f r) ->
  op_result o <> Some r -> valued (regs f1 r).
Proof.
  intros o f f1 r C. induction C as [|f f2 f3 C1 C IH]; auto. intros V Hr. apply IH; auto.
  eapply change_valued; eauto.
Qed.

(** A value, or its negation. *)
Definition flip (n : bool) (v : value other) : value other :=
  match v with VBool b => VBool (xorb b n) | VOther o => VOther o end.

Lemma flip_copyable : forall n v, copyable m v = true -> copyable m (flip n v) = true.
Proof. intros n [b|o]; cbn; auto. intros _. apply Hbool. Qed.

(** What the cell of a forwardable register holds. *)
Definition cell_fact (f : frame other) (cell v : nat) : Prop :=
  holds cell (fun y => forall u, y = Some u -> copyable m u = true -> regs f v = Some (BVal u)) f.

Record facts (x : point) (f : frame other) : Prop := {
  fa_reach : avoiding p (fun _ => False) x;
  fa_chain : forall r d o s neg, definition_of p r = Some (d, o) ->
    step_back p (Source r false) = Some (Source s neg) -> is_materialized p s = true ->
    always_before p d x ->
    exists v, copyable m v = true /\ regs f r = Some (BVal v) /\ regs f s = Some (BVal (flip neg v));
  fa_cell : forall cell v st, is_cell p cell = true -> stored_in p cell = Some (v, st) ->
    is_materialized p v = true -> always_before p st x -> cell_fact f cell v;
  fa_owned : forall cell v st, is_cell p cell = true -> stored_in p cell = Some (v, st) -> owned cell f;
  fa_valued : forall r, is_materialized p r = true -> valued (regs f r) }.

Lemma start_facts : forall params, p <> [] -> facts (0, 0) (start params).
Proof.
  intros params Hp. constructor.
  - constructor.
  - intros r d o s neg _ _ _ B. exfalso. apply B. constructor.
  - intros cell v st _ _ _ B. exfalso. apply B. constructor.
  - intros. apply start_owned.
  - intros r _. exact I.
Qed.

Lemma cell_definition : forall cell, is_cell p cell = true ->
  exists o ty, in_code o p /\ op_kind o = KAlloca ty /\ op_result o = Some cell.
Proof.
  intros cell H. destruct (is_cell_at p cell H) as (x & o & ty & Hx & Hk & Hr).
  exists o, ty. split; auto. eapply next_in_code; eauto.
Qed.

Lemma term_operation_operands : forall t i x, nth_error (op_operands (term_operation t)) i = Some x ->
  In x (term_operands t).
Proof.
  intros [c|c a b|o a b|q a| | |] i x H; cbn in *; try (destruct i; discriminate).
  - eapply nth_error_In; eauto.
  - eapply (nth_error_In [q]); eauto.
Qed.

Lemma cell_direct : forall cell v st, stored_in p cell = Some (v, st) ->
  forall o i, in_code o p -> nth_error (op_operands o) i = Some (OReg cell) -> ~ passes o i.
Proof.
  intros cell v st Hs o i (bl & Hb & Ho) Hi Hp.
  destruct (stored_in_spec p cell v st Hs) as (_ & Hu & Ht). destruct Ho as [Ho|Ho].
  - apply In_nth_error in Hb. destruct Hb as (b & Eb). apply In_nth_error in Ho. destruct Ho as (j & Ej).
    assert (Hn : next_operation p (b, j) o) by (exists bl; auto).
    destruct (Hu _ _ _ Hn Hi) as [(_ & K & ->)|([K|K] & ->)]; unfold passes in Hp; rewrite K in Hp;
      auto; discriminate.
  - subst o. apply (Ht bl Hb). eapply term_operation_operands; eauto.
Qed.

(** Only the one store writes the cell. *)
Lemma cell_unwritten : forall cell v st x o, stored_in p cell = Some (v, st) ->
  next_operation p x o -> x <> st ->
  forall i, nth_error (op_operands o) i = Some (OReg cell) -> ~ writes_at o i.
Proof.
  intros cell v st x o Hs Hn Hx i Hi Hw.
  destruct (stored_in_spec p cell v st Hs) as (_ & Hu & _).
  destruct (Hu _ _ _ Hn Hi) as [(E & _)|([K|K] & ->)]; [auto| |]; unfold writes_at in Hw;
    rewrite K in Hw; auto.
Qed.

(** The definition of a register that has a boolean or another value. *)
Lemma materialized_definition : forall r, is_materialized p r = true ->
  exists d o, definition_of p r = Some (d, o) /\ (op_kind o = KLoad \/ op_kind o = KCompareEqual).
Proof.
  intros r H. unfold is_materialized in H. destruct (definition_of p r) as [[d o]|]; [|discriminate].
  exists d, o. split; auto. unfold is_load, is_compare in H. destruct (op_kind o); auto; discriminate.
Qed.

(** What is read goes back to an earlier definition. *)
Lemma read_before : forall y x o r d o', next_operation p x o -> In y (op_operands o) ->
  read_back p y x = Some r -> definition_of p r = Some (d, o') -> always_before p d x.
Proof.
  intros y x o r d o' Hx Hy Hr Hd. apply definition_at in Hd. destruct Hd as [Hd Er].
  unfold read_back in Hr. destruct y as [l|l|n|n|r0]; try discriminate. cbn in Hr.
  destruct (is_cell p r0) eqn:Ec.
  - destruct (stored_in p r0) as [[v st]|] eqn:Es; [|discriminate].
    destruct (store_dominates p st x) eqn:Edom; [|discriminate]. inversion Hr; subst v.
    destruct (stored_in_spec p r0 r st Es) as ((so & rest & Hst & Hk & Hops) & _ & _).
    apply (before_trans p d st x).
    + apply (Hfirst d o' r st Hd Er). left. exists so. split; auto. rewrite Hops. now left.
    + eapply store_before; eauto.
  - inversion Hr; subst r0. apply (Hfirst d o' r x Hd Er). left. exists o. auto.
Qed.

Lemma step_operand : forall r d o s neg, definition_of p r = Some (d, o) ->
  step_back p (Source r false) = Some (Source s neg) ->
  exists y, In y (op_operands o) /\ read_back p y d = Some s.
Proof.
  intros r d o s neg Hd H. unfold step_back in H. cbn [svalue] in H. rewrite Hd in H.
  destruct (op_kind o); try discriminate.
  - destruct (op_operands o) as [|y rest]; [discriminate|]. exists y. split; [now left|].
    destruct (read_back p y d); [|discriminate]. inversion H. auto.
  - destruct (op_operands o) as [|y [|q rest]]; try discriminate. exists y. split; [now left|].
    destruct (bool_operand q); [|discriminate]. destruct (read_back p y d); [|discriminate].
    inversion H. auto.
Qed.

Lemma chain_before : forall r d o s neg d' o', definition_of p r = Some (d, o) ->
  step_back p (Source r false) = Some (Source s neg) -> definition_of p s = Some (d', o') ->
  always_before p d' d.
Proof.
  intros r d o s neg d' o' Hd H Hs. destruct (step_operand _ _ _ _ _ Hd H) as (y & Hy & Hr).
  eapply read_before; eauto. now apply definition_at in Hd.
Qed.

(** What the scrutinee of a comparison, or the source of a load, holds. *)
Lemma read_value : forall y x o r f w v, next_operation p x o -> In y (op_operands o) -> facts x f ->
  read_back p y x = Some r -> is_materialized p r = true ->
  inspect m f w y = Some (Some v) -> copyable m v = true -> regs f r = Some (BVal v).
Proof.
  intros y x o r f w v Hx Hy F Hr Hm Hi Hc. unfold read_back in Hr.
  destruct y as [l|l|n|n|r0]; try discriminate. cbn in Hr.
  destruct (is_cell p r0) eqn:Ec.
  - destruct (stored_in p r0) as [[v0 st]|] eqn:Es; [|discriminate].
    destruct (store_dominates p st x) eqn:Edom; [|discriminate]. inversion Hr; subst v0.
    destruct (stored_in_spec p r0 r st Es) as ((so & rest & Hst & Hk & Hops) & _ & _).
    assert (B : always_before p st x) by (eapply store_before; eauto).
    assert (W := fa_owned _ _ F r0 r st Ec Es).
    assert (H := fa_cell _ _ F r0 r st Ec Es Hm B).
    cbn in Hi. destruct (regs f r0) as [b|] eqn:Er; [|discriminate].
    destruct (ow_cell _ _ W b Er) as (c & ->).
    destruct (cells f c) as [z|q|] eqn:Ez; [| |discriminate].
    + inversion Hi; subst z. eapply H; eauto.
    + exfalso. destruct (ow_alone _ _ W c Er) as [G _]. now apply (G q).
  - inversion Hr; subst r0. cbn in Hi. assert (V := fa_valued _ _ F r Hm).
    destruct (regs f r) as [[u|q|c|h u|]|]; cbn in V; try easy; try discriminate.
    now inversion Hi.
Qed.

Lemma inspect_of_load : forall f w y v q, place_of f y = Some q -> content_of m q f w = Some (Some v) ->
  (forall r u, y = OReg r -> regs f r <> Some (BVal u)) -> inspect m f w y = Some (Some v).
Proof.
  intros f w y v q Hq Hc Hv. destruct y as [l|l|n|n|r]; cbn in *; try discriminate.
  - destruct (args f n); [|discriminate]. inversion Hq; subst. auto.
  - destruct (regs f r) as [[u|q'|c|h u|]|] eqn:Er; try discriminate.
    + now apply (Hv r u) in Er.
    + inversion Hq; subst. auto.
    + destruct (cells f c) eqn:Ec; try discriminate; inversion Hq; subst; auto.
      cbn in Hc. now rewrite Ec in Hc.
Qed.

Lemma result_definition : forall x o r, next_operation p x o -> op_result o = Some r ->
  definition_of p r = Some (x, o).
Proof.
  intros x o r Hx Er. destruct (definition_exists p r x o Hx Er) as (d & o' & Hd).
  destruct (definition_unique p r d o' x o Hsingle Hd Hx Er) as [-> ->]. auto.
Qed.

(** After the definition of a register. *)
Lemma defined_chain : forall x o r s neg f w f1 w1, next_operation p x o -> op_result o = Some r ->
  facts x f -> step m o f w = RDone f1 w1 ->
  step_back p (Source r false) = Some (Source s neg) -> is_materialized p s = true ->
  exists v, copyable m v = true /\ regs f1 r = Some (BVal v) /\ regs f1 s = Some (BVal (flip neg v)).
Proof.
  intros x o r s neg f w f1 w1 Hx Er F E Hs Hm.
  assert (Hd := result_definition x o r Hx Er).
  destruct (materialized_definition s Hm) as (d' & o' & Hd' & Ks).
  assert (Hne : s <> r).
  { intros ->. rewrite Hd in Hd'. inversion Hd'; subst d' o'.
    apply (before_irrefl p x (fa_reach _ _ F)). eapply chain_before; eauto. }
  unfold step_back in Hs. cbn [svalue] in Hs. rewrite Hd in Hs.
  destruct (op_kind o) eqn:K; try discriminate.
  - (* load *)
    destruct (op_operands o) as [|y rest] eqn:Ho; [discriminate|].
    destruct (read_back p y x) as [s'|] eqn:Eb; [|discriminate]. cbn in Hs. inversion Hs; subst s' neg.
    unfold step in E. rewrite K, Ho in E. destruct rest as [|]; [|discriminate].
    destruct (place_of f y) as [q|] eqn:Eq; [|discriminate].
    destruct (content_of m q f w) as [[v|]|] eqn:Ev; try discriminate.
    destruct (copyable m v) eqn:Ec; [|discriminate]. rewrite Er in E. cbn in E. inversion E; subst f1 w1.
    exists v. split; auto. cbn. rewrite upd_same, upd_other by auto. split; auto.
    assert (Hf : flip false v = v) by (destruct v as [[|]|]; reflexivity). rewrite Hf.
    eapply (read_value y x o); eauto; [rewrite Ho; now left|].
    eapply inspect_of_load; eauto. intros r0 u -> Eu.
    (* the register the load goes through holds no value *)
    unfold read_back in Eb. cbn in Eb. destruct (is_cell p r0) eqn:Ecell.
    + destruct (stored_in p r0) as [[v0 st]|] eqn:Es; [|discriminate].
      assert (W := fa_owned _ _ F r0 v0 st Ecell Es). destruct (ow_cell _ _ W _ Eu) as (c & G). discriminate.
    + inversion Eb; subst r0. apply definition_at in Hd'. destruct Hd' as [Hn' Er'].
      destruct (Hload o o' s) as [G1 G2]; auto.
      * unfold body_operations. apply in_flat_map. destruct Hx as (bl & B1 & B2). exists bl.
        split; [eapply nth_error_In; eauto|]. unfold block_operations. apply in_or_app. left.
        eapply nth_error_In; eauto.
      * rewrite Ho. now left.
      * eapply result_in_body; eauto. eapply next_in_code; eauto.
      * destruct Ks; congruence.
  - (* comparison *)
    destruct (op_operands o) as [|y [|q rest]] eqn:Ho; try discriminate.
    destruct (bool_operand q) as [b|] eqn:Eq; [|discriminate].
    destruct (read_back p y x) as [s'|] eqn:Eb; [|discriminate]. cbn in Hs. inversion Hs; subst s' neg.
    unfold step in E. rewrite K, Ho in E. destruct q as [l|l|n|n|r0]; try discriminate;
      destruct rest as [|]; try discriminate.
    destruct (inspect m f w y) as [[v|]|] eqn:Ei; try discriminate.
    destruct l as [b'|]; [|discriminate]. cbn in Eq. inversion Eq; subst b'.
    cbn [compare] in E. destruct v as [v|v]; [|discriminate]. rewrite Er in E. cbn in E.
    inversion E; subst f1 w1. exists (VBool (eqb b v)). split; [apply Hbool|].
    cbn. rewrite upd_same, upd_other by auto. split; auto.
    assert (G : regs f s = Some (BVal (VBool v))).
    { eapply (read_value y x o); eauto; [rewrite Ho; now left|apply Hbool]. }
    rewrite G. now destruct b, v.
Qed.

Lemma defined_valued : forall o r f w f1 w1, op_result o = Some r ->
  (op_kind o = KLoad \/ op_kind o = KCompareEqual) -> step m o f w = RDone f1 w1 ->
  exists v, regs f1 r = Some (BVal v).
Proof.
  intros o r f w f1 w1 Er K E. unfold step in E. destruct K as [K|K]; rewrite K, Er in E.
  - destruct (op_operands o) as [|y [|]]; try discriminate.
    destruct (place_of f y) as [q|]; [|discriminate].
    destruct (content_of m q f w) as [[v|]|]; try discriminate.
    destruct (copyable m v); [|discriminate]. inversion E; subst. exists v. cbn. now rewrite upd_same.
  - destruct (op_operands o) as [|y [|[l|l|n|n|r0] [|]]]; try discriminate.
    destruct (inspect m f w y) as [[v|]|]; try discriminate.
    destruct (compare m l v) as [b|]; [|discriminate]. inversion E; subst. exists (VBool b). cbn.
    now rewrite upd_same.
Qed.

(** After the store of a forwardable cell. *)
Lemma stored_fact : forall cell v st o f w f1 w1, is_cell p cell = true ->
  stored_in p cell = Some (v, st) -> is_materialized p v = true -> next_operation p st o ->
  facts st f -> step m o f w = RDone f1 w1 -> cell_fact f1 cell v.
Proof.
  intros cell v st o f w f1 w1 Hc Hs Hm Hn F E.
  destruct (stored_in_spec p cell v st Hs) as ((so & rest & Hst & Hk & Hops) & _ & _).
  rewrite (next_operation_eq p st o so Hn Hst) in *. clear Hst.
  unfold step in E. rewrite Hk, Hops in E. destruct rest as [|]; [|discriminate].
  assert (W := fa_owned _ _ F cell v st Hc Hs).
  assert (V := fa_valued _ _ F v Hm).
  destruct (stored_value m (OReg v) f w) as [[[u0 f0] w0]|] eqn:Esv; [|discriminate].
  unfold stored_value, value_of in Esv.
  destruct (regs f v) as [[u|q|c|h u|]|] eqn:Ev; cbn in V; try easy; cbn in Esv; try discriminate.
  inversion Esv; subst u0 f0 w0. clear Esv.
  set (f2 := if copyable m u then f else set_reg v BMoved f) in *.
  destruct (place_of f2 (OReg cell)) as [q|] eqn:Eq; [|discriminate].
  assert (Ecell : regs f2 cell = regs f cell).
  { unfold f2. destruct (copyable m u); auto. cbn. destruct (Nat.eq_dec cell v) as [-> |Hn'].
    - exfalso. destruct (ow_cell _ _ W _ Ev) as (c & G). discriminate.
    - now rewrite upd_other. }
  assert (Ecells : cells f2 = cells f) by (unfold f2; destruct (copyable m u); reflexivity).
  cbn in Eq. rewrite Ecell in Eq. destruct (regs f cell) as [b|] eqn:Eb; [|discriminate].
  destruct (ow_cell _ _ W b Eb) as (c & ->).
  rewrite Ecells in Eq. destruct (cells f c) as [z|q'|] eqn:Ez; [| |discriminate].
  2:{ exfalso. destruct (ow_alone _ _ W c Eb) as [G _]. now apply (G q'). }
  inversion Eq; subst q. cbn in E. inversion E; subst f1 w1.
  intros c' y E1 E2 u' Eu Hcu. cbn in E1, E2 |- *. rewrite Ecell in E1. inversion E1; subst c'.
  rewrite upd_same, Eu in E2. inversion E2; subst u'.
  unfold f2. rewrite Hcu. auto.
Qed.

(** What the operations of other registers leave. *)
Lemma facts_kept : forall x y o f f1, facts x f -> avoiding p (fun _ => False) y -> in_code o p ->
  changes m o f f1 ->
  (forall d, always_before p d y -> d <> x -> always_before p d x) ->
  (forall r d o', op_result o = Some r -> definition_of p r = Some (d, o') -> d = x /\ o' = o) ->
  (forall cell v st i, stored_in p cell = Some (v, st) -> st <> x ->
     nth_error (op_operands o) i = Some (OReg cell) -> ~ writes_at o i) ->
  (forall r s neg, definition_of p r = Some (x, o) -> step_back p (Source r false) = Some (Source s neg) ->
     is_materialized p s = true ->
     exists v, copyable m v = true /\ regs f1 r = Some (BVal v) /\ regs f1 s = Some (BVal (flip neg v))) ->
  (forall cell v, is_cell p cell = true -> stored_in p cell = Some (v, x) -> is_materialized p v = true ->
     cell_fact f1 cell v) ->
  (forall r, is_materialized p r = true -> op_result o = Some r -> valued (regs f1 r)) ->
  (forall r d o', definition_of p r = Some (d, o') -> d = x -> o' = o) ->
  facts y f1.
Proof.
  intros x y o f f1 F Hy Ho C Hb Hr Hw Hch Hce Hva Hxo. constructor; auto.
  - intros r d o' s neg Hd Hs Hm B. destruct (point_dec d x) as [-> |Hn].
    + rewrite (Hxo _ _ _ Hd eq_refl) in Hd. auto.
    + apply Hb in B; auto. destruct (fa_chain _ _ F r d o' s neg Hd Hs Hm B) as (v & Hc & E1 & E2).
      exists v. split; auto. split.
      * eapply changes_keep; eauto. intros G. destruct (Hr _ _ _ G Hd). auto.
      * eapply changes_keep; eauto; [now apply flip_copyable|]. intros G.
        destruct (materialized_definition s Hm) as (d' & o'' & Hd' & _).
        destruct (Hr _ _ _ G Hd') as [-> _].
        apply (before_irrefl p x (fa_reach _ _ F)). apply (before_trans p x d x); auto.
        eapply chain_before; eauto.
  - intros cell v st Hc Hs Hm B. destruct (point_dec st x) as [-> |Hn]; auto.
    apply Hb in B; auto. assert (H := fa_cell _ _ F cell v st Hc Hs Hm B).
    assert (W := fa_owned _ _ F cell v st Hc Hs).
    assert (H1 : holds cell (fun y => forall u, y = Some u -> copyable m u = true -> regs f v = Some (BVal u)) f1).
    { eapply (changes_holds m p cell Hsingle (cell_definition cell Hc) (cell_direct cell v st Hs)); eauto.
      discriminate. }
    intros c z E1 E2 u -> Hcu. eapply changes_keep; eauto.
    intros G. destruct (materialized_definition v Hm) as (d' & o'' & Hd' & _).
    destruct (Hr _ _ _ G Hd') as [-> _].
    apply (before_irrefl p x (fa_reach _ _ F)). apply (before_trans p x st x); auto.
    apply definition_at in Hd'. destruct Hd' as [Hd' Er'].
    destruct (stored_in_spec p cell v st Hs) as ((so & rest & Hst & Hk & Hops) & _ & _).
    apply (Hfirst x o'' v st Hd' Er'). left. exists so. split; auto. rewrite Hops. now left.
  - intros cell v st Hc Hs.
    eapply (changes_owned m p cell Hsingle (cell_definition cell Hc) (cell_direct cell v st Hs)); eauto.
    eapply fa_owned; eauto.
  - intros r Hm. assert (D : {op_result o = Some r} + {op_result o <> Some r}) by (repeat decide equality).
    destruct D as [D|D]; auto. eapply changes_valued; eauto. eapply fa_valued; eauto.
Qed.

Lemma step_facts : forall b i o f w f1 w1, next_operation p (b, i) o -> facts (b, i) f ->
  step m o f w = RDone f1 w1 -> facts (b, S i) f1.
Proof.
  intros b i o f w f1 w1 Hn F E.
  assert (C : changes m o f f1) by (apply (step_changes m o f w); rewrite E; reflexivity).
  apply (facts_kept (b, i) (b, S i) o f f1); auto.
  - econstructor; eauto. apply (fa_reach _ _ F).
  - eapply next_in_code; eauto.
  - intros d B Hd. eapply before_next; eauto.
  - intros r d o' Er Hd. destruct (definition_unique p r d o' (b, i) o) as [<- <-]; auto.
  - intros cell v st j Hs Hst Hj. eapply cell_unwritten; eauto.
  - intros r s neg Hd Hs Hm. apply definition_at in Hd as Hd'. destruct Hd' as [_ Er].
    eapply defined_chain; eauto.
  - intros cell v Hc Hs Hm. eapply stored_fact; eauto.
  - intros r Hm Er. destruct (materialized_definition r Hm) as (d & o' & Hd & K).
    destruct (definition_unique p r d o' (b, i) o) as [<- <-]; auto.
    destruct (defined_valued _ _ _ _ _ _ Er K E) as (v & ->). exact I.
  - intros r d o' Hd ->. apply definition_at in Hd. destruct Hd as [Hd _].
    eapply next_operation_eq; eauto.
Qed.

Lemma leave_facts : forall b i t f w c f1 w1, next_terminator p (b, i) t -> facts (b, i) f ->
  leave m t f w = XGo c f1 w1 -> facts (c, 0) f1.
Proof.
  intros b i t f w c f1 w1 Ht F E. destruct (leave_changes m t f w c f1 w1 E) as [C Hc].
  assert (Hbl : exists bl, nth_error p b = Some bl /\ i = length (operations bl) /\ t = term bl) by exact Ht.
  destruct Hbl as (bl & Eb & Ei & Et).
  assert (Hno : forall o, ~ next_operation p (b, i) o).
  { intros o (bl' & Eb' & Ei'). cbn in Eb', Ei'. rewrite Eb in Eb'. inversion Eb'; subst bl'.
    assert (nth_error (operations bl) i <> None) by congruence. apply nth_error_Some in H. lia. }
  assert (Hres : forall r d o', op_result (term_operation t) = Some r -> definition_of p r = Some (d, o') -> False).
  { intros r d o' Er Hd. apply definition_at in Hd. destruct Hd as [Hd Er'].
    destruct t as [c0|c0 a a'|o a a'|q a| | |]; cbn in Er; try discriminate.
    assert (d = (b, i)).
    { eapply (code_at_one p d (b, i) o' o r); eauto using next_code_at, invoke_code_at. }
    subst d. now apply Hno in Hd. }
  apply (facts_kept (b, i) (c, 0) (term_operation t) f f1); auto.
  - eapply avoiding_jump; eauto. apply (fa_reach _ _ F).
  - exists bl. split; [eapply nth_error_In; eauto|]. right. now subst t.
  - intros d B Hd. eapply before_jump; eauto.
  - intros r d o' Er Hd. exfalso. eauto.
  - intros cell v st j Hs Hst Hj _. destruct (stored_in_spec p cell v st Hs) as (_ & _ & Hu).
    apply (Hu bl); [eapply nth_error_In; eauto|]. subst t. eapply term_operation_operands; eauto.
  - intros r s neg Hd. apply definition_at in Hd. destruct Hd as [Hd _]. now apply Hno in Hd.
  - intros cell v Hce Hs. destruct (stored_in_spec p cell v (b, i) Hs) as ((so & rest & Hst & _) & _).
    now apply Hno in Hst.
  - intros r Hm Er. destruct (materialized_definition r Hm) as (d & o' & Hd & _). exfalso. eauto.
  - intros r d o' Hd ->. apply definition_at in Hd. destruct Hd as [Hd _]. now apply Hno in Hd.
Qed.

(** ** The rewritten operations *)

Lemma step_back_negated : forall r n, step_back p (Source r n)
  = option_map (fun s => Source (svalue s) (xorb n (negated s))) (step_back p (Source r false)).
Proof.
  intros r n. unfold step_back. cbn [svalue negated].
  destruct (definition_of p r) as [[d o]|]; [|reflexivity].
  destruct (op_kind o); try reflexivity.
  - destruct (op_operands o) as [|y rest]; [reflexivity|].
    destruct (read_back p y d); cbn; auto. now rewrite xorb_false_r.
  - destruct (op_operands o) as [|y [|q rest]]; try reflexivity.
    destruct (bool_operand q) as [b|]; [|reflexivity]. destruct (read_back p y d); cbn; auto.
    now destruct n, b.
Qed.

Lemma step_back_materialized : forall s n, step_back p s = Some n -> is_materialized p (svalue s) = true.
Proof.
  intros s n H. unfold step_back in H. unfold is_materialized.
  destruct (definition_of p (svalue s)) as [[d o]|]; [|discriminate].
  unfold is_load, is_compare. destruct (op_kind o); auto; discriminate.
Qed.

Lemma walk_value : forall x f fuel cur resolved res v0, facts x f ->
  walk fuel p cur resolved = Some (Some res) ->
  regs f (svalue cur) = Some (BVal (VBool (xorb v0 (negated cur)))) ->
  (forall d o, definition_of p (svalue cur) = Some (d, o) -> always_before p d x) ->
  (forall s, resolved = Some s -> regs f (svalue s) = Some (BVal (VBool (xorb v0 (negated s))))) ->
  regs f (svalue res) = Some (BVal (VBool (xorb v0 (negated res)))).
Proof.
  intros x f fuel. induction fuel as [|fuel IH]; intros [r n] resolved res v0 F E Hcur Hb Hres; cbn in E;
    rewrite step_back_negated in E; destruct (step_back p (Source r false)) as [[s neg]|] eqn:Es; cbn in E;
    try (inversion E; subst; auto; fail); try discriminate.
  cbn in Hcur, Hb.
  destruct (is_materialized p s) eqn:Em.
  - assert (Hd : exists d o, definition_of p r = Some (d, o)).
    { apply step_back_materialized in Es. cbn in Es. destruct (materialized_definition r Es) as (d & o & Hd & _).
      eauto. }
    destruct Hd as (d & o & Hd).
    destruct (fa_chain _ _ F r d o s neg Hd Es Em (Hb _ _ Hd)) as (v & _ & E1 & E2).
    rewrite Hcur in E1. inversion E1; subst v. cbn in E2. rewrite xorb_assoc_reverse in E2.
    apply (IH _ _ _ v0 F) in E; auto.
    + cbn. intros d' o' Hd'. apply (before_trans p d' d x); [eapply chain_before; eauto|eauto].
    + intros s' Es'. inversion Es'; subst s'. cbn. auto.
  - destruct fuel; cbn [walk] in E;
      (destruct (step_back p (Source s (xorb n neg))) as [nx|] eqn:En;
       [apply step_back_materialized in En; cbn in En; congruence|]);
      inversion E; subst; auto.
Qed.

Lemma forward_operation_same : forall x o o' c f w, next_operation p x o -> facts x f ->
  forward_operation p x o = Some (o', c) -> step m o f w <> RPanic -> step m o' f w = step m o f w.
Proof.
  intros x o o' c f w Hn F E Hp. unfold forward_operation in E.
  destruct (op_kind o) eqn:K; try (inversion E; subst; reflexivity).
  destruct (op_operands o) as [|y [|q [|]]] eqn:Ho; try (inversion E; subst; reflexivity).
  destruct (bool_operand q) as [b|] eqn:Eq; [|inversion E; subst; reflexivity].
  destruct (resolve_scrutinee p y x) as [[[s neg]|]|] eqn:Er; cbn in E; inversion E; subst; try reflexivity.
  clear E. cbn [svalue negated].
  (* the comparison as it was *)
  unfold step in Hp |- *. rewrite K, Ho in *. cbn [op_kind op_operands op_result].
  destruct q as [l|l|n|n|r0]; try (exfalso; now apply Hp).
  destruct l as [b'|]; [|discriminate]. cbn in Eq. inversion Eq; subst b'. clear Eq.
  destruct (inspect m f w y) as [[v|]|] eqn:Ei; try (exfalso; now apply Hp).
  cbn [compare] in Hp |- *. destruct v as [v|v]; [|exfalso; now apply Hp].
  (* the register it is forwarded to *)
  unfold resolve_scrutinee in Er. destruct (read_back p y x) as [r|] eqn:Eb; [|discriminate].
  destruct (walk (enough p) p (Source r false) None) as [found|] eqn:Ew; [|discriminate].
  cbn in Er.
  assert (Hy : In y (op_operands o)) by (rewrite Ho; now left).
  assert (Hm : is_materialized p r = true).
  { destruct (is_materialized p r) eqn:Em; auto. exfalso. destruct found as [s0|].
    - destruct (enough p); cbn [walk] in Ew;
        (destruct (step_back p (Source r false)) as [nx|] eqn:En;
         [apply step_back_materialized in En; cbn in En; congruence|]); discriminate.
    - discriminate. }
  assert (Hr : regs f r = Some (BVal (VBool v))).
  { eapply (read_value y x o); eauto. apply Hbool. }
  assert (Hs : regs f s = Some (BVal (VBool (xorb v neg)))).
  { destruct found as [s0|].
    - destruct (is_register y (svalue s0)); [discriminate|]. inversion Er; subst s0.
      apply (walk_value x f _ _ _ _ v F) in Ew; auto.
      + cbn. now rewrite xorb_false_r.
      + cbn. intros d o' Hd. eapply read_before; eauto.
      + discriminate.
    - rewrite Hm in Er. cbn in Er. destruct (is_register y r); [discriminate|]. inversion Er; subst.
      now rewrite xorb_false_r. }
  cbn [inspect]. rewrite Hs. cbn [compare]. now destruct b, v, neg.
Qed.

Lemma forward_terminator_same : forall x t t' c f w, next_terminator p x t -> facts x f ->
  forward_terminator p t = Some (t', c) -> leave m t f w <> XEnd Panicked ->
  leave m t' f w = leave m t f w.
Proof.
  intros x t t' c f w Hn F E Hp. destruct t as [c0|c0 a a'|o a a'|q a| | |];
    try (inversion E; subst; reflexivity).
  destruct c0 as [l|l|n|n|r]; try (inversion E; subst; reflexivity). cbn in E.
  unfold resolve in E. destruct (walk (enough p) p (Source r false) None) as [found|] eqn:Ew; [|discriminate].
  destruct found as [[s neg]|]; cbn in E; [|inversion E; subst; reflexivity].
  destruct (s =? r) eqn:Esr; cbn in E; [inversion E; subst; reflexivity|].
  cbn in Hp.
  assert (Hm : is_materialized p r = true).
  { destruct (enough p); cbn [walk] in Ew;
      (destruct (step_back p (Source r false)) as [nx|] eqn:En;
       [apply step_back_materialized in En; auto|]); discriminate. }
  assert (V := fa_valued _ _ F r Hm).
  destruct (regs f r) as [[v|q|k|h v|]|] eqn:Er; cbn in V; try easy; try (exfalso; now apply Hp).
  destruct v as [v|v]; [|exfalso; now apply Hp].
  apply (walk_value x f _ _ _ _ v F) in Ew; auto.
  - cbn in Ew. destruct neg; inversion E; subst; cbn; rewrite Ew, Er; now destruct v.
  - cbn. now rewrite xorb_false_r.
  - cbn. intros d o Hd. apply definition_at in Hd. destruct Hd as [Hd Eo].
    apply (Hfirst d o r x Hd Eo). right. exists (TCondBr (OReg r) a a'). split; auto. now left.
  - discriminate.
Qed.

(** ** Blocks and runs *)

Lemma forward_operations_same : forall b os pre os' c f w,
  (forall i o, nth_error os i = Some o -> next_operation p (b, pre + i) o) ->
  forward_operations p b pre os = Some (os', c) -> facts (b, pre) f -> steps m os f w <> RPanic ->
  steps m os' f w = steps m os f w /\
  forall f1 w1, steps m os f w = RDone f1 w1 -> facts (b, pre + length os) f1.
Proof.
  intros b. induction os as [|o os IH]; intros pre os' c f w Hn E F Hp; cbn in E.
  - inversion E; subst. split; auto. intros f1 w1 E1. cbn in E1. inversion E1; subst. cbn.
    now rewrite Nat.add_0_r.
  - destruct (forward_operation p (b, pre) o) as [[o1 c1]|] eqn:E1; [|discriminate].
    destruct (forward_operations p b (S pre) os) as [[os1 c2]|] eqn:E2; [|discriminate].
    inversion E; subst. clear E.
    assert (Ho : next_operation p (b, pre) o) by (rewrite <- (Nat.add_0_r pre); now apply (Hn 0)).
    cbn in Hp |- *.
    assert (S1 : step m o1 f w = step m o f w).
    { eapply forward_operation_same; eauto. intros G. rewrite G in Hp. now apply Hp. }
    rewrite S1. destruct (step m o f w) as [f2 w2|f2 w2|w2| |] eqn:Es;
      try (split; [reflexivity|intros; discriminate]).
    apply (IH (S pre) os1 c2 f2 w2) in E2; auto.
    + rewrite <- Nat.add_succ_comm. exact E2.
    + intros i o0 Hi. rewrite Nat.add_succ_comm. now apply (Hn (S i)).
    + eapply step_facts; eauto.
Qed.

Lemma forward_blocks_nth : forall bls b bls' c i bl, forward_blocks p b bls = Some (bls', c) ->
  nth_error bls i = Some bl ->
  exists os c1 t c2, forward_operations p (b + i) 0 (operations bl) = Some (os, c1) /\
    forward_terminator p (term bl) = Some (t, c2) /\ nth_error bls' i = Some (Block os t).
Proof.
  induction bls as [|bl0 bls IH]; intros b bls' c i bl E Hi; [now destruct i|]. cbn in E.
  destruct (forward_operations p b 0 (operations bl0)) as [[os c1]|] eqn:E1; [|discriminate].
  destruct (forward_terminator p (term bl0)) as [[t c2]|] eqn:E2; [|discriminate].
  destruct (forward_blocks p (S b) bls) as [[bls1 c3]|] eqn:E3; [|discriminate].
  inversion E; subst. destruct i as [|i]; cbn in Hi |- *.
  - inversion Hi; subst. rewrite Nat.add_0_r. exists os, c1, t, c2. auto.
  - rewrite <- Nat.add_succ_comm. eapply IH; eauto.
Qed.

Lemma forward_run : forall p' c n b f w, forward_blocks p 0 p = Some (p', c) -> facts (b, 0) f ->
  run m n p b f w <> Panicked -> run m n p' b f w = run m n p b f w.
Proof.
  intros p' c n. induction n as [|n IH]; intros b f w E F Hp; [reflexivity|]. cbn in Hp |- *.
  destruct (nth_error p b) as [bl|] eqn:Eb; [|exfalso; now apply Hp].
  destruct (forward_blocks_nth p 0 p' c b bl E Eb) as (os & c1 & t & c2 & E1 & E2 & E3).
  rewrite E3. unfold step_block in Hp |- *. cbn [operations term].
  destruct (forward_operations_same b (operations bl) 0 os c1 f w) as [S1 S2]; auto.
  { intros i o Hi. exists bl. auto. }
  { intros G. rewrite G in Hp. now apply Hp. }
  rewrite S1. destruct (steps m (operations bl) f w) as [f1 w1|f1 w1|w1| |] eqn:Es; auto.
  specialize (S2 f1 w1 eq_refl). cbn in S2.
  assert (Ht : next_terminator p (b, length (operations bl)) (term bl)) by (exists bl; auto).
  assert (S3 : leave m t f1 w1 = leave m (term bl) f1 w1).
  { eapply forward_terminator_same; eauto. intros G. rewrite G in Hp. now apply Hp. }
  rewrite S3. destruct (leave m (term bl) f1 w1) as [b2 f2 w2|a] eqn:El; auto.
  apply IH; auto. eapply leave_facts; eauto.
Qed.

Theorem pass_same_calls : forall p', forward_boolean_negations p = Some (Some p') -> same_calls m p p'.
Proof.
  intros p' E n params w Hp. unfold forward_boolean_negations in E.
  destruct (may_forward p); [|discriminate].
  destruct (forward_blocks p 0 p) as [[q c]|] eqn:Ef; [|discriminate]. cbn in E.
  destruct c; [|discriminate]. inversion E; subst q. unfold call in *.
  eapply forward_run; eauto. apply start_facts. intros ->. destruct n; cbn in Ef; inversion Ef.
Qed.
End Runs.
