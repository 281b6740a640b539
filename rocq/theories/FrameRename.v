(** Operations on registers that correspond. *)
From Coq Require Import List Arith Bool Lia.
From Verif Require Import FrameModel FrameSpec FrameChange TailMergeSpec.
Import ListNotations.

Section Rename.
Context {other world : Type}.
Variable m : machine other world.

(** Equal frames up to the registers, which correspond by [R]. *)
Record renamed (R : nat -> nat -> Prop) (f f' : frame other) : Prop := {
  n_args : args f' = args f;
  n_cells : cells f' = cells f;
  n_stack : stack f' = stack f;
  n_next : next f' = next f;
  n_regs : forall r r', R r r' -> regs f' r' = regs f r }.

Definition one_to_one (R : nat -> nat -> Prop) : Prop :=
  forall r r' s s', R r r' -> R s s' -> (r = s <-> r' = s').

Definition operand_renamed (R : nat -> nat -> Prop) (x x' : operand) : Prop :=
  match x, x' with
  | OReg r, OReg r' => R r r'
  | OReg _, _ | _, OReg _ => False
  | _, _ => x = x'
  end.

Section Relation.
Variable R : nat -> nat -> Prop.
Hypothesis HR : one_to_one R.

Lemma rename_set_reg : forall r r' b f f', R r r' -> renamed R f f' ->
  renamed R (set_reg r b f) (set_reg r' b f').
Proof.
  intros r r' b f f' Hr [A C S N G]. constructor; cbn; auto. intros x x' Hx.
  destruct (Nat.eq_dec x r) as [E|Hn].
  - assert (x' = r') by (apply (HR x x' r r'); auto). subst. now rewrite !upd_same.
  - assert (x' <> r') by (intros E; apply Hn; apply (HR x x' r r'); auto). rewrite !upd_other; auto.
Qed.

Lemma rename_set_cell : forall c x f f', renamed R f f' -> renamed R (set_cell c x f) (set_cell c x f').
Proof. intros c x f f' [A C S N G]. constructor; cbn; auto. now rewrite C. Qed.

Lemma rename_restore : forall h f f', renamed R f f' -> renamed R (restore h f) (restore h f').
Proof. intros h f f' [A C S N G]. unfold restore. constructor; cbn; auto; now rewrite ?C, ?S. Qed.

Definition passed_renamed {A : Type} (a a' : option (A * frame other * world)) : Prop :=
  match a with
  | Some (v, f, w) => exists f', a' = Some (v, f', w) /\ renamed R f f'
  | None => a' = None
  end.

Lemma share_renamed : forall c f f' w, renamed R f f' ->
  passed_renamed (share_cell m c f w) (share_cell m c f' w).
Proof.
  intros c f f' w H. unfold share_cell. rewrite (n_cells _ _ _ H).
  destruct (cells f c) as [x|q|]; cbn; auto.
  - destruct (share m x w) as [w1 q]. cbn. eexists. split; [reflexivity|]. now apply rename_set_cell.
  - eauto.
Qed.

Lemma pass_renamed1 : forall k i x x' f f' w, operand_renamed R x x' -> renamed R f f' ->
  passed_renamed (pass_operand m k i x f w) (pass_operand m k i x' f' w).
Proof.
  intros k i x x' f f' w Hx H.
  destruct x as [l|l|n|n|r], x' as [l'|l'|n'|n'|r']; cbn in Hx; try easy; try inversion Hx; subst; cbn; eauto.
  - rewrite (n_args _ _ _ H). destruct (args f n'); cbn; eauto.
  - rewrite (n_regs _ _ _ H r r') by auto.
    destruct (regs f r) as [[v|q|c|h v|]|]; cbn; auto.
    + eexists. split; [reflexivity|].
      destruct (takes m k i && negb (copyable m v)); auto. now apply rename_set_reg.
    + eauto.
    + now apply share_renamed.
Qed.

Lemma pass_renamed : forall k os os' i f f' w, Forall2 (operand_renamed R) os os' -> renamed R f f' ->
  passed_renamed (pass_operands m k i os f w) (pass_operands m k i os' f' w).
Proof.
  intros k os os' i f f' w Hx. revert i f f' w.
  induction Hx as [|x x' os os' Hx Hos IH]; intros i f f' w H; cbn; eauto.
  pose proof (pass_renamed1 k i x x' f f' w Hx H) as P.
  destruct (pass_operand m k i x f w) as [[[v f1] w1]|]; cbn in P.
  - destruct P as (f1' & -> & H1). specialize (IH (S i) f1 f1' w1 H1).
    destruct (pass_operands m k (S i) os f1 w1) as [[[vs f2] w2]|]; cbn in IH.
    + destruct IH as (f2' & -> & H4). cbn. eauto.
    + rewrite IH. reflexivity.
  - rewrite P. reflexivity.
Qed.

Lemma place_renamed : forall x x' f f', operand_renamed R x x' -> renamed R f f' ->
  place_of f' x' = place_of f x.
Proof.
  intros x x' f f' Hx H.
  destruct x as [l|l|n|n|r], x' as [l'|l'|n'|n'|r']; cbn in Hx; try easy; try inversion Hx; subst; cbn; auto.
  - now rewrite (n_args _ _ _ H).
  - rewrite (n_regs _ _ _ H r r') by auto. now rewrite (n_cells _ _ _ H).
Qed.

Lemma content_renamed : forall q f f' w, renamed R f f' -> content_of m q f' w = content_of m q f w.
Proof. intros [c|v] f f' w H; cbn; auto. now rewrite (n_cells _ _ _ H). Qed.

Lemma inspect_renamed : forall x x' f f' w, operand_renamed R x x' -> renamed R f f' ->
  inspect m f' w x' = inspect m f w x.
Proof.
  intros x x' f f' w Hx H.
  destruct x as [l|l|n|n|r], x' as [l'|l'|n'|n'|r']; cbn in Hx; try easy; try inversion Hx; subst; cbn; auto.
  - now rewrite (n_args _ _ _ H).
  - rewrite (n_regs _ _ _ H r r') by auto. now rewrite (n_cells _ _ _ H).
Qed.

Lemma stored_renamed : forall x x' f f' w, operand_renamed R x x' -> renamed R f f' ->
  passed_renamed (stored_value m x f w) (stored_value m x' f' w).
Proof.
  intros x x' f f' w Hx H.
  destruct x as [l|l|n|n|r], x' as [l'|l'|n'|n'|r']; cbn in Hx; try easy; try inversion Hx; subst; cbn; eauto.
  - rewrite (n_args _ _ _ H). destruct (args f n'); cbn; eauto.
  - rewrite (n_regs _ _ _ H r r') by auto.
    destruct (regs f r) as [[v|q|c|h v|]|]; cbn; auto.
    + eexists. split; [reflexivity|]. destruct (copyable m v); auto. now apply rename_set_reg.
    + eauto.
    + now apply share_renamed.
Qed.

(** ** Results *)

Variable R' : nat -> nat -> Prop.

(** The correspondence after the results. *)
Definition results_renamed (r r' : option nat) : Prop :=
  match r, r' with
  | None, None => forall s s', R' s s' -> R s s'
  | Some r, Some r' => forall s s', R' s s' -> (s = r /\ s' = r') \/ (s <> r /\ s' <> r' /\ R s s')
  | _, _ => False
  end.

Definition outcome_renamed (a a' : outcome other world) : Prop :=
  match a with
  | RDone f w => exists f', a' = RDone f' w /\ renamed R' f f'
  | RError f w => exists f', a' = RError f' w
  | RStopped w => a' = RStopped w
  | RPanic => a' = RPanic
  | RDiverge => a' = RDiverge
  end.

Lemma rename_bind : forall r r' b f f', results_renamed r r' -> renamed R f f' ->
  renamed R' (bind r (Some b) f) (bind r' (Some b) f').
Proof.
  intros [r|] [r'|] b f f' Hr [A C S N G]; cbn in Hr; try easy; constructor; cbn; auto.
  intros s s' Hs. destruct (Hr s s' Hs) as [[-> ->]|(H1 & H2 & H3)].
  - now rewrite !upd_same.
  - rewrite !upd_other; auto.
Qed.

Lemma rename_no_bind : forall f f', results_renamed None None -> renamed R f f' -> renamed R' f f'.
Proof. intros f f' Hr [A C S N G]. constructor; auto. Qed.

Lemma after_renamed : forall e k k' f f', (forall w v, e = EDone w v -> outcome_renamed (k w v) (k' w v)) ->
  outcome_renamed (after e k f) (after e k' f').
Proof. intros e k k' f f' Hk. destruct e; cbn; eauto. Qed.

Lemma write_renamed : forall q x f f' w, results_renamed None None -> renamed R f f' ->
  outcome_renamed (write_place m q x f w) (write_place m q x f' w).
Proof.
  intros [c|v] x f f' w Hr H; cbn.
  - eexists. split; [reflexivity|]. apply rename_no_bind; auto. now apply rename_set_cell.
  - destruct (write m v x w); cbn; eauto. eexists. split; eauto. now apply rename_no_bind.
Qed.

Lemma rename_allocate : forall r r' f f', results_renamed r r' -> renamed R f f' ->
  renamed R' (allocate r f) (allocate r' f').
Proof.
  intros r r' f f' Hr [A C S N G]. unfold allocate. rewrite N. apply rename_bind; auto.
  constructor; cbn; auto; now rewrite ?C, ?S, ?N.
Qed.

Lemma operands_firstn : forall i os os', Forall2 (operand_renamed R) os os' ->
  Forall2 (operand_renamed R) (firstn i os) (firstn i os').
Proof.
  induction i as [|i IH]; intros os os' H; cbn; [constructor|]. destruct H; constructor; auto.
Qed.

Lemma operands_nth : forall i os os' x, Forall2 (operand_renamed R) os os' -> nth_error os i = Some x ->
  exists x', nth_error os' i = Some x' /\ operand_renamed R x x'.
Proof.
  intros i os os' x H. revert i. induction H as [|y y' os os' Hy H IH]; intros i Hx; [now destruct i|].
  destruct i as [|i]; cbn in *; [inversion Hx; subst; eauto|auto].
Qed.

Lemma operands_length : forall os os', Forall2 (operand_renamed R) os os' -> length os' = length os.
Proof. intros os os' H. induction H; cbn; auto. Qed.

Lemma step_renamed : forall o o' f f' w, op_kind o' = op_kind o ->
  Forall2 (operand_renamed R) (op_operands o) (op_operands o') ->
  results_renamed (op_result o) (op_result o') -> gives_result m o -> renamed R f f' ->
  outcome_renamed (step m o f w) (step m o' f' w).
Proof.
  intros o o' f f' w Hk Hu Hr Hg H. unfold gives_result in Hg.
  assert (Hnone : op_result o = None -> results_renamed None None).
  { intros E. rewrite E in Hr. destruct (op_result o'); [easy|exact Hr]. }
  unfold step. rewrite Hk. destruct (op_kind o) eqn:K.
  - pose proof (pass_renamed (KAlloca ty) _ _ 0 f f' w Hu H) as P.
    destruct (pass_operands m (KAlloca ty) 0 (op_operands o) f w) as [[[vs f1] w1]|]; cbn in P;
      [destruct P as (f1' & -> & H1)|now rewrite P].
    apply after_renamed; auto. intros w2 v _. cbn. eexists. split; [reflexivity|].
    now apply rename_allocate.
  - destruct (op_operands o); inversion Hu; subst; [|reflexivity]. apply after_renamed; auto.
    intros w2 [[v|v]|] _; cbn; auto.
    eexists. split; [reflexivity|]. rewrite (n_stack _ _ _ H). now apply rename_bind.
  - assert (Hn : op_result o = None) by (destruct (op_result o); auto; exfalso; apply Hg; discriminate).
    destruct (op_operands o) as [|x os]; inversion Hu as [|? x' ? os' Hx Hos]; subst; [reflexivity|].
    destruct x as [l|l|n|n|r], x' as [l'|l'|n'|n'|r']; cbn in Hx; try easy; try reflexivity.
    destruct os; inversion Hos; subst; [|reflexivity].
    rewrite (n_regs _ _ _ H r r') by auto.
    destruct (regs f r) as [[v|q|c|h v|]|]; try reflexivity. apply after_renamed; auto.
    intros w2 v0 _. cbn. eexists. split; [reflexivity|]. apply rename_no_bind; auto. now apply rename_restore.
  - destruct (op_operands o) as [|x os]; inversion Hu as [|? x' ? os' Hx Hos]; subst; [reflexivity|].
    destruct os; inversion Hos; subst; [|reflexivity].
    rewrite (place_renamed _ _ _ _ Hx H). destruct (place_of f x) as [q|]; [|reflexivity].
    rewrite (content_renamed _ _ _ w H). destruct (content_of m q f w) as [[v|]|]; try reflexivity.
    destruct (copyable m v); [|reflexivity]. cbn. eexists. split; [reflexivity|]. now apply rename_bind.
  - assert (Hn : op_result o = None) by (destruct (op_result o); auto; exfalso; apply Hg; discriminate).
    destruct (op_operands o) as [|x os]; inversion Hu as [|? x' ? os' Hx Hos]; subst; [reflexivity|].
    destruct os as [|d os]; inversion Hos as [|? d' ? os2 Hd Hos2]; subst; [reflexivity|].
    destruct os; inversion Hos2; subst; [|reflexivity].
    pose proof (stored_renamed x x' f f' w Hx H) as P.
    destruct (stored_value m x f w) as [[[y f1] w1]|]; cbn in P;
      [destruct P as (f1' & -> & H1)|now rewrite P].
    rewrite (place_renamed _ _ _ _ Hd H1). destruct (place_of f1 d); [|reflexivity]. apply write_renamed; auto.
  - assert (Hn : op_result o = None) by (destruct (op_result o); auto; exfalso; apply Hg; discriminate).
    destruct (op_operands o) as [|x os]; inversion Hu as [|? x' ? os' Hx Hos]; subst; [reflexivity|].
    destruct os as [|d os]; inversion Hos as [|? d' ? os2 Hd Hos2]; subst; [reflexivity|].
    destruct os; inversion Hos2; subst; [|reflexivity].
    rewrite (place_renamed _ _ _ _ Hx H), (place_renamed _ _ _ _ Hd H).
    destruct (place_of f x) as [q|]; [|reflexivity]. destruct (place_of f d); [|reflexivity].
    rewrite (content_renamed _ _ _ w H). destruct (content_of m q f w) as [[v|]|]; try reflexivity.
    destruct (copyable m v); [|reflexivity]. apply write_renamed; auto.
  - assert (Hn : op_result o = None) by (destruct (op_result o); auto; exfalso; apply Hg; discriminate).
    destruct (op_operands o) as [|x os]; inversion Hu as [|? x' ? os' Hx Hos]; subst; [reflexivity|].
    destruct os as [|d os]; inversion Hos as [|? d' ? os2 Hd Hos2]; subst; [reflexivity|].
    rewrite (place_renamed _ _ _ _ Hx H), (place_renamed _ _ _ _ Hd H).
    destruct (place_of f x) as [q|]; [|reflexivity]. destruct (place_of f d) as [q'|]; [|reflexivity].
    rewrite (content_renamed _ _ _ w H). destruct (content_of m q f w) as [y|]; [|reflexivity].
    destruct q as [c|v]; cbn [write_place].
    + apply write_renamed; auto. now apply rename_set_cell.
    + destruct (write m v None w); cbn; eauto. apply write_renamed; auto.
  - destruct (op_operands o) as [|x os]; inversion Hu as [|? x' ? os' Hx Hos]; subst; [reflexivity|].
    destruct os as [|d os]; inversion Hos as [|? d' ? os2 Hd Hos2]; subst; [reflexivity|].
    destruct d as [l|l|n|n|r], d' as [l'|l'|n'|n'|r']; cbn in Hd; try easy; try reflexivity.
    inversion Hd; subst l'. destruct os; inversion Hos2; subst; [|reflexivity].
    rewrite (inspect_renamed _ _ _ _ w Hx H). destruct (inspect m f w x) as [[v|]|]; try reflexivity.
    destruct (compare m l v); [|reflexivity]. cbn. eexists. split; [reflexivity|]. now apply rename_bind.
  - assert (Hn : op_result o = None) by (destruct (op_result o); auto; exfalso; apply Hg; discriminate).
    unfold step_call, call_result_operand_index. rewrite (operands_length _ _ Hu).
    destruct (visible + 2 <=? length (op_operands o)); [|reflexivity].
    set (i := 1 + (length (op_operands o) - (visible + 2)) + visible). clearbody i.
    destruct (nth_error (op_operands o) i) as [d|] eqn:Ed.
    2:{ destruct (nth_error (op_operands o') i) as [d'|] eqn:Ed'; [|reflexivity]. exfalso.
        apply nth_error_None in Ed. assert (L : nth_error (op_operands o') i <> None) by congruence.
        apply nth_error_Some in L. rewrite (operands_length _ _ Hu) in L. lia. }
    destruct (operands_nth i _ _ d Hu Ed) as (d' & Ed' & Hd). rewrite Ed'.
    pose proof (pass_renamed (op_kind o) _ _ 0 f f' w (operands_firstn i _ _ Hu) H) as P.
    rewrite ?Hk, ?K in *.
    destruct (pass_operands m (KCall visible id) 0 (firstn i (op_operands o)) f w) as [[[vs f1] w1]|]; cbn in P;
      [destruct P as (f1' & -> & H1)|now rewrite P].
    rewrite (place_renamed _ _ _ _ Hd H1). destruct (place_of f1 d) as [[c|q]|]; [| |reflexivity].
    + destruct (share m None w1) as [w2 q]. apply after_renamed; auto. intros w3 v _.
      destruct (read m q w3) as [x|]; [|reflexivity]. cbn. eexists. split; [reflexivity|].
      apply rename_no_bind; auto. now apply rename_set_cell.
    + apply after_renamed; auto. intros w3 v _. cbn. eexists. split; eauto. now apply rename_no_bind; auto.
  - reflexivity.
  - unfold step_other. rewrite Hk, K.
    pose proof (pass_renamed (KOther owned id) _ _ 0 f f' w Hu H) as P.
    destruct (pass_operands m (KOther owned id) 0 (op_operands o) f w) as [[[vs f1] w1]|]; cbn in P;
      [destruct P as (f1' & -> & H1)|now rewrite P].
    apply after_renamed; auto. intros w2 v Ev. cbn. eexists. split; [reflexivity|].
    destruct (op_result o) as [r|] eqn:Er.
    + destruct v as [g|]; [|exfalso; eapply Hg; eauto; discriminate].
      cbn [option_map]. apply rename_bind; auto.
    + destruct (op_result o') as [r'|] eqn:Er'; [easy|]. destruct v; cbn; now apply rename_no_bind.
Qed.
End Relation.
End Rename.
