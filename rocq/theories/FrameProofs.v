(** Preserving each body of a program preserves the program. *)
From Coq Require Import List Arith Bool Lia.
From Verif Require Import FrameModel FrameSpec.
Import ListNotations.

Section Refine.
Context {other world : Type}.

Definition settled (e : effect other world) : Prop :=
  match e with EPanic | EDiverge => False | _ => True end.

(** [m'] answers as [m] wherever [m] answers. *)
Record refines (m m' : machine other world) : Prop := {
  f_constant : constant m' = constant m;
  f_static : static m' = static m;
  f_copyable : copyable m' = copyable m;
  f_matches : matches m' = matches m;
  f_read : read m' = read m;
  f_write : write m' = write m;
  f_share : share m' = share m;
  f_takes : takes m' = takes m;
  f_exec : forall k vs w, settled (exec m k vs w) -> exec m' k vs w = exec m k vs w }.

Variables m m' : machine other world.
Hypothesis R : refines m m'.

Definition closed (o : outcome other world) : Prop :=
  match o with RPanic | RDiverge => False | _ => True end.

Lemma value_same : forall f o, value_of m' f o = value_of m f o.
Proof.
  intros f o. unfold value_of. now rewrite (f_constant _ _ R), (f_static _ _ R), (f_copyable _ _ R).
Qed.

Lemma share_same : forall c f w, share_cell m' c f w = share_cell m c f w.
Proof. intros. unfold share_cell. now rewrite (f_share _ _ R). Qed.

Lemma pass_same1 : forall k i o f w, pass_operand m' k i o f w = pass_operand m k i o f w.
Proof.
  intros. unfold pass_operand.
  rewrite (f_constant _ _ R), (f_static _ _ R), (f_takes _ _ R), (f_copyable _ _ R).
  destruct o as [l|l|n|n|r]; auto. destruct (regs f r) as [[v|q|c|h v|]|]; auto. apply share_same.
Qed.

Lemma pass_same_all : forall k os i f w, pass_operands m' k i os f w = pass_operands m k i os f w.
Proof.
  intros k. induction os as [|o os IH]; intros i f w; cbn; auto. rewrite pass_same1.
  destruct (pass_operand m k i o f w) as [[[v f1] w1]|]; auto. now rewrite IH.
Qed.

Lemma content_same : forall p f w, content_of m' p f w = content_of m p f w.
Proof. intros. unfold content_of. now rewrite (f_read _ _ R). Qed.

Lemma write_same : forall p x f w, write_place m' p x f w = write_place m p x f w.
Proof. intros. unfold write_place. now rewrite (f_write _ _ R). Qed.

Lemma inspect_same : forall f w o, inspect m' f w o = inspect m f w o.
Proof.
  intros. unfold inspect. now rewrite (f_read _ _ R), (f_constant _ _ R), (f_static _ _ R).
Qed.

Lemma compare_same : forall l v, compare m' l v = compare m l v.
Proof. intros. unfold compare. now rewrite (f_matches _ _ R). Qed.

Lemma stored_same : forall o f w, stored_value m' o f w = stored_value m o f w.
Proof.
  intros. unfold stored_value. rewrite !value_same.
  destruct o as [l|l|n|n|r]; auto. destruct (regs f r) as [[v|q|c|h v|]|]; auto. apply share_same.
Qed.

Lemma after_same : forall k vs w g f,
  closed (after (exec m k vs w) g f) ->
  after (exec m' k vs w) g f = after (exec m k vs w) g f.
Proof.
  intros k vs w g f H. rewrite (f_exec _ _ R); auto.
  unfold after in H. destruct (exec m k vs w); cbn in *; auto.
Qed.

Lemma step_same : forall o f w, closed (step m o f w) -> step m' o f w = step m o f w.
Proof.
  intros o f w H. unfold step in *. destruct (op_kind o) eqn:Hk.
  - rewrite pass_same_all. destruct (pass_operands m (KAlloca ty) 0 (op_operands o) f w) as [[[vs f1] w1]|];
      auto. now apply after_same.
  - destruct (op_operands o); auto. now apply after_same.
  - destruct (op_operands o) as [|[l|l|n|n|r] [|? ?]]; auto.
    destruct (regs f r) as [[v|q|c|h v|]|]; auto. now apply after_same.
  - destruct (op_operands o) as [|s [|? ?]]; auto. destruct (place_of f s); auto.
    rewrite content_same, (f_copyable _ _ R). reflexivity.
  - destruct (op_operands o) as [|v [|d [|? ?]]]; auto. rewrite stored_same.
    destruct (stored_value m v f w) as [[[x f1] w1]|]; auto. destruct (place_of f1 d); auto.
    apply write_same.
  - destruct (op_operands o) as [|s [|d [|? ?]]]; auto.
    destruct (place_of f s); auto. destruct (place_of f d); auto.
    rewrite content_same, (f_copyable _ _ R).
    destruct (content_of m p f w) as [[v|]|]; auto. destruct (copyable m v); auto. apply write_same.
  - destruct (op_operands o) as [|s [|d ?]]; auto.
    destruct (place_of f s); auto. destruct (place_of f d); auto.
    rewrite content_same. destruct (content_of m p f w) as [x|]; auto. rewrite write_same.
    destruct (write_place m p None f w); auto. apply write_same.
  - destruct (op_operands o) as [|s [|[l|l|n|n|r] [|? ?]]]; auto. rewrite inspect_same.
    destruct (inspect m f w s) as [[v|]|]; auto. now rewrite compare_same.
  - unfold step_call in *. destruct (call_result_operand_index (op_operands o) visible) as [i|]; auto.
    destruct (nth_error (op_operands o) i) as [d|]; auto. rewrite pass_same_all.
    destruct (pass_operands m (op_kind o) 0 (firstn i (op_operands o)) f w) as [[[vs f1] w1]|]; auto.
    destruct (place_of f1 d) as [[c|p]|]; auto.
    + rewrite (f_share _ _ R). destruct (share m None w1) as [w2 p].
      rewrite (f_read _ _ R). now apply after_same.
    + now apply after_same.
  - auto.
  - unfold step_other in *. rewrite pass_same_all.
    destruct (pass_operands m (op_kind o) 0 (op_operands o) f w) as [[[vs f1] w1]|]; auto.
    now apply after_same.
Qed.

Lemma steps_same : forall os f w, closed (steps m os f w) -> steps m' os f w = steps m os f w.
Proof.
  induction os as [|o os IH]; intros f w H; cbn in *; auto.
  rewrite step_same.
  - destruct (step m o f w); auto.
  - destruct (step m o f w); cbn in *; auto.
Qed.

Definition open (x : exit (other := other) (world := world)) : Prop :=
  match x with XGo _ _ _ => True | XEnd a => ends a end.

Lemma leave_same : forall t f w, open (leave m t f w) -> leave m' t f w = leave m t f w.
Proof.
  intros t f w H. destruct t as [b|c b b'|o b b'|p b| | |]; cbn in *; auto.
  - now rewrite inspect_same.
  - rewrite step_same; auto. destruct (step m o f w); cbn in *; auto.
  - rewrite pass_same1. destruct (pass_operand m KYield 0 p f w) as [[[v f1] w1]|]; auto.
    rewrite (f_exec _ _ R); auto. destruct (exec m KYield [v] w1); cbn in *; auto.
Qed.

Lemma block_same : forall b f w, open (step_block m b f w) -> step_block m' b f w = step_block m b f w.
Proof.
  intros b f w H. unfold step_block in *. rewrite steps_same.
  - destruct (steps m (operations b) f w); auto. now apply leave_same.
  - destruct (steps m (operations b) f w); cbn in *; auto.
Qed.

Lemma run_same : forall n p b f w, ends (run m n p b f w) -> run m' n p b f w = run m n p b f w.
Proof.
  induction n as [|n IH]; intros p b f w H; cbn in *; auto.
  destruct (nth_error p b) as [bl|]; auto.
  rewrite block_same.
  - destruct (step_block m bl f w); auto.
  - destruct (step_block m bl f w); cbn in *; auto.
Qed.

Lemma call_same : forall n p params w, ends (call m n p params w) ->
  call m' n p params w = call m n p params w.
Proof. intros. now apply run_same. Qed.
End Refine.

Section Program.
Context {other world : Type}.
Variable base : machine other world.
Variable enters : kind -> list (value other) -> world -> option (nat * list (value other) * world).
Variable result : kind -> list (value other) -> option (given other).

Lemma program_same_on : forall bodies bodies',
  (forall n depth f, same_ends (program_machine base enters result bodies n depth) (bodies f) (bodies' f)) ->
  same_program base enters result bodies bodies'.
Proof.
  intros bodies bodies' H n depth.
  assert (G : refines (program_machine base enters result bodies n depth)
                (program_machine base enters result bodies' n depth)).
  { induction depth as [|depth IH].
    - constructor; auto.
    - constructor; auto. intros k vs w Hs. cbn in Hs |- *.
      destruct (enters k vs w) as [[[f params] w1]|]; auto. f_equal.
      assert (He : ends (call (program_machine base enters result bodies n depth) n (bodies f) params w1)).
      { destruct (call _ n (bodies f) params w1); cbn in *; auto. }
      pose proof (H n depth f n params w1 He) as E.
      rewrite <- E. apply (call_same _ _ IH). now rewrite E. }
  intros f params w He.
  pose proof (H n depth f n params w He) as E. rewrite <- E. apply (call_same _ _ G). now rewrite E.
Qed.

Lemma program_same : forall bodies bodies',
  (forall (m : machine other world) f, same_ends m (bodies f) (bodies' f)) ->
  same_program base enters result bodies bodies'.
Proof. intros bodies bodies' H. apply program_same_on. auto. Qed.

Lemma program_boolean : forall bodies n depth, boolean_machine base ->
  boolean_machine (program_machine base enters result bodies n depth).
Proof. intros bodies n [|depth] H; exact H. Qed.
End Program.

Lemma same_calls_ends : forall (other world : Type) (m : machine other world) p p',
  same_calls m p p' -> same_ends m p p'.
Proof.
  intros other world m p p' H n params w He. apply H. intros E. now rewrite E in He.
Qed.

(** ** More blocks *)
Section More.
Context {other world : Type}.
Variable m : machine other world.

Lemma leave_fuel : forall t f w, leave m t f w <> XEnd OutOfFuel.
Proof.
  intros t f w. destruct t as [b|c b b'|o b b'|p b| | |]; cbn; try discriminate.
  - destruct (inspect m f w c) as [[[[|]|v]|]|]; discriminate.
  - destruct (step m o f w); discriminate.
  - destruct (pass_operand m KYield 0 p f w) as [[[v f1] w1]|]; [|discriminate].
    destruct (exec m KYield [v] w1); discriminate.
Qed.

Lemma block_fuel : forall bl f w, step_block m bl f w <> XEnd OutOfFuel.
Proof.
  intros bl f w. unfold step_block. destruct (steps m (operations bl) f w); try discriminate.
  apply leave_fuel.
Qed.

Lemma run_more : forall n k p b f w, run m n p b f w <> OutOfFuel -> n <= k ->
  run m k p b f w = run m n p b f w.
Proof.
  induction n as [|n IH]; intros k p b f w H Hk; [now destruct H|].
  destruct k as [|k]; [lia|]. cbn in *. destruct (nth_error p b) as [bl|]; auto.
  destruct (step_block m bl f w) as [b1 f1 w1|a]; auto. apply IH; auto. lia.
Qed.

Lemma same_runs_ends : forall p p', same_runs m p p' -> same_ends m p p'.
Proof.
  intros p p' H n params w He.
  assert (Hn : call m n p params w <> OutOfFuel) by (intros E; now rewrite E in He).
  assert (Hp : forall k, call m k p params w <> Panicked).
  { intros k E. destruct (Nat.le_ge_cases n k) as [Hk|Hk].
    - unfold call in *. rewrite (run_more n k) in E by auto. now rewrite E in He.
    - unfold call in *. rewrite (run_more k n) in He by (auto; congruence). now rewrite E in He. }
  destruct (H params w Hp n) as (k & Hk & E). rewrite E. unfold call in *. now apply run_more.
Qed.

Lemma same_calls_runs : forall p p', same_calls m p p' -> same_runs m p p'.
Proof. intros p p' H params w Hp n. exists n. split; [lia|]. apply H. apply Hp. Qed.
End More.
