(** A machine of numbers that is honest for every function, and a function with a call that does not change in its loop. *)
From Coq Require Import List Bool Arith Lia.
From Verif Require Import LicmModel LicmSpec LicmStatic LicmRoots.
Import ListNotations.

Section Toy.
Variable f : func.
Definition upd (c : cells nat) (x : root) (v : nat) : cells nat := fun y => if root_eqb x y then v else c y.
(** The operands whose cells are read. *)
Definition read_by (op : operation) : list operand :=
  match okind op with
  | Put _ => firstn 1 (operands op)
  | Call _ => removelast (tl (operands op))
  | Reading _ => operands op
  | _ => []
  end.
Definition read (c : cells nat) (o : operand) : list nat :=
  match root_of (place_roots f) o with Some x => [c x] | None => [] end.
Definition changed (op : operation) : option root :=
  match okind op, result op with
  | Alloca _, Some r => Some (RAlloca r)
  | Put _, _ => match nth_error (operands op) 1 with Some o => root_of (place_roots f) o | None => None end
  | Call c, _ => match call_operands c (operands op) with Some k => root_of (place_roots f) (output k) | None => None end
  | _, _ => None
  end.
(** A store of a number; or one less, or ten more, than what is read; or it is shown. *)
Definition meaning (k : kind) (l : list nat) : option (list nat * nat * nat) :=
  match k with
  | Alloca _ => Some ([], 0, 1)
  | Put 0 => Some ([], list_sum l - 1, 1)
  | Put n => Some ([], S n, 1)
  | Call _ => Some ([], 10 + list_sum l, 1)
  | Reading 1 => Some (l, 0, 1)
  | Reading _ => Some ([], 0, list_sum l)
  | _ => None
  end.
Definition present (regs : registers nat) (o : operand) : bool :=
  match o with Reg r => match regs r with Some _ => true | None => false end | _ => true end.
Definition toy_exec (op : operation) (regs : registers nat) (c : cells nat) : answer nat nat :=
  let l := flat_map (read c) (read_by op) in
  if forallb (present regs) (operands op) && negb (existsb (Nat.eqb 0) l) then
    match meaning (okind op) l with
    | Some (t, w, v) => Ok nat nat t (match changed op with Some x => upd c x w | None => c end) v
    | None => Wrong nat nat
    end
  else Wrong nat nat.
Definition toy : machine nat nat :=
  {| addr := fun _ => 1; unset := 0; constant := fun _ => 1; truth := fun v => Some (1 <? v); exec := toy_exec |}.

Hypothesis SSA : NoDup (results f).

Lemma read_operand : forall op o, In o (read_by op) -> In o (operands op).
Proof.
  intros op o J. unfold read_by in J. destruct (okind op); try destruct J; try exact J.
  - destruct (operands op) as [|g l]; [destruct J|]. right. cbn in J. induction l as [|x l IH]; [destruct J|].
    destruct l as [|y l]; [destruct J|]. destruct J as [<-|J]; [left; reflexivity|right; apply IH, J].
  - destruct (operands op) as [|g l]; [destruct J|]. destruct J as [<-|[]]. left. reflexivity.
Qed.
Lemma changed_touches : forall op x, changed op = Some x -> touches f op x.
Proof.
  intros op x H. unfold changed in H. destruct (okind op) eqn:K; try (destruct (result op); discriminate).
  - destruct (result op) as [r|] eqn:R; [|discriminate]. injection H as <-. right. exists r. auto.
  - left. destruct (call_operands c (operands op)) as [k|] eqn:Q; [|destruct (result op); discriminate].
    assert (H' : root_of (place_roots f) (output k) = Some x) by (destruct (result op); exact H). apply (root_of_iff f SSA) in H'.
    exists (output k). split; [|exact H']. apply written_iff. unfold written_operands. rewrite K, Q. left. reflexivity.
  - left. assert (H' : match nth_error (operands op) 1 with Some o => root_of (place_roots f) o | None => None end = Some x) by (destruct (result op); exact H).
    destruct (nth_error (operands op) 1) as [o|] eqn:N; [|discriminate]. apply (root_of_iff f SSA) in H'. exists o. split; [|exact H'].
    eapply written_put; eauto.
Qed.
Lemma reads_same : forall c c' l, (forall o x, In o l -> rooted f o x -> c x = c' x) -> flat_map (read c) l = flat_map (read c') l.
Proof.
  intros c c' l. induction l as [|o l IH]; intros H; [reflexivity|]. cbn. f_equal.
  - unfold read. destruct (root_of (place_roots f) o) as [x|] eqn:R; [|reflexivity]. f_equal. apply (H o x); [left; reflexivity|].
    apply (root_of_iff f SSA). exact R.
  - apply IH. intros o' x J. apply H. right. exact J.
Qed.
Lemma present_same : forall regs regs' l, (forall r, In (Reg r) l -> regs r = regs' r) -> forallb (present regs) l = forallb (present regs') l.
Proof.
  intros regs regs' l. induction l as [|o l IH]; intros H; [reflexivity|]. cbn. f_equal.
  - destruct o as [z|q|q|q]; try reflexivity. cbn. rewrite (H z); [reflexivity|left; reflexivity].
  - apply IH. intros r J. apply H. right. exact J.
Qed.
Lemma upd_agree : forall X c c' x v, agree nat X c c' -> agree nat X (upd c x v) (upd c' x v).
Proof. intros X c c' x v H y N. unfold upd. destruct (root_eqb x y); [reflexivity|apply H, N]. Qed.
Lemma toy_alike : forall X op regs c c', flat_map (read c) (read_by op) = flat_map (read c') (read_by op) -> agree nat X c c' ->
  alike nat nat X (toy_exec op regs c) (toy_exec op regs c').
Proof.
  intros X op regs c c' R A. unfold toy_exec. cbv zeta. rewrite <- R. destruct (_ && _); [|exact I].
  destruct (meaning _ _) as [[[t w] v]|]; [|exact I]. cbn. split; [reflexivity|]. split; [reflexivity|].
  destruct (changed op); [apply upd_agree, A|exact A].
Qed.

Lemma toy_honest : forall will_return trivial, honest nat nat toy will_return trivial f.
Proof.
  intros will_return trivial. constructor.
  - intros op regs regs' c _ H. cbn. unfold toy_exec. rewrite (present_same regs regs') by exact H. reflexivity.
  - intros op regs c r _ J N. cbn. unfold toy_exec. cbv zeta.
    assert (X : forallb (present regs) (operands op) = false); [|rewrite X; reflexivity].
    apply not_true_iff_false. intros H. rewrite forallb_forall in H. apply H in J. cbn in J. rewrite N in J. discriminate.
  - intros op regs c c' X _ H A. cbn. apply toy_alike; [|exact A]. apply reads_same. intros o x J R. apply A. intros Hx.
    destruct (H x Hx) as (_ & _ & H3). apply (H3 o); [apply read_operand, J|exact R].
  - intros op regs c x _ T. cbn. unfold toy_exec. cbv zeta. destruct (_ && _); [|exact I].
    destruct (meaning _ _) as [[[t w] v]|]; [|exact I]. destruct (changed op) as [y|] eqn:C; [|reflexivity].
    unfold upd. destruct (root_eqb y x) eqn:Q; [|reflexivity]. apply root_eqb_eq in Q. subst y. apply changed_touches in C. contradiction.
  - intros op regs c c' r _ T U A. cbn in *.
    destruct (in_dec (fun x y : root => ltac:(decide equality; apply Nat.eq_dec)) (RAlloca r)
      (flat_map (fun o => match root_of (place_roots f) o with Some x => [x] | None => [] end) (read_by op))) as [J|J].
    + left. unfold toy_exec. cbv zeta. assert (X : existsb (Nat.eqb 0) (flat_map (read c) (read_by op)) = true).
      { apply existsb_exists. exists 0. split; [|reflexivity]. apply in_flat_map in J. destruct J as (o & Jo & J).
        apply in_flat_map. exists o. split; [exact Jo|]. unfold read. destruct (root_of (place_roots f) o) as [y|]; [|destruct J].
        destruct J as [->|[]]. left. exact U. }
      rewrite X, andb_false_r. reflexivity.
    + right. apply toy_alike; [|exact A]. apply reads_same. intros o x Jo R. apply A. intros <-. apply J. apply in_flat_map.
      exists o. split; [exact Jo|]. apply (root_of_iff f SSA) in R. rewrite R. left. reflexivity.
  - intros op ty r regs c _ K O R. cbn. unfold toy_exec, read_by, changed. rewrite K, O, R. cbn. eexists. split; [reflexivity|].
    unfold upd. split; [rewrite (proj2 (root_eqb_eq _ _) eq_refl); reflexivity|]. intros x N.
    destruct (root_eqb (RAlloca r) x) eqn:Q; [apply root_eqb_eq in Q; contradiction|]. cbn in Q. rewrite ?Q. reflexivity.
  - intros op ins r regs c _ (ci & g & K & _ & _ & _ & _ & _ & Ln & O & _) Rr Hr Hc. cbn in *.
    assert (RB : read_by op = ins) by (unfold read_by; rewrite K, O; cbn [tl]; apply removelast_last).
    assert (CH : changed op = Some (RAlloca r)).
    { unfold changed. rewrite K, O. set (n := length ins - length (conventions ci)).
      rewrite <- (firstn_skipn n ins), <- app_assoc. rewrite call_shape_inv by (rewrite skipn_length; unfold n; lia). cbn [output].
      destruct (result op); apply (root_of_iff f SSA); exact Rr. }
    exists (10 + list_sum (flat_map (read c) ins)). intros c1 E1. unfold toy_exec. cbv zeta. rewrite RB.
    rewrite (reads_same c1 c ins) by exact E1.
    assert (P : forallb (present regs) (operands op) = true).
    { apply forallb_forall. intros [z|q|q|q] J; try reflexivity. cbn. specialize (Hr z J). destruct (regs z); [reflexivity|contradiction]. }
    assert (N : existsb (Nat.eqb 0) (flat_map (read c) ins) = false).
    { apply not_true_iff_false. rewrite existsb_exists. intros (v & J & Q). apply Nat.eqb_eq in Q. subst v. apply in_flat_map in J.
      destruct J as (o & Jo & J). unfold read in J. destruct (root_of (place_roots f) o) as [x|] eqn:R; [|destruct J].
      destruct J as [J|[]]. apply (root_of_iff f SSA) in R. exact (Hc o x Jo R J). }
    rewrite P, N. cbn [andb negb]. unfold meaning. rewrite K, CH. eexists _, _. split; [reflexivity|]. split.
    + unfold upd. rewrite (proj2 (root_eqb_eq _ _) eq_refl). reflexivity.
    + intros x Nx. unfold upd. destruct (root_eqb (RAlloca r) x) eqn:Q; [apply root_eqb_eq in Q; contradiction|reflexivity].
Qed.
End Toy.
