(** Cleanup (C56), proofs, part 1: runs of a graph, and how a builder grows. *)
From Coq Require Import List Arith Bool Lia.
From Verif Require Import CleanupModel CleanupSpec.
Import ListNotations.

(** Induction on nodes. *)
Lemma node_induction (P : node -> Prop) :
  (forall args a, Forall P args -> P (NOp args a)) ->
  (forall cleanup body, Forall P body -> P (NBlock cleanup body)) ->
  (forall v c pl alts d, P v -> Forall (fun x => P (snd x)) alts -> P d -> P (NCase v c pl alts d)) ->
  (forall l body, P body -> P (NLoop l body)) ->
  (forall l v, P v -> P (NBreak l v)) ->
  (forall l, P (NContinue l)) ->
  (forall v, P v -> P (NReturn v)) ->
  (forall around args f n body,
     Forall (fun x => Forall P (fst x)) around -> Forall P args -> P body -> P (NWith around args f n body)) ->
  forall n, P n.
Proof.
  intros H1 H2 H3 H4 H5 H6 H7 H8.
  fix go 1.
  assert (L : forall l : list node, Forall P l).
  { fix gol 1. intros [| x l]; [constructor | constructor; [apply go | apply gol]]. }
  intros [args a | cl body | v c pl alts d | l body | l v | l | v | around args f n body].
  - apply H1. induction args; constructor; [apply go | assumption].
  - apply H2. induction body; constructor; [apply go | assumption].
  - apply H3; [apply go | | apply go].
    induction alts as [| [p x] alts IH]; constructor; [apply go | assumption].
  - apply H4. apply go.
  - apply H5. apply go.
  - apply H6.
  - apply H7. apply go.
  - apply H8; [| | apply go].
    + induction around as [| [x c] around IH]; constructor; [| assumption].
      cbn [fst]. induction x; constructor; [apply go | assumption].
    + induction args; constructor; [apply go | assumption].
Qed.

(** Lists. *)
Lemma nth_set_same {A} (l : list A) i x : i < length l -> nth_error (set_nth i x l) i = Some x.
Proof.
  revert i. induction l as [| y l IH]; intros [| i] H; cbn in *; try lia; [reflexivity |].
  apply IH. lia.
Qed.

Lemma nth_set_other {A} (l : list A) i j x : j <> i -> nth_error (set_nth i x l) j = nth_error l j.
Proof.
  revert i j. induction l as [| y l IH]; intros i j H; [destruct i; reflexivity |].
  destruct i as [| i], j as [| j]; cbn; try reflexivity; [lia |]. apply IH. lia.
Qed.

Lemma length_set {A} (l : list A) i x : length (set_nth i x l) = length l.
Proof. revert i. induction l as [| y l IH]; intros [| i]; cbn; try reflexivity. now rewrite IH. Qed.

Lemma nth_app_old {A} (l k : list A) i x : nth_error l i = Some x -> nth_error (l ++ k) i = Some x.
Proof. intros H. rewrite nth_error_app1; [exact H |]. apply nth_error_Some. congruence. Qed.

Lemma nth_app_new {A} (l : list A) x : nth_error (l ++ [x]) (length l) = Some x.
Proof. rewrite nth_error_app2 by lia. now rewrite Nat.sub_diag. Qed.

(** Later blocks: complete blocks stay, the others may get longer. *)
Definition ext (x y : list block) : Prop :=
  forall i l t, nth_error x i = Some (l, t) ->
    exists k t', nth_error y i = Some (l ++ k, t') /\ (forall e, t = Some e -> k = [] /\ t' = t).

Lemma ext_refl x : ext x x.
Proof. intros i l t H. exists [], t. rewrite app_nil_r. auto. Qed.

Lemma ext_trans x y z : ext x y -> ext y z -> ext x z.
Proof.
  intros A B i l t H. destruct (A i l t H) as (k & t' & H1 & H2).
  destruct (B i _ _ H1) as (k' & t'' & H3 & H4).
  exists (k ++ k'), t''. rewrite app_assoc. split; [exact H3 |].
  intros e E. destruct (H2 e E) as [-> ->]. destruct (H4 e E) as [-> ->]. auto.
Qed.

Lemma ext_length x y : ext x y -> length x <= length y.
Proof.
  intros A. destruct (le_lt_dec (length x) (length y)) as [H | H]; [exact H |].
  destruct (nth_error x (length y)) as [[l t] |] eqn:E.
  - destruct (A _ _ _ E) as (k & t' & H1 & _).
    assert (nth_error y (length y) = None) by (apply nth_error_None; lia). congruence.
  - apply nth_error_None in E. lia.
Qed.

Lemma ext_app x y : ext x (x ++ y).
Proof.
  intros i l t H. exists [], t. rewrite app_nil_r. split; [now apply nth_app_old | auto].
Qed.

Lemma ext_set (x : list block) i l k t : nth_error x i = Some (l, None) -> ext x (set_nth i (l ++ k, t) x).
Proof.
  intros H j l' t' H'. destruct (Nat.eq_dec j i) as [-> | N].
  - rewrite H in H'. injection H' as <- <-.
    assert (B : i < length x) by (apply nth_error_Some; rewrite H; discriminate).
    exists k, t. rewrite nth_set_same by exact B.
    split; [reflexivity | discriminate].
  - exists [], t'. rewrite nth_set_other by exact N. rewrite app_nil_r. auto.
Qed.

(** Runs. *)
Section Runs.
Context {state : Type}.
Variable m : machine state.
Variable g : list block.

Inductive reach : nat -> @config state -> config -> Prop :=
| reach_here c : reach 0 c c
| reach_step n c c1 c2 : step m g c = inl c1 -> reach n c1 c2 -> reach (S n) c c2.

Definition star (c c' : config) : Prop := exists n, reach n c c'.
Definition plus (c c' : config) : Prop := exists n, reach (S n) c c'.
Definition halts (c : config) (a : answer state) : Prop := exists n, run m g n c = Some a.

Lemma reach_trans n k c1 c2 c3 : reach n c1 c2 -> reach k c2 c3 -> reach (n + k) c1 c3.
Proof. intros H. induction H; intros R; [exact R | cbn; econstructor; eauto]. Qed.

Lemma star_refl c : star c c.
Proof. exists 0. constructor. Qed.

Lemma star_trans c1 c2 c3 : star c1 c2 -> star c2 c3 -> star c1 c3.
Proof. intros [n A] [k B]. exists (n + k). eapply reach_trans; eassumption. Qed.

Lemma plus_star c c' : plus c c' -> star c c'.
Proof. intros [n H]. exists (S n). exact H. Qed.

Lemma star_plus c1 c2 c3 : star c1 c2 -> plus c2 c3 -> plus c1 c3.
Proof. intros [n A] [k B]. exists (n + k). rewrite <- Nat.add_succ_r. eapply reach_trans; eassumption. Qed.

Lemma plus_star_plus c1 c2 c3 : plus c1 c2 -> star c2 c3 -> plus c1 c3.
Proof. intros [n A] [k B]. exists (n + k). exact (reach_trans (S n) k _ _ _ A B). Qed.

Lemma step_plus c c' : step m g c = inl c' -> plus c c'.
Proof. intros H. exists 0. econstructor; [exact H | constructor]. Qed.

Lemma step_halts c a : step m g c = inr a -> halts c a.
Proof. intros H. exists 1. cbn. now rewrite H. Qed.

Lemma reach_run n k c c' : reach n c c' -> run m g (n + k) c = run m g k c'.
Proof. intros H. induction H; [reflexivity | cbn; now rewrite H]. Qed.

Lemma star_halts c c' a : star c c' -> halts c' a -> halts c a.
Proof. intros [n H] [k R]. exists (n + k). now rewrite (reach_run _ _ _ _ H). Qed.

Lemma plus_halts c c' a : plus c c' -> halts c' a -> halts c a.
Proof. intros H. apply star_halts. now apply plus_star. Qed.

Lemma run_more n k c a : run m g n c = Some a -> run m g (n + k) c = Some a.
Proof.
  revert c. induction n as [| n IH]; intros c H; [discriminate |]. cbn in *.
  destruct (step m g c) as [c' | a']; [apply IH; exact H | exact H].
Qed.

Lemma halts_one c a a' : halts c a -> halts c a' -> a = a'.
Proof.
  intros [n A] [k B]. apply (run_more n k) in A. apply (run_more k n) in B.
  rewrite Nat.add_comm in B. congruence.
Qed.

(** A run of [n] steps has no answer in [n] steps or fewer. *)
Lemma reach_no_answer n k c c' : reach n c c' -> k <= n -> run m g k c = None.
Proof.
  intros H. revert k. induction H; intros k L.
  - destruct k; [reflexivity | lia].
  - destruct k; [reflexivity |]. cbn. rewrite H. apply IHreach. lia.
Qed.
End Runs.

(** Cleanup, in the two modes. *)
Section Modes.
Context {state : Type}.
Variable m : machine state.

(** After a failure: the answer of the function. *)
Fixpoint after_failure (l : list action) (s : state) : answer state :=
  match l with
  | [] => Raised s
  | a :: l =>
      match perform m a s with
      | Done s => after_failure l s
      | Err s => CleanupFailed s
      | Stop s => Stopped s
      end
  end.

(** On the way out; [outer]: what comes after a failure, besides the rest. *)
Fixpoint on_the_way (l outer : list action) (s : state) : state + answer state :=
  match l with
  | [] => inl s
  | a :: l =>
      match perform m a s with
      | Done s => on_the_way l outer s
      | Err s => inr (after_failure (l ++ outer) s)
      | Stop s => inr (Stopped s)
      end
  end.

(** The same, for the tree. *)
Fixpoint tree_failure (l : list action) (s : state) : @result state :=
  match l with
  | [] => Fails s
  | a :: l =>
      match perform m a s with
      | Done s => tree_failure l s
      | Err s => Poisons s
      | Stop s => Stops s
      end
  end.

Fixpoint tree_way (l : list action) (k : state -> @result state) (s : state) : @result state :=
  match l with
  | [] => k s
  | a :: l =>
      match perform m a s with
      | Done s => tree_way l k s
      | Err s => tree_failure l s
      | Stop s => Stops s
      end
  end.

Definition leaving (l : list action) (r : @result state) : @result state :=
  match r with
  | Normal s => tree_way l Normal s
  | Breaking x s => tree_way l (Breaking x) s
  | Continuing x s => tree_way l (Continuing x) s
  | Returning s => tree_way l Returning s
  | Fails s => tree_failure l s
  | Poisons _ | Stops _ | NoFuel => r
  end.

Lemma after_failure_app l k s :
  after_failure (l ++ k) s =
  match tree_failure l s with
  | Fails s => after_failure k s
  | Poisons s => CleanupFailed s
  | Stops s => Stopped s
  | _ => Panicked
  end.
Proof.
  revert s. induction l as [| a l IH]; intros s; cbn; [reflexivity |].
  destruct (perform m a s); auto.
Qed.

Lemma on_the_way_app l k outer s :
  on_the_way (l ++ k) outer s =
  match on_the_way l (k ++ outer) s with
  | inl s => on_the_way k outer s
  | inr a => inr a
  end.
Proof.
  revert s. induction l as [| a l IH]; intros s; cbn; [reflexivity |].
  destruct (perform m a s); auto. now rewrite app_assoc.
Qed.

Lemma tree_failure_ends l s :
  (exists s', tree_failure l s = Fails s') \/ (exists s', tree_failure l s = Poisons s')
  \/ (exists s', tree_failure l s = Stops s').
Proof.
  revert s. induction l as [| a l IH]; intros s; cbn; [eauto |].
  destruct (perform m a s); eauto.
Qed.

Definition answer_of (r : @result state) (outer : list action) : answer state :=
  match r with
  | Fails s => after_failure outer s
  | Poisons s => CleanupFailed s
  | Stops s => Stopped s
  | _ => Panicked
  end.

(** A tree on its way: either it gets through, or it ends. *)
Lemma tree_way_cases l outer k s :
  (exists s', on_the_way l outer s = inl s' /\ tree_way l k s = k s')
  \/ (exists r, tree_way l k s = r /\ on_the_way l outer s = inr (answer_of r outer) /\
        ((exists s', r = Fails s') \/ (exists s', r = Poisons s') \/ (exists s', r = Stops s'))).
Proof.
  revert s. induction l as [| a l IH]; intros s; cbn; [eauto |].
  destruct (perform m a s) as [s' | s' | s']; [apply IH | |].
  - right. exists (tree_failure l s'). split; [reflexivity |]. split.
    + f_equal. rewrite after_failure_app. unfold answer_of.
      destruct (tree_failure l s'); reflexivity.
    + apply tree_failure_ends.
  - right. exists (Stops s'). cbn. split; [reflexivity | split; [reflexivity | eauto]].
Qed.
End Modes.

(** Pads: [pad_runs P p A]: the block [p] is a pad of [P] and runs the actions
    [A], its own and those of the pads after it. *)
Inductive pad_runs (P : list pad) : nat -> list action -> Prop :=
| pad_last p : In p P -> pad_outer p = None -> pad_runs P (pad_block p) (pad_actions p)
| pad_more p o A : In p P -> pad_outer p = Some o -> pad_runs P o A ->
    pad_runs P (pad_block p) (pad_actions p ++ A).

Lemma pad_runs_more P P' p A : incl P P' -> pad_runs P p A -> pad_runs P' p A.
Proof.
  intros I H. induction H; [apply pad_last; auto | eapply pad_more; eauto].
Qed.

(** Actions of scopes, in the order they run. *)
Definition flat (sc : list (list action)) : list action := flat_map (@rev action) sc.

Lemma flat_app x y : flat (x ++ y) = flat x ++ flat y.
Proof. apply flat_map_app. Qed.

Fixpoint memo (P : list pad) (l : list scope) : Prop :=
  match l with
  | [] => True
  | s :: k => (forall p, scope_pad s = Some p -> pad_runs P p (flat (map actions l))) /\ memo P k
  end.

Lemma memo_more P P' l : incl P P' -> memo P l -> memo P' l.
Proof.
  intros I. induction l as [| s l IH]; [trivial |]. intros [A B]. split; [| auto].
  intros p E. eapply pad_runs_more; eauto.
Qed.

Lemma memo_below P P' above l l' :
  incl P P' -> map actions l' = map actions l -> memo P (above ++ l) -> memo P' l' -> memo P' (above ++ l').
Proof.
  intros I E. induction above as [| s above IH]; [cbn; auto |].
  intros [A B] C. split; [| auto].
  intros p H. specialize (A p H).
  change (s :: (above ++ l)) with ((s :: above) ++ l) in A.
  change (s :: (above ++ l')) with ((s :: above) ++ l').
  rewrite map_app in *. rewrite E. eapply pad_runs_more; eassumption.
Qed.

Lemma memo_app_r P above l : memo P (above ++ l) -> memo P l.
Proof. induction above; cbn; [auto | intros [_ H]; auto]. Qed.

(** A builder in order. *)
Record good (b : builder) : Prop := Good {
  good_point : point b < length (blocks b);
  good_pads : forall p, In p (pads b) ->
    nth_error (blocks b) (pad_block p) = Some ([], None) /\ pad_block p <> point b;
  good_distinct : NoDup (map pad_block (pads b));
  good_memo : memo (pads b) (scopes b);
  good_propagate : forall x, propagate b = Some x -> nth_error (blocks b) x = Some ([], Some TPropagateError);
  good_failure : forall x, failure b = Some x -> nth_error (blocks b) x = Some ([], Some TFailureDuringCleanup) }.

(** What happens to the blocks before [n] besides [p], and to the pads. *)
Record keeps_from (n p : nat) (b b' : builder) : Prop := KeepsFrom {
  kept_ext : ext (blocks b) (blocks b');
  kept_other : forall i, i < n -> i <> p -> nth_error (blocks b') i = nth_error (blocks b) i;
  kept_pads : exists l, pads b' = pads b ++ l /\ Forall (fun q => n <= pad_block q) l }.

Definition keeps (b b' : builder) : Prop :=
  keeps_from (length (blocks b)) (point b) b b' /\ (point b' = point b \/ length (blocks b) <= point b').

Definition same_context (b b' : builder) : Prop :=
  map actions (scopes b') = map actions (scopes b) /\ loops b' = loops b.

Lemma keeps_from_refl n p b : keeps_from n p b b.
Proof. constructor; [apply ext_refl | reflexivity |]. exists []. rewrite app_nil_r. auto. Qed.

Lemma keeps_from_trans n p x y z : keeps_from n p x y -> keeps_from n p y z -> keeps_from n p x z.
Proof.
  intros [A1 A2 (l & A3 & A4)] [B1 B2 (k & B3 & B4)]. constructor.
  - eapply ext_trans; eassumption.
  - intros i H N. rewrite B2, A2; auto.
  - exists (l ++ k). rewrite B3, A3, app_assoc. split; [reflexivity |]. apply Forall_app. auto.
Qed.

Lemma keeps_weaken n p x y :
  n <= length (blocks x) -> (point x = p \/ n <= point x) -> keeps x y -> keeps_from n p x y.
Proof.
  intros L P [[A1 A2 (l & A3 & A4)] _]. constructor; [exact A1 | |].
  - intros i H N. apply A2; [lia |]. destruct P; lia.
  - exists l. split; [exact A3 |]. eapply Forall_impl; [| exact A4]. cbn. intros q. lia.
Qed.

Lemma keeps_refl b : keeps b b.
Proof. split; [apply keeps_from_refl | auto]. Qed.

Lemma keeps_from_length n p x y : keeps_from n p x y -> length (blocks x) <= length (blocks y).
Proof. intros H. apply ext_length. apply kept_ext in H. exact H. Qed.

Lemma keeps_length x y : keeps x y -> length (blocks x) <= length (blocks y).
Proof. intros [H _]. eapply keeps_from_length; exact H. Qed.

Lemma keeps_trans x y z : keeps x y -> keeps y z -> keeps x z.
Proof.
  intros A B. pose proof (keeps_length _ _ A) as L. split.
  - destruct A as [A P]. eapply keeps_from_trans; [exact A |].
    apply keeps_weaken; [exact L | destruct P; auto | exact B].
  - destruct A as [_ P], B as [_ Q]. destruct P, Q; lia.
Qed.

Lemma same_context_refl b : same_context b b.
Proof. split; reflexivity. Qed.

Lemma same_context_trans x y z : same_context x y -> same_context y z -> same_context x z.
Proof. intros [A B] [C D]. split; congruence. Qed.

Lemma keeps_pads x y : keeps x y -> incl (pads x) (pads y).
Proof. intros [[_ _ (l & -> & _)] _] p H. apply in_or_app. auto. Qed.

Lemma keeps_from_pads n q x y : keeps_from n q x y -> incl (pads x) (pads y).
Proof. intros [_ _ (l & -> & _)] p H. apply in_or_app. auto. Qed.

(** A reserved block. *)
Definition free (b : builder) (q : nat) : Prop :=
  nth_error (blocks b) q = Some ([], None) /\ (forall p, In p (pads b) -> pad_block p <> q).

Lemma free_bound b q : free b q -> q < length (blocks b).
Proof. intros [H _]. apply nth_error_Some. congruence. Qed.

Lemma free_keeps x y q : keeps x y -> free x q -> q <> point x -> free y q.
Proof.
  intros K F N. pose proof (free_bound _ _ F) as B.
  destruct K as [[_ A2 (l & A3 & A4)] _], F as [F1 F2]. split.
  - now rewrite A2.
  - intros p H. rewrite A3 in H. apply in_app_or in H. destruct H as [H | H]; [auto |].
    rewrite Forall_forall in A4. specialize (A4 _ H). lia.
Qed.

Lemma free_point x y q : keeps x y -> free x q -> q <> point x -> q <> point y.
Proof. intros [_ P] F N. apply free_bound in F. destruct P; lia. Qed.

(** Operations that leave point and everything but the block there alone. *)
Lemma free_good b q : good b -> free b q -> good (at_point q b).
Proof.
  intros [A B C D E G] F. pose proof (free_bound _ _ F) as L. destruct F as [F1 F2].
  constructor; cbn; auto.
  intros p H. destruct (B p H). auto.
Qed.

(** The operations and terminator at the point. *)
Definition ops (b : builder) : list action :=
  match nth_error (blocks b) (point b) with Some (l, _) => l | None => [] end.

Lemma not_terminated b : terminated b = false <-> nth_error (blocks b) (point b) = Some (ops b, None).
Proof.
  unfold terminated, ops. destruct (nth_error (blocks b) (point b)) as [[l [t |]] |]; split; intros H; try reflexivity; discriminate.
Qed.

Lemma free_not_terminated b q : free b q -> terminated (at_point q b) = false /\ ops (at_point q b) = [].
Proof. intros [F _]. unfold terminated, ops. cbn. now rewrite F. Qed.

(** Changing the unfinished block at the point. *)
Definition set_here (l : list action) (t : option terminator) (b : builder) : builder :=
  with_blocks (set_nth (point b) (ops b ++ l, t) (blocks b)) b.

Lemma append_here a b : terminated b = false -> append a b = Some (set_here [a] None b).
Proof. intros H. apply not_terminated in H. unfold append, set_here. now rewrite H. Qed.

Lemma terminate_here t b : terminated b = false -> terminate t b = Some (set_here [] (Some t) b).
Proof. intros H. apply not_terminated in H. unfold terminate, set_here. rewrite H. now rewrite app_nil_r. Qed.

Lemma set_here_good l t b : good b -> terminated b = false -> good (set_here l t b).
Proof.
  intros [A B C D E G] H. apply not_terminated in H.
  assert (N : forall x y, nth_error (blocks b) x = Some ([], Some y) -> x <> point b).
  { intros x y Hx ->. congruence. }
  constructor; cbn; auto.
  - now rewrite length_set.
  - intros p I. destruct (B p I) as [B1 B2]. split; [| exact B2]. now rewrite nth_set_other.
  - intros x I. rewrite nth_set_other; [now apply E | now eapply N, E].
  - intros x I. rewrite nth_set_other; [now apply G | now eapply N, G].
Qed.

Lemma set_here_keeps l t b : terminated b = false -> keeps b (set_here l t b).
Proof.
  intros H. apply not_terminated in H. split; [| now left].
  constructor; cbn.
  - now apply ext_set.
  - intros i _ N. now apply nth_set_other.
  - exists []. rewrite app_nil_r. auto.
Qed.

Lemma set_here_context l t b : same_context b (set_here l t b).
Proof. split; reflexivity. Qed.

Lemma set_here_nth l t b : terminated b = false ->
  nth_error (blocks (set_here l t b)) (point b) = Some (ops b ++ l, t).
Proof.
  intros H. apply not_terminated in H. cbn. apply nth_set_same. apply nth_error_Some. congruence.
Qed.

(** Builders that only get blocks. *)
Lemma add_blocks_like b l f :
  good b -> (forall p, In p f -> length (blocks b) <= pad_block p) ->
  keeps b (with_pads (pads b ++ f) (with_blocks (blocks b ++ l) b)).
Proof.
  intros G H. split; [| now left]. constructor; cbn.
  - apply ext_app.
  - intros i L _. rewrite nth_error_app1; auto.
  - exists f. split; [reflexivity |]. now apply Forall_forall.
Qed.
