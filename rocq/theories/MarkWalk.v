(** Walks, and what a marker holds along an execution. *)
From Coq Require Import List Arith Bool Lia.
From Verif Require Import MarkModel MarkSpec MarkLattice MarkMeaning.
Import ListNotations.

(** Whether an operation saves [m]. *)
Definition savesb (o : op) (m : reg) : bool :=
  match okind o, result o with StackSave, Some r => r =? m | _, _ => false end.

Lemma savesb_true : forall o m, savesb o m = true <-> saves o m.
Proof.
  intros o m. unfold savesb, saves. destruct (okind o); try (split; [discriminate|intros [H _]; discriminate]).
  destruct (result o) as [r|]; [|split; [discriminate|intros [_ H]; discriminate]].
  rewrite Nat.eqb_eq. split; [intros ->; auto|intros [_ H]; congruence].
Qed.

(** The first event from the left that satisfies a test. *)
Lemma first_event : forall {A} (P : A -> bool) l, (exists x, In x l /\ P x = true) ->
  exists a x c, l = a ++ x :: c /\ P x = true /\ forall y, In y a -> P y = false.
Proof.
  intros A P l. induction l as [|x l IH]; intros (y & I & Y); [destruct I|].
  destruct (P x) eqn:E.
  - exists [], x, l. split; [reflexivity|]. split; [exact E|]. intros z [].
  - destruct IH as (a & z & c & Q & Z & N).
    { destruct I as [->|I]; [congruence|]. exists y. auto. }
    exists (x :: a), z, c. split; [rewrite Q; reflexivity|]. split; [exact Z|].
    intros w [<-|W]; [exact E|exact (N w W)].
Qed.

Lemma last_event : forall {A} (P : A -> bool) l, (exists x, In x l /\ P x = true) ->
  exists a x c, l = a ++ x :: c /\ P x = true /\ forall y, In y c -> P y = false.
Proof.
  intros A P l (x & I & X).
  destruct (first_event P (rev l)) as (a & y & c & Q & Y & N).
  { exists x. rewrite <- in_rev. auto. }
  exists (rev c), y, (rev a). split.
  - rewrite <- (rev_involutive l), Q, rev_app_distr. cbn. rewrite <- app_assoc. reflexivity.
  - split; [exact Y|]. intros z Z. apply N. rewrite in_rev. exact Z.
Qed.

Section Walks.
Variable f : function.
Hypothesis V : verified f.

(** A walk ends with its last event; what comes before is a walk to its site. *)
Lemma walk_prefix : forall tr p, walk f tr p -> forall a q o c, tr = a ++ (q, o) :: c -> walk f c q.
Proof.
  induction 1 as [|tr b i bl o W IH H N|tr b bl o n er t W IH H T Q|tr b bl t W IH H Q]; intros a q o' c E.
  - destruct a; discriminate.
  - destruct a as [|x a]; cbn in E; inversion E; subst; [exact W|]. exact (IH a q o' c eq_refl).
  - destruct a as [|x a]; cbn in E; inversion E; subst; [exact W|]. exact (IH a q o' c eq_refl).
  - exact (IH a q o' c E).
Qed.

(** What comes before an event can be replaced. *)
Lemma walk_replace : forall tr p, walk f tr p -> forall a q o c c', tr = a ++ (q, o) :: c ->
  walk f c' q -> walk f (a ++ (q, o) :: c') p.
Proof.
  induction 1 as [|tr b i bl o W IH H N|tr b bl o n er t W IH H T Q|tr b bl t W IH H Q]; intros a q o' c c' E W'.
  - destruct a; discriminate.
  - destruct a as [|x a]; cbn in E; inversion E; subst.
    + cbn. exact (walk_op f c' b i bl o' W' H N).
    + cbn. exact (walk_op f _ b i bl o (IH a q o' c c' eq_refl W') H N).
  - destruct a as [|x a]; cbn in E; inversion E; subst.
    + cbn. exact (walk_invoke f c' b bl o' n er t W' H T Q).
    + cbn. exact (walk_invoke f _ b bl o n er t (IH a q o' c c' eq_refl W') H T Q).
  - exact (walk_goto f _ b bl t (IH a q o' c c' E W') H Q).
Qed.

(** The events that deal with markers are operations of the function. *)
Lemma walk_event : forall tr p, walk f tr p -> forall q o, In (q, o) tr ->
  op_at f q o \/ (okind o <> StackSave /\ okind o <> StackRestore).
Proof.
  induction 1 as [|tr b i bl o W IH H N|tr b bl o n er t W IH H T Q|tr b bl t W IH H Q]; intros q o' I.
  - destruct I.
  - destruct I as [E|I]; [inversion E; subst; left; exact (op_at_intro f b bl i o' H N)|exact (IH q o' I)].
  - destruct I as [E|I]; [inversion E; subst; right; exact (invoked_fallible f V b bl o' n er H T)|exact (IH q o' I)].
  - exact (IH q o' I).
Qed.

Lemma walk_save : forall tr p q o m, walk f tr p -> In (q, o) tr -> saves o m -> op_at f q o.
Proof.
  intros tr p q o m W I S. destruct (walk_event tr p W q o I) as [H|[H _]]; [exact H|].
  destruct S as [S _]. contradiction.
Qed.

Lemma op_at_fun : forall p o o', op_at f p o -> op_at f p o' -> o = o'.
Proof. intros p o o' (bl & A & B) (bl' & A' & B'). congruence. Qed.

(** A current marker has been taken. *)
Lemma current_after_taken : forall tr p, walk f tr p -> forall m, current_after tr m ->
  exists q o, In (q, o) tr /\ saves o m.
Proof.
  induction 1 as [|tr b i bl o W IH H N|tr b bl o n er t W IH H T Q|tr b bl t W IH H Q]; intros m C.
  - destruct C.
  - pose proof (op_at_intro f b bl i o H N) as O. cbn [current_after] in C.
    assert (here : current_after tr m -> exists q o0, In (q, o0) (((b, i), o) :: tr) /\ saves o0 m).
    { intros X. destruct (IH m X) as (q & o' & I & S). exists q, o'. split; [right; exact I|exact S]. }
    destruct C as [C|[C|[[_ C]|[(r & _ & _ & C)|(_ & _ & _ & C)]]]]; try exact (here C).
    + exists (b, i), o. split; [left; reflexivity|exact C].
    + destruct (saved_first f V (b, i) o m O C tr W) as (q & o' & I & S).
      exists q, o'. split; [right; exact I|exact S].
  - cbn [current_after] in C. destruct (invoked_fallible f V b bl o n er H T) as [K1 K2].
    destruct C as [[C _]|[[C _]|[[C _]|[(r & [C _] & _)|(_ & _ & _ & C)]]]]; try contradiction.
    destruct (IH m C) as (q & o' & I & S). exists q, o'. split; [right; exact I|exact S].
  - exact (IH m C).
Qed.

Lemma current_taken : forall p m, current f p m -> taken_before f p m.
Proof. intros p m C tr W. exact (current_after_taken tr p W m (C tr W)). Qed.

(** The save of [k] happens where [h] holds the frontier. *)
Definition holds_at (k h : reg) : Prop :=
  exists q o, op_at f q o /\ saves o k /\ (exists tr, walk f tr q) /\ current f q h.

(** There is a walk to a save of [h] that has not yet met one of [k]. *)
Lemma before_save : forall k h q o, op_at f q o -> saves o k -> current f q h ->
  forall tr p, walk f tr p -> (exists q' o', In (q', o') tr /\ saves o' k) ->
  exists q' o' c, op_at f q' o' /\ saves o' h /\ walk f c q' /\ (forall y z, In (y, z) c -> ~ saves z k).
Proof.
  intros k h q o O S C tr p W (q' & o' & I & S').
  destruct (last_event (fun x => savesb (snd x) k) tr) as (a & [y z] & c & E & Y & N).
  { exists (q', o'). split; [exact I|]. apply savesb_true. exact S'. }
  cbn [snd] in Y. apply savesb_true in Y.
  pose proof (walk_prefix tr p W a y z c E) as Wy.
  assert (Oy : op_at f y z).
  { apply (walk_save tr p y z k W); [|exact Y]. rewrite E. apply in_or_app. right. left. reflexivity. }
  assert (y = q) by exact (one_save f V y q z o k Oy O Y S). subst y.
  destruct (current_after_taken c q Wy h (C c Wy)) as (r & u & Ir & Sr).
  destruct (in_split _ _ Ir) as (c1 & c2 & Ec).
  exists r, u, c2. split; [exact (walk_save c q r u h Wy Ir Sr)|]. split; [exact Sr|].
  split; [exact (walk_prefix c q Wy c1 r u c2 Ec)|].
  intros y z' Iz Sz.
  assert (F : savesb z' k = false).
  { apply (N (y, z')). rewrite Ec. apply in_or_app. right. right. exact Iz. }
  apply savesb_true in Sz. congruence.
Qed.

Lemma holds_at_other : forall k h, holds_at k h -> k <> h.
Proof.
  intros k h (q & o & O & S & [tr W] & C) E. subst h.
  destruct (current_after_taken tr q W k (C tr W)) as (q1 & o1 & I1 & S1).
  destruct (before_save k k q o O S C tr q W (ex_intro _ q1 (ex_intro _ o1 (conj I1 S1))))
    as (q2 & o2 & c & O2 & S2 & W2 & N2).
  assert (q2 = q) by exact (one_save f V q2 q o2 o k O2 O S2 S). subst q2.
  destruct (current_after_taken c q W2 k (C c W2)) as (y & z & I & S'). exact (N2 y z I S').
Qed.

(** Where [k] is available, [k] was saved after [h]. *)
Lemma saved_since : forall k h tr p, holds_at k h -> taken_before f p k -> walk f tr p ->
  exists a q o c, tr = a ++ (q, o) :: c /\ op_at f q o /\ saves o k /\ current f q h /\
    forall y z, In (y, z) a -> ~ saves z k /\ ~ saves z h.
Proof.
  intros k h tr p HA T W. pose proof (holds_at_other k h HA) as KH.
  destruct HA as (q & o & O & S & R & C).
  destruct (T tr W) as (q1 & o1 & I1 & S1).
  destruct (first_event (fun x => savesb (snd x) k || savesb (snd x) h) tr) as (a & [y z] & c & E & Y & N).
  { exists (q1, o1). split; [exact I1|]. cbn [snd]. apply orb_true_iff. left. apply savesb_true. exact S1. }
  cbn [snd] in Y.
  assert (N' : forall y z, In (y, z) a -> ~ saves z k /\ ~ saves z h).
  { intros y' z' I. specialize (N (y', z') I). cbn [snd] in N. apply orb_false_iff in N.
    rewrite <- !savesb_true. destruct N as [-> ->]. split; discriminate. }
  assert (Iy : In (y, z) tr) by (rewrite E; apply in_or_app; right; left; reflexivity).
  destruct (savesb z k) eqn:Yk.
  - apply savesb_true in Yk. pose proof (walk_save tr p y z k W Iy Yk) as Oy.
    assert (y = q) by exact (one_save f V y q z o k Oy O Yk S). subst y.
    exists a, q, z, c. split; [exact E|]. split; [exact Oy|]. split; [exact Yk|]. split; [exact C|exact N'].
  - exfalso. cbn in Y. apply savesb_true in Y. pose proof (walk_save tr p y z h W Iy Y) as Oy.
    destruct (before_save k h q o O S C tr p W (ex_intro _ q1 (ex_intro _ o1 (conj I1 S1))))
      as (q2 & o2 & c' & O2 & S2 & W2 & N2).
    assert (q2 = y) by exact (one_save f V q2 y o2 z h O2 Oy S2 Y). subst q2.
    pose proof (walk_replace tr p W a y z c c' E W2) as W'.
    destruct (T _ W') as (r & u & Ir & Sr). apply in_app_or in Ir. destruct Ir as [Ir|[Ir|Ir]].
    + exact (proj1 (N' r u Ir) Sr).
    + inversion Ir; subst. apply savesb_true in Sr. congruence.
    + exact (N2 r u Ir Sr).
Qed.

Lemma taken_through : forall k h p, holds_at k h -> taken_before f p k -> taken_before f p h.
Proof.
  intros k h p HA T tr W. destruct (saved_since k h tr p HA T W) as (a & q & o & c & E & O & S & C & _).
  pose proof (walk_prefix tr p W a q o c E) as Wq.
  destruct (current_after_taken c q Wq h (C c Wq)) as (r & u & I & Sr).
  exists r, u. split; [|exact Sr]. rewrite E. apply in_or_app. right. right. exact I.
Qed.

(** Chains of markers that were equal when they were taken. *)
Inductive linked : reg -> reg -> Prop :=
| link_one k h : holds_at k h -> linked k h
| link_more k h v : holds_at k h -> linked h v -> linked k v.

(** ** Executions *)

Section Executions.
Context {W : Type}.
Variable m : machine W.
Hypothesis Hm : honest m.
Hypothesis Hy : ~ yields f \/ steady m.
Variables (c0 : nat) (w0 : W).

(** The points of an execution, with the operations executed. *)
Inductive trail : list (site * op) -> site -> state W -> Prop :=
| trail_start : trail [] (0, 0) (mkState c0 (fun _ => None) w0)
| trail_op tr b i bl o s s' :
    trail tr (b, i) s -> nth_error f b = Some bl -> nth_error (ops bl) i = Some o ->
    exec m o s = Next s' -> trail (((b, i), o) :: tr) (b, S i) s'
| trail_invoke tr b bl o n e t s s' :
    trail tr (b, length (ops bl)) s -> nth_error f b = Some bl -> tail bl = Invoke o n e ->
    (exec m o s = Next s' /\ t = n) \/ (exec m o s = Fail s' /\ t = e) ->
    trail (((b, length (ops bl)), o) :: tr) (t, 0) s'
| trail_goto tr b bl t s :
    trail tr (b, length (ops bl)) s -> nth_error f b = Some bl ->
    tail bl = Goto t \/ (exists c e, tail bl = CondBr c t e \/ tail bl = CondBr c e t) ->
    trail tr (t, 0) s
| trail_yield tr b bl p t s :
    trail tr (b, length (ops bl)) s -> nth_error f b = Some bl -> tail bl = Yield p t ->
    trail tr (t, 0) (mkState (fst (resume m p (cells s) (world s))) (marks s)
                             (snd (resume m p (cells s) (world s)))).

Lemma trail_walk : forall tr p s, trail tr p s -> walk f tr p.
Proof.
  induction 1 as [|tr b i bl o s s' T IH H N X|tr b bl o n e t s s' T IH H Q X|tr b bl t s T IH H Q|tr b bl p t s T IH H Q].
  - constructor.
  - exact (walk_op f tr b i bl o IH H N).
  - apply (walk_invoke f tr b bl o n e t IH H Q). intuition.
  - apply (walk_goto f tr b bl t IH H). intuition.
  - apply (walk_goto f tr b bl t IH H). right. right. exists p. exact Q.
Qed.

(** What one operation does to the markers. *)
Lemma exec_marks : forall o s s', exec m o s = Next s' \/ exec m o s = Fail s' ->
  forall r, ~ saves o r -> marks s' r = marks s r.
Proof.
  intros o s s' E r N. unfold exec in E. unfold saves in N.
  destruct (okind o);
    try (destruct (perform m o (cells s) (world s)) as [c w|c w|w]; destruct E as [E|E];
         inversion E; reflexivity).
  - destruct (result o) as [r'|]; destruct E as [E|E]; inversion E; subst. cbn [marks]. unfold bind.
    destruct (r =? r') eqn:Q; [|reflexivity]. apply Nat.eqb_eq in Q. subst. exfalso. apply N. auto.
  - destruct (operands o) as [|[r'|q|c] l]; try (destruct E as [E|E]; discriminate).
    destruct (marks s r') as [k|]; try (destruct E as [E|E]; discriminate).
    destruct (k <=? cells s); destruct E as [E|E]; inversion E; reflexivity.
Qed.

Lemma exec_current : forall o s s' q tr,
  exec m o s = Next s' \/ exec m o s = Fail s' ->
  (forall r, current_after tr r -> marks s r = Some (cells s)) ->
  forall r, current_after ((q, o) :: tr) r -> marks s' r = Some (cells s').
Proof.
  intros o s s' q tr E A r C. cbn [current_after] in C. unfold exec in E.
  assert (other : okind o <> StackSave -> okind o <> StackRestore ->
    (match perform m o (cells s) (world s) with
      | Done c w => Next (mkState c (marks s) w)
      | Failed c w => Fail (mkState c (marks s) w)
      | Poisoned w => End (Stopped w)
      end = Next s' \/
     match perform m o (cells s) (world s) with
      | Done c w => Next (mkState c (marks s) w)
      | Failed c w => Fail (mkState c (marks s) w)
      | Poisoned w => End (Stopped w)
      end = Fail s') -> marks s' r = Some (cells s')).
  { intros N1 N2 E'.
    destruct C as [[C _]|[[C _]|[[C _]|[(x & [C _] & _)|(_ & _ & M & C)]]]]; try contradiction.
    specialize (Hm o (cells s) (world s) M). specialize (A r C).
    destruct (perform m o (cells s) (world s)) as [c w|c w|w]; destruct E' as [E'|E']; inversion E'; subst;
      cbn [marks cells]; congruence. }
  destruct (okind o) eqn:K; try (apply other; [discriminate|discriminate|exact E]).
  - clear other. destruct (result o) as [x|] eqn:R; destruct E as [E|E]; inversion E; subst. cbn [marks cells].
    unfold bind. destruct (r =? x) eqn:Q; [reflexivity|]. apply Nat.eqb_neq in Q.
    destruct C as [[_ C]|[[C _]|[[_ C]|[(y & [C _] & _)|(C & _)]]]]; try congruence. exact (A r C).
  - clear other. destruct (operands o) as [|[x|y|c] l] eqn:R; try (destruct E as [E|E]; discriminate).
    destruct (marks s x) as [k|] eqn:M; try (destruct E as [E|E]; discriminate).
    destruct (k <=? cells s); destruct E as [E|E]; inversion E; subst. cbn [marks cells].
    destruct C as [[C _]|[[_ [l' C]]|[[C _]|[(y & [_ [l' C]] & Y & Z)|(_ & C & _)]]]]; try congruence.
    assert (y = x) by congruence. subst y.
    pose proof (A x Y) as Q. assert (k = cells s) by congruence. subst k. exact (A r Z).
Qed.

(** A current marker holds the number of cells. *)
Lemma current_cells : forall tr p s, trail tr p s -> forall r, current_after tr r ->
  marks s r = Some (cells s).
Proof.
  induction 1 as [|tr b i bl o s s' T IH H N X|tr b bl o n e t s s' T IH H Q X|tr b bl t s T IH H Q|tr b bl p t s T IH H Q].
  - intros r [].
  - exact (exec_current o s s' (b, i) tr (or_introl X) IH).
  - apply (exec_current o s s' (b, length (ops bl)) tr); [|exact IH].
    destruct X as [[X _]|[X _]]; auto.
  - exact IH.
  - intros r C. cbn [marks cells]. rewrite (IH r C). f_equal.
    destruct Hy as [Hy'|Hy']; [|symmetry; apply Hy'].
    exfalso. apply Hy'. exists b, bl, p, t. auto.
Qed.

Lemma since_equal : forall k h tr p s, trail tr p s ->
  (exists a q o c, tr = a ++ (q, o) :: c /\ op_at f q o /\ saves o k /\ current f q h /\
    forall y z, In (y, z) a -> ~ saves z k /\ ~ saves z h) ->
  marks s k = marks s h.
Proof.
  intros k h tr p s T. induction T as [|tr b i bl o s s' T IH H N X|tr b bl o n e t s s' T IH H Q X|tr b bl t s T IH H Q|tr b bl p t s T IH H Q].
  - intros (a & q & o & c & E & _). destruct a; discriminate.
  - intros (a & q & o' & c & E & O & S & C & A). destruct a as [|x a]; cbn in E; inversion E; subst.
    + pose proof (current_cells c (b, i) s T h (C c (trail_walk c (b, i) s T))) as Hh.
      destruct S as [K R]. unfold exec in X. rewrite K, R in X. inversion X; subst. cbn [marks]. unfold bind.
      rewrite Nat.eqb_refl. destruct (h =? k); [reflexivity|]. symmetry. exact Hh.
    + destruct (A (b, i) o (or_introl eq_refl)) as [A1 A2].
      rewrite (exec_marks o s s' (or_introl X) k A1), (exec_marks o s s' (or_introl X) h A2).
      apply IH. exists a, q, o', c. repeat (split; [reflexivity||assumption|]).
      intros y z I. apply (A y z). right. exact I.
  - intros (a & q & o' & c & E & O & S & C & A). destruct a as [|x a]; cbn in E; inversion E; subst.
    + destruct (invoked_fallible f V b bl o' n e H Q) as [K1 _]. destruct S as [K _]. contradiction.
    + destruct (A _ o (or_introl eq_refl)) as [A1 A2].
      assert (X' : exec m o s = Next s' \/ exec m o s = Fail s') by (destruct X as [[X _]|[X _]]; auto).
      rewrite (exec_marks o s s' X' k A1), (exec_marks o s s' X' h A2).
      apply IH. exists a, q, o', c. repeat (split; [reflexivity||assumption|]).
      intros y z I. apply (A y z). right. exact I.
  - exact IH.
  - exact IH.
Qed.

(** Linked markers are equal wherever the first is available. *)
Lemma linked_equal : forall k v, linked k v -> forall tr p s, trail tr p s -> taken_before f p k ->
  marks s k = marks s v.
Proof.
  induction 1 as [k h HA|k h v HA L IH]; intros tr p s T B.
  - exact (since_equal k h tr p s T (saved_since k h tr p HA B (trail_walk tr p s T))).
  - rewrite (since_equal k h tr p s T (saved_since k h tr p HA B (trail_walk tr p s T))).
    exact (IH tr p s T (taken_through k h p HA B)).
Qed.
End Executions.
End Walks.
