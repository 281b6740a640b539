(** Merging duplicates. *)
From Coq Require Import List Arith Bool Lia.
From Verif Require Import CopiesModel CopiesSpec CopiesSim CopiesRewrite CopiesPrune.
Import ListNotations.

(** * Comparing bodies *)

Lemma forallb_combine : forall {A} (same : A -> A -> bool),
  (forall x y, same x y = true <-> x = y) ->
  forall l l', ((length l =? length l') && forallb (fun p => same (fst p) (snd p)) (combine l l') = true)
    <-> l = l'.
Proof.
  intros A same H; induction l as [|x l IH]; intros [|y l']; cbn; split; try congruence; try discriminate.
  - intros E. apply andb_true_iff in E as (E1 & E). apply andb_true_iff in E as (E2 & E3).
    apply H in E2. subst y. f_equal. apply IH. now rewrite E1, E3.
  - intros E. injection E as -> E. rewrite (proj2 (H y y) eq_refl). cbn. now apply IH.
Qed.

Lemma same_operation_eq : forall a b, same_operation a b = true <-> a = b.
Proof.
  intros [r s vs k] [r' s' vs' k']. unfold same_operation; cbn.
  rewrite <- andb_assoc. rewrite andb_true_iff.
  rewrite (forallb_combine _ (fun x y => eqb_true nvalue_eq_dec x y)).
  rewrite !andb_true_iff, !eqb_true, Nat.eqb_eq. split.
  - intros (((-> & ->) & ->) & ->). reflexivity.
  - intros E. injection E as -> -> -> ->. auto.
Qed.

Lemma same_terminator_eq : forall a b, same_terminator a b = true <-> a = b.
Proof.
  intros [s k] [s' k']. unfold same_terminator; cbn. rewrite andb_true_iff, Nat.eqb_eq.
  assert (K : (match k, k' with
     | TInvoke o n e, TInvoke o' n' e' => (n =? n') && (e =? e') && same_operation o o'
     | TGoto x, TGoto y => x =? y
     | TCond c y n, TCond c' y' n' => eqb nvalue_eq_dec c c' && (y =? y') && (n =? n')
     | TYield p r, TYield p' r' => eqb nvalue_eq_dec p p' && (r =? r')
     | TReturn, TReturn => true
     | TPropagate, TPropagate => true
     | TCleanupFailure, TCleanupFailure => true
     | _, _ => false
     end) = true <-> k = k').
  { destruct k, k'; try (split; congruence);
      rewrite ?andb_true_iff, ?Nat.eqb_eq, ?eqb_true, ?same_operation_eq; split; intros H;
      solve [ destruct H as [[-> ->] ->]; reflexivity | injection H as -> -> ->; auto
            | destruct H as [-> ->]; reflexivity | injection H as -> ->; auto | congruence ]. }
  rewrite K. split; [intros (-> & ->); reflexivity | intros E; injection E as -> ->; auto].
Qed.

Lemma same_block_eq : forall a b, same_block a b = true <-> a = b.
Proof.
  intros [os t] [os' t']. unfold same_block; cbn.
  rewrite andb_true_iff, (forallb_combine _ same_operation_eq), same_terminator_eq.
  split; [intros (-> & ->); reflexivity | intros E; injection E as -> ->; auto].
Qed.

Definition same_but_name {V} (f g : body V) : Prop :=
  f_convention f = f_convention g /\ f_parameters f = f_parameters g /\
  f_constants f = f_constants g /\ f_blocks f = f_blocks g.

Lemma structurally_identical_eq : forall a b, structurally_identical a b = true <-> same_but_name a b.
Proof.
  intros a b. unfold structurally_identical, same_but_name.
  rewrite <- andb_assoc, andb_true_iff, (forallb_combine _ same_block_eq).
  rewrite !andb_true_iff, !eqb_true, Nat.eqb_eq. tauto.
Qed.

(** * Reading through two mappings *)

Section Reading.
  Variables (canon canon' : fid -> option reading).

  Definition reads_as (g h : fid) : Prop := exists rd, canon g = Some rd /\ canon' h = Some rd.

  Lemma value_forth : forall v v' x, normalize_function canon v = Some x ->
    normalize_function canon' v' = Some x -> alike_value reads_as v v'.
  Proof.
    intros v v' x E E'. destruct v, v'; cbn in E, E';
      repeat match goal with H : bind _ _ = Some _ |- _ => apply bind_inv in H as (? & ? & H) end;
      try congruence.
    - apply alike_function. exists x0. split; congruence.
    - replace d0 with d by congruence. apply alike_other; congruence.
    - replace i0 with i by congruence. apply alike_other; congruence.
    - replace n0 with n by congruence. apply alike_other; congruence.
  Qed.

  Lemma value_back : forall v v' x, alike_value reads_as v v' -> normalize_function canon v = Some x ->
    normalize_function canon' v' = Some x.
  Proof.
    intros v v' x [f g (rd & E1 & E2) | w N] E; cbn in *.
    - rewrite E1 in E. rewrite E2. exact E.
    - destruct w; cbn in *; auto. destruct (N f eq_refl).
  Qed.

  Lemma operation_forth : forall o o' x, map_operation (normalize_function canon) o = Some x ->
    map_operation (normalize_function canon') o' = Some x -> alike_operation reads_as o o'.
  Proof.
    intros o o' x E E'. unfold map_operation in *.
    apply bind_inv in E as (vs & E & E1). apply bind_inv in E' as (vs' & E' & E1').
    apply traverse_inv in E. apply traverse_inv in E'.
    rewrite <- E1' in E1. injection E1 as H1 H2 H3 H4. subst vs'.
    constructor; auto. clear E1' H1 H2 H4. revert E'. generalize (o_operands o') as l'.
    induction E as [|v x0 l l0 H F IH]; intros l' E'; inversion E'; subst; constructor; auto.
    eapply value_forth; eauto.
  Qed.

  Lemma operation_back : forall o o' x, alike_operation reads_as o o' ->
    map_operation (normalize_function canon) o = Some x ->
    map_operation (normalize_function canon') o' = Some x.
  Proof.
    intros o o' x [A1 A2 A3 A4] E. unfold map_operation in *.
    apply bind_inv in E as (vs & E & E1).
    assert (E' : traverse (normalize_function canon') (o_operands o') = Some vs).
    { clear - A4 E. revert vs E. induction A4 as [|v v' l l' A F IH]; intros vs E; cbn in *; [exact E |].
      apply bind_inv in E as (x & E1 & E). apply bind_inv in E as (r & E2 & E). injection E as <-.
      rewrite (value_back _ _ _ A E1), (IH _ E2). reflexivity. }
    rewrite E'. cbn. rewrite <- A1, <- A2, <- A3. exact E1.
  Qed.

  Lemma raw_terminator : forall t, (forall o n e, t_kind t <> TInvoke o n e) ->
    exists k, map_terminator (fun v => Some (NRaw v)) t = Some (Term (t_span t) k) /\
      match t_kind t with
      | TGoto b => k = TGoto b
      | TCond c y n => k = TCond (NRaw c) y n
      | TInvoke _ _ _ => False
      | TYield p r => k = TYield (NRaw p) r
      | TReturn => k = TReturn
      | TPropagate => k = TPropagate
      | TCleanupFailure => k = TCleanupFailure
      end.
  Proof.
    intros [s k] N; cbn in *. destruct k; cbn; eauto. destruct (N o normal error eq_refl).
  Qed.

  Lemma terminator_forth : forall t t' x, normalize_terminator canon t = Some x ->
    normalize_terminator canon' t' = Some x ->
    t_span t = t_span t' /\ alike_term reads_as (t_kind t) (t_kind t').
  Proof.
    intros [s k] [s' k'] x E E'. unfold normalize_terminator in *; cbn in *.
    destruct k, k'; cbn in *;
      repeat match goal with H : bind _ _ = Some _ |- _ => apply bind_inv in H as (? & ? & H) end;
      try congruence; try (split; [congruence |]).
    all: try (match goal with |- alike_term _ ?k ?k' => replace k' with k by congruence end;
              apply alike_same; congruence).
    replace normal0 with normal by congruence. replace error0 with error by congruence.
    apply alike_invoke. eapply operation_forth; eauto. congruence.
  Qed.

  Lemma terminator_back : forall t t' x, t_span t = t_span t' ->
    alike_term reads_as (t_kind t) (t_kind t') ->
    normalize_terminator canon t = Some x -> normalize_terminator canon' t' = Some x.
  Proof.
    intros [s k] [s' k'] x Es A E. cbn in *. subst s'. unfold normalize_terminator in *; cbn in *.
    inversion A as [o o' n e Ao | k0 N]; subst.
    - apply bind_inv in E as (y & E & E1). rewrite (operation_back _ _ _ Ao E). exact E1.
    - destruct k'; auto. destruct (N o normal error eq_refl).
  Qed.

  Lemma body_forth : forall f f' x x', normalize canon f = Some x -> normalize canon' f' = Some x' ->
    same_but_name x x' -> alike reads_as f f'.
  Proof.
    intros f f' x x' E E' (H1 & H2 & H3 & H4). unfold normalize in *.
    apply bind_inv in E as (bs & E & E1). apply bind_inv in E' as (bs' & E' & E1').
    injection E1 as <-. injection E1' as <-. cbn in *. subst bs'.
    constructor; auto. apply traverse_inv in E. apply traverse_inv in E'.
    clear H1 H2 H3. revert E'. generalize (f_blocks f') as l'.
    induction E as [|b y l l0 H F IH]; intros l' E'; inversion E' as [|b' y' l1 l2 Hb Fb]; subst;
      constructor; auto.
    unfold normalize_block in H, Hb.
    apply bind_inv in H as (os & O & H). apply bind_inv in H as (t & T & H).
    apply bind_inv in Hb as (os' & O' & Hb). apply bind_inv in Hb as (t' & T' & Hb).
    rewrite <- Hb in H. injection H as -> ->.
    apply traverse_inv in O. apply traverse_inv in O'.
    destruct (terminator_forth _ _ _ T T') as (S1 & S2).
    constructor; auto.
    clear - O O'. revert O'. generalize (b_operations b') as m'.
    induction O as [|o y l l0 H F IH]; intros m' E'; inversion E'; subst; constructor; auto.
    eapply operation_forth; eauto.
  Qed.

  Lemma body_back : forall f f' x x', alike reads_as f f' -> normalize canon f = Some x ->
    normalize canon' f' = Some x' -> same_but_name x x'.
  Proof.
    intros f f' x x' [A1 A2 A3 A4] E E'. unfold normalize in *.
    apply bind_inv in E as (bs & E & E1). apply bind_inv in E' as (bs' & E' & E1').
    injection E1 as <-. injection E1' as <-.
    assert (T : traverse (normalize_block canon') (f_blocks f') = Some bs).
    { clear - A4 E. revert bs E. induction A4 as [|b b' l l' [B1 B2 B3] F IH]; intros bs E; cbn in *; [exact E |].
      apply bind_inv in E as (y & E1 & E). apply bind_inv in E as (r & E2 & E). injection E as <-.
      rewrite (IH _ E2). unfold normalize_block in *.
      apply bind_inv in E1 as (os & O & E1). apply bind_inv in E1 as (t & T & E1).
      rewrite (terminator_back _ _ _ B2 B3 T).
      assert (O' : traverse (map_operation (normalize_function canon')) (b_operations b') = Some os).
      { clear - B1 O. revert os O. induction B1 as [|o o' l l' A F IH]; intros os E; cbn in *; [exact E |].
        apply bind_inv in E as (y & E1 & E). apply bind_inv in E as (r & E2 & E). injection E as <-.
        rewrite (operation_back _ _ _ A E1), (IH _ E2). reflexivity. }
      rewrite O'. cbn. injection E1 as <-. reflexivity. }
    rewrite T in E'. injection E' as <-. repeat split; cbn; assumption.
  Qed.
End Reading.

Lemma alike_mono : forall (R S : fid -> fid -> Prop) f f', (forall x y, R x y -> S x y) ->
  alike R f f' -> alike S f f'.
Proof.
  intros R S f f' H [A1 A2 A3 A4].
  assert (V : forall v v', alike_value R v v' -> alike_value S v v').
  { intros v v' [x y Rxy | w N]; [apply alike_function; auto | now apply alike_other]. }
  assert (O : forall o o', alike_operation R o o' -> alike_operation S o o').
  { intros o o' [? ? ? F]; constructor; auto. exact (Forall2_impl_in _ _ _ _ (fun x y _ _ => V x y) F). }
  constructor; auto. refine (Forall2_impl_in _ _ _ _ _ A4).
  intros b b' _ _ [B1 B2 B3]. constructor; auto.
  - exact (Forall2_impl_in _ _ _ _ (fun x y _ _ => O x y) B1).
  - destruct B3; [apply alike_invoke; auto | now apply alike_same].
Qed.

Lemma alike_comp : forall (R S T : fid -> fid -> Prop), (forall x y z, R x y -> S y z -> T x z) ->
  forall f g h, alike R f g -> alike S g h -> alike T f h.
Proof.
  intros R S T Co f g h [A1 A2 A3 A4] [B1 B2 B3 B4].
  assert (V : forall u v w, alike_value R u v -> alike_value S v w -> alike_value T u w).
  { intros u v w H1 H2. destruct H1 as [x y Rxy | v N]; inversion H2; subst.
    - apply alike_function. eauto.
    - destruct (H y eq_refl).
    - destruct (N f0 eq_refl).
    - now apply alike_other. }
  assert (Vs : forall l1 l2 l3, Forall2 (alike_value R) l1 l2 -> Forall2 (alike_value S) l2 l3 ->
             Forall2 (alike_value T) l1 l3).
  { intros l1 l2 l3 F; revert l3; induction F; intros l3 F3; inversion F3; subst; constructor; eauto. }
  assert (O : forall u v w, alike_operation R u v -> alike_operation S v w -> alike_operation T u w).
  { intros u v w [? ? ? ?] [? ? ? ?]; constructor; try congruence. eauto. }
  constructor; try congruence.
  revert A4 B4. generalize (f_blocks f) (f_blocks g) (f_blocks h). clear A1 A2 A3 B1 B2 B3.
  intros l1 l2 l3 F; revert l3; induction F as [|b b' l l' Hb F IH]; intros l3 F3; inversion F3; subst;
    constructor; auto.
  destruct Hb as [C1 C2 C3], H1 as [D1 D2 D3]. constructor; try congruence.
  - revert C1 D1. generalize (b_operations b) (b_operations b') (b_operations y).
    intros k1 k2 k3 Fo; revert k3; induction Fo; intros k3 F4; inversion F4; subst; constructor; eauto.
  - inversion C3; subst.
    + match goal with E : _ = t_kind (b_terminator b') |- _ => rewrite <- E in D3 end.
      inversion D3; subst; [apply alike_invoke; eauto |].
      match goal with N : forall o n e, _ <> _ |- _ => destruct (N _ _ _ eq_refl) end.
    + match goal with E : t_kind (b_terminator b) = t_kind (b_terminator b') |- _ => rewrite E in * end.
      inversion D3; subst; [| now apply alike_same].
      match goal with N : forall o n e, _ <> _, E : _ = t_kind (b_terminator b') |- _ =>
        rewrite <- E in N; destruct (N _ _ _ eq_refl) end.
Qed.

Lemma alike_trans : forall (R : fid -> fid -> Prop), (forall x y z, R x y -> R y z -> R x z) ->
  forall f g h, alike R f g -> alike R g h -> alike R f h.
Proof. intros R T. exact (alike_comp R R R T). Qed.

Lemma Forall2_flip' : forall {A B} (R : A -> B -> Prop) (S : B -> A -> Prop),
  (forall x y, R x y -> S y x) -> forall l l', Forall2 R l l' -> Forall2 S l' l.
Proof. intros A B R S H l l' F; induction F; constructor; auto. Qed.

Lemma alike_sym : forall (R S : fid -> fid -> Prop), (forall x y, R x y -> S y x) ->
  forall f g, alike R f g -> alike S g f.
Proof.
  intros R S H f g [A1 A2 A3 A4].
  assert (V : forall u v, alike_value R u v -> alike_value S v u).
  { intros u v [x y Rxy | w N]; [apply alike_function; auto | now apply alike_other]. }
  assert (O : forall u v, alike_operation R u v -> alike_operation S v u).
  { intros u v [? ? ? ?]; constructor; try congruence. eapply Forall2_flip'; eauto. }
  constructor; try congruence. refine (Forall2_flip' _ _ _ _ _ A4).
  intros b b' [C1 C2 C3]. constructor; try congruence.
  - exact (Forall2_flip' _ _ O _ _ C1).
  - destruct C3; [apply alike_invoke; auto | now apply alike_same].
Qed.

(** A rewritten body is alike the body it comes from. *)
Lemma rewrite_alike : forall a (r : fid -> option fid) f f', (forall g, ~ is_copy a g -> r g = Some g) ->
  callee_only a f -> rewrite_body r f = Some f' -> alike (fun x y => r x = Some y) f f'.
Proof.
  intros a r f f' Out C E. unfold rewrite_body in E.
  apply bind_inv in E as (bs1 & E1 & E). apply bind_inv in E as (bs2 & E2 & E). injection E as <-.
  apply traverse_inv in E1. apply traverse_inv in E2.
  pose proof (Forall2_comp _ _ _ _ _ E1 E2) as F. clear E1 E2 bs1.
  constructor; cbn; auto.
  assert (Op : forall o o1 o2, operations f o -> map_operation (visit_operand r) o = Some o1 ->
     operation_kinds r o1 = Some o2 -> alike_operation (fun x y => r x = Some y) o o2).
  { intros o o1 o2 I H1 H2. unfold map_operation in H1. apply bind_inv in H1 as (vs & V & H1).
    injection H1 as <-. unfold operation_kinds in H2. cbn in H2. apply bind_inv in H2 as (k & K & H2).
    injection H2 as <-. constructor; cbn; auto.
    - destruct (o_kind o) as [v c|g rest|c] eqn:Ek; cbn in K; try congruence.
      rewrite (Out g (co_closure _ _ C o g rest I Ek)) in K. cbn in K. congruence.
    - apply traverse_inv in V. refine (Forall2_impl_in _ _ _ _ _ V). intros v v' _ _ Hv.
      destruct v; cbn in Hv; try (injection Hv as <-; apply alike_other; congruence).
      apply bind_inv in Hv as (g' & Eg & Hv). injection Hv as <-. now apply alike_function. }
  refine (Forall2_impl_in _ _ _ _ _ F). intros b b2 Ib _ (b1 & E1 & E2).
  unfold map_block in E1. apply bind_inv in E1 as (os1 & O1 & E1).
  apply bind_inv in E1 as (t1 & T1 & E1). injection E1 as <-.
  unfold block_kinds in E2. cbn in E2. apply bind_inv in E2 as (os2 & O2 & E2).
  apply bind_inv in E2 as (k2 & T2 & E2). injection E2 as <-.
  unfold map_terminator in T1. apply bind_inv in T1 as (k1 & T1 & E1). injection E1 as <-. cbn in T2.
  constructor; cbn; auto.
  - apply traverse_inv in O1. apply traverse_inv in O2.
    pose proof (Forall2_comp _ _ _ _ _ O1 O2) as Fo.
    refine (Forall2_impl_in _ _ _ _ _ Fo). intros o o2 Io _ (o1 & H1 & H2).
    apply (Op o o1 o2); auto. exists b; auto.
  - destruct (t_kind (b_terminator b)) as [t|c y n|o n e|p q| | |] eqn:Tb.
    1,5-7: injection T1 as <-; injection T2 as <-; apply alike_same; congruence.
    + apply bind_inv in T1 as (c' & V & E). injection E as <-. injection T2 as <-.
      replace c' with c; [apply alike_same; congruence |].
      destruct c; cbn in V; try congruence.
      rewrite (Out f0 (co_condition _ _ C b f0 y n Ib Tb)) in V. cbn in V. congruence.
    + apply bind_inv in T1 as (o1 & V & E). injection E as <-. cbn in T2.
      apply bind_inv in T2 as (o2 & V2 & E). injection E as <-.
      apply alike_invoke. apply (Op o o1 o2); auto. exists b. split; [assumption |]. right; eauto.
    + apply bind_inv in T1 as (c' & V & E). injection E as <-. injection T2 as <-.
      replace c' with p; [apply alike_same; congruence |].
      destruct p; cbn in V; try congruence.
      rewrite (Out f0 (co_yield _ _ C b f0 q Ib Tb)) in V. cbn in V. congruence.
Qed.

Lemma Forall2_right : forall {A B} (R : A -> B -> Prop) l l' y, Forall2 R l l' -> In y l' ->
  exists x, In x l /\ R x y.
Proof.
  intros A B R l l' y F I. induction F as [|x z l l' H F IH]; [destruct I |].
  destruct I as [-> | I]; [exists x; split; [now left | assumption] |].
  destruct (IH I) as (x' & I' & H'). exists x'. split; [now right | assumption].
Qed.

Lemma alike_operations : forall (R : fid -> fid -> Prop) f f' o', alike R f f' -> operations f' o' ->
  exists o, operations f o /\ alike_operation R o o'.
Proof.
  intros R f f' o' [_ _ _ A] (b' & Ib' & H).
  destruct (Forall2_right _ _ _ _ A Ib') as (b & Ib & [B1 B2 B3]).
  destruct H as [Io | (n & e & T)].
  - destruct (Forall2_right _ _ _ _ B1 Io) as (o & Io' & Ao). exists o. split; [| assumption]. exists b; auto.
  - rewrite T in B3. inversion B3 as [o o2 n2 e2 Ao E1 E2 | k N E1 E2]; subst.
    + exists o. split; [| assumption]. exists b. split; [assumption |]. right. exists n, e. now symmetry.
    + destruct (N o' n e E2).
Qed.

Lemma alike_names : forall (R : fid -> fid -> Prop) f f' y, alike R f f' -> names f' y ->
  names f y \/ exists x, names f x /\ R x y.
Proof.
  intros R f f' y A [o' O I | o' r O K | b' u n Ib T | b' r Ib T].
  - destruct (alike_operations R f f' o' A O) as (o & Oo & [_ _ _ V]).
    destruct (Forall2_right _ _ _ _ V I) as (v & Iv & Hv).
    inversion Hv as [x z Rxy E1 E2 | w N E1 E2]; subst.
    + right. exists x. split; [exact (names_operand f x o Oo Iv) | assumption].
    + destruct (N y eq_refl).
  - destruct (alike_operations R f f' o' A O) as (o & Oo & [_ _ K' _]).
    left. apply (names_closure f y o r Oo). congruence.
  - destruct A as [_ _ _ A]. destruct (Forall2_right _ _ _ _ A Ib) as (b & Ib' & [_ _ B3]).
    left. apply (names_condition f y b u n Ib'). rewrite T in B3. now inversion B3.
  - destruct A as [_ _ _ A]. destruct (Forall2_right _ _ _ _ A Ib) as (b & Ib' & [_ _ B3]).
    left. apply (names_yield f y b r Ib'). rewrite T in B3. now inversion B3.
Qed.

Lemma alike_callee : forall a a' (R : fid -> fid -> Prop) f f', (forall g, is_copy a' g <-> is_copy a g) ->
  (forall x y, R x y -> is_copy a y -> is_copy a x) -> callee_only a f -> alike R f f' -> callee_only a' f'.
Proof.
  intros a a' R f f' Same Rc [C1 C2 C3 C4] A. constructor.
  - intros o' i g O N Cg. apply Same in Cg.
    destruct (alike_operations R f f' o' A O) as (o & Oo & [_ _ K V]).
    pose proof (Forall2_nth_error _ _ _ i V) as H. rewrite N in H.
    destruct (nth_error (o_operands o) i) as [v|] eqn:Nv; [| contradiction].
    inversion H as [x z Rxy E1 E2 | w Nw E1 E2]; subst; [| destruct (Nw g eq_refl)].
    destruct (C1 o i x Oo Nv (Rc x g Rxy Cg)) as (-> & v & r & Ek). split; [reflexivity |].
    exists v, r. congruence.
  - intros o' g r O K Cg. apply Same in Cg.
    destruct (alike_operations R f f' o' A O) as (o & Oo & [_ _ K' _]).
    apply (C2 o g r Oo); congruence.
  - intros b' g y n Ib T Cg. apply Same in Cg. destruct A as [_ _ _ A].
    destruct (Forall2_right _ _ _ _ A Ib) as (b & Ib' & [_ _ B3]).
    apply (C3 b g y n Ib'); [| assumption]. rewrite T in B3. now inversion B3.
  - intros b' g r Ib T Cg. apply Same in Cg. destruct A as [_ _ _ A].
    destruct (Forall2_right _ _ _ _ A Ib) as (b & Ib' & [_ _ B3]).
    apply (C4 b g r Ib'); [| assumption]. rewrite T in B3. now inversion B3.
Qed.

(** What a rewritten table looks like. *)
Section Rewritten.
  Variables (a : artifacts) (survives : nat -> option nat) (a' : artifacts).
  Hypothesis W : well_named a.
  Hypothesis E : rewrite a survives = Some a'.

  Lemma rewritten_copies : forall g, is_copy a' g <-> is_copy a g.
  Proof.
    intros g. destruct (rewrite_shape a survives W a' E) as (Em & Ef & _).
    unfold is_copy. now rewrite Em, (Forall2_length' _ _ _ Ef).
  Qed.

  Lemma rewritten_id : forall i, copy_id a' i = copy_id a i.
  Proof.
    intros i. destruct (rewrite_shape a survives W a' E) as (Em & Ef & _).
    unfold copy_id. now rewrite Em, (Forall2_length' _ _ _ Ef).
  Qed.

  Definition kept_body (f : function) : Prop :=
    In (Some f) (a_functions a) \/
    exists s, In s (retained (kept_of a survives) 0 (a_copies a)) /\ s_body s = f.

  Lemma rewritten_body : forall f', own_body a' f' -> exists f, own_body a f /\ kept_body f /\
    rewrite_body (remap_of a survives) f = Some f'.
  Proof.
    intros f' [I | (s' & I & <-)]; destruct (rewrite_shape a survives W a' E) as (_ & Ef & Ec).
    - destruct (Forall2_right _ _ _ _ Ef I) as ([f|] & I' & H); cbn in H; [| discriminate H].
      apply bind_inv in H as (f1 & H & H1). injection H1 as ->. exists f.
      split; [now left |]. split; [now left | assumption].
    - destruct (Forall2_right _ _ _ _ Ec I) as (s & I' & H).
      unfold rewrite_copy in H. apply bind_inv in H as (f1 & H & H1). injection H1 as <-. cbn [s_body].
      exists (s_body s). split; [| split; [right; eauto | assumption]].
      apply retained_In in I' as (p & _ & N); [| symmetry; apply kept_length].
      exact (own_copy a p s N).
  Qed.

  Lemma remap_into : forall x y, remap_of a survives x = Some y ->
    (y = x /\ forall i, x = copy_id a i -> survives i = None) \/
    (exists i j c, x = copy_id a i /\ y = copy_id a c /\ i < length (a_copies a) /\
       survives i = Some j /\ nth_error (compaction (kept_of a survives) 0 0) j = Some (Some c)).
  Proof.
    intros x y H. destruct (copy_or_not a x) as [(i & ->) | O].
    - unfold remap_of, remap in H. rewrite (proj2 (index_of_copy a (copy_id a i) i) eq_refl) in H.
      destruct (nth_error (kept_of a survives) i) as [k|] eqn:K; [| discriminate].
      assert (Hi : i < length (a_copies a)).
      { rewrite <- (kept_length a survives). apply nth_error_Some. congruence. }
      rewrite (kept_nth a survives i Hi) in K. injection K as <-.
      destruct (survives i) as [j|] eqn:Sj.
      2: { left. injection H as <-. split; [reflexivity |]. intros i' Ei. apply copy_id_inj in Ei. congruence. }
      right. destruct (nth_error (compaction (kept_of a survives) 0 0) j) as [[c|]|] eqn:Cj; try discriminate.
      exists i, j, c. injection H as <-. auto.
    - left. rewrite (remap_outside a survives x O) in H. injection H as <-. split; [reflexivity |].
      intros i ->. destruct O. apply copy_is_copy.
  Qed.

  Hypothesis Full : forall f i, kept_body f -> names f (copy_id a i) -> survives i <> None.

  Lemma rewritten_well_named : well_named a'.
  Proof.
    assert (Rc : forall x y, remap_of a survives x = Some y -> is_copy a y -> is_copy a x).
    { intros x y H C. apply remap_into in H as [(-> & _) | (i & j & c & -> & _)]; [assumption | apply copy_is_copy]. }
    constructor.
    - intros f' O'. destruct (rewritten_body f' O') as (f & O & Ko & H).
      apply (alike_callee a a' (fun x y => remap_of a survives x = Some y) f f' rewritten_copies Rc (wn_callee _ W f O)).
      apply (rewrite_alike a); auto.
      + intros g Og. now apply remap_outside.
      + now apply (wn_callee _ W).
    - intros f' g O' N C. destruct (rewritten_body f' O') as (f & O & Ko & H).
      assert (A : alike (fun x y => remap_of a survives x = Some y) f f').
      { apply (rewrite_alike a); auto.
        + intros h Oh. now apply remap_outside.
        + now apply (wn_callee _ W). }
      apply rewritten_copies in C.
      assert (X : exists x, names f x /\ remap_of a survives x = Some g).
      { destruct (alike_names _ _ _ _ A N) as [Nf | X]; [| exact X].
        destruct (rewrite_body_names _ _ _ _ H Nf) as (g1 & E1 & N1).
        destruct N as [o' Oo I | o' r Oo K | b' u n Ib T | b' r Ib T].
        - destruct (alike_operations _ f f' o' A Oo) as (o & Oo' & [_ _ _ V]).
          destruct (Forall2_right _ _ _ _ V I) as (v & Iv & Hv).
          inversion Hv as [x z Rxy F1 F2 | w Nw F1 F2]; subst; [| destruct (Nw g eq_refl)].
          exists x. split; [exact (names_operand f x o Oo' Iv) | assumption].
        - destruct (alike_operations _ f f' o' A Oo) as (o & Oo' & [_ _ K' _]).
          destruct (co_closure _ _ (wn_callee _ W f O) o g r Oo'); congruence.
        - destruct A as [_ _ _ A]. destruct (Forall2_right _ _ _ _ A Ib) as (b & Ib' & [_ _ B3]).
          destruct (co_condition _ _ (wn_callee _ W f O) b g u n Ib'); [| assumption].
          rewrite T in B3. now inversion B3.
        - destruct A as [_ _ _ A]. destruct (Forall2_right _ _ _ _ A Ib) as (b & Ib' & [_ _ B3]).
          destruct (co_yield _ _ (wn_callee _ W f O) b g r Ib'); [| assumption].
          rewrite T in B3. now inversion B3. }
      destruct X as (x & Nx & Hx).
      apply remap_into in Hx as [(-> & Ox) | (i & j & c & -> & -> & Hi & Sj & Cj)].
      { destruct (copy_or_not a x) as [(i & ->) | Ox']; [| contradiction].
        destruct (Full f i Ko Nx (Ox i eq_refl)). }
      destruct (rewrite_shape a survives W a' E) as (Em & Ef & Ec).
      rewrite <- (Forall2_length' _ _ _ Ef), <- (Forall2_length' _ _ _ Ec). cbn.
      apply Nat.add_lt_mono_l. apply nth_error_Some.
      apply compaction_nth in Cj as (Kj & _ & Rt).
      rewrite Nat.sub_0_r in Rt. rewrite Rt by (symmetry; apply kept_length).
      apply nth_error_Some. rewrite <- (kept_length a survives). apply nth_error_Some. congruence.
  Qed.
End Rewritten.

(** * Chains *)

Definition Res (merged : list nat) (i r : nat) : Prop := exists fuel, resolve fuel merged i = Some r.

Lemma resolve_fun : forall merged f1 f2 i r r', resolve f1 merged i = Some r ->
  resolve f2 merged i = Some r' -> r = r'.
Proof.
  intros merged; induction f1 as [|f1 IH]; intros f2 i r r' E1 E2; cbn in E1; [discriminate |].
  destruct f2 as [|f2]; cbn in E2; [discriminate |].
  destruct (nth_error merged i) as [j|]; [| discriminate].
  destruct (j =? i); [congruence |]. eapply IH; eauto.
Qed.

Lemma Res_fun : forall merged i r r', Res merged i r -> Res merged i r' -> r = r'.
Proof. intros merged i r r' (f1 & E1) (f2 & E2). eapply resolve_fun; eauto. Qed.

Lemma Res_root : forall merged i, nth_error merged i = Some i -> Res merged i i.
Proof. intros merged i E. exists 1. cbn. now rewrite E, Nat.eqb_refl. Qed.

Lemma Res_link : forall merged i j r, nth_error merged i = Some j -> j <> i ->
  Res merged j r -> Res merged i r.
Proof.
  intros merged i j r E N (f & H). exists (S f). cbn. rewrite E.
  now rewrite (proj2 (Nat.eqb_neq _ _) N).
Qed.

Lemma Res_is_root : forall merged i r, Res merged i r -> nth_error merged r = Some r.
Proof.
  intros merged i r (f & E). revert i E. induction f as [|f IH]; intros i E; cbn in E; [discriminate |].
  destruct (nth_error merged i) as [j|] eqn:N; [| discriminate].
  destruct (j =? i) eqn:D; [| eauto]. apply Nat.eqb_eq in D. congruence.
Qed.

Definition ordered (n : nat) (merged : list nat) : Prop :=
  length merged = n /\ forall i j, nth_error merged i = Some j -> j <= i.

Lemma resolve_total : forall n merged, ordered n merged -> forall fuel i, i < n -> i < fuel ->
  exists r, resolve fuel merged i = Some r.
Proof.
  intros n merged (Len & Or). induction fuel as [|fuel IH]; intros i Hi Hf; [lia |]. cbn.
  destruct (nth_error merged i) as [j|] eqn:N; [| apply nth_error_None in N; lia].
  destruct (j =? i) eqn:D; [eauto |]. apply Nat.eqb_neq in D. pose proof (Or i j N). apply IH; lia.
Qed.

Lemma Res_total : forall n merged, ordered n merged -> forall i, i < n -> exists r, Res merged i r.
Proof.
  intros n merged O i Hi. destruct (resolve_total n merged O (S i) i Hi (Nat.lt_succ_diag_r i)) as (r & E).
  exists r, (S i). exact E.
Qed.

Lemma Res_resolve : forall n merged, ordered n merged -> forall i r, i < n -> Res merged i r ->
  resolve (S (length merged)) merged i = Some r.
Proof.
  intros n merged O i r Hi (f & E).
  destruct (resolve_total n merged O (S (length merged)) i Hi) as (r' & E').
  { destruct O. lia. }
  rewrite E'. f_equal. exact (resolve_fun _ _ _ _ _ _ E' E).
Qed.

Lemma Res_range : forall merged i r, Res merged i r -> i < length merged /\ r < length merged.
Proof.
  intros merged i r H. split.
  - destruct H as ([|f] & E); cbn in E; [discriminate |].
    apply nth_error_Some. destruct (nth_error merged i); congruence.
  - apply Res_is_root in H. apply nth_error_Some. congruence.
Qed.

Lemma set_nth_length : forall l i x, i < length l -> length (set_nth l i x) = length l.
Proof.
  unfold set_nth. induction l as [|y l IH]; intros [|i] x H; cbn in *; try lia.
  f_equal. apply IH. lia.
Qed.

Lemma set_nth_same : forall l i x, i < length l -> nth_error (set_nth l i x) i = Some x.
Proof.
  unfold set_nth. induction l as [|y l IH]; intros [|i] x H; cbn in *; try lia; auto.
  apply IH. lia.
Qed.

Lemma set_nth_other : forall l i x j, i < length l -> j <> i -> nth_error (set_nth l i x) j = nth_error l j.
Proof.
  unfold set_nth. induction l as [|y l IH]; intros [|i] x [|j] H N; cbn in *; try lia; auto.
  apply IH; lia.
Qed.

(** How many represent themselves. *)
Fixpoint roots (l : list nat) (idx : nat) : nat :=
  match l with [] => 0 | x :: r => (if x =? idx then 1 else 0) + roots r (S idx) end.

Lemma roots_le : forall l idx, roots l idx <= length l.
Proof. induction l; intros idx; cbn; [lia |]. specialize (IHl (S idx)). destruct (a =? idx); lia. Qed.

Lemma roots_set : forall l i x idx, nth_error l i = Some (idx + i) -> x <> idx + i ->
  S (roots (set_nth l i x) idx) = roots l idx.
Proof.
  unfold set_nth. induction l as [|y l IH]; intros [|i] x idx E N; cbn in *; try discriminate.
  - injection E as ->. rewrite Nat.add_0_r in *. rewrite Nat.eqb_refl.
    rewrite (proj2 (Nat.eqb_neq _ _) N). reflexivity.
  - rewrite <- plus_n_Sm in *. specialize (IH i x (S idx) E N). cbn in IH. lia.
Qed.

Section Update.
  Variables (n : nat) (merged : list nat) (index other : nat).
  Hypothesis O : ordered n merged.
  Hypothesis Ri : nth_error merged index = Some index.
  Hypothesis Lt : other < index.
  Let merged' := set_nth merged index other.

  Lemma index_range : index < length merged.
  Proof. apply nth_error_Some. congruence. Qed.

  Lemma update_ordered : ordered n merged'.
  Proof.
    destruct O as (Len & Or). split.
    - unfold merged'. rewrite set_nth_length; [assumption | apply index_range].
    - intros i j E. destruct (Nat.eq_dec i index) as [-> | N].
      + unfold merged' in E. rewrite set_nth_same in E by apply index_range. injection E as <-. lia.
      + unfold merged' in E. rewrite set_nth_other in E; [eauto | apply index_range | assumption].
  Qed.

  Lemma update_Res : forall i r, Res merged i r ->
    (r <> index -> Res merged' i r) /\
    (r = index -> forall s, Res merged' other s -> Res merged' i s).
  Proof.
    intros i r (f & E). revert i E. induction f as [|f IH]; intros i E; cbn in E; [discriminate |].
    destruct (nth_error merged i) as [j|] eqn:N; [| discriminate].
    destruct (j =? i) eqn:D.
    - apply Nat.eqb_eq in D. subst j. injection E as ->. split.
      + intros Nr. apply Res_root. unfold merged'. rewrite set_nth_other; [assumption | apply index_range | assumption].
      + intros -> s H. apply (Res_link merged' index other s); [| lia | exact H].
        apply set_nth_same, index_range.
    - apply Nat.eqb_neq in D.
      assert (Ni : i <> index) by (intros ->; congruence).
      assert (N' : nth_error merged' i = Some j).
      { unfold merged'. rewrite set_nth_other; [assumption | apply index_range | assumption]. }
      destruct (IH j E) as (H1 & H2). split.
      + intros Nr. exact (Res_link _ _ _ _ N' D (H1 Nr)).
      + intros Er s H. exact (Res_link _ _ _ _ N' D (H2 Er s H)).
  Qed.
End Update.

(** * The merges are sound *)

Section Share.
  Variable a : artifacts.
  Variable digest : fid * nat * list parameter * list nat * list (block nvalue) -> nat.
  Hypothesis W : well_named a.
  Notation m := (a_module a).
  Notation first := (length (a_functions a)).
  Notation copies := (a_copies a).
  Notation n := (length (a_copies a)).

  Definition eqv (merged : list nat) (f g : fid) : Prop :=
    f = g \/ exists i j r, f = copy_id a i /\ g = copy_id a j /\ Res merged i r /\ Res merged j r.

  Lemma eqv_trans : forall merged x y z, eqv merged x y -> eqv merged y z -> eqv merged x z.
  Proof.
    intros merged x y z [-> | (i & j & r & -> & -> & R1 & R2)] H; [exact H |].
    destruct H as [<- | (j' & k & r' & E & -> & R3 & R4)]; [right; exists i, j, r; auto |].
    apply copy_id_inj in E. subst j'. right. exists i, k, r.
    pose proof (Res_fun _ _ _ _ R2 R3). subst r'. auto.
  Qed.

  Record Inv (merged : list nat) : Prop := {
    inv_ordered : ordered n merged;
    inv_alike : forall i j s, nth_error merged i = Some j -> nth_error copies i = Some s ->
      exists t, nth_error copies j = Some t /\ s_original s = s_original t /\
                alike (eqv merged) (s_body s) (s_body t)
  }.

  Lemma seq_nth_error : forall i k, nth_error (seq 0 k) i = Some i <-> i < k.
  Proof.
    intros i k. split.
    - intros E. rewrite <- (seq_length k 0). apply nth_error_Some. congruence.
    - intros H. rewrite (nth_error_nth' _ 0) by now rewrite seq_length. now rewrite seq_nth.
  Qed.

  Lemma Inv_start : Inv (seq 0 n).
  Proof.
    assert (Id : forall i j, nth_error (seq 0 n) i = Some j -> j = i).
    { intros i j E. assert (H : i < n) by (rewrite <- (seq_length n 0); apply nth_error_Some; congruence).
      apply seq_nth_error in H. congruence. }
    constructor.
    - split; [apply seq_length |]. intros i j E. rewrite (Id i j E). lia.
    - intros i j s E N. rewrite (Id i j E). exists s. split; [assumption |]. split; [reflexivity |].
      apply alike_refl. intros g. now left.
  Qed.

  Lemma eqv_update : forall merged index other, ordered n merged ->
    nth_error merged index = Some index -> other < index ->
    forall f g, eqv merged f g -> eqv (set_nth merged index other) f g.
  Proof.
    intros merged index other O Ri Lt f g [-> | (i & j & r & -> & -> & R1 & R2)]; [now left |].
    right. exists i, j.
    destruct (update_Res merged index other Ri Lt i r R1) as (A1 & A2).
    destruct (update_Res merged index other Ri Lt j r R2) as (B1 & B2).
    destruct (Nat.eq_dec r index) as [-> | N].
    - pose proof (update_ordered n merged index other O Ri Lt) as O'.
      destruct (Res_total n _ O' other) as (s & Hs).
      { pose proof (index_range merged index Ri). destruct O. lia. }
      exists s. auto.
    - exists r. auto.
  Qed.

  (** Readings of a body. *)
  Lemma canonical_outside : forall merged own f, ~ is_copy a f ->
    canonical m first merged own f = Some (RId f).
  Proof.
    intros merged own f O. unfold canonical. rewrite (proj2 (index_of_none a f) O).
    unfold self_reference. f_equal. unfold id_of. destruct (eqb fid_eq_dec f (m, first + own)) eqn:E; auto.
    apply eqb_true in E. subst f. destruct O. split; cbn; [reflexivity | lia].
  Qed.

  Lemma canonical_copy : forall merged own i r, ordered n merged -> i < n -> Res merged i r ->
    canonical m first merged own (copy_id a i)
    = Some (if r =? own then RSelf else RId (copy_id a r)).
  Proof.
    intros merged own i r O Hi H. unfold canonical.
    rewrite (proj2 (index_of_copy a (copy_id a i) i) eq_refl).
    rewrite (Res_resolve n merged O i r Hi H). cbn [bind].
    unfold self_reference, id_of. destruct (r =? own) eqn:E.
    - apply Nat.eqb_eq in E. subst r. now rewrite (proj2 (eqb_true fid_eq_dec _ _) eq_refl).
    - apply Nat.eqb_neq in E. rewrite (proj2 (eqb_false fid_eq_dec _ _)); [reflexivity |].
      intros H1. injection H1 as H1. lia.
  Qed.

  Lemma canonical_total : forall merged own f g, ordered n merged -> own_body a f -> names f g ->
    exists rd, canonical m first merged own g = Some rd.
  Proof.
    intros merged own f g O Ob N. destruct (copy_or_not a g) as [(i & ->) | Og].
    - pose proof (copy_in_range a W f i Ob N) as Hi.
      destruct (Res_total n merged O i Hi) as (r & H).
      rewrite (canonical_copy merged own i r O Hi H). eauto.
    - rewrite (canonical_outside merged own g Og). eauto.
  Qed.

  Lemma normalize_total : forall (canon : fid -> option reading) f,
    (forall g, names f g -> exists rd, canon g = Some rd) -> exists x, normalize canon f = Some x.
  Proof.
    intros canon f T. unfold normalize.
    assert (Op : forall o, operations f o -> exists x, map_operation (normalize_function canon) o = Some x).
    { intros o I. unfold map_operation.
      destruct (traverse_total (normalize_function canon) (o_operands o)) as (vs & ->); [| cbn; eauto].
      intros v Iv. destruct v as [g| | |]; cbn; eauto.
      destruct (T g (names_operand f g o I Iv)) as (rd & ->). cbn; eauto. }
    destruct (traverse_total (normalize_block canon) (f_blocks f)) as (bs & ->); [| cbn; eauto].
    intros b Ib. unfold normalize_block.
    destruct (traverse_total (map_operation (normalize_function canon)) (b_operations b)) as (os & ->).
    { intros o Io. apply Op. exists b; auto. }
    cbn [bind]. unfold normalize_terminator.
    destruct (t_kind (b_terminator b)) eqn:K.
    3: { destruct (Op o) as (x & ->); [exists b; split; auto; right; eauto | cbn; eauto]. }
    all: unfold map_terminator; rewrite K; cbn; eauto.
  Qed.

  Lemma read_total : forall merged index, ordered n merged -> index < n ->
    exists s b, nth_error copies index = Some s /\
      normalize (canonical m first merged index) (s_body s) = Some b /\
      read m first copies merged index = Some (s_original s, b).
  Proof.
    intros merged index O Hi. unfold read.
    destruct (nth_error copies index) as [s|] eqn:N; [| apply nth_error_None in N; lia].
    cbn [bind].
    destruct (normalize_total (canonical m first merged index) (s_body s)) as (b & E).
    { intros g Ng. exact (canonical_total merged index (s_body s) g O (own_copy a index s N) Ng). }
    rewrite E. cbn [bind]. eauto.
  Qed.

  (** Two readings that agree are equivalent once the two are merged. *)
  Lemma reads_as_eqv : forall merged index other f g, ordered n merged ->
    nth_error merged index = Some index -> other < index ->
    (exists b, own_body a b /\ names b f) -> (exists b, own_body a b /\ names b g) ->
    reads_as (canonical m first merged index) (canonical m first merged other) f g ->
    eqv (set_nth merged index other) f g.
  Proof.
    intros merged index other f g O Ri Lt (bf & Of & Nf) (bg & Og & Ng) (rd & E1 & E2).
    assert (Hx : index < n) by (pose proof (index_range merged index Ri); destruct O; lia).
    pose proof (update_ordered n merged index other O Ri Lt) as O'.
    destruct (copy_or_not a f) as [(i & ->) | Nof], (copy_or_not a g) as [(j & ->) | Nog].
    - pose proof (copy_in_range a W bf i Of Nf) as Hi. pose proof (copy_in_range a W bg j Og Ng) as Hj.
      destruct (Res_total n merged O i Hi) as (ri & Ri').
      destruct (Res_total n merged O j Hj) as (rj & Rj).
      rewrite (canonical_copy merged index i ri O Hi Ri') in E1.
      rewrite (canonical_copy merged other j rj O Hj Rj) in E2.
      destruct (ri =? index) eqn:D1, (rj =? other) eqn:D2; try congruence.
      + apply Nat.eqb_eq in D1. apply Nat.eqb_eq in D2. subst ri rj.
        right. exists i, j.
        destruct (Res_total n _ O' other) as (s & Hs); [lia |].
        exists s. split; [reflexivity |]. split; [reflexivity |]. split.
        * exact (proj2 (update_Res merged index other Ri Lt i index Ri') eq_refl s Hs).
        * pose proof (proj1 (update_Res merged index other Ri Lt j other Rj) ltac:(lia)) as H.
          pose proof (Res_is_root _ _ _ H) as Rt. pose proof (Res_fun _ _ _ _ (Res_root _ _ Rt) Hs). subst s. exact H.
      + assert (ri = rj).
        { apply (copy_id_inj a). congruence. }
        subst rj. apply (eqv_update merged index other O Ri Lt). right. exists i, j, ri. auto.
    - pose proof (copy_in_range a W bf i Of Nf) as Hi.
      destruct (Res_total n merged O i Hi) as (ri & Ri').
      rewrite (canonical_copy merged index i ri O Hi Ri') in E1.
      rewrite (canonical_outside merged other g Nog) in E2.
      destruct (ri =? index); [congruence |]. injection E2 as <-. injection E1 as E1.
      subst g. destruct Nog. apply copy_is_copy.
    - pose proof (copy_in_range a W bg j Og Ng) as Hj.
      destruct (Res_total n merged O j Hj) as (rj & Rj).
      rewrite (canonical_copy merged other j rj O Hj Rj) in E2.
      rewrite (canonical_outside merged index f Nof) in E1.
      destruct (rj =? other); [congruence |]. injection E1 as <-. injection E2 as E2.
      subst f. destruct Nof. apply copy_is_copy.
    - rewrite (canonical_outside merged index f Nof) in E1.
      rewrite (canonical_outside merged other g Nog) in E2. left. congruence.
  Qed.

  Lemma alike_named : forall (R : fid -> fid -> Prop) f f', alike R f f' ->
    alike (fun x y => R x y /\ names f x /\ names f' y) f f'.
  Proof.
    intros R f f' [A1 A2 A3 A4]. constructor; auto.
    assert (Op : forall o o', operations f o -> operations f' o' -> alike_operation R o o' ->
              alike_operation (fun x y => R x y /\ names f x /\ names f' y) o o').
    { intros o o' I I' [O1 O2 O3 O4]. constructor; auto.
      refine (Forall2_impl_in _ _ _ _ _ O4). intros v v' Iv Iv' Av; destruct Av as [x y Rxy | w N]; [| now apply alike_other].
      apply alike_function. split; [assumption |]. split.
      - exact (names_operand f x o I Iv).
      - exact (names_operand f' y o' I' Iv'). }
    refine (Forall2_impl_in _ _ _ _ _ A4). intros b b' Ib Ib' [B1 B2 B3]. constructor; auto.
    - refine (Forall2_impl_in _ _ _ _ _ B1). intros o o' Io Io'. apply Op; [exists b | exists b']; auto.
    - inversion B3 as [o o' x e A K K' | k N K K']; [| now apply alike_same].
      apply alike_invoke. apply Op; [exists b | exists b' |]; auto.
      + split; auto. right. exists x, e. now symmetry.
      + split; auto. right. exists x, e. now symmetry.
  Qed.

  (** One merge. *)
  Lemma Inv_merge : forall merged index other s t b b', Inv merged ->
    nth_error merged index = Some index -> other < index ->
    nth_error copies index = Some s -> nth_error copies other = Some t ->
    s_original s = s_original t ->
    normalize (canonical m first merged index) (s_body s) = Some b ->
    normalize (canonical m first merged other) (s_body t) = Some b' ->
    same_but_name b b' ->
    Inv (set_nth merged index other).
  Proof.
    intros merged index other s t b b' [O A] Ri Lt Ns Nt Eo E1 E2 Sm.
    pose proof (body_forth _ _ _ _ _ _ E1 E2 Sm) as Al.
    apply alike_named in Al.
    constructor; [exact (update_ordered n merged index other O Ri Lt) |].
    intros i j u Ni Nu. destruct (Nat.eq_dec i index) as [-> | Ne].
    - rewrite set_nth_same in Ni by exact (index_range merged index Ri). injection Ni as <-.
      rewrite Ns in Nu. injection Nu as <-. exists t. split; [assumption |]. split; [assumption |].
      refine (alike_mono _ _ _ _ _ Al). intros x y (Rxy & Nx & Ny).
      apply (reads_as_eqv merged index other x y O Ri Lt); auto.
      + exists (s_body s). split; [exact (own_copy a index s Ns) | assumption].
      + exists (s_body t). split; [exact (own_copy a other t Nt) | assumption].
    - rewrite set_nth_other in Ni; [| exact (index_range merged index Ri) | assumption].
      destruct (A i j u Ni Nu) as (v & Nv & Ev & Av). exists v. split; [assumption |]. split; [assumption |].
      exact (alike_mono _ _ _ _ (eqv_update merged index other O Ri Lt) Av).
  Qed.

  (** Finding a survivor. *)
  Lemma find_spec : forall merged original b cands, ordered n merged ->
    (forall c, In c cands -> c < n) ->
    (exists c s b', find_survivor m first copies merged original b cands = Some (Some c) /\
       In c cands /\ nth_error copies c = Some s /\ s_original s = original /\
       normalize (canonical m first merged c) (s_body s) = Some b' /\ same_but_name b b') \/
    (find_survivor m first copies merged original b cands = Some None /\
     forall c s b', In c cands -> nth_error copies c = Some s -> s_original s = original ->
       normalize (canonical m first merged c) (s_body s) = Some b' -> ~ same_but_name b b').
  Proof.
    intros merged original b cands O. induction cands as [|c cands IH]; intros Rg.
    - right. split; [reflexivity |]. intros c s b' [].
    - destruct (read_total merged c O (Rg c (or_introl eq_refl))) as (s & b' & Ns & Nb & Rd).
      cbn [find_survivor]. rewrite Ns. cbn [bind].
      assert (IH' := IH (fun x I => Rg x (or_intror I))).
      destruct (eqb fid_eq_dec (s_original s) original) eqn:Eo.
      + apply eqb_true in Eo. rewrite Rd. cbn [bind snd].
        destruct (structurally_identical b b') eqn:Si.
        * left. apply structurally_identical_eq in Si. exists c, s, b'.
          split; [reflexivity |]. split; [now left |]. auto.
        * destruct IH' as [(c' & s' & b2 & E & I & H) | (E & H)].
          -- left. exists c', s', b2. split; [exact E |]. split; [now right | exact H].
          -- right. split; [exact E |]. intros c' s' b2 [<- | I] N1 E1 N2 Sm.
             ++ rewrite Ns in N1. injection N1 as <-. rewrite Nb in N2. injection N2 as <-.
                apply structurally_identical_eq in Sm. congruence.
             ++ exact (H c' s' b2 I N1 E1 N2 Sm).
      + apply eqb_false in Eo.
        destruct IH' as [(c' & s' & b2 & E & I & H) | (E & H)].
        * left. exists c', s', b2. split; [exact E |]. split; [now right | exact H].
        * right. split; [exact E |]. intros c' s' b2 [<- | I] N1 E1 N2 Sm.
          -- congruence.
          -- exact (H c' s' b2 I N1 E1 N2 Sm).
  Qed.

  Lemma in_bucket : forall d k buckets, In k (bucket_of d buckets) <-> In (d, k) buckets.
  Proof.
    intros d k buckets. unfold bucket_of. rewrite in_map_iff. split.
    - intros ((d', k') & <- & I). apply filter_In in I as (I & E). apply Nat.eqb_eq in E. cbn in *. now subst.
    - intros I. exists (d, k). split; [reflexivity |]. apply filter_In. split; [assumption |]. apply Nat.eqb_refl.
  Qed.

  (** A round. *)
  Lemma round_ok : forall k b merged buckets changed, Inv merged -> b + k = n ->
    (forall d c, In (d, c) buckets -> c < b) ->
    exists merged' changed',
      round digest m first copies (seq b k) merged buckets changed = Some (merged', changed') /\
      Inv merged' /\ roots merged' 0 <= roots merged 0 /\
      (changed' = true -> changed = true \/ roots merged' 0 < roots merged 0).
  Proof.
    induction k as [|k IH]; intros b merged buckets changed I Eb Bk.
    - exists merged, changed. cbn. auto.
    - assert (Hb : b < n) by lia.
      cbn [seq round]. pose proof (inv_ordered _ I) as O.
      destruct (nth_error merged b) as [into|] eqn:Nm; [| apply nth_error_None in Nm; destruct O; lia].
      cbn [bind]. destruct (into =? b) eqn:D; cbn [negb].
      + apply Nat.eqb_eq in D. subst into.
        destruct (read_total merged b O Hb) as (s & nb & Ns & Nn & Rd). rewrite Rd. cbn [bind fst snd].
        set (d := digest (digested (s_original s) nb)).
        destruct (find_spec merged (s_original s) nb (bucket_of d buckets) O) as
          [(c & t & nb' & E & Ic & Nt & Eo & Nn' & Sm) | (E & _)].
        { intros c Ic. apply in_bucket in Ic. specialize (Bk d c Ic). lia. }
        * rewrite E. cbn [bind]. apply in_bucket in Ic.
          pose proof (Bk d c Ic) as Lt.
          destruct (IH (S b) (set_nth merged b c) buckets true) as (m' & c' & E' & I' & R' & C').
          -- exact (Inv_merge merged b c s t nb nb' I Nm Lt Ns Nt (eq_sym Eo) Nn Nn' Sm).
          -- lia.
          -- intros d0 x Ix. specialize (Bk d0 x Ix). lia.
          -- exists m', c'. split; [exact E' |]. split; [exact I' |].
             pose proof (roots_set merged b c 0 Nm ltac:(lia)) as Rt. split; [lia |]. intros _. right. lia.
        * rewrite E. cbn [bind].
          destruct (IH (S b) merged (buckets ++ [(d, b)]) changed) as (m' & c' & E' & I' & R' & C').
          -- exact I.
          -- lia.
          -- intros d0 x Ix. apply in_app_or in Ix as [Ix | [Ix | []]].
             ++ specialize (Bk d0 x Ix). lia.
             ++ injection Ix as _ <-. lia.
          -- exists m', c'. auto.
      + destruct (IH (S b) merged buckets changed I) as (m' & c' & E' & I' & R' & C').
        * lia.
        * intros d0 x Ix. specialize (Bk d0 x Ix). lia.
        * exists m', c'. auto.
  Qed.

  Lemma round_true : forall indices merged buckets merged' c,
    round digest m first copies indices merged buckets true = Some (merged', c) -> c = true.
  Proof.
    induction indices as [|index rest IH]; intros merged buckets merged' c E; cbn in E; [congruence |].
    apply bind_inv in E as (into & _ & E). destruct (negb (into =? index)); [eauto |].
    apply bind_inv in E as (ob & _ & E). apply bind_inv in E as ([other|] & _ & E); eauto.
  Qed.

  (** What is left after a round that merges nothing. *)
  Definition apart (merged : list nat) (i j : nat) : Prop :=
    forall s t b b', nth_error copies i = Some s -> nth_error copies j = Some t ->
      s_original s = s_original t ->
      normalize (canonical m first merged i) (s_body s) = Some b ->
      normalize (canonical m first merged j) (s_body t) = Some b' -> ~ same_but_name b b'.

  Lemma round_quiet : forall k b merged buckets merged', ordered n merged -> b + k = n ->
    (forall d i, In (d, i) buckets -> i < n) ->
    (forall i s nb, i < b -> nth_error merged i = Some i -> nth_error copies i = Some s ->
       normalize (canonical m first merged i) (s_body s) = Some nb ->
       In (digest (digested (s_original s) nb), i) buckets) ->
    round digest m first copies (seq b k) merged buckets false = Some (merged', false) ->
    merged' = merged /\
    forall i j, i < j -> b <= j -> j < n -> nth_error merged i = Some i -> nth_error merged j = Some j ->
      apart merged j i.
  Proof.
    induction k as [|k IH]; intros b merged buckets merged' O Eb Bn Bk E.
    - cbn in E. injection E as <-. split; [reflexivity |]. intros i j H1 H2 H3. lia.
    - assert (Hb : b < n) by lia.
      cbn [seq round] in E. apply bind_inv in E as (into & Nm & E).
      destruct (into =? b) eqn:D; cbn [negb] in E.
      + apply Nat.eqb_eq in D. subst into.
        destruct (read_total merged b O Hb) as (s & nb & Ns & Nn & Rd). rewrite Rd in E. cbn [bind fst snd] in E.
        set (d := digest (digested (s_original s) nb)) in *.
        destruct (find_spec merged (s_original s) nb (bucket_of d buckets) O) as
          [(c & t & nb' & Ef & _) | (Ef & Hno)].
        { intros c Ic. apply in_bucket in Ic. exact (Bn d c Ic). }
        * rewrite Ef in E. cbn [bind] in E. apply round_true in E. discriminate.
        * rewrite Ef in E. cbn [bind] in E.
          destruct (IH (S b) merged (buckets ++ [(d, b)]) merged' O) as (Em & Ap).
          -- lia.
          -- intros d0 i Ii. apply in_app_or in Ii as [Ii | [Ii | []]]; [eauto |]. injection Ii as _ <-. exact Hb.
          -- intros i u nu Hi Ri Nu Nr. apply in_or_app.
             destruct (Nat.eq_dec i b) as [-> | Ne]; [right | left; apply Bk; auto; lia].
             rewrite Ns in Nu. injection Nu as <-. rewrite Nn in Nr. injection Nr as <-. now left.
          -- exact E.
          -- split; [exact Em |]. intros i j H1 H2 H3 R1 R2.
             destruct (Nat.eq_dec j b) as [-> | Ne]; [| apply Ap; auto; lia].
             intros u v x y Nu Nv Eo Nx Ny Sm.
             rewrite Ns in Nu. injection Nu as <-. rewrite Nn in Nx. injection Nx as <-.
             apply (Hno i v y); auto. apply in_bucket.
             replace d with (digest (digested (s_original v) y)); [apply Bk; auto |].
             destruct Sm as (S1 & S2 & S3 & S4). unfold d, digested. now rewrite Eo, S1, S2, S3, S4.
      + destruct (IH (S b) merged buckets merged' O) as (Em & Ap); auto.
        * lia.
        * intros i u nu Hi Ri Nu Nr. destruct (Nat.eq_dec i b) as [-> | Ne]; [| apply Bk; auto; lia].
          apply Nat.eqb_neq in D. congruence.
        * split; [exact Em |]. intros i j H1 H2 H3 R1 R2.
          destruct (Nat.eq_dec j b) as [-> | Ne]; [| apply Ap; auto; lia].
          apply Nat.eqb_neq in D. congruence.
  Qed.

  Lemma rounds_ok : forall fuel merged, Inv merged -> roots merged 0 < fuel ->
    exists merged', rounds digest m first copies fuel merged = Some merged' /\ Inv merged' /\
      forall i j, i <> j -> nth_error merged' i = Some i -> nth_error merged' j = Some j ->
        apart merged' i j.
  Proof.
    induction fuel as [|fuel IH]; intros merged I Hf; [lia |]. cbn [rounds].
    destruct (round_ok n 0 merged [] false I) as (m' & c & E & I' & R & C).
    { reflexivity. }
    { intros d k []. }
    rewrite E. cbn [bind fst snd]. destruct c.
    - destruct (C eq_refl) as [H | H]; [discriminate |]. apply IH; [assumption | lia].
    - exists m'. split; [reflexivity |]. split; [assumption |].
      destruct (round_quiet n 0 merged [] m' (inv_ordered _ I)) as (-> & Ap).
      + lia.
      + intros d i [].
      + intros i s nb Hi. lia.
      + exact E.
      + intros i j Ne Ri Rj.
        assert (Hi : i < n). { rewrite <- (proj1 (inv_ordered _ I)). apply nth_error_Some. congruence. }
        assert (Hj : j < n). { rewrite <- (proj1 (inv_ordered _ I)). apply nth_error_Some. congruence. }
        destruct (lt_dec i j) as [H | H].
        * intros s t b b' Ns Nt Eo Nb Nb' (S1 & S2 & S3 & S4).
          assert (Ba : same_but_name b' b) by (repeat split; congruence).
          refine (Ap i j H _ Hj Ri Rj t s b' b Nt Ns (eq_sym Eo) Nb' Nb Ba). lia.
        * apply Ap; auto; lia.
  Qed.

  (** * The pass *)

  Lemma Inv_resolved : forall merged, Inv merged -> forall i r s, Res merged i r ->
    nth_error copies i = Some s ->
    exists t, nth_error copies r = Some t /\ s_original s = s_original t /\
      alike (eqv merged) (s_body s) (s_body t).
  Proof.
    intros merged I i r s (f & E). revert i s E. induction f as [|f IH]; intros i s E Ns; cbn in E; [discriminate |].
    destruct (nth_error merged i) as [j|] eqn:N; [| discriminate].
    destruct (j =? i) eqn:D.
    - injection E as <-. exists s. split; [assumption |]. split; [reflexivity |].
      apply alike_refl. now left.
    - destruct (inv_alike _ I i j s N Ns) as (t & Nt & Eo & A).
      destruct (IH j t E Nt) as (u & Nu & Eo' & A').
      exists u. split; [assumption |]. split; [congruence |].
      exact (alike_trans _ (eqv_trans merged) _ _ _ A A').
  Qed.

  Section Rewrite.
    Variables (merged into : list nat).
    Hypothesis I : Inv merged.
    Hypothesis T : traverse (resolve (S (length merged)) merged) (seq 0 n) = Some into.
    Let survives := fun index => nth_error into index.

    Lemma survives_Res : forall i r, i < n -> (survives i = Some r <-> Res merged i r).
    Proof.
      intros i r Hi. apply traverse_inv in T.
      pose proof (Forall2_nth_error _ _ _ i T) as H.
      rewrite (proj2 (seq_nth_error i n) Hi) in H. unfold survives.
      destruct (nth_error into i) as [x|]; [| contradiction]. split.
      - intros E. injection E as <-. eexists. exact H.
      - intros R. rewrite (Res_resolve n merged (inv_ordered _ I) i r Hi R) in H. congruence.
    Qed.

    Lemma share_remap : forall i r, i < n -> Res merged i r -> exists c,
      nth_error (compaction (kept_of a survives) 0 0) r = Some (Some c) /\
      remap_of a survives (copy_id a i) = Some (copy_id a c).
    Proof.
      intros i r Hi R.
      assert (Hr : r < n). { rewrite <- (proj1 (inv_ordered _ I)). exact (proj2 (Res_range _ _ _ R)). }
      pose proof (Res_root _ _ (Res_is_root _ _ _ R)) as Rr.
      destruct (compaction_total (kept_of a survives) 0 0 r) as (c & Ec).
      { rewrite kept_nth by assumption. now rewrite (proj2 (survives_Res r r Hr) Rr). }
      exists c. split; [exact Ec |].
      exact (remap_copy a survives i r c Hi (proj2 (survives_Res i r Hi) R) Ec).
    Qed.

    Lemma share_rewrite : exists a', rewrite a survives = Some a'.
    Proof.
      assert (H : forall f g, own_body a f -> names f g -> exists g', remap_of a survives g = Some g').
      { intros f g Ob N. destruct (copy_or_not a g) as [(i & ->) | O].
        - pose proof (copy_in_range a W f i Ob N) as Hi.
          destruct (Res_total n merged (inv_ordered _ I) i Hi) as (r & R).
          destruct (share_remap i r Hi R) as (c & _ & E). eauto.
        - exists g. now apply remap_outside. }
      apply rewrite_ok.
      - intros f g If. apply H. now left.
      - intros s g Is. apply retained_In in Is as (p & _ & E2); [| symmetry; apply kept_length].
        apply H. exact (own_copy a p s E2).
    Qed.

    Lemma share_behaviour : forall a', rewrite a survives = Some a' -> same_behaviour a a'.
    Proof.
      intros a' E.
      apply (rewrite_behaviour a survives W
               (fun f => is_copy a f -> exists i, f = copy_id a i /\ i < n) (eqv merged)); auto.
      - intros f O C. contradiction.
      - intros f g If N C. destruct (copy_or_not a g) as [(i & ->) | O]; [| contradiction].
        exists i. split; [reflexivity |]. apply (copy_in_range a W f i); auto. now left.
      - intros i s g _ Ni N C. destruct (copy_or_not a g) as [(j & ->) | O]; [| contradiction].
        exists j. split; [reflexivity |]. exact (copy_in_range a W _ j (own_copy a i s Ni) N).
      - intros f. now left.
      - intros f g [-> | (i & j & r & -> & -> & R1 & R2)]; [reflexivity |].
        assert (Hi : i < n). { rewrite <- (proj1 (inv_ordered _ I)). exact (proj1 (Res_range _ _ _ R1)). }
        assert (Hj : j < n). { rewrite <- (proj1 (inv_ordered _ I)). exact (proj1 (Res_range _ _ _ R2)). }
        destruct (share_remap i r Hi R1) as (c & Ec & Er).
        destruct (share_remap j r Hj R2) as (c' & Ec' & Er'). congruence.
      - intros f g [-> | (i & j & r & -> & -> & _)] Ne; [contradiction |]. split; apply copy_is_copy.
      - intros i Pi. destruct (Pi (copy_is_copy a i)) as (i' & Ei & Hi). apply copy_id_inj in Ei. subst i'.
        split; [assumption |].
        destruct (Res_total n merged (inv_ordered _ I) i Hi) as (r & R).
        assert (Hr : r < n). { rewrite <- (proj1 (inv_ordered _ I)). exact (proj2 (Res_range _ _ _ R)). }
        destruct (nth_error copies i) as [s|] eqn:Ns; [| apply nth_error_None in Ns; lia].
        destruct (Inv_resolved merged I i r s R Ns) as (t & Nt & Eo & A).
        exists r, s, t. split; [now apply survives_Res |]. split.
        + apply survives_Res; [assumption |]. exact (Res_root _ _ (Res_is_root _ _ _ R)).
        + auto.
    Qed.

    (** Nothing is left to merge. *)
    Hypothesis Apart : forall i j, i <> j -> nth_error merged i = Some i -> nth_error merged j = Some j ->
      apart merged i j.

    Lemma share_distinct : forall a', rewrite a survives = Some a' ->
      forall i j, i <> j -> ~ duplicates a' i j.
    Proof.
      intros a' E ci cj Ne (s' & t' & Ns' & Nt' & Eo & Al).
      destruct (rewrite_shape a survives W a' E) as (Em & Ef & Ec).
      rewrite !(rewritten_id a survives a' W E) in Al.
      assert (Back : forall c u', nth_error (a_copies a') c = Some u' -> exists p u,
         nth_error (compaction (kept_of a survives) 0 0) p = Some (Some c) /\
         nth_error copies p = Some u /\ nth_error merged p = Some p /\ p < n /\
         s_original u' = s_original u /\
         rewrite_body (remap_of a survives) (s_body u) = Some (s_body u')).
      { intros c u' Nu'. pose proof (Forall2_nth_error _ _ _ c Ec) as H. rewrite Nu' in H.
        destruct (nth_error (retained (kept_of a survives) 0 (a_copies a)) c) as [u|] eqn:Nu; [| contradiction].
        destruct (compaction_onto (kept_of a survives) 0 0 c _ _ u (eq_sym (kept_length a survives)) Nu)
          as (p & Cp & Np).
        unfold rewrite_copy in H. apply bind_inv in H as (f1 & H & H1). injection H1 as <-.
        exists p, u. split; [exact Cp |]. split; [exact Np |].
        assert (Hp : p < n) by (apply nth_error_Some; congruence).
        apply compaction_nth in Cp as (Kp & _). cbn in Kp.
        rewrite kept_nth in Kp by assumption. injection Kp as Kp.
        apply survives_Res in Kp; [| assumption].
        split; [exact (Res_is_root _ _ _ Kp) |]. auto. }
      destruct (Back ci s' Ns') as (i & s & Ci & Ns & Ri & Hi & Os & Bs).
      destruct (Back cj t' Nt') as (j & t & Cj & Nt & Rj & Hj & Ot & Bt).
      assert (Nij : i <> j) by (intros ->; congruence).
      pose proof (inv_ordered _ I) as O.
      destruct (read_total merged i O Hi) as (s2 & b & Ns2 & Nb & _).
      destruct (read_total merged j O Hj) as (t2 & b' & Nt2 & Nb' & _).
      rewrite Ns in Ns2. injection Ns2 as <-. rewrite Nt in Nt2. injection Nt2 as <-.
      apply (Apart i j Nij Ri Rj s t b b' Ns Nt); auto; [congruence |].
      pose proof (own_copy a i s Ns) as Wi. pose proof (own_copy a j t Nt) as Wj.
      assert (As : alike (fun x y => remap_of a survives x = Some y) (s_body s) (s_body s')).
      { apply (rewrite_alike a); [intros g Og; now apply remap_outside | now apply (wn_callee _ W) | exact Bs]. }
      assert (At : alike (fun x y => remap_of a survives x = Some y) (s_body t) (s_body t')).
      { apply (rewrite_alike a); [intros g Og; now apply remap_outside | now apply (wn_callee _ W) | exact Bt]. }
      apply (alike_sym _ (fun y x => remap_of a survives x = Some y)) in At; [| auto].
      set (Q := fun y z => (y = copy_id a ci /\ z = copy_id a cj) \/
                           (y <> copy_id a ci /\ z <> copy_id a cj /\ y = z)) in *.
      assert (A1 : alike (fun x z => exists y, remap_of a survives x = Some y /\ Q y z) (s_body s) (s_body t')).
      { refine (alike_comp _ _ _ _ _ _ _ As Al). intros x y z H1 H2. exists y. auto. }
      assert (A2 : alike (fun x w => exists y z, remap_of a survives x = Some y /\
                            remap_of a survives w = Some z /\ Q y z) (s_body s) (s_body t)).
      { refine (alike_comp _ _ _ _ _ _ _ A1 At). intros x z w (y & H1 & H2) H3. exists y, z. auto. }
      clear A1 As At Al.
      refine (body_back (canonical m first merged i) (canonical m first merged j) _ _ _ _ _ Nb Nb').
      apply alike_named in A2.
      refine (alike_mono _ _ _ _ _ A2). intros x w ((y & z & Hx & Hw & H) & Nx & Nw). unfold Q in H.
      assert (Out : forall v, names (s_body s) v \/ names (s_body t) v ->
         (forall p, v = copy_id a p -> survives p = None) -> ~ is_copy a v).
      { intros v Nv Hv Cv. destruct (copy_or_not a v) as [(p & ->) | Ov]; [| contradiction].
        assert (Hp : p < n) by (destruct Nv as [Nv | Nv]; [exact (copy_in_range a W _ p Wi Nv) | exact (copy_in_range a W _ p Wj Nv)]).
        destruct (Res_total n merged O p Hp) as (rp & Rp). apply survives_Res in Rp; [| assumption].
        rewrite (Hv p eq_refl) in Rp. discriminate Rp. }
      apply (remap_into a survives) in Hx as [(-> & Ox) | (k & r & c & -> & -> & Hk & Sk & Ck)];
      apply (remap_into a survives) in Hw as [(-> & Ow) | (k' & r' & c' & -> & -> & Hk' & Sk' & Ck')];
      try (apply Out in Ox; [| now left]); try (apply Out in Ow; [| now right]).
      - exists (RId x). rewrite (canonical_outside merged i x Ox). split; [reflexivity |].
        destruct H as [(-> & ->) | (_ & _ & ->)].
        + destruct Ox. apply copy_is_copy.
        + apply canonical_outside. assumption.
      - destruct H as [(-> & _) | (_ & _ & ->)]; destruct Ox; apply copy_is_copy.
      - destruct H as [(_ & ->) | (_ & _ & <-)]; destruct Ow; apply copy_is_copy.
      - apply survives_Res in Sk; [| assumption]. apply survives_Res in Sk'; [| assumption].
        unfold reads_as.
        rewrite (canonical_copy merged i k r O Hk Sk), (canonical_copy merged j k' r' O Hk' Sk').
        destruct H as [(H1 & H2) | (H1 & H2 & H3)].
        + apply copy_id_inj in H1. apply copy_id_inj in H2. subst c c'.
          rewrite (compaction_inj _ _ _ _ _ _ Ck Ci), (compaction_inj _ _ _ _ _ _ Ck' Cj), !Nat.eqb_refl. eauto.
        + apply copy_id_inj in H3. subst c'.
          rewrite <- (compaction_inj _ _ _ _ _ _ Ck Ck') in *.
          destruct (r =? i) eqn:D1; [apply Nat.eqb_eq in D1; subst r; congruence |].
          destruct (r =? j) eqn:D2; [apply Nat.eqb_eq in D2; subst r; congruence |]. eauto.
    Qed.
  End Rewrite.
End Share.

Lemma same_behaviour_refl : forall a, same_behaviour a a.
Proof. intros a B L G M _ f args stored g n _ _. reflexivity. Qed.

Theorem share_ok : forall digest a, well_named a ->
  exists a', share digest a = Some a' /\ well_named a' /\ same_behaviour a a' /\
    (forall i j, i <> j -> i < length (a_copies a') -> j < length (a_copies a') -> ~ duplicates a' i j) /\
    length (a_copies a') <= length (a_copies a).
Proof.
  intros digest a W. unfold share. destruct (length (a_copies a) <? 2) eqn:Sz.
  - apply Nat.ltb_lt in Sz. exists a. split; [reflexivity |]. split; [assumption |].
    split; [apply same_behaviour_refl |]. split; [| lia]. intros i j Ne Hi Hj. lia.
  - destruct (rounds_ok a digest W (S (length (a_copies a))) (seq 0 (length (a_copies a))) (Inv_start a))
      as (merged & E & I & Ap).
    { pose proof (roots_le (seq 0 (length (a_copies a))) 0) as R. rewrite seq_length in R. lia. }
    unfold group. rewrite E. cbn [bind].
    destruct (traverse_total (resolve (S (length merged)) merged) (seq 0 (length (a_copies a)))) as (into & T).
    { intros i Ii. apply in_seq in Ii. apply (resolve_total (length (a_copies a)) merged (inv_ordered _ _ I)); [lia |].
      rewrite (proj1 (inv_ordered _ _ I)). lia. }
    rewrite T. cbn [bind].
    destruct (share_rewrite a W merged into I T) as (a' & E'). rewrite E'.
    exists a'. split; [reflexivity |].
    split.
    { apply (rewritten_well_named a _ a' W E'). intros f i Kf Nf.
      assert (Hi : i < length (a_copies a)).
      { apply (copy_in_range a W f i); [| assumption]. destruct Kf as [If | (u & Iu & <-)]; [now left |].
        apply retained_In in Iu as (p & _ & Np); [| symmetry; apply kept_length]. exact (own_copy a p u Np). }
      apply nth_error_Some. apply traverse_inv in T. apply Forall2_length' in T.
      rewrite seq_length in T. lia. }
    split; [exact (share_behaviour a W merged into I T a' E') |].
    split.
    + intros i j Ne _ _. exact (share_distinct a W merged into I T Ap a' E' i j Ne).
    + destruct (rewrite_shape a _ W a' E') as (_ & _ & Ec).
      rewrite <- (Forall2_length' _ _ _ Ec).
      assert (L : forall {A} kept idx (l : list A), length (retained kept idx l) <= length l).
      { clear. intros A kept. induction kept as [|k kept IH]; intros idx [|x l]; cbn; try lia.
        destruct (eqb result_eq_dec k (Some idx)); cbn; specialize (IH (S idx) l); lia. }
      apply L.
Qed.
