(** Renumbering a table preserves behaviour. *)
From Coq Require Import List Arith Bool Lia.
From Verif Require Import CopiesModel CopiesSpec CopiesSim.
Import ListNotations.

(** * Walks *)

Lemma bind_inv : forall {A B} (x : option A) (f : A -> option B) y,
  bind x f = Some y -> exists a, x = Some a /\ f a = Some y.
Proof. intros A B [a|] f y E; cbn in E; [eauto | discriminate]. Qed.

Lemma traverse_inv : forall {A B} (f : A -> option B) l l',
  traverse f l = Some l' -> Forall2 (fun x y => f x = Some y) l l'.
Proof.
  intros A B f l; induction l as [|x l IH]; intros l' E; cbn in E.
  - injection E as <-. constructor.
  - apply bind_inv in E as (y & E1 & E). apply bind_inv in E as (r & E2 & E).
    injection E as <-. constructor; auto.
Qed.

Lemma traverse_intro : forall {A B} (f : A -> option B) l l',
  Forall2 (fun x y => f x = Some y) l l' -> traverse f l = Some l'.
Proof. intros A B f l l' F; induction F; cbn; [reflexivity |]. now rewrite H, IHF. Qed.

Lemma traverse_total : forall {A B} (f : A -> option B) l,
  (forall x, In x l -> exists y, f x = Some y) -> exists l', traverse f l = Some l'.
Proof.
  intros A B f l; induction l as [|x l IH]; intros T; cbn; [eauto |].
  destruct (T x (or_introl eq_refl)) as (y & ->).
  destruct IH as (l' & ->); [intros z I; apply T; now right |]. cbn. eauto.
Qed.

Lemma traverse_same : forall {A} (f : A -> option A) l,
  (forall x, In x l -> f x = Some x) -> traverse f l = Some l.
Proof.
  intros A f l; induction l as [|x l IH]; intros T; cbn; [reflexivity |].
  rewrite (T x (or_introl eq_refl)), IH; [reflexivity | intros z I; apply T; now right].
Qed.

Lemma Forall2_length' : forall {A B} (R : A -> B -> Prop) l l', Forall2 R l l' -> length l = length l'.
Proof. intros A B R l l' F; induction F; cbn; congruence. Qed.

Lemma Forall2_impl_in : forall {A B} (R S : A -> B -> Prop) l l',
  (forall x y, In x l -> In y l' -> R x y -> S x y) -> Forall2 R l l' -> Forall2 S l l'.
Proof.
  intros A B R S l l' I F; induction F; constructor.
  - apply I; [now left | now left | assumption].
  - apply IHF. intros u v U V. apply I; now right.
Qed.

Lemma Forall2_comp : forall {A B C} (R : A -> B -> Prop) (S : B -> C -> Prop) l1 l2 l3,
  Forall2 R l1 l2 -> Forall2 S l2 l3 -> Forall2 (fun x z => exists y, R x y /\ S y z) l1 l3.
Proof.
  intros A B C R S l1 l2 l3 F; revert l3; induction F; intros l3 F'; inversion F'; subst;
    constructor; eauto.
Qed.

(** * Identifiers *)

Lemma index_of_copy : forall a f i,
  index_of (a_module a) (length (a_functions a)) f = Some i <->
  f = copy_id a i.
Proof.
  intros a [m k] i. unfold index_of, copy_id; cbn. split.
  - destruct (m =? a_module a) eqn:E; [| discriminate]. apply Nat.eqb_eq in E.
    destruct (length (a_functions a) <=? k) eqn:E2; [| discriminate]. apply Nat.leb_le in E2.
    intros H; injection H as <-. f_equal; lia.
  - intros H; injection H as -> ->. rewrite Nat.eqb_refl.
    rewrite (proj2 (Nat.leb_le _ _)); [| lia]. f_equal; lia.
Qed.

Lemma index_of_none : forall a f,
  index_of (a_module a) (length (a_functions a)) f = None <-> ~ is_copy a f.
Proof.
  intros a [m k]. unfold index_of, is_copy; cbn.
  destruct (m =? a_module a) eqn:E.
  - apply Nat.eqb_eq in E. destruct (length (a_functions a) <=? k) eqn:E2.
    + apply Nat.leb_le in E2. split; [discriminate | intros H; exfalso; apply H; auto].
    + apply Nat.leb_gt in E2. split; [intros _ [_ H]; lia | reflexivity].
  - apply Nat.eqb_neq in E. split; [intros _ [H _]; auto | reflexivity].
Qed.

Lemma copy_is_copy : forall a i, is_copy a (copy_id a i).
Proof. intros a i; split; cbn; [reflexivity | lia]. Qed.

Lemma copy_or_not : forall a f, (exists i, f = copy_id a i) \/ ~ is_copy a f.
Proof.
  intros a f. destruct (index_of (a_module a) (length (a_functions a)) f) as [i|] eqn:E.
  - left. exists i. now apply index_of_copy.
  - right. now apply index_of_none.
Qed.

Lemma copy_id_inj : forall a i j, copy_id a i = copy_id a j -> i = j.
Proof. intros a i j E. injection E as E. lia. Qed.

Lemma eqb_true : forall {A} (dec : forall a b : A, {a = b} + {a <> b}) a b,
  eqb dec a b = true <-> a = b.
Proof. intros A dec a b. unfold eqb. destruct (dec a b); split; congruence. Qed.

Lemma eqb_false : forall {A} (dec : forall a b : A, {a = b} + {a <> b}) a b,
  eqb dec a b = false <-> a <> b.
Proof. intros A dec a b. unfold eqb. destruct (dec a b); split; congruence. Qed.

(** * Compaction *)

Lemma compaction_nth : forall kept idx ret p c,
  nth_error (compaction kept idx ret) p = Some (Some c) ->
  nth_error kept p = Some (Some (idx + p)) /\ ret <= c /\
  forall A (l : list A), length l = length kept ->
    nth_error (retained kept idx l) (c - ret) = nth_error l p.
Proof.
  induction kept as [|k kept IH]; intros idx ret p c E; cbn in E.
  - rewrite nth_error_empty in E. discriminate.
  - destruct (eqb result_eq_dec k (Some idx)) eqn:K.
    + destruct p as [|p]; cbn in E.
      * injection E as <-. apply eqb_true in K. subst k. rewrite Nat.add_0_r.
        split; [reflexivity |]. split; [lia |].
        intros A [|x l] Len; cbn in *; [discriminate |].
        rewrite (proj2 (eqb_true result_eq_dec _ _) eq_refl), Nat.sub_diag. reflexivity.
      * apply IH in E as (E1 & E2 & E3). split; [cbn; now rewrite <- plus_n_Sm|]. split; [lia |].
        intros A [|x l] Len; cbn in *; [discriminate |]. rewrite K.
        replace (c - ret) with (S (c - S ret)) by lia. cbn. apply E3. lia.
    + destruct p as [|p]; cbn in E; [discriminate |].
      apply IH in E as (E1 & E2 & E3). split; [cbn; now rewrite <- plus_n_Sm|]. split; [lia |].
      intros A [|x l] Len; cbn in *; [discriminate |]. rewrite K. apply E3. lia.
Qed.

Lemma compaction_total : forall kept idx ret p,
  nth_error kept p = Some (Some (idx + p)) ->
  exists c, nth_error (compaction kept idx ret) p = Some (Some c).
Proof.
  induction kept as [|k kept IH]; intros idx ret [|p] E; cbn in E |- *; try discriminate.
  - injection E as ->. rewrite Nat.add_0_r, (proj2 (eqb_true result_eq_dec _ _) eq_refl). cbn; eauto.
  - rewrite <- plus_n_Sm in E.
    destruct (eqb result_eq_dec k (Some idx)); cbn; apply IH; exact E.
Qed.

Lemma compaction_onto : forall kept idx ret c A (l : list A) x, length l = length kept ->
  nth_error (retained kept idx l) c = Some x ->
  exists p, nth_error (compaction kept idx ret) p = Some (Some (ret + c)) /\ nth_error l p = Some x.
Proof.
  induction kept as [|k kept IH]; intros idx ret c A [|y l] x Len E; cbn in *; try discriminate;
    try (rewrite nth_error_empty in E; discriminate).
  destruct (eqb result_eq_dec k (Some idx)) eqn:K.
  - destruct c as [|c]; cbn in E.
    + injection E as ->. exists 0. cbn. rewrite Nat.add_0_r. auto.
    + destruct (IH (S idx) (S ret) c A l x) as (p & E1 & E2); [lia | exact E |].
      exists (S p). cbn. rewrite E1. split; [f_equal; f_equal; lia | exact E2].
  - destruct (IH (S idx) ret c A l x) as (p & E1 & E2); [lia | exact E |]. exists (S p). auto.
Qed.

Lemma compaction_inj : forall kept idx ret p q c,
  nth_error (compaction kept idx ret) p = Some (Some c) ->
  nth_error (compaction kept idx ret) q = Some (Some c) -> p = q.
Proof.
  intros kept idx ret p q c E1 E2.
  apply compaction_nth in E1 as (E1 & L1 & F1). apply compaction_nth in E2 as (E2 & L2 & F2).
  specialize (F1 nat (seq 0 (length kept)) (seq_length _ _)).
  specialize (F2 nat (seq 0 (length kept)) (seq_length _ _)).
  rewrite F1 in F2.
  assert (Hp : p < length kept) by (apply nth_error_Some; congruence).
  assert (Hq : q < length kept) by (apply nth_error_Some; congruence).
  rewrite !(nth_error_nth' _ 0) in F2 by now rewrite seq_length.
  rewrite !seq_nth in F2 by assumption. injection F2 as F2. lia.
Qed.

(** * Bodies *)

(** A body all of whose functions are read the same by [g]. *)
Lemma operation_names : forall f o g, operations f o -> In (VFunction g) (o_operands o) -> names f g.
Proof. intros f o g O I. eapply names_operand; eauto. Qed.

Section Body.
  Variables (a : artifacts) (r : fid -> option fid) (P : fid -> Prop).
  Hypothesis outside : forall f, ~ is_copy a f -> r f = Some f.
  Hypothesis P_outside : forall f, ~ is_copy a f -> P f.

  Definition rm (f : fid) : fid := match r f with Some f' => f' | None => f end.

  Variable R : fid -> fid -> Prop.
  Hypothesis R_rm : forall f g, R f g -> r f = r g.
  Hypothesis R_copy : forall f g, R f g -> f <> g -> is_copy a f /\ is_copy a g.

  Lemma R_outside : forall f g, R f g -> ~ is_copy a f -> f = g.
  Proof.
    intros f g Rfg O. destruct (fid_eq_dec f g) as [|N]; auto.
    destruct (R_copy f g Rfg N); contradiction.
  Qed.

  Lemma R_outside' : forall f g, R f g -> ~ is_copy a g -> f = g.
  Proof.
    intros f g Rfg O. destruct (fid_eq_dec f g) as [|N]; auto.
    destruct (R_copy f g Rfg N); contradiction.
  Qed.

  Lemma map_shift_0 : forall vs, map (shift 0) vs = vs.
  Proof.
    induction vs as [|v vs IH]; cbn; [reflexivity |]. rewrite IH.
    destruct v; cbn; now rewrite ?Nat.sub_0_r.
  Qed.

  Lemma above_0 : forall vs, Forall (above 0) vs.
  Proof. intros vs; apply Forall_forall. intros [] _; cbn; auto using Nat.le_0_l. Qed.

  (** The operands, but for functions of the table, are left alone. *)
  Lemma visit_alike : forall vs vs2 vs',
    Forall2 (alike_value R) vs vs2 ->
    Forall2 (fun v v' => visit_operand r v = Some v') vs2 vs' ->
    (forall g, In (VFunction g) vs -> ~ is_copy a g) -> vs' = vs.
  Proof.
    intros vs vs2 vs' F; revert vs'; induction F as [|v v2 vs vs2 A F IH]; intros vs' F' O.
    - now inversion F'.
    - inversion F'; subst. f_equal; [| apply IH; [assumption | intros g I; apply O; now right]].
      destruct A as [f g Rfg | v N].
      + pose proof (O f (or_introl eq_refl)) as Of. apply R_outside in Rfg; auto. subst g.
        cbn in H1. rewrite (outside f Of) in H1. cbn in H1. congruence.
      + destruct v; cbn in H1; congruence.
  Qed.

  Lemma operation_alike : forall o o2 o1 o',
    alike_operation R o o2 ->
    map_operation (visit_operand r) o2 = Some o1 -> operation_kinds r o1 = Some o' ->
    (forall i g, nth_error (o_operands o) i = Some (VFunction g) -> is_copy a g ->
      i = 0 /\ exists v n, o_kind o = KCall v n) ->
    (forall g n, o_kind o = KClosure g n -> ~ is_copy a g) ->
    (forall g, In (VFunction g) (o_operands o) -> P g) ->
    op_rel a P rm (fun _ => 0) 0 o o'.
  Proof.
    intros o o2 o1 o' A E1 E2 C1 C2 C3.
    destruct A as [A1 A2 A3 A4].
    unfold map_operation in E1. apply bind_inv in E1 as (vs1 & E1 & E). injection E as <-.
    apply traverse_inv in E1.
    unfold operation_kinds in E2. cbn in E2. apply bind_inv in E2 as (k & E2 & E). injection E as <-.
    assert (K : k = o_kind o).
    { rewrite <- A3 in E2. destruct (o_kind o) eqn:Ek; cbn in E2; try congruence.
      rewrite (outside f) in E2; [cbn in E2; congruence |]. eapply C2; reflexivity. }
    subst k. rewrite <- A1, <- A2. 
    destruct o as [res sp vs k], o2 as [res2 sp2 vs2 k2]; cbn in *. clear A1 A2 A3 E2.
    destruct vs as [|v0 vs].
    - assert (vs1 = []) as ->.
      { inversion A4; subst. now inversion E1. }
      replace (@nil value) with (map (shift 0) []) at 2 by reflexivity.
      apply rel_other; [intros D; inversion D | apply above_0 | intros f [] | exact C2].
    - assert (D : direct (Op res sp (v0 :: vs) k) \/ ~ direct (Op res sp (v0 :: vs) k)).
      { destruct k; [| right; intros D; inversion D | right; intros D; inversion D].
        destruct v0; [left; constructor | | |]; right; intros D; inversion D. }
      assert (T : forall g, In (VFunction g) vs -> ~ is_copy a g).
      { intros g I Cg. apply In_nth_error in I as (i & I).
        destruct (C1 (S i) g I Cg) as [H _]. discriminate. }
      destruct D as [D | D].
      + inversion D as [r0 s0 v n f args]; subst.
        inversion A4 as [|x y l l' Ax Al E3 E4]; subst.
        inversion E1 as [|x2 y2 l2 l2' V1 V2]; subst.
        rewrite (visit_alike _ _ _ Al V2 T).
        inversion Ax as [f0 g Rfg | v1 N]; subst; [| destruct (N f eq_refl)].
        cbn in V1. rewrite <- (R_rm f g Rfg) in V1.
        apply bind_inv in V1 as (f' & V1 & V3). injection V3 as <-.
        replace f' with (rm f) by (unfold rm; now rewrite V1).
        rewrite <- (map_shift_0 vs) at 2.
        apply (rel_direct a P rm (fun _ => 0) 0 res sp v n f vs); cbn.
        * apply C3. now left.
        * constructor.
        * apply above_0.
      + assert (O : forall g, In (VFunction g) (v0 :: vs) -> ~ is_copy a g).
        { intros g [-> | I]; [| now apply T]. intros Cg.
          destruct (C1 0 g eq_refl Cg) as [_ (v & n & ->)]. apply D. constructor. }
        rewrite (visit_alike _ _ _ A4 E1 O).
        rewrite <- (map_shift_0 (v0 :: vs)) at 2.
        apply rel_other; [assumption | apply above_0 | assumption | exact C2].
  Qed.

  Lemma body_alike : forall f f2 f',
    alike R f f2 -> rewrite_body r f2 = Some f' -> callee_only a f ->
    (forall g, names f g -> P g) ->
    body_rel a P rm (fun _ => 0) 0 f f'.
  Proof.
    intros f f2 f' [A1 A2 A3 A4] E C N.
    unfold rewrite_body in E. apply bind_inv in E as (bs1 & E1 & E).
    apply bind_inv in E as (bs2 & E2 & E). injection E as <-.
    apply traverse_inv in E1. apply traverse_inv in E2.
    constructor; cbn; auto.
    - unfold plain_parameters. cbn. now rewrite A2.
    - pose proof (Forall2_comp _ _ _ _ _ E1 E2) as E3.
      pose proof (Forall2_comp _ _ _ _ _ A4 E3) as E4. clear E1 E2 E3 A4.
      refine (Forall2_impl_in _ _ _ _ _ E4). clear E4.
      intros b b' Ib _ (b2 & [B1 B2 B3] & b1 & E1 & E2).
      unfold map_block in E1. apply bind_inv in E1 as (os1 & O1 & E1).
      apply bind_inv in E1 as (t1 & T1 & E1). injection E1 as <-.
      unfold block_kinds in E2. cbn in E2. apply bind_inv in E2 as (os2 & O2 & E2).
      apply bind_inv in E2 as (k2 & T2 & E2). injection E2 as <-.
      apply traverse_inv in O1. apply traverse_inv in O2.
      assert (Ho : forall o o2 o1 o', operations f o -> alike_operation R o o2 ->
        map_operation (visit_operand r) o2 = Some o1 -> operation_kinds r o1 = Some o' ->
        op_rel a P rm (fun _ => 0) 0 o o').
      { intros o o2 o1 o' I A V K. apply (operation_alike o o2 o1 o' A V K).
        - intros i g I1 I2. exact (co_operand _ _ C o i g I I1 I2).
        - intros g n I1. exact (co_closure _ _ C o g n I I1).
        - intros g I1. apply N. exact (operation_names f o g I I1). }
      constructor; cbn.
      + pose proof (Forall2_comp _ _ _ _ _ O1 O2) as O3.
        pose proof (Forall2_comp _ _ _ _ _ B1 O3) as O4.
        refine (Forall2_impl_in _ _ _ _ _ O4).
        intros o o' Io _ (o2 & A & o1 & V & K).
        apply (Ho o o2 o1 o'); auto. exists b. auto.
      + unfold map_terminator in T1. apply bind_inv in T1 as (k1 & T1 & E). injection E as <-.
        cbn in T2. inversion B3 as [o o2 n e A K1 K2 | k Nk K1 K2].
        * rewrite <- K2 in T1. apply bind_inv in T1 as (o1 & V & E). injection E as <-.
          apply bind_inv in T2 as (o' & K & E). injection E as <-.
          constructor. apply (Ho o o2 o1 o'); auto. exists b. split; [assumption |]. right. eauto.
        * destruct (t_kind (b_terminator b)) as [t|c y n|o n e|p q| | |] eqn:Tb.
          all: rewrite <- K2 in T1; cbn in T1.
          3: destruct (Nk o n e eq_refl).
          1,4-6: injection T1 as <-; injection T2 as <-; constructor.
          -- apply bind_inv in T1 as (c' & V & E). injection E as <-. injection T2 as <-.
             assert (c' = shift 0 c) as ->.
             { destruct c; cbn in V |- *; rewrite ?Nat.sub_0_r; try congruence.
               rewrite (outside f0) in V; [cbn in V; congruence |].
               exact (co_condition _ _ C b f0 y n Ib Tb). }
             constructor. destruct c; cbn; auto using Nat.le_0_l.
          -- apply bind_inv in T1 as (c' & V & E). injection E as <-. injection T2 as <-.
             assert (c' = shift 0 p) as ->.
             { destruct p; cbn in V |- *; rewrite ?Nat.sub_0_r; try congruence.
               rewrite (outside f0) in V; [cbn in V; congruence |].
               exact (co_yield _ _ C b f0 q Ib Tb). }
             constructor. destruct p; cbn; auto using Nat.le_0_l.
  Qed.
End Body.

(** * Reflexivity *)

Lemma alike_refl : forall (R : fid -> fid -> Prop) f, (forall g, R g g) -> alike R f f.
Proof.
  intros R f H.
  assert (V : forall v, alike_value R v v).
  { intros v. destruct v; try (apply alike_other; congruence). apply alike_function, H. }
  assert (Vs : forall vs, Forall2 (alike_value R) vs vs) by (induction vs; constructor; auto).
  assert (O : forall o, alike_operation R o o) by (intros o; constructor; auto).
  constructor; auto. induction (f_blocks f) as [|b bs IH]; constructor; auto.
  constructor; auto.
  - induction (b_operations b); constructor; auto.
  - destruct (t_kind (b_terminator b)); try (apply alike_same; congruence). now apply alike_invoke.
Qed.

(** A walk that finds every function where it was changes nothing. *)
Lemma rewrite_body_same : forall (r : fid -> option fid) f,
  (forall g, names f g -> r g = Some g) -> rewrite_body r f = Some f.
Proof.
  intros r f N.
  assert (O : forall o, operations f o -> map_operation (visit_operand r) o = Some o
                                        /\ operation_kinds r o = Some o).
  { intros o I. split.
    - unfold map_operation. rewrite traverse_same.
      + destruct o; reflexivity.
      + intros v Iv. destruct v; cbn; try reflexivity.
        rewrite N; [reflexivity | exact (names_operand f f0 o I Iv)].
    - unfold operation_kinds. destruct o as [re sp vs k]; cbn.
      destruct k; cbn; try reflexivity.
      rewrite N; [reflexivity | exact (names_closure f f0 _ rest I eq_refl)]. }
  assert (E : traverse (map_block (visit_operand r)) (f_blocks f) = Some (f_blocks f)).
  { apply traverse_same. intros b Ib. unfold map_block. rewrite traverse_same.
    - cbn. unfold map_terminator. destruct b as [os [sp k]]; cbn in *.
      destruct k; cbn; try reflexivity.
      + destruct condition; cbn; try reflexivity.
        rewrite N; [reflexivity | exact (names_condition f f0 _ yes no Ib eq_refl)].
      + rewrite (proj1 (O o (ex_intro _ _ (conj Ib (or_intror (ex_intro _ normal (ex_intro _ error eq_refl))))))).
        reflexivity.
      + destruct place; cbn; try reflexivity.
        rewrite N; [reflexivity | exact (names_yield f f0 _ resume Ib eq_refl)].
    - intros o Io. apply O. exists b; auto. }
  unfold rewrite_body. rewrite E. cbn. rewrite traverse_same.
  - destruct f; reflexivity.
  - intros b Ib. unfold block_kinds. rewrite traverse_same.
    + cbn. destruct b as [os [sp k]]; cbn in *. destruct k; cbn; try reflexivity.
      rewrite (proj2 (O o (ex_intro _ _ (conj Ib (or_intror (ex_intro _ normal (ex_intro _ error eq_refl))))))).
      reflexivity.
    + intros o Io. apply O. exists b; auto.
Qed.

(** A walk that can read every function succeeds. *)
Lemma rewrite_body_total : forall (r : fid -> option fid) f,
  (forall g, names f g -> exists g', r g = Some g') -> exists f', rewrite_body r f = Some f'.
Proof.
  intros r f N.
  assert (O : forall o, operations f o -> exists o1 o2, map_operation (visit_operand r) o = Some o1
              /\ operation_kinds r o1 = Some o2).
  { intros o I. unfold map_operation.
    destruct (traverse_total (visit_operand r) (o_operands o)) as (vs & ->).
    - intros v Iv. destruct v; cbn; eauto.
      destruct (N f0 (names_operand f f0 o I Iv)) as (g & ->). cbn; eauto.
    - cbn. exists (Op (o_result o) (o_span o) vs (o_kind o)). unfold operation_kinds. cbn.
      destruct (o_kind o) as [v c|kf rest|c] eqn:K; cbn.
      + eexists; split; reflexivity.
      + destruct (N kf (names_closure f kf o rest I K)) as (g & E).
        rewrite E. cbn. eexists; split; reflexivity.
      + eexists; split; reflexivity. }
  unfold rewrite_body.
  assert (T : exists bs1 bs2, traverse (map_block (visit_operand r)) (f_blocks f) = Some bs1
                              /\ traverse (block_kinds r) bs1 = Some bs2).
  { assert (Bk : forall b, In b (f_blocks f) -> exists b1 b2,
       map_block (visit_operand r) b = Some b1 /\ block_kinds r b1 = Some b2).
    { intros b Ib.
      assert (Os : exists os1 os2, traverse (map_operation (visit_operand r)) (b_operations b) = Some os1
                                   /\ traverse (operation_kinds r) os1 = Some os2).
      { assert (Sub : forall o, In o (b_operations b) -> operations f o) by (intros o Io; exists b; auto).
        induction (b_operations b) as [|o os IH]; cbn; [exists [], []; auto |].
        destruct (O o (Sub o (or_introl eq_refl))) as (o1 & o2 & E1 & E2).
        destruct IH as (os1 & os2 & E3 & E4); [intros; apply Sub; now right |].
        rewrite E1, E3. cbn. exists (o1 :: os1), (o2 :: os2). cbn. rewrite E2, E4. auto. }
      destruct Os as (os1 & os2 & E1 & E2).
      unfold map_block. rewrite E1. cbn. unfold map_terminator.
      destruct b as [os [sp k]]; cbn in *.
      destruct k; cbn.
      1,5-7:  (eexists; eexists; split; [reflexivity |]; unfold block_kinds; cbn; rewrite E2; cbn; reflexivity).
      - destruct condition as [cf|cd|cp|co]; cbn; try (eexists; eexists; split; [reflexivity |]; unfold block_kinds; cbn; rewrite E2; cbn; reflexivity).
        destruct (N cf (names_condition f cf _ yes no Ib eq_refl)) as (g & ->). cbn.
        eexists; eexists; split; [reflexivity |]; unfold block_kinds; cbn; rewrite E2; cbn; reflexivity.
      - destruct (O o (ex_intro _ _ (conj Ib (or_intror (ex_intro _ normal (ex_intro _ error eq_refl))))))
          as (o1 & o2 & E3 & E4).
        rewrite E3. cbn. eexists; eexists; split; [reflexivity |].
        unfold block_kinds. cbn. rewrite E2, E4. cbn. reflexivity.
      - destruct place as [cf|cd|cp|co]; cbn; try (eexists; eexists; split; [reflexivity |]; unfold block_kinds; cbn; rewrite E2; cbn; reflexivity).
        destruct (N cf (names_yield f cf _ resume Ib eq_refl)) as (g & ->). cbn.
        eexists; eexists; split; [reflexivity |]; unfold block_kinds; cbn; rewrite E2; cbn; reflexivity. }
    clear O N. induction (f_blocks f) as [|b bs IH]; cbn; [exists [], []; auto |].
    destruct (Bk b (or_introl eq_refl)) as (b1 & b2 & E1 & E2).
    destruct IH as (bs1 & bs2 & E3 & E4); [intros; apply Bk; now right |].
    rewrite E1, E3. cbn. exists (b1 :: bs1), (b2 :: bs2). cbn. rewrite E2, E4. auto. }
  destruct T as (bs1 & bs2 & -> & E2). cbn. rewrite E2. cbn. eauto.
Qed.

(** * The table *)

Section Table.
  Variables (a : artifacts) (survives : nat -> option nat).
  Hypothesis W : well_named a.

  Definition kept_of : list (option nat) := map survives (seq 0 (length (a_copies a))).
  Definition remap_of : fid -> option fid :=
    remap (a_module a) (length (a_functions a)) kept_of (compaction kept_of 0 0).

  Lemma kept_nth : forall i, i < length (a_copies a) -> nth_error kept_of i = Some (survives i).
  Proof.
    intros i H. unfold kept_of. rewrite nth_error_map.
    rewrite (nth_error_nth' _ 0) by now rewrite seq_length.
    now rewrite seq_nth.
  Qed.

  Lemma kept_length : length kept_of = length (a_copies a).
  Proof. unfold kept_of. now rewrite map_length, seq_length. Qed.

  Lemma remap_outside : forall f, ~ is_copy a f -> remap_of f = Some f.
  Proof. intros f O. unfold remap_of, remap. now rewrite (proj2 (index_of_none a f) O). Qed.

  Lemma remap_copy : forall i into c, i < length (a_copies a) -> survives i = Some into ->
    nth_error (compaction kept_of 0 0) into = Some (Some c) ->
    remap_of (copy_id a i) = Some (copy_id a c).
  Proof.
    intros i into c H E1 E2. unfold remap_of, remap.
    rewrite (proj2 (index_of_copy a (copy_id a i) i) eq_refl).
    now rewrite (kept_nth i H), E1, E2.
  Qed.

  (** What [rewrite] answers, whether or not it changes anything. *)
  Lemma rewrite_shape : forall a', rewrite a survives = Some a' ->
    a_module a' = a_module a /\
    Forall2 (fun s s' => rewrite_slot (rewrite_body remap_of) s = Some s')
            (a_functions a) (a_functions a') /\
    Forall2 (fun s s' => rewrite_copy (rewrite_body remap_of) s = Some s')
            (retained kept_of 0 (a_copies a)) (a_copies a').
  Proof.
    intros a' E. unfold rewrite in E. fold kept_of in E.
    destruct (forallb (fun p => eqb result_eq_dec (snd p) (Some (fst p)))
                      (combine (seq 0 (length kept_of)) kept_of)) eqn:All.
    - injection E as <-. split; [reflexivity |].
      assert (K : forall i, i < length (a_copies a) -> nth_error kept_of i = Some (Some i)).
      { intros i H. pose proof (kept_nth i H) as N. rewrite N. f_equal.
        rewrite forallb_forall in All. specialize (All (i, survives i)). cbn in All.
        apply eqb_true in All; [assumption |].
        apply nth_error_In with (n := i).
        assert (C : forall A B (l : list A) (m : list B) j x y, nth_error l j = Some x ->
                  nth_error m j = Some y -> nth_error (combine l m) j = Some (x, y)).
        { clear. intros A B l; induction l; intros [|z m] [|j] x y; cbn; try discriminate; try congruence.
          apply IHl. }
        apply C; [| exact N]. rewrite (nth_error_nth' _ 0) by (rewrite seq_length, kept_length; lia).
        rewrite seq_nth by (rewrite kept_length; lia). reflexivity. }
      assert (Self : forall i, i < length (a_copies a) ->
                nth_error (compaction kept_of 0 0) i = Some (Some i) ).
      { assert (G : forall kept idx, (forall p, p < length kept -> nth_error kept p = Some (Some (idx + p))) ->
                  forall p, p < length kept -> nth_error (compaction kept idx idx) p = Some (Some (idx + p))).
        { clear. induction kept as [|k kept IH]; intros idx H p Hp; cbn in *; [lia |].
          pose proof (H 0 ltac:(lia)) as H0. cbn in H0. injection H0 as ->.
          rewrite Nat.add_0_r, (proj2 (eqb_true result_eq_dec _ _) eq_refl).
          destruct p as [|p]; cbn; [now rewrite Nat.add_0_r |].
          rewrite <- plus_n_Sm. apply (IH (S idx)); [| lia].
          intros q Hq. specialize (H (S q) ltac:(lia)). cbn in H. now rewrite <- plus_n_Sm in H. }
        intros i H. apply (G kept_of 0); [intros p Hp; apply K; now rewrite kept_length in Hp |
                                         now rewrite kept_length]. }
      assert (Same : forall f g, own_body a f -> names f g -> remap_of g = Some g).
      { intros f g O N. destruct (copy_or_not a g) as [(i & ->) | Og]; [| now apply remap_outside].
        pose proof (wn_range _ W f _ O N (copy_is_copy a i)) as Lt. cbn in Lt.
        assert (Hi : i < length (a_copies a)) by lia.
        apply (remap_copy i i i Hi); [| now apply Self].
        pose proof (kept_nth i Hi) as N1. rewrite (K i Hi) in N1. congruence. }
      split.
      + assert (Sub : forall s, In s (a_functions a) -> rewrite_slot (rewrite_body remap_of) s = Some s).
        { intros [f|] I; cbn; [| reflexivity]. rewrite rewrite_body_same; [reflexivity |].
          intros g N. apply (Same f g); [now left | assumption]. }
        clear - Sub. generalize dependent remap_of. intros r Sub.
        induction (a_functions a); constructor.
        * apply Sub; now left.
        * apply IHl. intros; apply Sub; now right.
      + assert (Ret : retained kept_of 0 (a_copies a) = a_copies a).
        { assert (G : forall A kept idx (l : list A), length kept = length l ->
             (forall p, p < length kept -> nth_error kept p = Some (Some (idx + p))) ->
             retained kept idx l = l).
          { clear. induction kept as [|k kept IH]; intros idx [|x l] Len H; cbn in *; try discriminate; auto.
            pose proof (H 0 ltac:(lia)) as H0. cbn in H0. injection H0 as ->.
            rewrite Nat.add_0_r, (proj2 (eqb_true result_eq_dec _ _) eq_refl). f_equal.
            apply IH; [lia |]. intros q Hq. specialize (H (S q) ltac:(lia)). cbn in H.
            now rewrite <- plus_n_Sm in H. }
          apply G; [apply kept_length |]. intros p Hp. apply K. now rewrite kept_length in Hp. }
        rewrite Ret.
        assert (Sub : forall s, In s (a_copies a) -> rewrite_copy (rewrite_body remap_of) s = Some s).
        { intros s I. unfold rewrite_copy. rewrite rewrite_body_same; [destruct s; reflexivity |].
          intros g N. apply (Same (s_body s) g); [right; eauto | assumption]. }
        clear - Sub. generalize dependent remap_of. intros r Sub.
        induction (a_copies a); constructor.
        * apply Sub; now left.
        * apply IHl. intros; apply Sub; now right.
    - fold remap_of in E. apply bind_inv in E as (fs & E1 & E). apply bind_inv in E as (cs & E2 & E).
      injection E as <-. cbn. apply traverse_inv in E1. apply traverse_inv in E2. auto.
  Qed.

  (** It succeeds when every function it reads is known. *)
  Lemma rewrite_ok :
    (forall f g, In (Some f) (a_functions a) -> names f g -> exists g', remap_of g = Some g') ->
    (forall s g, In s (retained kept_of 0 (a_copies a)) -> names (s_body s) g ->
       exists g', remap_of g = Some g') ->
    exists a', rewrite a survives = Some a'.
  Proof.
    intros T1 T2. unfold rewrite. fold kept_of.
    destruct (forallb (fun p => eqb result_eq_dec (snd p) (Some (fst p)))
                      (combine (seq 0 (length kept_of)) kept_of)); [eauto |].
    fold remap_of.
    destruct (traverse_total (rewrite_slot (rewrite_body remap_of)) (a_functions a)) as (fs & ->).
    { intros [f|] I; cbn; [| eauto].
      destruct (rewrite_body_total remap_of f (fun g => T1 f g I)) as (f' & ->). cbn; eauto. }
    cbn.
    destruct (traverse_total (rewrite_copy (rewrite_body remap_of)) (retained kept_of 0 (a_copies a)))
      as (cs & ->).
    { intros s I. unfold rewrite_copy.
      destruct (rewrite_body_total remap_of (s_body s) (fun g => T2 s g I)) as (f' & ->). cbn; eauto. }
    cbn; eauto.
  Qed.

  (** Behaviour: [P] is what can be run; [R] relates what is merged. *)
  Variables (P : fid -> Prop) (R : fid -> fid -> Prop).
  Hypothesis P_outside : forall f, ~ is_copy a f -> P f.
  Hypothesis P_declared : forall f g, In (Some f) (a_functions a) -> names f g -> P g.
  Hypothesis P_copy : forall i s g, P (copy_id a i) -> nth_error (a_copies a) i = Some s ->
    names (s_body s) g -> P g.
  Hypothesis R_refl : forall f, R f f.
  Hypothesis R_rm : forall f g, R f g -> remap_of f = remap_of g.
  Hypothesis R_copy : forall f g, R f g -> f <> g -> is_copy a f /\ is_copy a g.
  Hypothesis merged : forall i, P (copy_id a i) -> i < length (a_copies a) /\
    exists into s t, survives i = Some into /\ survives into = Some into /\
      nth_error (a_copies a) i = Some s /\ nth_error (a_copies a) into = Some t /\
      s_original s = s_original t /\ alike R (s_body s) (s_body t).

  Lemma rewrite_behaviour : forall a', rewrite a survives = Some a' -> same_behaviour a a'.
  Proof.
    intros a' E B L G M Fo f args stored g n O S.
    destruct (rewrite_shape a' E) as (Em & Ef & Ec).
    apply (simulation a a' P (rm remap_of) (fun _ => 0) B L G M); auto.
    - intros h Oh. split; [now apply P_outside |]. split; [| reflexivity].
      unfold rm. now rewrite (remap_outside h Oh).
    - clear f args stored g n O S. intros f Pf.
      assert (Lf : length (a_functions a') = length (a_functions a))
        by (symmetry; exact (Forall2_length' _ _ _ Ef)).
      destruct (copy_or_not a f) as [(i & ->) | O].
      + destruct (merged i Pf) as (Hi & into & s & t & E1 & E2 & N1 & N2 & Eo & A).
        assert (Hinto : into < length (a_copies a)) by (apply nth_error_Some; congruence).
        destruct (compaction_total kept_of 0 0 into) as (c & Ecc).
        { rewrite (kept_nth into Hinto), E2. reflexivity. }
        assert (Er : rm remap_of (copy_id a i) = copy_id a c).
        { unfold rm. now rewrite (remap_copy i into c Hi E1 Ecc). }
        rewrite Er. unfold lookup, copy_id; cbn. rewrite Em, Nat.eqb_refl, Lf.
        rewrite (proj2 (nth_error_None (a_functions a) (length (a_functions a) + i))) by lia.
        rewrite (proj2 (nth_error_None (a_functions a') (length (a_functions a) + c))) by lia.
        replace (length (a_functions a) + i - length (a_functions a)) with i by lia.
        replace (length (a_functions a) + c - length (a_functions a)) with c by lia.
        rewrite N1.
        apply compaction_nth in Ecc as (_ & _ & Rt).
        specialize (Rt _ (a_copies a) (eq_sym kept_length)). rewrite Nat.sub_0_r, N2 in Rt.
        pose proof (Forall2_nth_error _ _ _ c Ec) as N3. rewrite Rt in N3.
        destruct (nth_error (a_copies a') c) as [t'|] eqn:N4; [| contradiction].
        unfold rewrite_copy in N3. apply bind_inv in N3 as (b & N3 & N5). injection N5 as <-. cbn.
        rewrite <- Eo. constructor.
        apply (body_alike a remap_of P remap_outside R R_rm R_copy (s_body s) (s_body t) b A N3).
        * apply (wn_callee _ W). right. exists s. split; [exact (nth_error_In _ _ N1) | reflexivity].
        * intros g N. exact (P_copy i s g Pf N1 N).
      + replace (rm remap_of f) with f by (unfold rm; now rewrite (remap_outside f O)).
        unfold lookup. rewrite Em. destruct (fst f =? a_module a) eqn:Mf.
        * apply Nat.eqb_eq in Mf.
          assert (Hf : snd f < length (a_functions a)).
          { destruct (le_lt_dec (length (a_functions a)) (snd f)); auto. exfalso; apply O; split; auto. }
          pose proof (Forall2_nth_error _ _ _ (snd f) Ef) as N.
          destruct (nth_error (a_functions a) (snd f)) as [[b|]|] eqn:N1.
          -- destruct (nth_error (a_functions a') (snd f)) as [s'|]; [| contradiction].
             cbn in N. apply bind_inv in N as (b' & N2 & N3). injection N3 as <-.
             constructor.
             apply (body_alike a remap_of P remap_outside R R_rm R_copy b b b' (alike_refl R b R_refl) N2).
             ++ apply (wn_callee _ W). left. exact (nth_error_In _ _ N1).
             ++ intros g Ng. exact (P_declared b g (nth_error_In _ _ N1) Ng).
          -- destruct (nth_error (a_functions a') (snd f)) as [s'|]; [| contradiction].
             cbn in N. injection N as <-. constructor.
          -- apply nth_error_None in N1. lia.
        * destruct (others B L G M f) as [b|] eqn:Ob; [| constructor].
          constructor.
          assert (Nb : forall g, names b g -> ~ is_copy a g) by (intros g; exact (Fo f b Ob g)).
          apply (body_alike a remap_of P remap_outside R R_rm R_copy b b b (alike_refl R b R_refl)).
          -- apply rewrite_body_same. intros g N. apply remap_outside, Nb, N.
          -- constructor.
             ++ intros o i g Io N C. destruct (Nb g); [| assumption].
                exact (names_operand b g o Io (nth_error_In _ _ N)).
             ++ intros o g r0 Io K. apply Nb. exact (names_closure b g o r0 Io K).
             ++ intros bl g y n0 Ib K. apply Nb. exact (names_condition b g bl y n0 Ib K).
             ++ intros bl g r0 Ib K. apply Nb. exact (names_yield b g bl r0 Ib K).
          -- intros g N. apply P_outside, Nb, N.
  Qed.
End Table.
