(** What an operation may change of the frame, and what it depends on. *)
From Coq Require Import List Arith Bool Lia Relations.
From Verif Require Import FrameModel FrameSpec.
Import ListNotations.

Lemma upd_same : forall A (f : nat -> A) k v, upd f k v k = v.
Proof. intros. unfold upd. now rewrite Nat.eqb_refl. Qed.

Lemma upd_other : forall A (f : nat -> A) k v x, x <> k -> upd f k v x = f x.
Proof. intros. unfold upd. destruct (Nat.eqb_spec x k); congruence. Qed.

Section Change.
Context {other world : Type}.
Variable m : machine other world.

(** The operand positions in which the address of a cell leaves the frame. *)
Definition passes (o : operation) (i : nat) : Prop :=
  match op_kind o with
  | KAlloca _ | KOther _ _ | KYield => True
  | KStore => i = 0
  | KCall visible _ =>
      exists j, call_result_operand_index (op_operands o) visible = Some j /\ i < j
  | _ => False
  end.

(** The operand positions through which a cell is written. *)
Definition writes_at (o : operation) (i : nat) : Prop :=
  match op_kind o with
  | KStore | KMemcpy => i = 1
  | KMove => i = 0 \/ i = 1
  | KCall visible _ => call_result_operand_index (op_operands o) visible = Some i
  | _ => False
  end.

Inductive change (o : operation) : frame other -> frame other -> Prop :=
| ch_moved r v f : In (OReg r) (op_operands o) -> regs f r = Some (BVal v) ->
    copyable m v = false -> change o f (set_reg r BMoved f)
| ch_shared i r c x q f : nth_error (op_operands o) i = Some (OReg r) -> passes o i ->
    regs f r = Some (BCell c) -> cells f c = CLocal x -> change o f (set_cell c (CShared q) f)
| ch_write i r c x y f : nth_error (op_operands o) i = Some (OReg r) -> writes_at o i ->
    regs f r = Some (BCell c) -> cells f c = CLocal x -> change o f (set_cell c (CLocal y) f)
| ch_result r b f : op_result o = Some r -> (forall c, b <> BCell c) ->
    (forall ty, op_kind o <> KAlloca ty) -> change o f (set_reg r b f)
| ch_alloca ty f : op_kind o = KAlloca ty -> change o f (allocate (op_result o) f)
| ch_restore h f : op_kind o = KStackRestore -> change o f (restore h f).

Definition changes (o : operation) : frame other -> frame other -> Prop :=
  clos_refl_trans_1n _ (change o).

Lemma changes_refl : forall o f, changes o f f.
Proof. intros. apply rt1n_refl. Qed.

Lemma changes_one : forall o f f1, change o f f1 -> changes o f f1.
Proof. intros. eapply Relation_Operators.rt1n_trans; eauto. apply rt1n_refl. Qed.

Lemma changes_trans : forall o f f1 f2, changes o f f1 -> changes o f1 f2 -> changes o f f2.
Proof.
  intros o f f1 f2 H. induction H; auto. intros H2.
  eapply Relation_Operators.rt1n_trans; eauto. now apply IHclos_refl_trans_1n.
Qed.

Lemma nth_In : forall (os : list operand) i x, nth_error os i = Some x -> In x os.
Proof. intros. eapply nth_error_In; eauto. Qed.

Lemma share_changes : forall o i r c f w v f1 w1,
  nth_error (op_operands o) i = Some (OReg r) -> passes o i -> regs f r = Some (BCell c) ->
  share_cell m c f w = Some (v, f1, w1) -> changes o f f1.
Proof.
  intros o i r c f w v f1 w1 Hi Hp Er E. unfold share_cell in E.
  destruct (cells f c) as [x|q|] eqn:Ec; try discriminate.
  - destruct (share m x w) as [w0 q]. inversion E; subst. apply changes_one.
    eapply ch_shared; eauto.
  - inversion E; subst. apply changes_refl.
Qed.

Lemma pass_changes1 : forall o k i j x f w v f1 w1,
  nth_error (op_operands o) j = Some x -> passes o j ->
  pass_operand m k i x f w = Some (v, f1, w1) -> changes o f f1.
Proof.
  intros o k i j x f w v f1 w1 Hj Hp E. destruct x as [l|l|n|n|r]; cbn in E.
  - inversion E; subst. apply changes_refl.
  - inversion E; subst. apply changes_refl.
  - inversion E; subst. apply changes_refl.
  - destruct (args f n); inversion E; subst. apply changes_refl.
  - destruct (regs f r) as [[v0|q|c|h v0|]|] eqn:Er; try discriminate.
    + inversion E; subst. destruct (takes m k i && negb (copyable m v)) eqn:T; [|apply changes_refl].
      apply andb_true_iff in T. destruct T as [_ T]. apply negb_true_iff in T.
      apply changes_one. eapply ch_moved; eauto. eapply nth_In; eauto.
    + inversion E; subst. apply changes_refl.
    + eapply share_changes; eauto.
Qed.

Lemma pass_changes : forall o k n i os f w vs f1 w1,
  (forall j x, nth_error os j = Some x ->
     nth_error (op_operands o) (n + j) = Some x /\ passes o (n + j)) ->
  pass_operands m k i os f w = Some (vs, f1, w1) -> changes o f f1.
Proof.
  intros o k n i os. revert n i. induction os as [|x os IH]; intros n i f w vs f1 w1 H E; cbn in E.
  - inversion E; subst. apply changes_refl.
  - destruct (pass_operand m k i x f w) as [[[v f2] w2]|] eqn:E1; [|discriminate].
    destruct (pass_operands m k (S i) os f2 w2) as [[[vs' f3] w3]|] eqn:E2; [|discriminate].
    inversion E; subst. destruct (H 0 x eq_refl) as [H1 H2]. rewrite Nat.add_0_r in *.
    eapply changes_trans; [eapply pass_changes1; eauto|].
    apply (IH (S n) (S i) f2 w2 vs' f1 w1); auto. intros j y Hj. specialize (H (S j) y Hj).
    now rewrite <- Nat.add_succ_comm in H.
Qed.

Lemma pass_changes_all : forall o k f w vs f1 w1, (forall i, passes o i) ->
  pass_operands m k 0 (op_operands o) f w = Some (vs, f1, w1) -> changes o f f1.
Proof.
  intros o k f w vs f1 w1 H E. eapply (pass_changes o k 0); eauto.
Qed.

Lemma value_changes : forall o x f v f1, In x (op_operands o) ->
  value_of m f x = Some (v, f1) -> changes o f f1.
Proof.
  intros o x f v f1 Hx E. destruct x as [l|l|n|n|r]; cbn in E; try discriminate.
  - inversion E; subst. apply changes_refl.
  - inversion E; subst. apply changes_refl.
  - destruct (args f n); inversion E; subst. apply changes_refl.
  - destruct (regs f r) as [[v0|q|c|h v0|]|] eqn:Er; try discriminate.
    inversion E; subst. destruct (copyable m v) eqn:Ec; [apply changes_refl|].
    apply changes_one. eapply ch_moved; eauto.
Qed.

Lemma stored_changes : forall o x rest f w v f1 w1, op_kind o = KStore ->
  op_operands o = x :: rest -> stored_value m x f w = Some (v, f1, w1) -> changes o f f1.
Proof.
  intros o x rest f w v f1 w1 Hk Ho E.
  assert (Hx : In x (op_operands o)) by (rewrite Ho; now left).
  assert (G : option_map (fun '(v, f) => (v, f, w)) (value_of m f x) = Some (v, f1, w1) ->
    changes o f f1).
  { intros E'. destruct (value_of m f x) as [[v' f']|] eqn:Ev; [|discriminate].
    cbn in E'. inversion E'; subst. eapply value_changes; eauto. }
  unfold stored_value in E. destruct x as [l|l|n|n|r]; auto.
  destruct (regs f r) as [[v0|q|c|h v0|]|] eqn:Er; auto.
  - inversion E; subst. apply changes_refl.
  - apply (share_changes o 0 r c f w v f1 w1); auto.
    + now rewrite Ho.
    + unfold passes. now rewrite Hk.
Qed.

Definition gives (a : outcome other world) (f1 : frame other) : Prop :=
  match a with RDone f _ | RError f _ => f = f1 | _ => False end.

Lemma place_cell : forall f x c, place_of (other := other) f x = Some (PLocal c) ->
  exists r y, x = OReg r /\ regs f r = Some (BCell c) /\ cells f c = CLocal y.
Proof.
  intros f x c E. destruct x as [l|l|n|n|r]; cbn in E; try discriminate.
  - destruct (args f n); discriminate.
  - destruct (regs f r) as [[v0|q|c0|h v0|]|] eqn:Er; try discriminate.
    destruct (cells f c0) as [y|q|] eqn:Ec; try discriminate. inversion E; subst. eauto.
Qed.

Lemma write_changes : forall o i x q y f w f1, nth_error (op_operands o) i = Some x ->
  writes_at o i -> place_of f x = Some q -> gives (write_place m q y f w) f1 -> changes o f f1.
Proof.
  intros o i x q y f w f1 Hi Hw Hp G. destruct q as [c|v]; cbn in G.
  - destruct (place_cell _ _ _ Hp) as (r & z & -> & Er & Ec). subst f1. apply changes_one.
    eapply ch_write; eauto.
  - destruct (write m v y w); cbn in G; try easy; subst; apply changes_refl.
Qed.

Lemma after_gives : forall e k f f1, gives (after (other := other) (world := world) e k f) f1 ->
  f = f1 \/ exists w v, e = EDone w v /\ gives (k w v) f1.
Proof. intros e k f f1 H. destruct e; cbn in H; try easy; eauto. Qed.

Lemma result_changes : forall o b f, (forall b', b = Some b' -> forall c, b' <> BCell c) ->
  (forall ty, op_kind o <> KAlloca ty) -> changes o f (bind (op_result o) b f).
Proof.
  intros o b f Hb Hk. unfold bind. destruct (op_result o) as [r|] eqn:Er; [|apply changes_refl].
  destruct b as [b|]; [|apply changes_refl]. apply changes_one. eapply ch_result; eauto.
Qed.

Lemma step_changes : forall o f w f1, gives (step m o f w) f1 -> changes o f f1.
Proof.
  intros o f w f1 G. unfold step in G. destruct (op_kind o) eqn:Hk.
  - destruct (pass_operands m (KAlloca ty) 0 (op_operands o) f w) as [[[vs f2] w2]|] eqn:E; [|easy].
    apply pass_changes_all in E; [|intros i; unfold passes; now rewrite Hk].
    apply after_gives in G. destruct G as [<- |(w3 & v & _ & G)]; auto. cbn in G. subst f1.
    eapply changes_trans; eauto. apply changes_one. eapply ch_alloca; eauto.
  - destruct (op_operands o) eqn:Ho; [|easy]. apply after_gives in G.
    destruct G as [<- |(w3 & v & _ & G)]; [apply changes_refl|].
    destruct v as [[v|v]|]; cbn in G; try easy. subst f1. apply result_changes.
    + intros b' E. inversion E; subst. discriminate.
    + rewrite Hk. discriminate.
  - destruct (op_operands o) as [|[l|l|n|n|r] [|]] eqn:Ho; try easy.
    destruct (regs f r) as [[v0|q|c|h v0|]|] eqn:Er; try easy. apply after_gives in G.
    destruct G as [<- |(w3 & v & _ & G)]; [apply changes_refl|]. cbn in G. subst f1.
    apply changes_one. now apply ch_restore.
  - destruct (op_operands o) as [|s [|]] eqn:Ho; try easy. destruct (place_of f s); [|easy].
    destruct (content_of m p f w) as [[v|]|]; try easy. destruct (copyable m v); [|easy].
    cbn in G. subst f1. apply result_changes.
    + intros b' E. inversion E; subst. discriminate.
    + rewrite Hk. discriminate.
  - destruct (op_operands o) as [|v [|d [|]]] eqn:Ho; try easy.
    destruct (stored_value m v f w) as [[[x f2] w2]|] eqn:E; [|easy].
    eapply changes_trans; [eapply stored_changes; eauto|].
    destruct (place_of f2 d) eqn:Ep; [|easy].
    eapply (write_changes o 1); eauto.
    + now rewrite Ho.
    + unfold writes_at. now rewrite Hk.
  - destruct (op_operands o) as [|s [|d [|]]] eqn:Ho; try easy.
    destruct (place_of f s); [|easy]. destruct (place_of f d) eqn:Ep; [|easy].
    destruct (content_of m p f w) as [[v|]|]; try easy. destruct (copyable m v); [|easy].
    eapply (write_changes o 1); eauto.
    + now rewrite Ho.
    + unfold writes_at. now rewrite Hk.
  - destruct (op_operands o) as [|s [|d rest]] eqn:Ho; try easy.
    destruct (place_of f s) eqn:Es; [|easy]. destruct (place_of f d) eqn:Ep; [|easy].
    destruct (content_of m p f w) as [x|]; [|easy].
    assert (Hws : writes_at o 0) by (unfold writes_at; rewrite Hk; auto).
    assert (Hwd : writes_at o 1) by (unfold writes_at; rewrite Hk; auto).
    assert (Hs0 : nth_error (op_operands o) 0 = Some s) by now rewrite Ho.
    assert (Hd1 : nth_error (op_operands o) 1 = Some d) by now rewrite Ho.
    destruct (write_place m p None f w) as [f2 w2|f2 w2|w2| |] eqn:E1; try easy.
    + assert (C1 : changes o f f2).
      { eapply (write_changes o 0 s p None f w f2); eauto. rewrite E1. reflexivity. }
      eapply changes_trans; [exact C1|].
      destruct p0 as [c|q].
      * destruct (place_cell _ _ _ Ep) as (r & y & -> & Er & Ec). cbn in G. subst f1.
        assert (Hr2 : regs f2 r = Some (BCell c) /\ exists y2, cells f2 c = CLocal y2).
        { destruct p as [c'|q']; cbn in E1.
          - inversion E1; subst. cbn. split; auto. destruct (Nat.eq_dec c c') as [-> |Hn].
            + rewrite upd_same. eauto.
            + rewrite upd_other by auto. eauto.
          - destruct (write m q' None w); inversion E1; subst; eauto. }
        destruct Hr2 as [Er2 (y2 & Ey2)]. apply changes_one. eapply ch_write; eauto.
      * cbn in G. destruct (write m q x w2); cbn in G; try easy; subst; apply changes_refl.
    + eapply (write_changes o 0 s p None f w f1); eauto. rewrite E1. exact G.
  - destruct (op_operands o) as [|s [|[l|l|n|n|r] [|]]] eqn:Ho; try easy.
    destruct (inspect m f w s) as [[v|]|]; try easy. destruct (compare m l v); [|easy].
    cbn in G. subst f1. apply result_changes.
    + intros b' E. inversion E; subst. discriminate.
    + rewrite Hk. discriminate.
  - unfold step_call in G.
    destruct (call_result_operand_index (op_operands o) visible) as [i|] eqn:Ei; [|easy].
    destruct (nth_error (op_operands o) i) as [d|] eqn:Ed; [|easy].
    destruct (pass_operands m (op_kind o) 0 (firstn i (op_operands o)) f w) as [[[vs f2] w2]|] eqn:E;
      [|easy].
    apply (pass_changes o (op_kind o) 0 0) in E.
    2:{ intros j x Hj. cbn.
        assert (Hji : j < i).
        { assert (j < length (firstn i (op_operands o))) by (apply nth_error_Some; congruence).
          rewrite firstn_length in H. lia. }
        split.
        - rewrite <- Hj. clear - Hji. revert i j Hji. induction (op_operands o) as [|y l IH];
            intros [|i] [|j] Hji; cbn; auto; try lia. apply IH. lia.
        - unfold passes. rewrite Hk. exists i. auto. }
    eapply changes_trans; [exact E|].
    destruct (place_of f2 d) as [[c|q]|] eqn:Ep; [| |easy].
    + destruct (share m None w2) as [w3 q]. apply after_gives in G.
      destruct G as [<- |(w4 & v & _ & G)]; [apply changes_refl|].
      destruct (read m q w4) as [x|]; [|easy]. cbn in G. subst f1.
      destruct (place_cell _ _ _ Ep) as (r & y & -> & Er & Ec). apply changes_one.
      eapply ch_write; eauto. unfold writes_at. now rewrite Hk.
    + apply after_gives in G. destruct G as [<- |(w4 & v & _ & G)]; [apply changes_refl|].
      cbn in G. subst. apply changes_refl.
  - easy.
  - unfold step_other in G.
    destruct (pass_operands m (op_kind o) 0 (op_operands o) f w) as [[[vs f2] w2]|] eqn:E; [|easy].
    apply pass_changes_all in E; [|intros i; unfold passes; now rewrite Hk].
    eapply changes_trans; [exact E|].
    apply after_gives in G. destruct G as [<- |(w3 & v & _ & G)]; [apply changes_refl|].
    cbn in G. subst f1. apply result_changes.
    + intros b' E'. destruct v as [[v|v]|]; inversion E'; subst; discriminate.
    + rewrite Hk. discriminate.
Qed.

(** The operation of a terminator. *)
Definition term_operation (t : terminator) : operation :=
  match t with
  | TInvoke o _ _ => o
  | TYield p _ => Op KYield [p] None
  | _ => Op KYield [] None
  end.

Lemma leave_changes : forall t f w b f1 w1, leave m t f w = XGo b f1 w1 ->
  changes (term_operation t) f f1 /\ In b (successors t).
Proof.
  intros t f w b f1 w1 E. destruct t as [b0|c b0 b0'|o b0 b0'|p b0| | |]; cbn in E |- *; try discriminate.
  - inversion E; subst. split; auto. apply changes_refl.
  - destruct (inspect m f w c) as [[[[|]|v]|]|]; inversion E; subst; split; auto; apply changes_refl.
  - destruct (step m o f w) as [f2 w2|f2 w2|w2| |] eqn:Es; inversion E; subst; split; auto;
      apply (step_changes o f w); rewrite Es; reflexivity.
  - destruct (pass_operand m KYield 0 p f w) as [[[v f2] w2]|] eqn:Ep; [|discriminate].
    destruct (exec m KYield [v] w2); inversion E; subst. split; auto.
    eapply (pass_changes1 (Op KYield [p] None) KYield 0 0); [reflexivity|exact I|exact Ep].
Qed.
End Change.

(** ** Registers that are not used *)
Section Agree.
Context {other world : Type}.
Variable m : machine other world.
Variable D : nat -> Prop.

Record agree (f f' : frame other) : Prop := {
  a_args : args f' = args f;
  a_cells : cells f' = cells f;
  a_stack : stack f' = stack f;
  a_next : next f' = next f;
  a_regs : forall r, ~ D r -> regs f' r = regs f r }.

Definition unused (x : operand) : Prop := forall r, x = OReg r -> ~ D r.

Lemma agree_refl : forall f, agree f f.
Proof. intros. constructor; auto. Qed.

Lemma agree_set_reg : forall r b f f', agree f f' -> agree (set_reg r b f) (set_reg r b f').
Proof.
  intros r b f f' [A C S N R]. constructor; cbn; auto. intros x Hx.
  destruct (Nat.eq_dec x r) as [-> |Hn]; [now rewrite !upd_same|rewrite !upd_other; auto].
Qed.

Lemma agree_set_cell : forall c x f f', agree f f' -> agree (set_cell c x f) (set_cell c x f').
Proof. intros c x f f' [A C S N R]. constructor; cbn; auto. now rewrite C. Qed.

Lemma agree_bind : forall r b f f', agree f f' -> agree (bind r b f) (bind r b f').
Proof. intros [r|] [b|] f f' H; cbn; auto. now apply agree_set_reg. Qed.

Lemma agree_restore : forall h f f', agree f f' -> agree (restore h f) (restore h f').
Proof. intros h f f' [A C S N R]. unfold restore. constructor; cbn; auto; now rewrite ?C, ?S. Qed.

Lemma agree_allocate : forall r f f', agree f f' -> agree (allocate r f) (allocate r f').
Proof.
  intros r f f' [A C S N R]. unfold allocate. rewrite N. apply agree_bind.
  constructor; cbn; auto; now rewrite ?C, ?S, ?N.
Qed.

Definition same (a a' : outcome other world) : Prop :=
  match a with
  | RDone f w => exists f', a' = RDone f' w /\ agree f f'
  | RError f w => exists f', a' = RError f' w /\ agree f f'
  | RStopped w => a' = RStopped w
  | RPanic => a' = RPanic
  | RDiverge => a' = RDiverge
  end.

Definition same_passed {A : Type} (a a' : option (A * frame other * world)) : Prop :=
  match a with
  | Some (v, f, w) => exists f', a' = Some (v, f', w) /\ agree f f'
  | None => a' = None
  end.

Lemma share_agree : forall c f f' w, agree f f' ->
  same_passed (share_cell m c f w) (share_cell m c f' w).
Proof.
  intros c f f' w H. unfold share_cell. rewrite (a_cells _ _ H).
  destruct (cells f c) as [x|q|]; cbn; auto.
  - destruct (share m x w) as [w1 q]. cbn. eexists. split; [reflexivity|]. now apply agree_set_cell.
  - eauto.
Qed.

Lemma pass_agree1 : forall k i x f f' w, unused x -> agree f f' ->
  same_passed (pass_operand m k i x f w) (pass_operand m k i x f' w).
Proof.
  intros k i x f f' w Hu H. destruct x as [l|l|n|n|r]; cbn; eauto.
  - rewrite (a_args _ _ H). destruct (args f n); cbn; eauto.
  - rewrite (a_regs _ _ H r) by now apply Hu.
    destruct (regs f r) as [[v|q|c|h v|]|]; cbn; auto.
    + eexists. split; [reflexivity|].
      destruct (takes m k i && negb (copyable m v)); auto. now apply agree_set_reg.
    + eauto.
    + now apply share_agree.
Qed.

Lemma pass_agree : forall k os i f f' w, Forall unused os -> agree f f' ->
  same_passed (pass_operands m k i os f w) (pass_operands m k i os f' w).
Proof.
  intros k. induction os as [|x os IH]; intros i f f' w Hu H; cbn; eauto.
  inversion Hu; subst. pose proof (pass_agree1 k i x f f' w H2 H) as P.
  destruct (pass_operand m k i x f w) as [[[v f1] w1]|]; cbn in P.
  - destruct P as (f1' & -> & H1). specialize (IH (S i) f1 f1' w1 H3 H1).
    destruct (pass_operands m k (S i) os f1 w1) as [[[vs f2] w2]|]; cbn in IH.
    + destruct IH as (f2' & -> & H4). cbn. eauto.
    + rewrite IH. reflexivity.
  - rewrite P. reflexivity.
Qed.

Lemma place_agree : forall x f f', unused x -> agree f f' -> place_of f' x = place_of f x.
Proof.
  intros x f f' Hu H. destruct x as [l|l|n|n|r]; cbn; auto.
  - now rewrite (a_args _ _ H).
  - rewrite (a_regs _ _ H r) by now apply Hu. now rewrite (a_cells _ _ H).
Qed.

Lemma content_agree : forall q f f' w, agree f f' -> content_of m q f' w = content_of m q f w.
Proof. intros [c|v] f f' w H; cbn; auto. now rewrite (a_cells _ _ H). Qed.

Lemma write_agree : forall q x f f' w, agree f f' ->
  same (write_place m q x f w) (write_place m q x f' w).
Proof.
  intros [c|v] x f f' w H; cbn.
  - eexists. split; [reflexivity|]. now apply agree_set_cell.
  - destruct (write m v x w); cbn; eauto.
Qed.

Lemma inspect_agree : forall x f f' w, unused x -> agree f f' -> inspect m f' w x = inspect m f w x.
Proof.
  intros x f f' w Hu H. destruct x as [l|l|n|n|r]; cbn; auto.
  - now rewrite (a_args _ _ H).
  - rewrite (a_regs _ _ H r) by now apply Hu. now rewrite (a_cells _ _ H).
Qed.

Lemma stored_agree : forall x f f' w, unused x -> agree f f' ->
  same_passed (stored_value m x f w) (stored_value m x f' w).
Proof.
  intros x f f' w Hu H. destruct x as [l|l|n|n|r]; cbn; eauto.
  - rewrite (a_args _ _ H). destruct (args f n); cbn; eauto.
  - rewrite (a_regs _ _ H r) by now apply Hu.
    destruct (regs f r) as [[v|q|c|h v|]|]; cbn; auto.
    + eexists. split; [reflexivity|]. destruct (copyable m v); auto. now apply agree_set_reg.
    + eauto.
    + now apply share_agree.
Qed.

Lemma after_agree : forall e k k' f f', agree f f' -> (forall w v, same (k w v) (k' w v)) ->
  same (after e k f) (after e k' f').
Proof. intros e k k' f f' H Hk. destruct e; cbn; eauto. Qed.

Lemma step_agree : forall o f f' w, Forall unused (op_operands o) -> agree f f' ->
  same (step m o f w) (step m o f' w).
Proof.
  intros o f f' w Hu H. unfold step. destruct (op_kind o) eqn:Hk.
  - pose proof (pass_agree (KAlloca ty) (op_operands o) 0 f f' w Hu H) as P.
    destruct (pass_operands m (KAlloca ty) 0 (op_operands o) f w) as [[[vs f1] w1]|]; cbn in P;
      [destruct P as (f1' & -> & H1)|now rewrite P].
    apply after_agree; auto. intros w2 v. cbn. eexists. split; [reflexivity|].
    now apply agree_allocate.
  - destruct (op_operands o); [|reflexivity]. apply after_agree; auto. intros w2 [[v|v]|]; cbn; auto.
    eexists. split; [reflexivity|]. rewrite (a_stack _ _ H). now apply agree_bind.
  - destruct (op_operands o) as [|[l|l|n|n|r] [|]]; try reflexivity.
    inversion Hu; subst. rewrite (a_regs _ _ H r) by now apply H2.
    destruct (regs f r) as [[v|q|c|h v|]|]; try reflexivity. apply after_agree; auto.
    intros w2 v0. cbn. eexists. split; [reflexivity|]. now apply agree_restore.
  - destruct (op_operands o) as [|s [|]]; try reflexivity. inversion Hu; subst.
    rewrite (place_agree _ _ _ H2 H). destruct (place_of f s); [|reflexivity].
    rewrite (content_agree _ _ _ w H). destruct (content_of m p f w) as [[v|]|]; try reflexivity.
    destruct (copyable m v); [|reflexivity]. cbn. eexists. split; [reflexivity|]. now apply agree_bind.
  - destruct (op_operands o) as [|v [|d [|]]]; try reflexivity. inversion Hu; subst.
    inversion H3; subst. pose proof (stored_agree v f f' w H2 H) as P.
    destruct (stored_value m v f w) as [[[x f1] w1]|]; cbn in P;
      [destruct P as (f1' & -> & H1)|now rewrite P].
    rewrite (place_agree _ _ _ H4 H1). destruct (place_of f1 d); [|reflexivity]. now apply write_agree.
  - destruct (op_operands o) as [|s [|d [|]]]; try reflexivity. inversion Hu; subst.
    inversion H3; subst. rewrite (place_agree _ _ _ H2 H), (place_agree _ _ _ H4 H).
    destruct (place_of f s); [|reflexivity]. destruct (place_of f d); [|reflexivity].
    rewrite (content_agree _ _ _ w H). destruct (content_of m p f w) as [[v|]|]; try reflexivity.
    destruct (copyable m v); [|reflexivity]. now apply write_agree.
  - destruct (op_operands o) as [|s [|d rest]]; try reflexivity. inversion Hu; subst.
    inversion H3; subst. rewrite (place_agree _ _ _ H2 H), (place_agree _ _ _ H4 H).
    destruct (place_of f s); [|reflexivity]. destruct (place_of f d); [|reflexivity].
    rewrite (content_agree _ _ _ w H). destruct (content_of m p f w) as [x|]; [|reflexivity].
    pose proof (write_agree p None f f' w H) as P.
    destruct (write_place m p None f w) as [f1 w1|f1 w1|w1| |]; cbn in P.
    + destruct P as (f1' & -> & H1). now apply write_agree.
    + destruct P as (f1' & -> & H1). cbn. eauto.
    + rewrite P. reflexivity.
    + rewrite P. reflexivity.
    + rewrite P. reflexivity.
  - destruct (op_operands o) as [|s [|[l|l|n|n|r] [|]]]; try reflexivity. inversion Hu; subst.
    rewrite (inspect_agree _ _ _ w H2 H). destruct (inspect m f w s) as [[v|]|]; try reflexivity.
    destruct (compare m l v); [|reflexivity]. cbn. eexists. split; [reflexivity|]. now apply agree_bind.
  - unfold step_call. destruct (call_result_operand_index (op_operands o) visible) as [i|]; [|reflexivity].
    destruct (nth_error (op_operands o) i) as [d|] eqn:Ed; [|reflexivity].
    assert (Hf : Forall unused (firstn i (op_operands o))).
    { apply Forall_forall. intros x Hx. rewrite Forall_forall in Hu. apply Hu.
      rewrite <- (firstn_skipn i). apply in_or_app. now left. }
    assert (Hd : unused d).
    { rewrite Forall_forall in Hu. apply Hu. eapply nth_error_In; eauto. }
    pose proof (pass_agree (op_kind o) _ 0 f f' w Hf H) as P. rewrite Hk in P |- *.
    destruct (pass_operands m (KCall visible id) 0 (firstn i (op_operands o)) f w) as [[[vs f1] w1]|]; cbn in P;
      [destruct P as (f1' & -> & H1)|now rewrite P].
    rewrite (place_agree _ _ _ Hd H1). destruct (place_of f1 d) as [[c|q]|]; [| |reflexivity].
    + destruct (share m None w1) as [w2 q]. apply after_agree; auto. intros w3 v.
      destruct (read m q w3) as [x|]; [|reflexivity]. cbn. eexists. split; [reflexivity|].
      now apply agree_set_cell.
    + apply after_agree; auto. intros w3 v. cbn. eauto.
  - reflexivity.
  - unfold step_other. rewrite Hk.
    pose proof (pass_agree (KOther owned id) (op_operands o) 0 f f' w Hu H) as P.
    destruct (pass_operands m (KOther owned id) 0 (op_operands o) f w) as [[[vs f1] w1]|]; cbn in P;
      [destruct P as (f1' & -> & H1)|now rewrite P].
    apply after_agree; auto. intros w2 v. cbn. eexists. split; [reflexivity|]. now apply agree_bind.
Qed.

Lemma steps_agree : forall os f f' w,
  (forall o, In o os -> Forall unused (op_operands o)) -> agree f f' ->
  same (steps m os f w) (steps m os f' w).
Proof.
  induction os as [|o os IH]; intros f f' w Hu H; cbn; eauto.
  pose proof (step_agree o f f' w (Hu o (or_introl eq_refl)) H) as P.
  destruct (step m o f w) as [f1 w1|f1 w1|w1| |]; cbn in P.
  - destruct P as (f1' & -> & H1). apply IH; auto. intros x Hx. apply Hu. now right.
  - destruct P as (f1' & -> & H1). cbn. eauto.
  - rewrite P. reflexivity.
  - rewrite P. reflexivity.
  - rewrite P. reflexivity.
Qed.

Definition same_exit (a a' : exit (other := other) (world := world)) : Prop :=
  match a with
  | XGo b f w => exists f', a' = XGo b f' w /\ agree f f'
  | XEnd x => a' = XEnd x
  end.

Lemma leave_agree : forall t f f' w, Forall unused (term_operands t) -> agree f f' ->
  same_exit (leave m t f w) (leave m t f' w).
Proof.
  intros t f f' w Hu H. destruct t as [b|c b b'|o b b'|p b| | |]; cbn; eauto.
  - inversion Hu; subst. rewrite (inspect_agree _ _ _ w H2 H).
    destruct (inspect m f w c) as [[[[|]|v]|]|]; cbn; eauto.
  - pose proof (step_agree o f f' w Hu H) as P.
    destruct (step m o f w) as [f1 w1|f1 w1|w1| |]; cbn in P.
    + destruct P as (f1' & -> & H1). cbn. eauto.
    + destruct P as (f1' & -> & H1). cbn. eauto.
    + rewrite P. reflexivity.
    + rewrite P. reflexivity.
    + rewrite P. reflexivity.
  - inversion Hu; subst. pose proof (pass_agree1 KYield 0 p f f' w H2 H) as P.
    destruct (pass_operand m KYield 0 p f w) as [[[v f1] w1]|]; cbn in P;
      [destruct P as (f1' & -> & H1)|now rewrite P].
    destruct (exec m KYield [v] w1); cbn; eauto.
Qed.
End Agree.
