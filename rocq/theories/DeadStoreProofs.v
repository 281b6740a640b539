(** Proofs about DeadStoreModel. *)
From Coq Require Import List Arith Bool Lia.
From Verif Require Import FrameModel FrameSpec DeadStoreModel.
Import ListNotations.

Lemma mem_In : forall r l, mem r l = true <-> In r l.
Proof.
  intros r l. unfold mem. rewrite existsb_exists. split.
  - intros (x & Hx & E). apply Nat.eqb_eq in E. now subst.
  - intros H. exists r. split; auto. apply Nat.eqb_refl.
Qed.

Lemma mem_not_In : forall r l, mem r l = false <-> ~ In r l.
Proof.
  intros r l. rewrite <- mem_In. destruct (mem r l); split; intros; congruence.
Qed.

Lemma upd_eq : forall A (f : nat -> A) k v, upd f k v k = v.
Proof. intros. unfold upd. now rewrite Nat.eqb_refl. Qed.

Lemma upd_neq : forall A (f : nat -> A) k v x, x <> k -> upd f k v x = f x.
Proof. intros. unfold upd. destruct (Nat.eqb_spec x k); congruence. Qed.

(** ** Definitions *)
Definition results_of (os : list operation) : list nat :=
  flat_map (fun o => match op_result o with Some r => [r] | None => [] end) os.

Lemma defined_once : forall os o o' r,
  NoDup (results_of os) -> In o os -> In o' os ->
  op_result o = Some r -> op_result o' = Some r -> o = o'.
Proof.
  induction os as [|o1 os IH]; intros o o' r H Ho Ho' E E'; [easy|].
  cbn in H.
  assert (Hin : forall x, In x os -> op_result x = Some r -> In r (results_of os)).
  { intros x Hx Ex. apply in_flat_map. exists x. split; auto. rewrite Ex. now left. }
  destruct Ho as [-> |Ho], Ho' as [-> |Ho']; auto.
  - rewrite E in H. inversion H; subst. exfalso. eauto.
  - rewrite E' in H. inversion H; subst. exfalso. eauto.
  - apply (IH o o' r); auto. destruct (op_result o1); cbn in H; auto. now inversion H.
Qed.

(** ** The simulation *)
Section Simulation.
Context {other world : Type}.
Variable m : machine other world.
Variable p : body.
Variables cands consuming : list nat.

Hypothesis Hsingle : single_definitions p.
Hypothesis Haddr : no_address_in_cell p.
Hypothesis Hcands : forall r, In r cands ->
  exists o ty, In o (flat_map operations p) /\ op_kind o = KAlloca ty /\ op_result o = Some r.
Hypothesis Hexcl : forall r, In r cands -> ~ In r (excluded p).

Record good (f : frame other) : Prop := {
  g_owner : forall r c, In r cands -> regs f r = Some (BCell c) ->
    (forall q, cells f c <> CShared q) /\ forall r', regs f r' = Some (BCell c) -> r' = r;
  g_cand : forall r b, In r cands -> regs f r = Some b -> exists c, b = BCell c;
  g_reg : forall r c, regs f r = Some (BCell c) -> c < next f /\ is_cell_register p r }.

Record related (live : list nat) (f f' : frame other) : Prop := {
  r_good : good f;
  r_args : args f = args f';
  r_stack : stack f = stack f';
  r_next : next f = next f';
  r_regs : forall r, regs f r = regs f' r \/
    (regs f r = Some BMoved /\ exists v, regs f' r = Some (BVal v));
  r_cells : forall c, cells f c = cells f' c \/
    exists x x', cells f c = CLocal x /\ cells f' c = CLocal x' /\
      forall r, regs f r = Some (BCell c) -> In r cands /\ ~ In r live }.

Lemma related_incl : forall live live' f f',
  incl live' live -> related live f f' -> related live' f f'.
Proof.
  intros live live' f f' Hi [G A S N Rr Rc]. constructor; auto.
  intros c. destruct (Rc c) as [E|(x & x' & E & E' & H)]; [now left|right].
  exists x, x'. split; [auto|split; [auto|]]. intros r HH. destruct (H r HH). split; auto.
Qed.

Lemma reg_val : forall live f f' r v, related live f f' ->
  regs f r = Some (BVal v) -> regs f' r = Some (BVal v).
Proof. intros live f f' r v R E. destruct (r_regs _ _ _ R r) as [H|(H & _)]; congruence. Qed.

Lemma reg_place : forall live f f' r v, related live f f' ->
  regs f r = Some (BPlace v) -> regs f' r = Some (BPlace v).
Proof. intros live f f' r v R E. destruct (r_regs _ _ _ R r) as [H|(H & _)]; congruence. Qed.

Lemma reg_cell : forall live f f' r c, related live f f' ->
  regs f r = Some (BCell c) -> regs f' r = Some (BCell c).
Proof. intros live f f' r v R E. destruct (r_regs _ _ _ R r) as [H|(H & _)]; congruence. Qed.

Lemma reg_mark : forall live f f' r h v, related live f f' ->
  regs f r = Some (BMark h v) -> regs f' r = Some (BMark h v).
Proof. intros live f f' r h v R E. destruct (r_regs _ _ _ R r) as [H|(H & _)]; congruence. Qed.

(** A cell held by another register than a dead candidate is the same. *)
Lemma cell_same : forall live f f' r c, related live f f' ->
  regs f r = Some (BCell c) -> (In r cands -> In r live) -> cells f c = cells f' c.
Proof.
  intros live f f' r c R E H. destruct (r_cells _ _ _ R c) as [|(x & x' & _ & _ & Hd)]; auto.
  destruct (Hd r E). tauto.
Qed.

(** Setting a register that is no candidate to something that is no cell. *)
Lemma good_set_reg : forall f r b, good f -> ~ In r cands -> (forall c, b <> BCell c) ->
  good (set_reg r b f).
Proof.
  intros f r b [G1 G2 G3] Hr Hb. constructor; cbn.
  - intros r0 c H0 E. rewrite upd_neq in E by congruence. destruct (G1 r0 c H0 E) as [A B].
    split; auto. intros r' E'. destruct (Nat.eq_dec r' r) as [-> |Hn].
    + rewrite upd_eq in E'. exfalso. now apply (Hb c); inversion E'.
    + rewrite upd_neq in E' by auto. auto.
  - intros r0 b0 H0 E. rewrite upd_neq in E by congruence. eauto.
  - intros r0 c E. destruct (Nat.eq_dec r0 r) as [-> |Hn].
    + rewrite upd_eq in E. exfalso. now apply (Hb c); inversion E.
    + rewrite upd_neq in E by auto. auto.
Qed.

Lemma related_set_reg : forall live f f' r b, related live f f' -> ~ In r cands ->
  (forall c, b <> BCell c) -> related live (set_reg r b f) (set_reg r b f').
Proof.
  intros live f f' r b [G A S N Rr Rc] Hr Hb. constructor; cbn; auto.
  - now apply good_set_reg.
  - intros r0. destruct (Nat.eq_dec r0 r) as [-> |Hn].
    + rewrite !upd_eq. now left.
    + rewrite !upd_neq by auto. apply Rr.
  - intros c. destruct (Rc c) as [E|(x & x' & E & E' & H)]; [now left|right].
    exists x, x'. split; [auto|split; [auto|]]. intros r0 E0.
    destruct (Nat.eq_dec r0 r) as [-> |Hn].
    + rewrite upd_eq in E0. exfalso. now apply (Hb c); inversion E0.
    + rewrite upd_neq in E0 by auto. auto.
Qed.

(** Only the source consumes. *)
Lemma related_moved : forall live f f' r v, related live f f' ->
  regs f r = Some (BVal v) -> related live (set_reg r BMoved f) f'.
Proof.
  intros live f f' r v R E. pose proof (reg_val _ _ _ _ _ R E) as E'.
  assert (Hr : ~ In r cands).
  { intros H. destruct (g_cand _ (r_good _ _ _ R) r _ H E). discriminate. }
  destruct R as [G A S N Rr Rc]. constructor; cbn; auto.
  - now apply good_set_reg.
  - intros r0. destruct (Nat.eq_dec r0 r) as [-> |Hn].
    + rewrite upd_eq. right. eauto.
    + rewrite upd_neq by auto. apply Rr.
  - intros c. destruct (Rc c) as [Ec|(x & x' & Ec & Ec' & H)]; [now left|right].
    exists x, x'. split; [auto|split; [auto|]]. intros r0 E0.
    destruct (Nat.eq_dec r0 r) as [-> |Hn].
    + rewrite upd_eq in E0. discriminate.
    + rewrite upd_neq in E0 by auto. auto.
Qed.

(** The same write to a cell on both sides, for one more live register. *)
Lemma related_set_cell : forall live f f' r c x, related live f f' ->
  regs f r = Some (BCell c) ->
  related (r :: live) (set_cell c (CLocal x) f) (set_cell c (CLocal x) f').
Proof.
  intros live f f' r c x [G A S N Rr Rc] E. destruct G as [G1 G2 G3].
  constructor; cbn; auto.
  - constructor; cbn.
    + intros r0 c0 H0 E0. destruct (G1 r0 c0 H0 E0) as [B1 B2]. split; auto.
      intros q. destruct (Nat.eq_dec c0 c) as [-> |Hn].
      * rewrite upd_eq. discriminate.
      * rewrite upd_neq by auto. auto.
    + eauto.
    + auto.
  - intros c0. destruct (Nat.eq_dec c0 c) as [-> |Hn].
    + rewrite !upd_eq. now left.
    + rewrite !upd_neq by auto. destruct (Rc c0) as [Ec|(y & y' & Ec & Ec' & H)]; [now left|right].
      exists y, y'. split; [auto|split; [auto|]]. intros r0 E0. destruct (H r0 E0) as [H1 H2].
      split; auto. intros [-> |H3]; auto. rewrite E in E0. congruence.
Qed.

(** A cell of another register than a candidate becomes shared. *)
Lemma related_share : forall live f f' r c q, related live f f' ->
  regs f r = Some (BCell c) -> ~ In r cands ->
  related live (set_cell c (CShared q) f) (set_cell c (CShared q) f').
Proof.
  intros live f f' r c q [G A S N Rr Rc] E Hr. destruct G as [G1 G2 G3].
  constructor; cbn; auto.
  - constructor; cbn.
    + intros r0 c0 H0 E0. destruct (G1 r0 c0 H0 E0) as [B1 B2]. split; auto.
      intros q0. destruct (Nat.eq_dec c0 c) as [-> |Hn].
      * exfalso. apply Hr. rewrite (B2 r E). exact H0.
      * rewrite upd_neq by auto. auto.
    + eauto.
    + auto.
  - intros c0. destruct (Nat.eq_dec c0 c) as [-> |Hn].
    + rewrite !upd_eq. now left.
    + rewrite !upd_neq by auto. destruct (Rc c0) as [Ec|(y & y' & Ec & Ec' & H)]; [now left|right].
      exists y, y'. auto.
Qed.

Lemma related_allocate : forall live f f' o, related live f f' ->
  In o (body_operations p) -> (exists ty, op_kind o = KAlloca ty) ->
  related live (allocate (op_result o) f) (allocate (op_result o) f').
Proof.
  intros live f f' o R Ho (ty & Hk).
  destruct R as [G A S N Rr Rc]. destruct G as [G1 G2 G3].
  unfold allocate, bind. rewrite <- N, <- S, <- A.
  assert (Hcell : forall c, upd (cells f) (next f) (CLocal None) c
      = upd (cells f') (next f) (CLocal None) c \/
    exists x x', upd (cells f) (next f) (CLocal None) c = CLocal x /\
      upd (cells f') (next f) (CLocal None) c = CLocal x' /\ c <> next f /\
      forall r, regs f r = Some (BCell c) -> In r cands /\ ~ In r live).
  { intros c. destruct (Nat.eq_dec c (next f)) as [-> |Hn].
    - rewrite !upd_eq. now left.
    - rewrite !upd_neq by auto. destruct (Rc c) as [|(x & x' & ? & ? & ?)]; [now left|right].
      exists x, x'. auto. }
  destruct (op_result o) as [r|] eqn:Er; constructor; cbn; auto.
  - constructor; cbn.
    + intros r0 c0 H0 E0. destruct (Nat.eq_dec r0 r) as [-> |Hn].
      * rewrite upd_eq in E0. inversion E0; subst c0. rewrite upd_eq. split; [discriminate|].
        intros r' E'. destruct (Nat.eq_dec r' r) as [-> |Hn']; auto.
        rewrite upd_neq in E' by auto. apply G3 in E'. lia.
      * rewrite upd_neq in E0 by auto. destruct (G1 r0 c0 H0 E0) as [B1 B2].
        apply G3 in E0. split.
        -- rewrite upd_neq by lia. auto.
        -- intros r' E'. destruct (Nat.eq_dec r' r) as [-> |Hn'].
           ++ rewrite upd_eq in E'. inversion E'. lia.
           ++ rewrite upd_neq in E' by auto. auto.
    + intros r0 b0 H0 E0. destruct (Nat.eq_dec r0 r) as [-> |Hn].
      * rewrite upd_eq in E0. inversion E0. eauto.
      * rewrite upd_neq in E0 by auto. eauto.
    + intros r0 c0 E0. destruct (Nat.eq_dec r0 r) as [-> |Hn].
      * rewrite upd_eq in E0. inversion E0. split; [lia|]. exists o, ty. auto.
      * rewrite upd_neq in E0 by auto. apply G3 in E0. split; [lia|tauto].
  - intros r0. destruct (Nat.eq_dec r0 r) as [-> |Hn].
    + rewrite !upd_eq. now left.
    + rewrite !upd_neq by auto. auto.
  - intros c. destruct (Hcell c) as [|(x & x' & ? & ? & ? & H)]; [now left|right].
    exists x, x'. split; [auto|split; [auto|]]. intros r0 E0.
    destruct (Nat.eq_dec r0 r) as [-> |Hn].
    + rewrite upd_eq in E0. inversion E0. congruence.
    + rewrite upd_neq in E0 by auto. auto.
  - constructor; cbn.
    + intros r0 c0 H0 E0. destruct (G1 r0 c0 H0 E0) as [B1 B2].
      apply G3 in E0. split; auto. rewrite upd_neq by lia. auto.
    + eauto.
    + intros r0 c0 E0. apply G3 in E0. split; [lia|tauto].
  - intros c. destruct (Hcell c) as [|(x & x' & ? & ? & ? & H)]; [now left|right].
    exists x, x'. auto.
Qed.

Lemma related_restore : forall live f f' h, related live f f' ->
  related live (restore h f) (restore h f').
Proof.
  intros live f f' h [G A S N Rr Rc]. destruct G as [G1 G2 G3].
  unfold restore. rewrite <- S, <- A, <- N. constructor; cbn; auto.
  - constructor; cbn; auto. intros r c H E. destruct (G1 r c H E) as [B1 B2]. split; auto.
    intros q. destruct (existsb _ _); [discriminate|auto].
  - intros c. destruct (existsb _ _); [now left|].
    destruct (Rc c) as [|(x & x' & ? & ? & ?)]; [now left|right]. exists x, x'. auto.
Qed.

(** *** Operands *)
Definition avoids (o : operand) : Prop := forall r, o = OReg r -> ~ In r cands.

Lemma pass_operand_related : forall live k i o f f' w v f1 w1,
  avoids o -> related live f f' -> pass_operand m k i o f w = Some (v, f1, w1) ->
  exists f1', pass_operand m k i o f' w = Some (v, f1', w1) /\ related live f1 f1'.
Proof.
  intros live k i o f f' w v f1 w1 Ho R E. destruct o as [l|l|n|n|r]; cbn in E |- *.
  - inversion E; subst. eauto.
  - inversion E; subst. eauto.
  - inversion E; subst. eauto.
  - rewrite <- (r_args _ _ _ R). destruct (args f n); inversion E; subst. cbn. eauto.
  - specialize (Ho r eq_refl). destruct (regs f r) as [[v0|q0|c|h v0|]|] eqn:Er; try discriminate.
    + rewrite (reg_val _ _ _ _ _ R Er). inversion E; subst.
      destruct (takes m k i && negb (copyable m v)); eexists; split; eauto.
      apply related_set_reg; auto. discriminate.
    + rewrite (reg_place _ _ _ _ _ R Er). inversion E; subst. eauto.
    + rewrite (reg_cell _ _ _ _ _ R Er). unfold share_cell in *.
      rewrite <- (cell_same _ _ _ _ _ R Er) by tauto.
      destruct (cells f c) as [x|q|] eqn:Ec; try discriminate.
      * destruct (share m x w) as [w0 q]. inversion E; subst. eexists. split; eauto.
        eapply related_share; eauto.
      * inversion E; subst. eauto.
Qed.

Lemma pass_operands_related : forall live k os i f f' w vs f1 w1,
  Forall avoids os -> related live f f' -> pass_operands m k i os f w = Some (vs, f1, w1) ->
  exists f1', pass_operands m k i os f' w = Some (vs, f1', w1) /\ related live f1 f1'.
Proof.
  intros live k. induction os as [|o os IH]; intros i f f' w vs f1 w1 Ho R E; cbn in E |- *.
  - inversion E; subst. eauto.
  - inversion Ho; subst.
    destruct (pass_operand m k i o f w) as [[[v f2] w2]|] eqn:E1; [|discriminate].
    destruct (pass_operand_related _ _ _ _ _ _ _ _ _ _ H1 R E1) as (f2' & E1' & R2).
    rewrite E1'.
    destruct (pass_operands m k (S i) os f2 w2) as [[[vs' f3] w3]|] eqn:E2; [|discriminate].
    destruct (IH _ _ _ _ _ _ _ H2 R2 E2) as (f3' & E2' & R3). rewrite E2'.
    inversion E; subst. eauto.
Qed.

Lemma place_of_related : forall live f f' o q, related live f f' ->
  place_of f o = Some q -> place_of f' o = Some q.
Proof.
  intros live f f' o q R E. destruct o as [l|l|n|n|r]; cbn in E |- *; try discriminate.
  - now rewrite <- (r_args _ _ _ R).
  - destruct (regs f r) as [[v0|q0|c|h v0|]|] eqn:Er; try discriminate.
    + now rewrite (reg_val _ _ _ _ _ R Er).
    + now rewrite (reg_place _ _ _ _ _ R Er).
    + rewrite (reg_cell _ _ _ _ _ R Er).
      destruct (r_cells _ _ _ R c) as [Ec|(x & x' & Ec & Ec' & _)].
      * now rewrite <- Ec.
      * rewrite Ec in E. now rewrite Ec'.
Qed.

(** The local place of an operand is a register's cell. *)
Lemma place_local : forall f o c, place_of (other := other) f o = Some (PLocal c) ->
  exists r x, o = OReg r /\ regs f r = Some (BCell c) /\ cells f c = CLocal x.
Proof.
  intros f o c E. destruct o as [l|l|n|n|r]; cbn in E; try discriminate.
  - destruct (args f n); discriminate.
  - destruct (regs f r) as [[v0|q0|c0|h v0|]|] eqn:Er; try discriminate.
    destruct (cells f c0) as [x|q|] eqn:Ec; try discriminate.
    inversion E; subst. eauto.
Qed.

Lemma content_related : forall live f f' o q w x, related live f f' ->
  (forall r, o = OReg r -> In r cands -> In r live) ->
  place_of f o = Some q -> content_of m q f w = Some x -> content_of m q f' w = Some x.
Proof.
  intros live f f' o q w x R Ho E Ex. destruct q as [c|v]; cbn in *; auto.
  destruct (place_local _ _ _ E) as (r & y & -> & Er & Ec).
  rewrite <- (cell_same _ _ _ _ _ R Er) by auto. exact Ex.
Qed.

Lemma inspect_related : forall live f f' o w x, related live f f' -> avoids o ->
  inspect m f w o = Some x -> inspect m f' w o = Some x.
Proof.
  intros live f f' o w x R Ho E. destruct o as [l|l|n|n|r]; cbn in E |- *; auto.
  - now rewrite <- (r_args _ _ _ R).
  - specialize (Ho r eq_refl). destruct (regs f r) as [[v0|q0|c|h v0|]|] eqn:Er; try discriminate.
    + now rewrite (reg_val _ _ _ _ _ R Er).
    + now rewrite (reg_place _ _ _ _ _ R Er).
    + rewrite (reg_cell _ _ _ _ _ R Er).
      now rewrite <- (cell_same _ _ _ _ _ R Er) by tauto.
Qed.

Lemma stored_value_related : forall live f f' o w v f1 w1, related live f f' -> avoids o ->
  stored_value m o f w = Some (v, f1, w1) ->
  exists f1', stored_value m o f' w = Some (v, f1', w1) /\ related live f1 f1'.
Proof.
  intros live f f' o w v f1 w1 R Ho E. destruct o as [l|l|n|n|r]; cbn in E |- *.
  - inversion E; subst. eauto.
  - discriminate.
  - inversion E; subst. eauto.
  - rewrite <- (r_args _ _ _ R). destruct (args f n); inversion E; subst. cbn. eauto.
  - specialize (Ho r eq_refl). destruct (regs f r) as [[v0|q0|c|h v0|]|] eqn:Er; try discriminate.
    + rewrite (reg_val _ _ _ _ _ R Er). cbn in *. inversion E; subst.
      destruct (copyable m v); eexists; split; eauto.
      apply related_set_reg; auto. discriminate.
    + rewrite (reg_place _ _ _ _ _ R Er). inversion E; subst. eauto.
    + rewrite (reg_cell _ _ _ _ _ R Er). unfold share_cell in *.
      rewrite <- (cell_same _ _ _ _ _ R Er) by tauto.
      destruct (cells f c) as [x|q|] eqn:Ec; try discriminate.
      * destruct (share m x w) as [w0 q]. inversion E; subst. eexists. split; eauto.
        eapply related_share; eauto.
      * inversion E; subst. eauto.
Qed.

(** Outcomes: nothing is claimed of a panic. *)
Definition same_outcome (live live' : list nat) (a a' : outcome other world) : Prop :=
  match a with
  | RDone f w => exists f', a' = RDone f' w /\ related live f f'
  | RError f w => exists f', a' = RError f' w /\ related live' f f'
  | RStopped w => a' = RStopped w
  | RPanic => True
  | RDiverge => a' = RDiverge
  end.

Lemma write_related : forall live f f' o q x w, related live f f' -> place_of f o = Some q ->
  same_outcome (match o with OReg r => r :: live | _ => live end) live
    (write_place m q x f w) (write_place m q x f' w).
Proof.
  intros live f f' o q x w R E. destruct q as [c|v]; cbn.
  - destruct (place_local _ _ _ E) as (r & y & -> & Er & Ec).
    eexists. split; [reflexivity|]. now apply related_set_cell.
  - assert (Hd : same_outcome (match o with OReg r => r :: live | _ => live end) live
      (match write m v x w with
       | EDone w0 _ => RDone f w0 | EError w0 => RError f w0 | EStopped w0 => RStopped w0
       | EPanic => RPanic | EDiverge => RDiverge end)
      (match write m v x w with
       | EDone w0 _ => RDone f' w0 | EError w0 => RError f' w0 | EStopped w0 => RStopped w0
       | EPanic => RPanic | EDiverge => RDiverge end)); [|exact Hd].
    assert (R' : related (match o with OReg r => r :: live | _ => live end) f f').
    { destruct o as [l|l|n|n|r]; auto. cbn in E.
      destruct (regs f r) as [[v0|q0|c|h v0|]|] eqn:Er; try discriminate.
      - destruct R as [G A S N Rr Rc]. constructor; auto. intros c.
        destruct (Rc c) as [|(y & y' & Ey & Ey' & H)]; [now left|right].
        exists y, y'. split; [auto|split; [auto|]]. intros r0 E0. destruct (H r0 E0) as [H1 H2].
        split; auto. intros [-> |H3]; auto. congruence.
      - destruct R as [G A S N Rr Rc]. constructor; auto. intros c.
        destruct (Rc c) as [|(y & y' & Ey & Ey' & H)]; [now left|right].
        exists y, y'. split; [auto|split; [auto|]]. intros r0 E0. destruct (H r0 E0) as [H1 H2].
        split; auto. intros [-> |H3]; auto. congruence.
      - destruct (cells f c) as [y|q|] eqn:Ec; try discriminate.
        destruct R as [G A S N Rr Rc]. constructor; auto. intros c0.
        destruct (Rc c0) as [|(y & y' & Ey & Ey' & H)]; [now left|right].
        exists y, y'. split; [auto|split; [auto|]]. intros r0 E0. destruct (H r0 E0) as [H1 H2].
        split; auto. intros [-> |H3]; auto. assert (c0 = c) by congruence. congruence. }
    destruct (write m v x w); cbn; eauto.
Qed.

(** *** Positions *)
Definition allowed (o : operation) (i : nat) : bool :=
  match whole_place_write_index o with Some j => j =? i | None => false end
  || is_exact_place_read o i.

Lemma excluded_at_In : forall o os pos j r,
  nth_error os j = Some (OReg r) -> allowed o (pos + j) = false ->
  In r (excluded_at o pos os).
Proof.
  intros o. induction os as [|x os IH]; intros pos j r E A; [destruct j; discriminate|].
  destruct j as [|j]; cbn in E.
  - inversion E; subst. cbn. rewrite Nat.add_0_r in A. unfold allowed in A. rewrite A.
    apply in_or_app. left. now left.
  - rewrite <- Nat.add_succ_comm in A.
    specialize (IH (S pos) j r E A). destruct x; cbn; auto. apply in_or_app. now right.
Qed.

Lemma position_allowed : forall o i r, In o (flat_map operations p) ->
  nth_error (op_operands o) i = Some (OReg r) -> In r cands -> allowed o i = true.
Proof.
  intros o i r Ho E Hr. destruct (allowed o i) eqn:A; auto. exfalso.
  apply (Hexcl r Hr). unfold excluded. apply in_flat_map in Ho. destruct Ho as (b & Hb & Hob).
  apply in_flat_map. exists b. split; auto. apply in_or_app. left.
  apply in_flat_map. exists o. split; auto. now apply (excluded_at_In o _ 0 i).
Qed.

(** What the operations of blocks satisfy, and invoked ones. *)
Definition allows (o : operation) : Prop :=
  forall i r, nth_error (op_operands o) i = Some (OReg r) -> In r cands -> allowed o i = true.

Lemma avoids_position : forall o i x, allows o ->
  nth_error (op_operands o) i = Some x -> allowed o i = false -> avoids x.
Proof.
  intros o i x Ho E A r -> Hr. rewrite (Ho i r E Hr) in A. discriminate.
Qed.

Lemma avoids_all : forall o n, allows o ->
  (forall i, i < n -> allowed o i = false) -> Forall avoids (firstn n (op_operands o)).
Proof.
  intros o n Ho A. apply Forall_forall. intros x Hx.
  apply In_nth_error in Hx. destruct Hx as (i & Hi).
  assert (Hl : i < n).
  { apply Nat.lt_le_trans with (length (firstn n (op_operands o))).
    - apply nth_error_Some. congruence.
    - rewrite firstn_length. lia. }
  apply (avoids_position o i); auto.
  rewrite <- (firstn_skipn n (op_operands o)), nth_error_app1; auto.
  apply nth_error_Some. congruence.
Qed.

Lemma avoids_operands : forall o, allows o ->
  (forall i, allowed o i = false) -> Forall avoids (op_operands o).
Proof.
  intros o Ho A. rewrite <- (firstn_all (op_operands o)). apply avoids_all; auto.
Qed.

Lemma reads_at_In : forall o os pos j r,
  nth_error os j = Some (OReg r) -> is_exact_place_read o (pos + j) = true -> In r cands ->
  In r (reads_at cands o pos os).
Proof.
  intros o. induction os as [|x os IH]; intros pos j r E A Hr; [destruct j; discriminate|].
  destruct j as [|j]; cbn in E.
  - inversion E; subst. cbn. rewrite Nat.add_0_r in A. rewrite A.
    apply mem_In in Hr. rewrite Hr. apply in_or_app. left. now left.
  - rewrite <- Nat.add_succ_comm in A.
    specialize (IH (S pos) j r E A Hr). destruct x; cbn; auto. apply in_or_app. now right.
Qed.

Lemma in_body : forall o, In o (flat_map operations p) -> In o (body_operations p).
Proof.
  intros o Ho. apply in_flat_map in Ho. destruct Ho as (b & Hb & H).
  apply in_flat_map. exists b. split; auto. apply in_or_app. now left.
Qed.

(** A result other than an alloca's is no candidate. *)
Lemma result_avoids : forall o r, In o (body_operations p) -> op_result o = Some r ->
  (forall ty, op_kind o <> KAlloca ty) -> ~ In r cands.
Proof.
  intros o r Ho E Hk Hr. destruct (Hcands r Hr) as (o' & ty & Ho' & Hk' & E').
  apply in_body in Ho'.
  assert (o = o') by (eapply defined_once; eauto; apply Hsingle).
  subst. now apply (Hk ty).
Qed.

Lemma related_bind : forall live f f' o b, related live f f' -> In o (body_operations p) ->
  (forall ty, op_kind o <> KAlloca ty) -> (forall c, b <> Some (BCell c)) ->
  related live (bind (op_result o) b f) (bind (op_result o) b f').
Proof.
  intros live f f' o b R Ho Hk Hb. unfold bind. destruct (op_result o) as [r|] eqn:Er; auto.
  destruct b as [b|]; auto. apply related_set_reg; auto.
  - eapply result_avoids; eauto.
  - intros c ->. now apply (Hb c).
Qed.

Lemma after_related : forall live live' e k k' f f',
  (forall w v, same_outcome live live' (k w v) (k' w v)) -> related live' f f' ->
  same_outcome live live' (after e k f) (after (world := world) e k' f').
Proof. intros live live' e k k' f f' Hk R. destruct e; cbn; eauto. Qed.

Lemma place_of_set_local : forall (f : frame other) c x y o, cells f c = CLocal x ->
  place_of (set_cell c (CLocal y) f) o = place_of f o.
Proof.
  intros f c x y o Ec. destruct o as [l|l|n|n|r]; cbn; auto.
  destruct (regs f r) as [[v0|q0|c0|h v0|]|]; auto.
  destruct (Nat.eq_dec c0 c) as [-> |Hn].
  - now rewrite upd_eq, Ec.
  - now rewrite upd_neq by auto.
Qed.

Lemma same_outcome_incl : forall l l' k k' a a', same_outcome l k a a' -> incl l' l -> incl k' k ->
  same_outcome l' k' a a'.
Proof.
  intros l l' k k' a a' H Hl Hk. destruct a; cbn in *; auto;
    destruct H as (f' & -> & R); exists f'; split; auto; eapply related_incl; eauto.
Qed.

(** The live set after an operation is live before it, but what it writes. *)
Lemma transfer_incl : forall o L r, In r L -> written cands o <> Some r ->
  In r (transfer_operation cands o L).
Proof.
  intros o L r H Hw. unfold transfer_operation. apply in_or_app. right.
  destruct (written cands o) as [r'|]; auto. apply filter_In. split; auto.
  destruct (Nat.eqb_spec r r') as [-> |]; [congruence|reflexivity].
Qed.

Lemma written_incl : forall o L i d, whole_place_write_index o = Some i ->
  nth_error (op_operands o) i = Some d ->
  incl L (match d with OReg r => r :: transfer_operation cands o L
                     | _ => transfer_operation cands o L end).
Proof.
  intros o L i d Ei Ed r Hr.
  assert (Hw : written cands o = match d with OReg r => if mem r cands then Some r else None
                                            | _ => None end).
  { unfold written. now rewrite Ei, Ed. }
  destruct d as [l|l|n|n|r']; try (apply transfer_incl; auto; rewrite Hw; discriminate).
  destruct (Nat.eq_dec r r') as [-> |Hn]; [now left|]. right. apply transfer_incl; auto.
  rewrite Hw. destruct (mem r' cands); congruence.
Qed.

Lemma unwritten_incl : forall o L, whole_place_write_index o = None ->
  incl L (transfer_operation cands o L).
Proof. intros o L E r Hr. apply transfer_incl; auto. unfold written. now rewrite E. Qed.

Lemma call_index_last : forall os visible i, call_result_operand_index os visible = Some i ->
  S i = length os.
Proof.
  intros os visible i E. unfold call_result_operand_index in E.
  destruct (Nat.leb_spec (visible + 2) (length os)); [|discriminate]. inversion E. lia.
Qed.

Lemma step_other_related : forall o L f f' w, In o (body_operations p) ->
  (forall ty, op_kind o <> KAlloca ty) -> Forall avoids (op_operands o) -> related L f f' ->
  same_outcome L L (step_other m o f w) (step_other m o f' w).
Proof.
  intros o L f f' w Ho Hk Ha R. unfold step_other.
  destruct (pass_operands m (op_kind o) 0 (op_operands o) f w) as [[[vs f1] w1]|] eqn:E; [|exact I].
  destruct (pass_operands_related _ _ _ _ _ _ _ _ _ _ Ha R E) as (f1' & E' & R1). rewrite E'.
  apply after_related; auto. intros w2 v. cbn. eexists. split; [reflexivity|].
  apply related_bind; auto. destruct v as [[v|v]|]; cbn; discriminate.
Qed.

Lemma step_call_related : forall o visible id L f f' w i d, In o (body_operations p) ->
  op_kind o = KCall visible id ->
  call_result_operand_index (op_operands o) visible = Some i ->
  nth_error (op_operands o) i = Some d ->
  Forall avoids (firstn i (op_operands o)) -> related L f f' ->
  same_outcome (match d with OReg r => r :: L | _ => L end) L
    (step_call m o visible f w) (step_call m o visible f' w).
Proof.
  intros o visible id L f f' w i d Ho Hk Ei Ed Ha R. unfold step_call. rewrite Ei, Ed.
  destruct (pass_operands m (op_kind o) 0 (firstn i (op_operands o)) f w) as [[[vs f1] w1]|] eqn:E;
    [|exact I].
  destruct (pass_operands_related _ _ _ _ _ _ _ _ _ _ Ha R E) as (f1' & E' & R1). rewrite E'.
  destruct (place_of f1 d) as [[c|q]|] eqn:Ep; [| |exact I].
  - rewrite (place_of_related _ _ _ _ _ R1 Ep).
    destruct (share m None w1) as [w2 q]. apply after_related; auto. intros w3 v.
    destruct (read m q w3) as [x|]; [|exact I]. cbn. eexists. split; [reflexivity|].
    destruct (place_local _ _ _ Ep) as (r & y & -> & Er & Ec).
    now apply related_set_cell.
  - rewrite (place_of_related _ _ _ _ _ R1 Ep). apply after_related; auto.
    intros w3 v. cbn. eexists. split; [reflexivity|].
    destruct d as [l|l|n|n|r]; auto.
    destruct R1 as [G A S N Rr Rc]. constructor; auto. intros c.
    destruct (Rc c) as [|(y & y' & Ey & Ey' & H)]; [now left|right].
    exists y, y'. split; [auto|split; [auto|]]. intros r0 E0. destruct (H r0 E0) as [H1 H2].
    split; auto. intros [-> |H3]; auto. cbn in Ep. rewrite E0, Ey in Ep. discriminate.
Qed.

Lemma step_related : forall o L f f' w, In o (body_operations p) -> allows o ->
  related (transfer_operation cands o L) f f' ->
  same_outcome L (transfer_operation cands o L) (step m o f w) (step m o f' w).
Proof.
  intros o L f f' w Hb Ho R. unfold step.
  destruct (op_kind o) as [ty| | | | | | | |visible id| |owned id] eqn:Hk.
  - (* alloca *)
    assert (Ha : Forall avoids (op_operands o)).
    { apply avoids_operands; auto. intros i. unfold allowed, whole_place_write_index,
        is_exact_place_read. now rewrite Hk. }
    destruct (pass_operands m (KAlloca ty) 0 (op_operands o) f w) as [[[vs f1] w1]|] eqn:E; [|exact I].
    destruct (pass_operands_related _ _ _ _ _ _ _ _ _ _ Ha R E) as (f1' & E' & R1). rewrite E'.
    apply after_related; auto. intros w2 v. cbn. eexists. split; [reflexivity|].
    apply related_allocate; eauto. eapply related_incl; [|exact R1].
    apply unwritten_incl. unfold whole_place_write_index. now rewrite Hk.
  - (* stack_save *)
    destruct (op_operands o); [|exact I].
    assert (R1 : related L f f').
    { eapply related_incl; [|exact R]. apply unwritten_incl. unfold whole_place_write_index.
      now rewrite Hk. }
    apply after_related; auto. intros w2 [[v|v]|]; [|exact I|exact I]. cbn. eexists. split; [reflexivity|].
    rewrite <- (r_stack _ _ _ R). apply related_bind; auto; [now rewrite Hk|discriminate].
  - (* stack_restore *)
    destruct (op_operands o) as [|[l|l|n|n|r] [|]]; try exact I.
    destruct (regs f r) as [[v0|q0|c|h v0|]|] eqn:Er; try exact I.
    rewrite (reg_mark _ _ _ _ _ _ R Er).
    apply after_related; auto. intros w2 v. cbn. eexists. split; [reflexivity|].
    apply related_restore. eapply related_incl; [|exact R]. apply unwritten_incl.
    unfold whole_place_write_index. now rewrite Hk.
  - (* load *)
    destruct (op_operands o) as [|s [|]] eqn:Eo; try exact I.
    destruct (place_of f s) as [q|] eqn:Ep; [|exact I].
    rewrite (place_of_related _ _ _ _ _ R Ep).
    destruct (content_of m q f w) as [[v|]|] eqn:Ec; try exact I.
    rewrite (content_related _ _ _ s q w (Some v) R); auto.
    2:{ intros r -> Hr. unfold transfer_operation. apply in_or_app. left. rewrite Eo.
        apply (reads_at_In o _ 0 0); auto. unfold is_exact_place_read. now rewrite Hk. }
    destruct (copyable m v); [|exact I]. cbn. eexists. split; [reflexivity|].
    apply related_bind; auto; [|rewrite Hk; discriminate|discriminate].
    eapply related_incl; [|exact R]. apply unwritten_incl.
    unfold whole_place_write_index. now rewrite Hk.
  - (* store *)
    destruct (op_operands o) as [|v [|d [|]]] eqn:Eo; try exact I.
    assert (Hv : avoids v).
    { apply (avoids_position o 0); auto; [now rewrite Eo|].
      unfold allowed, whole_place_write_index, is_exact_place_read. now rewrite Hk. }
    destruct (stored_value m v f w) as [[[x f1] w1]|] eqn:Es; [|exact I].
    destruct (stored_value_related _ _ _ _ _ _ _ _ R Hv Es) as (f1' & Es' & R1). rewrite Es'.
    destruct (place_of f1 d) as [q|] eqn:Ep; [|exact I].
    rewrite (place_of_related _ _ _ _ _ R1 Ep).
    eapply same_outcome_incl; [apply (write_related _ _ _ d _ _ _ R1 Ep)| |apply incl_refl].
    apply (written_incl o L 1 d); [|now rewrite Eo].
    unfold whole_place_write_index. now rewrite Hk.
  - (* memcpy *)
    destruct (op_operands o) as [|s [|d [|]]] eqn:Eo; try exact I.
    destruct (place_of f s) as [q|] eqn:Ep; [|exact I].
    destruct (place_of f d) as [q'|] eqn:Ep'; [|exact I].
    rewrite (place_of_related _ _ _ _ _ R Ep), (place_of_related _ _ _ _ _ R Ep').
    destruct (content_of m q f w) as [[v|]|] eqn:Ec; try exact I.
    rewrite (content_related _ _ _ s q w (Some v) R); auto.
    2:{ intros r -> Hr. unfold transfer_operation. apply in_or_app. left. rewrite Eo.
        apply (reads_at_In o _ 0 0); auto. unfold is_exact_place_read. now rewrite Hk. }
    destruct (copyable m v); [|exact I].
    eapply same_outcome_incl; [apply (write_related _ _ _ d _ _ _ R Ep')| |apply incl_refl].
    apply (written_incl o L 1 d); [|now rewrite Eo].
    unfold whole_place_write_index. now rewrite Hk.
  - (* move *)
    destruct (op_operands o) as [|s [|d rest]] eqn:Eo; try exact I.
    destruct (place_of f s) as [q|] eqn:Ep; [|exact I].
    destruct (place_of f d) as [q'|] eqn:Ep'; [|exact I].
    rewrite (place_of_related _ _ _ _ _ R Ep), (place_of_related _ _ _ _ _ R Ep').
    destruct (content_of m q f w) as [x|] eqn:Ec; try exact I.
    rewrite (content_related _ _ _ s q w x R); auto.
    2:{ intros r -> Hr. unfold transfer_operation. apply in_or_app. left. rewrite Eo.
        apply (reads_at_In o _ 0 0); auto. unfold is_exact_place_read. now rewrite Hk. }
    pose proof (write_related _ _ _ s _ None w R Ep) as W.
    assert (HL : incl L (transfer_operation cands o L)).
    { apply unwritten_incl. unfold whole_place_write_index. now rewrite Hk. }
    destruct (write_place m q None f w) as [f1 w1|f1 w1|w1| |] eqn:Ew; cbn in W.
    + destruct W as (f1' & -> & R1).
      assert (Ep1 : place_of f1 d = Some q').
      { destruct q as [c|qs]; cbn in Ew.
        - inversion Ew; subst. destruct (place_local _ _ _ Ep) as (r & y & -> & Er & Ec').
          now rewrite (place_of_set_local _ _ _ _ _ Ec').
        - destruct (write m qs None w); inversion Ew; subst. exact Ep'. }
      eapply same_outcome_incl; [apply (write_related _ _ _ d _ _ _ R1 Ep1)| |].
      * intros r Hr. destruct d; [| | | |right]; (destruct s; [| | | |right]); auto.
      * intros r Hr. destruct s; auto. now right.
    + destruct W as (f1' & -> & R1). cbn. eauto.
    + rewrite W. reflexivity.
    + exact I.
    + rewrite W. reflexivity.
  - (* comp_eq *)
    destruct (op_operands o) as [|s [|[l|l|n|n|r] [|]]] eqn:Eo; try exact I.
    destruct (inspect m f w s) as [[v|]|] eqn:Ei; try exact I.
    rewrite (inspect_related _ _ _ s w (Some v) R); auto.
    2:{ apply (avoids_position o 0); auto; [now rewrite Eo|].
        unfold allowed, whole_place_write_index, is_exact_place_read. now rewrite Hk. }
    destruct (compare m l v) as [b|]; [|exact I]. cbn. eexists. split; [reflexivity|].
    apply related_bind; auto; [|rewrite Hk; discriminate|discriminate].
    eapply related_incl; [|exact R]. apply unwritten_incl.
    unfold whole_place_write_index. now rewrite Hk.
  - (* call *)
    destruct (call_result_operand_index (op_operands o) visible) as [i|] eqn:Ei.
    2:{ unfold step_call. rewrite Ei. exact I. }
    destruct (nth_error (op_operands o) i) as [d|] eqn:Ed.
    2:{ unfold step_call. rewrite Ei, Ed. exact I. }
    eapply same_outcome_incl;
      [apply (step_call_related o visible id _ _ _ w i d); eauto| |apply incl_refl].
    + apply avoids_all; auto. intros j Hj. unfold allowed, whole_place_write_index,
        is_exact_place_read. rewrite Hk, Ei. destruct (Nat.eqb_spec i j); [lia|reflexivity].
    + apply (written_incl o L i d); auto. unfold whole_place_write_index. now rewrite Hk.
  - exact I.
  - (* other *)
    assert (Hn : incl L (transfer_operation cands o L)).
    { apply unwritten_incl. unfold whole_place_write_index. now rewrite Hk. }
    eapply same_outcome_incl; [apply step_other_related; eauto| |apply incl_refl]; auto.
    + rewrite Hk. discriminate.
    + apply avoids_operands; auto. intros i. unfold allowed, whole_place_write_index,
        is_exact_place_read. now rewrite Hk.
Qed.

(** A removed store. *)
Lemma removed_related : forall o L f f' w, In o (flat_map operations p) ->
  keeps cands consuming o L = false -> related (transfer_operation cands o L) f f' ->
  match step m o f w with
  | RDone f1 w1 => w1 = w /\ related L f1 f'
  | RPanic => True
  | _ => False
  end.
Proof.
  intros o L f f' w Ho Hkeep R. pose proof (in_body o Ho) as Hb. unfold keeps in Hkeep.
  destruct (written cands o) as [r|] eqn:Hw; [|discriminate].
  apply negb_false_iff in Hkeep. unfold is_dead_store in Hkeep.
  destruct (op_kind o) eqn:Hk; try discriminate. apply andb_true_iff in Hkeep.
  destruct Hkeep as [_ Hdead]. apply negb_true_iff in Hdead. apply mem_not_In in Hdead.
  assert (HL : incl L (transfer_operation cands o L)).
  { intros r0 Hr0. apply transfer_incl; auto. rewrite Hw. congruence. }
  unfold written, whole_place_write_index in Hw. rewrite Hk in Hw.
  unfold step. rewrite Hk.
  destruct (op_operands o) as [|v [|d [|]]] eqn:Eo; try exact I.
  cbn in Hw. destruct d as [l|l|n|n|r']; try discriminate.
  destruct (mem r' cands) eqn:Hm; [|discriminate]. inversion Hw; subst r'.
  apply mem_In in Hm.
  assert (Hr : is_cell_register p r).
  { destruct (Hcands r Hm) as (o' & ty & Ho' & Hk' & E'). exists o', ty.
    split; auto. now apply in_body. }
  assert (Hval : match stored_value m v f w with
                 | Some (x, f1, w1) => w1 = w /\ related L f1 f' /\
                     regs f1 r = regs f r
                 | None => True end).
  { assert (RL : related L f f') by (eapply related_incl; eauto).
    destruct v as [l|l|n|n|rv]; cbn; auto.
    - destruct (args f n); cbn; auto.
    - destruct (regs f rv) as [[v0|q0|c|h v0|]|] eqn:Erv; cbn; auto.
      + split; auto. destruct (copyable m v0); auto. split.
        * eapply related_moved; eauto.
        * cbn. destruct (Nat.eq_dec r rv) as [-> |Hn]; [|now rewrite upd_neq].
          destruct (g_cand _ (r_good _ _ _ R) rv _ Hm Erv). discriminate.
      + exfalso. apply (Haddr o rv r Hb Hk Eo); auto.
        apply (g_reg _ (r_good _ _ _ R) rv c Erv). }
  destruct (stored_value m v f w) as [[[x f1] w1]|]; [|exact I].
  destruct Hval as (-> & R1 & Er1). cbn.
  destruct (regs f1 r) as [[v0|q0|c|h v0|]|] eqn:Er; try exact I.
  - destruct (g_cand _ (r_good _ _ _ R1) r _ Hm Er). discriminate.
  - destruct (g_cand _ (r_good _ _ _ R1) r _ Hm Er). discriminate.
  - destruct (cells f1 c) as [y|q|] eqn:Ec; try exact I.
    + cbn. split; auto. destruct R1 as [G A S N Rr Rc].
      assert (Hloc : exists y', cells f' c = CLocal y').
      { destruct (Rc c) as [E|(y0 & y' & _ & E & _)]; [|eauto]. rewrite Ec in E. eauto. }
      destruct Hloc as (y' & Ey').
      destruct (g_owner _ G r c Hm Er) as [_ Hown].
      constructor; cbn; auto.
      * destruct G as [G1 G2 G3]. constructor; cbn; auto.
        intros r0 c0 H0 E0. destruct (G1 r0 c0 H0 E0) as [B1 B2]. split; auto.
        intros q. destruct (Nat.eq_dec c0 c) as [-> |Hn].
        -- rewrite upd_eq. discriminate.
        -- rewrite upd_neq by auto. auto.
      * intros c0. destruct (Nat.eq_dec c0 c) as [-> |Hn].
        -- rewrite upd_eq. right. exists (Some x), y'. split; [auto|split; [auto|]].
           intros r0 E0. rewrite (Hown r0 E0). auto.
        -- rewrite upd_neq by auto. apply Rc.
    + exfalso. now apply (proj1 (g_owner _ (r_good _ _ _ R1) r c Hm Er) q).
Qed.

(** *** Blocks *)
Lemma steps_related : forall os L f f' w, incl os (flat_map operations p) ->
  related (fst (transfer cands consuming os L)) f f' ->
  match steps m os f w with
  | RDone f1 w1 => exists f1', steps m (snd (transfer cands consuming os L)) f' w = RDone f1' w1
                               /\ related L f1 f1'
  | RError _ _ | RPanic => True
  | RStopped w1 => steps m (snd (transfer cands consuming os L)) f' w = RStopped w1
  | RDiverge => steps m (snd (transfer cands consuming os L)) f' w = RDiverge
  end.
Proof.
  induction os as [|o os IH]; intros L f f' w Hi R; cbn.
  - cbn in R. eauto.
  - cbn in R. destruct (transfer cands consuming os L) as [L1 kept] eqn:Et. cbn in R |- *.
    assert (Ho : In o (flat_map operations p)) by (apply Hi; now left).
    assert (Hi' : incl os (flat_map operations p)) by (intros x Hx; apply Hi; now right).
    specialize (IH L). rewrite Et in IH. cbn in IH.
    destruct (keeps cands consuming o L1) eqn:Hk.
    + assert (Ha : allows o) by (intros i r; now apply position_allowed).
      pose proof (step_related o L1 f f' w (in_body o Ho) Ha R) as S. cbn.
      destruct (step m o f w) as [f1 w1|f1 w1|w1| |]; cbn in S; auto.
      * destruct S as (f1' & -> & R1). now apply IH.
      * now rewrite S.
      * now rewrite S.
    + pose proof (removed_related o L1 f f' w Ho Hk R) as S.
      destruct (step m o f w) as [f1 w1|f1 w1|w1| |]; try easy.
      destruct S as (-> & R1). now apply IH.
Qed.

Definition same_exit (targets : list nat) (live : list nat) (x x' : exit (other := other) (world := world)) : Prop :=
  match x with
  | XGo b f w => In b targets /\ exists f', x' = XGo b f' w /\ related live f f'
  | XEnd Panicked => True
  | XEnd a => x' = XEnd a
  end.

Lemma leave_related : forall b L f f' w, In b p -> related L f f' ->
  same_exit (successors (term b)) L (leave m (term b) f w) (leave m (term b) f' w).
Proof.
  intros b L f f' w Hb R.
  assert (Ha : Forall avoids (term_operands (term b))).
  { apply Forall_forall. intros x Hx r -> Hr. apply (Hexcl r Hr). apply in_flat_map.
    exists b. split; auto. apply in_or_app. right. apply in_flat_map. exists (OReg r).
    split; auto. now left. }
  assert (Hin : forall o x y, term b = TInvoke o x y -> In o (body_operations p)).
  { intros o x y E. apply in_flat_map. exists b. split; auto. apply in_or_app. right.
    rewrite E. now left. }
  destruct (term b) as [t|c t e|o t e|pl t| | |] eqn:Et; cbn in *; auto.
  - split; eauto.
  - inversion Ha; subst. destruct (inspect m f w c) as [[[[|]|v]|]|] eqn:Ei; cbn; auto;
      rewrite (inspect_related _ _ _ c w _ R H1 Ei); split; eauto.
  - assert (S : same_outcome L L (step m o f w) (step m o f' w)).
    { assert (Hn : forall i r, nth_error (op_operands o) i = Some (OReg r) -> ~ In r cands).
      { intros i r E Hr. rewrite Forall_forall in Ha.
        now apply (Ha (OReg r) (nth_error_In _ _ E) r). }
      assert (Hr : forall os pos, (forall i r, nth_error os i = Some (OReg r) -> ~ In r cands) ->
        reads_at cands o pos os = []).
      { induction os as [|x os IH]; intros pos H; [easy|]. cbn.
        assert (H' : forall i r, nth_error os i = Some (OReg r) -> ~ In r cands)
          by (intros i r; apply (H (S i) r)).
        destruct x as [l|l|n|n|r]; auto. rewrite IH by auto.
        assert (Hm : mem r cands = false) by (apply mem_not_In; now apply (H 0 r)).
        rewrite Hm. now destruct (is_exact_place_read o pos). }
      assert (Et' : transfer_operation cands o L = L).
      { unfold transfer_operation. rewrite Hr by auto. cbn.
        assert (Hw : written cands o = None); [|now rewrite Hw].
        unfold written. destruct (whole_place_write_index o) as [i|]; auto.
        destruct (nth_error (op_operands o) i) as [[l|l|n|n|r]|] eqn:E; auto.
        assert (Hm : mem r cands = false) by (apply mem_not_In; now apply (Hn i r)).
        now rewrite Hm. }
      rewrite <- Et' at 2. apply step_related; auto.
      - apply (Hin o t e eq_refl).
      - intros i r E Hc. exfalso. now apply (Hn i r).
      - now rewrite Et'. }
    destruct (step m o f w) as [f1 w1|f1 w1|w1| |]; cbn in S |- *; auto.
    + destruct S as (f1' & -> & R1). split; eauto.
    + destruct S as (f1' & -> & R1). split; eauto.
    + now rewrite S.
    + now rewrite S.
  - inversion Ha; subst.
    destruct (pass_operand m KYield 0 pl f w) as [[[v f1] w1]|] eqn:E; [|exact I].
    destruct (pass_operand_related _ _ _ _ _ _ _ _ _ _ H1 R E) as (f1' & E' & R1). rewrite E'.
    destruct (exec m KYield [v] w1); cbn; auto. split; eauto.
Qed.

Variable live_in : list (list nat).
Hypothesis Hfix : forall b bl, nth_error p b = Some bl ->
  same_set (fst (transfer cands consuming (operations bl) (live_out live_in bl)))
    (nth b live_in []) = true.

Lemma subset_incl : forall a b, subset a b = true <-> incl a b.
Proof.
  intros a b. unfold subset. rewrite forallb_forall. unfold incl. split; intros H x Hx.
  - apply mem_In. auto.
  - apply mem_In. auto.
Qed.

Lemma run_related : forall n b f f' w, related (nth b live_in []) f f' ->
  run m n p b f w <> Panicked ->
  run m n (map (remove_in_block cands consuming live_in) p) b f' w = run m n p b f w.
Proof.
  induction n as [|n IH]; intros b f f' w R Hp; cbn in *; auto.
  rewrite nth_error_map. destruct (nth_error p b) as [bl|] eqn:Eb; cbn; auto.
  assert (Hb : In bl p) by (eapply nth_error_In; eauto).
  assert (Hi : incl (operations bl) (flat_map operations p)).
  { intros o Ho. apply in_flat_map. eauto. }
  pose proof (Hfix _ _ Eb) as F. unfold same_set in F. apply andb_true_iff in F.
  destruct F as [F1 F2]. apply subset_incl in F1.
  pose proof (steps_related (operations bl) (live_out live_in bl) f f' w Hi) as S.
  specialize (S (related_incl _ _ _ _ F1 R)).
  unfold step_block in Hp |- *. cbn [operations term remove_in_block].
  destruct (steps m (operations bl) f w) as [f1 w1|f1 w1|w1| |].
  - destruct S as (f1' & -> & R1).
    pose proof (leave_related bl _ _ _ w1 Hb R1) as Lv.
    destruct (leave m (term bl) f1 w1) as [b2 f2 w2|a]; cbn in Lv.
    + destruct Lv as (Ht & f2' & -> & R2). apply IH; auto.
      eapply related_incl; [|exact R2]. unfold live_out. intros r Hr.
      apply in_flat_map. eauto.
    + destruct a; try now rewrite Lv. congruence.
  - congruence.
  - now rewrite S.
  - congruence.
  - now rewrite S.
Qed.
End Simulation.
