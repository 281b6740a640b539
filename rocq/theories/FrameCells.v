(** Cells whose address never leaves the frame. *)
From Coq Require Import List Arith Bool Lia Relations.
From Verif Require Import FrameModel FrameSpec FrameChange.
Import ListNotations.

(** The operations of a block, the one of its terminator included. *)
Definition in_block (o : operation) (bl : block) : Prop :=
  In o (operations bl) \/ o = term_operation (term bl).

Definition in_code (o : operation) (p : body) : Prop := exists bl, In bl p /\ in_block o bl.

Lemma result_in_body : forall o p r, in_code o p -> op_result o = Some r -> In o (body_operations p).
Proof.
  intros o p r (bl & Hb & Ho) Hr. unfold body_operations. apply in_flat_map. exists bl. split; auto.
  unfold block_operations. apply in_or_app. destruct Ho as [Ho|Ho]; [now left|right].
  destruct (term bl); cbn in Ho; subst o; cbn in Hr; try discriminate. now left.
Qed.

Lemma one_definition : forall p o o' r, single_definitions p -> in_code o p -> in_code o' p ->
  op_result o = Some r -> op_result o' = Some r -> o = o'.
Proof.
  intros p o o' r Hs Ho Ho' Er Er'.
  apply (result_in_body _ _ _ Ho) in Er as Hi. apply (result_in_body _ _ _ Ho') in Er' as Hi'.
  unfold single_definitions, defined in Hs. revert Hs Hi Hi'.
  induction (body_operations p) as [|x l IH]; intros Hs Hi Hi'; [easy|]. cbn in Hs.
  assert (Hin : forall y, In y l -> op_result y = Some r ->
    In r (flat_map (fun o => match op_result o with Some r => [r] | None => [] end) l)).
  { intros y Hy Ey. apply in_flat_map. exists y. split; auto. rewrite Ey. now left. }
  destruct Hi as [-> |Hi], Hi' as [-> |Hi']; auto.
  - rewrite Er in Hs. inversion Hs; subst. exfalso. eauto.
  - rewrite Er' in Hs. inversion Hs; subst. exfalso. eauto.
  - apply IH; auto. destruct (op_result x); cbn in Hs; auto. now inversion Hs.
Qed.

Section Cell.
Context {other world : Type}.
Variable m : machine other world.
Variable p : body.
Variable r : nat.
Hypothesis Hsingle : single_definitions p.
Hypothesis Hdef : exists o ty, in_code o p /\ op_kind o = KAlloca ty /\ op_result o = Some r.
Hypothesis Hdirect : forall o i, in_code o p -> nth_error (op_operands o) i = Some (OReg r) ->
  ~ passes o i.

(** The register holds a cell that no other register names and that is not
    shared. *)
Record owned (f : frame other) : Prop := {
  ow_cell : forall b, regs f r = Some b -> exists c, b = BCell c;
  ow_alone : forall c, regs f r = Some (BCell c) ->
    (forall q, cells f c <> CShared q) /\ forall r', regs f r' = Some (BCell c) -> r' = r;
  ow_bound : forall r' c, regs f r' = Some (BCell c) -> c < next f }.

Lemma start_owned : forall params, owned (start params).
Proof. intros. constructor; cbn; intros; discriminate. Qed.

Lemma result_alloca : forall o, in_code o p -> op_result o = Some r ->
  exists ty, op_kind o = KAlloca ty.
Proof.
  intros o Ho Er. destruct Hdef as (o' & ty & Ho' & Hk & Er').
  rewrite (one_definition p o o' r); eauto.
Qed.

Lemma change_owned : forall o f f1, in_code o p -> owned f -> change m o f f1 -> owned f1.
Proof.
  intros o f f1 Ho [W1 W2 W3] C. inversion C; subst; clear C.
  - assert (Hn : r0 <> r).
    { intros ->. destruct (W1 _ H0). discriminate. }
    constructor; cbn.
    + intros b. rewrite upd_other by auto. auto.
    + intros c. rewrite upd_other by auto. intros E. destruct (W2 c E) as [A B]. split; auto.
      intros r'. destruct (Nat.eq_dec r' r0) as [-> |H2]; [rewrite upd_same; discriminate|].
      rewrite upd_other by auto. auto.
    + intros r' c. destruct (Nat.eq_dec r' r0) as [-> |H2]; [rewrite upd_same; discriminate|].
      rewrite upd_other by auto. eauto.
  - assert (Hn : r0 <> r).
    { intros ->. now apply (Hdirect o i Ho). }
    constructor; cbn; auto. intros c' E. destruct (W2 c' E) as [A B]. split; auto. intros q'.
    destruct (Nat.eq_dec c' c) as [-> |H3]; [|rewrite upd_other; auto].
    exfalso. apply Hn. symmetry. symmetry. now apply B.
  - constructor; cbn; auto. intros c' E. destruct (W2 c' E) as [A B]. split; auto. intros q'.
    destruct (Nat.eq_dec c' c) as [-> |H3]; [rewrite upd_same; discriminate|rewrite upd_other; auto].
  - assert (Hn : r0 <> r).
    { intros ->. destruct (result_alloca o Ho H) as (ty & E). now apply (H1 ty). }
    constructor; cbn.
    + intros b'. rewrite upd_other by auto. auto.
    + intros c. rewrite upd_other by auto. intros E. destruct (W2 c E) as [A B]. split; auto.
      intros r'. destruct (Nat.eq_dec r' r0) as [-> |H2].
      * rewrite upd_same. intros E'. inversion E'; subst. now destruct (H0 c).
      * rewrite upd_other by auto. auto.
    + intros r' c. destruct (Nat.eq_dec r' r0) as [-> |H2].
      * rewrite upd_same. intros E'. inversion E'; subst. now destruct (H0 c).
      * rewrite upd_other by auto. eauto.
  - unfold allocate, bind. destruct (op_result o) as [r0|] eqn:Er.
    + constructor; cbn.
      * intros b. destruct (Nat.eq_dec r r0) as [<- |Hn].
        -- rewrite upd_same. intros E. inversion E; subst. eauto.
        -- rewrite upd_other by auto. auto.
      * intros c. destruct (Nat.eq_dec r r0) as [<- |Hn].
        -- rewrite upd_same. intros E. inversion E; subst. split.
           ++ intros q. rewrite upd_same. discriminate.
           ++ intros r'. destruct (Nat.eq_dec r' r) as [-> |Hn]; auto.
              rewrite upd_other by auto. intros E'. apply W3 in E'. lia.
        -- rewrite upd_other by auto. intros E. destruct (W2 c E) as [A B].
           pose proof (W3 _ _ E) as Hc. split.
           ++ intros q. rewrite upd_other by lia. auto.
           ++ intros r'. destruct (Nat.eq_dec r' r0) as [-> |Hn'].
              ** rewrite upd_same. intros E'. inversion E'. lia.
              ** rewrite upd_other by auto. auto.
      * intros r' c. destruct (Nat.eq_dec r' r0) as [-> |Hn'].
        -- rewrite upd_same. intros E'. inversion E'. lia.
        -- rewrite upd_other by auto. intros E. apply W3 in E. lia.
    + constructor; cbn; auto.
      * intros c E. destruct (W2 c E) as [A B]. split; auto. intros q.
        pose proof (W3 _ _ E). rewrite upd_other by lia. auto.
      * intros r' c E. apply W3 in E. lia.
  - constructor; cbn; auto. intros c E. destruct (W2 c E) as [A B]. split; auto. intros q.
    destruct (existsb _ _); [discriminate|auto].
Qed.

Lemma changes_owned : forall o f f1, in_code o p -> owned f -> changes m o f f1 -> owned f1.
Proof.
  intros o f f1 Ho W C. induction C; auto. apply IHC. eapply change_owned; eauto.
Qed.

(** What the cell holds while it is not written. *)
Definition holds (P : content other -> Prop) (f : frame other) : Prop :=
  forall c x, regs f r = Some (BCell c) -> cells f c = CLocal x -> P x.

Lemma change_holds : forall (P : content other -> Prop) o f f1, P None -> in_code o p ->
  (forall i, nth_error (op_operands o) i = Some (OReg r) -> ~ writes_at o i) ->
  owned f -> holds P f -> change m o f f1 -> holds P f1.
Proof.
  intros P o f f1 Hnone Ho Hw [W1 W2 W3] Hh C. unfold holds in *. inversion C; subst; clear C; cbn.
  - intros c x E. destruct (Nat.eq_dec r r0) as [<- |Hn]; [now rewrite upd_same in E|].
    rewrite upd_other in E by auto. eauto.
  - intros c' x' E. destruct (Nat.eq_dec c' c) as [-> |Hn].
    + rewrite upd_same. discriminate.
    + rewrite upd_other by auto. eauto.
  - intros c' x' E. destruct (Nat.eq_dec c' c) as [-> |Hn].
    + destruct (W2 c E) as [_ B]. rewrite (B r0 H1) in *. now destruct (Hw i H).
    + rewrite upd_other by auto. eauto.
  - intros c x E. destruct (Nat.eq_dec r r0) as [<- |Hn].
    + destruct (result_alloca o Ho H) as (ty & Ek). now destruct (H1 ty).
    + rewrite upd_other in E by auto. eauto.
  - intros c x E Ex. unfold allocate, bind in *. destruct (op_result o) as [r0|] eqn:Er; cbn in *.
    + destruct (Nat.eq_dec r r0) as [<- |Hn].
      * rewrite upd_same in E. inversion E; subst. rewrite upd_same in Ex. inversion Ex; subst. auto.
      * rewrite upd_other in E by auto. pose proof (W3 _ _ E). rewrite upd_other in Ex by lia. eauto.
    + pose proof (W3 _ _ E). rewrite upd_other in Ex by lia. eauto.
  - intros c x E. destruct (existsb _ _); [discriminate|eauto].
Qed.

Lemma changes_holds : forall (P : content other -> Prop) o f f1, P None -> in_code o p ->
  (forall i, nth_error (op_operands o) i = Some (OReg r) -> ~ writes_at o i) ->
  owned f -> holds P f -> changes m o f f1 -> holds P f1.
Proof.
  intros P o f f1 Hnone Ho Hw W Hh C. induction C; auto.
  apply IHC; [eapply change_owned; eauto|eapply change_holds; eauto].
Qed.

Lemma steps_owned : forall os f w f1 w1, (forall o, In o os -> in_code o p) -> owned f ->
  steps m os f w = RDone f1 w1 -> owned f1.
Proof.
  induction os as [|o os IH]; intros f w f1 w1 Hi W E; cbn in E.
  - inversion E; subst. auto.
  - destruct (step m o f w) as [f2 w2|f2 w2|w2| |] eqn:Es; try discriminate.
    apply (IH f2 w2 f1 w1); auto.
    + intros x Hx. apply Hi. now right.
    + eapply (changes_owned o f f2); eauto; [apply Hi; now left|].
      apply (step_changes m o f w). rewrite Es. reflexivity.
Qed.

Lemma steps_holds : forall (P : content other -> Prop) os f w f1 w1, P None ->
  (forall o, In o os -> in_code o p) ->
  (forall o i, In o os -> nth_error (op_operands o) i = Some (OReg r) -> ~ writes_at o i) ->
  owned f -> holds P f -> steps m os f w = RDone f1 w1 -> holds P f1.
Proof.
  intros P. induction os as [|o os IH]; intros f w f1 w1 Hnone Hi Hw W Hh E; cbn in E.
  - inversion E; subst. auto.
  - destruct (step m o f w) as [f2 w2|f2 w2|w2| |] eqn:Es; try discriminate.
    assert (C : changes m o f f2) by (apply (step_changes m o f w); rewrite Es; reflexivity).
    assert (Ho : in_code o p) by (apply Hi; now left).
    apply (IH f2 w2 f1 w1); auto.
    + intros x Hx. apply Hi. now right.
    + intros x i Hx. apply Hw. now right.
    + eapply changes_owned; eauto.
    + eapply changes_holds; eauto. intros i. apply Hw. now left.
Qed.

Lemma block_owned : forall bl f w b f1 w1, In bl p -> owned f ->
  step_block m bl f w = XGo b f1 w1 -> owned f1.
Proof.
  intros bl f w b f1 w1 Hb W E. unfold step_block in E.
  destruct (steps m (operations bl) f w) as [f2 w2|f2 w2|w2| |] eqn:Es; try discriminate.
  apply leave_changes in E. destruct E as [C _].
  eapply changes_owned; [|eapply steps_owned; eauto|exact C].
  - exists bl. split; auto. now right.
  - intros o Ho. exists bl. split; auto. now left.
Qed.
End Cell.
