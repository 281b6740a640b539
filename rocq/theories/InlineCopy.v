(** The inliner makes a splice. *)
From Coq Require Import List Arith Bool Lia.
From Verif Require Import ListUtil InlineModel InlineMachine InlineSpec InlineSim.
Import ListNotations.

Lemma bind_some {A B} (x : option A) (k : A -> option B) y : bind x k = Some y ->
  exists a, x = Some a /\ k a = Some y.
Proof. destruct x; cbn; intros H; [eauto|discriminate H]. Qed.

(** * Constants *)
Definition ext (l l' : list nat) : Prop := forall i x, nth_error l i = Some x -> nth_error l' i = Some x.

Lemma ext_refl l : ext l l.
Proof. intros i x H. exact H. Qed.
Lemma ext_trans a b c : ext a b -> ext b c -> ext a c.
Proof. intros H K i x E. apply K, H, E. Qed.

Lemma position_nth x : forall l i, position x l = Some i -> nth_error l i = Some x.
Proof.
  induction l as [|y l IH]; intros i H; cbn [position] in H; [discriminate H|].
  destruct (x =? y) eqn:E.
  - injection H as <-. apply Nat.eqb_eq in E. subst. reflexivity.
  - destruct (position x l) as [j|]; [|discriminate H]. injection H as <-. cbn. apply IH. reflexivity.
Qed.

Lemma add_constant_spec x l i l' : add_constant x l = (i, l') -> ext l l' /\ nth_error l' i = Some x.
Proof.
  unfold add_constant. destruct (position x l) as [j|] eqn:E; intros H; injection H as <- <-.
  - split; [apply ext_refl|apply position_nth; exact E].
  - split.
    + intros k y K. rewrite nth_error_app1; auto. apply nth_error_Some. congruence.
    + rewrite nth_error_app2; auto. rewrite Nat.sub_diag. reflexivity.
Qed.

Lemma lookup_in {A} k (l : list (nat * A)) a : lookup k l = Some a -> In (k, a) l.
Proof.
  unfold lookup. destruct (find (fun p => fst p =? k) l) as [[k' a']|] eqn:E; [|intros H; discriminate H].
  intros H. injection H as ->. apply find_some in E. destruct E as [I Q]. apply Nat.eqb_eq in Q. cbn in Q. now subst.
Qed.

Lemma lookup_cons {A} k k' (a : A) l : lookup k ((k', a) :: l) = if k' =? k then Some a else lookup k l.
Proof. unfold lookup. cbn. destruct (k' =? k); reflexivity. Qed.

(** * Registers *)
Lemma allocate_spec lo : forall rs next m m' next',
  allocate rs next m = (m', next') -> lo <= next ->
  NoDup (map snd m) -> (forall p, In p m -> lo <= snd p < next) ->
  next <= next' /\ NoDup (map snd m') /\ (forall p, In p m' -> lo <= snd p < next') /\
  (forall r, In r rs -> exists x, lookup r m' = Some x) /\
  (forall r x, lookup r m = Some x -> exists x, lookup r m' = Some x).
Proof.
  induction rs as [|r rs IH]; intros next m m' next' H L ND B; cbn [allocate] in H.
  - injection H as <- <-. split; [lia|]. split; [exact ND|]. split; [exact B|].
    split; [intros r []|eauto].
  - destruct (IH _ _ _ _ H) as [H1 [H2 [H3 [H4 H5]]]].
    + lia.
    + cbn. constructor; auto. intros I. apply in_map_iff in I. destruct I as [p [E I]].
      specialize (B _ I). lia.
    + intros p [<-|I]; cbn; [lia|]. specialize (B _ I). lia.
    + split; [lia|]. split; [exact H2|]. split; [exact H3|].
      assert (LK : forall r0 x, lookup r0 ((r, next) :: m) = Some x -> exists x, lookup r0 m' = Some x) by exact H5.
      split.
      * intros r0 [<-|I]; [|apply H4; exact I]. eapply LK. rewrite lookup_cons, Nat.eqb_refl. reflexivity.
      * intros r0 x E. destruct (r =? r0) eqn:Q.
        -- eapply LK. rewrite lookup_cons, Q. reflexivity.
        -- eapply LK. rewrite lookup_cons, Q. exact E.
Qed.

Lemma nodup_snd_inj (m : list (nat * nat)) : NoDup (map snd m) -> forall a b x,
  In (a, x) m -> In (b, x) m -> a = b.
Proof.
  induction m as [|[k v] m IH]; intros ND a b x I J; [destruct I|].
  inversion ND as [|? ? NI ND']; subst.
  destruct I as [I|I], J as [J|J].
  - congruence.
  - injection I as -> ->. exfalso. apply NI. apply in_map_iff. exists (b, x). auto.
  - injection J as -> ->. exfalso. apply NI. apply in_map_iff. exists (a, x). auto.
  - eapply IH; eauto.
Qed.

(** * Copying *)
Section Copy.
  Variables (G : function) (c : copier).
  Hypothesis CC : c_constants c = f_constants G.
  Hypothesis CN : c_count c = length (f_blocks G).
  Let rho r := lookup r (c_registers c).

  Definition good (s : pool) : Prop :=
    forall k k', In (k, k') (snd s) -> exists x, nth_error (f_constants G) k = Some x /\ nth_error (fst s) k' = Some x.

  Definition copies {A B} (f : A -> pool -> option (B * pool)) (R : function -> A -> B -> Prop) : Prop :=
    forall a s b s', good s -> f a s = Some (b, s') ->
      good s' /\ ext (fst s) (fst s') /\ forall F', ext (fst s') (f_constants F') -> R F' a b.

  Lemma copy_all_spec {A B} (f : A -> pool -> option (B * pool)) R : copies f R ->
    copies (copy_all f) (fun F' => Forall2 (R F')).
  Proof.
    intros H. intros l. induction l as [|a l IH]; intros s l' s' Gd E; cbn [copy_all] in E.
    - injection E as <- <-. split; [exact Gd|]. split; [apply ext_refl|]. constructor.
    - apply bind_some in E. destruct E as [[b s1] [E1 E]]. cbn [fst snd] in E.
      apply bind_some in E. destruct E as [[bs s2] [E2 E]]. cbn [fst snd] in E. injection E as <- <-.
      destruct (H _ _ _ _ Gd E1) as [Gd1 [X1 R1]]. destruct (IH _ _ _ Gd1 E2) as [Gd2 [X2 R2]].
      split; [exact Gd2|]. split; [eapply ext_trans; eauto|].
      intros F' X. constructor; [apply R1; eapply ext_trans; eauto|apply R2; exact X].
  Qed.

  Lemma copy_operand_spec : copies (copy_operand c) (fun F' => copied_operand G F' (c_arguments c) rho).
  Proof.
    intros o s o' s' Gd E.
    destruct o as [k|p|n|q|g|i|r]; cbn [copy_operand] in E.
    - destruct (lookup k (snd s)) as [k'|] eqn:L.
      + injection E as <- <-. split; [exact Gd|]. split; [apply ext_refl|].
        intros F' X. apply lookup_in in L. destruct (Gd _ _ L) as [x [X1 X2]]. econstructor; eauto.
      + apply bind_some in E. destruct E as [x [X1 E]]. rewrite CC in X1.
        destruct (add_constant x (fst s)) as [k' l] eqn:AC. injection E as <- <-.
        destruct (add_constant_spec _ _ _ _ AC) as [Y1 Y2]. cbn [fst snd].
        split; [|split; [exact Y1|]].
        * intros k0 k0' [I|I]; cbn [fst snd] in *.
          -- injection I as <- <-. eauto.
          -- destruct (Gd _ _ I) as [x0 [Z1 Z2]]. exists x0. split; [exact Z1|]. apply Y1. exact Z2.
        * intros F' X. econstructor; eauto.
    - injection E as <- <-. split; [exact Gd|]. split; [apply ext_refl|]. intros F' X. constructor.
    - injection E as <- <-. split; [exact Gd|]. split; [apply ext_refl|]. intros F' X. constructor.
    - injection E as <- <-. split; [exact Gd|]. split; [apply ext_refl|]. intros F' X. constructor.
    - injection E as <- <-. split; [exact Gd|]. split; [apply ext_refl|]. intros F' X. constructor.
    - apply bind_some in E. destruct E as [a [A E]]. injection E as <- <-.
      split; [exact Gd|]. split; [apply ext_refl|]. intros F' X. constructor. exact A.
    - apply bind_some in E. destruct E as [a [A E]]. injection E as <- <-.
      split; [exact Gd|]. split; [apply ext_refl|]. intros F' X. constructor. exact A.
  Qed.

  Lemma copy_operation_spec : copies (copy_operation c) (fun F' => copied_operation G F' (c_arguments c) rho).
  Proof.
    intros o s o' s' Gd E. unfold copy_operation in E.
    apply bind_some in E. destruct E as [[os s1] [E1 E]]. cbn [fst snd] in E.
    apply bind_some in E. destruct E as [r [E2 E]]. injection E as <- <-.
    destruct (copy_all_spec _ _ copy_operand_spec _ _ _ _ Gd E1) as [Gd1 [X1 R1]].
    split; [exact Gd1|]. split; [exact X1|]. intros F' X. split; [reflexivity|]. split; [apply R1; exact X|].
    cbn [o_result]. destruct (o_result o) as [q|]; cbn.
    - apply bind_some in E2. destruct E2 as [y [Y E2]]. injection E2 as <-. exists y. auto.
    - injection E2 as <-. reflexivity.
  Qed.

  Lemma c_block_spec b b' : c_block c b = Some b' -> b' = c_base c + b /\ b < length (f_blocks G).
  Proof.
    unfold c_block. destruct (b <? c_count c) eqn:E; intros H; [|discriminate H]. injection H as <-.
    apply Nat.ltb_lt in E. rewrite CN in E. auto.
  Qed.

  Lemma copy_terminator_spec : copies (copy_terminator c) (fun F' t p =>
    copied_terminator G F' (c_arguments c) (c_marker c) (c_base c) (c_normal c) (c_error c) rho t (fst p) (snd p)).
  Proof.
    intros t s p s' Gd E. destruct t as [b|o a b|o a b| | | |o b]; cbn [copy_terminator] in E.
    - apply bind_some in E. destruct E as [b' [B E]]. injection E as <- <-. apply c_block_spec in B. destruct B as [-> _].
      split; [exact Gd|]. split; [apply ext_refl|]. intros F' X. constructor.
    - apply bind_some in E. destruct E as [[o' s1] [E1 E]]. cbn [fst snd] in E.
      apply bind_some in E. destruct E as [a' [A E]]. apply bind_some in E. destruct E as [b' [B E]]. injection E as <- <-.
      apply c_block_spec in A. destruct A as [-> _]. apply c_block_spec in B. destruct B as [-> _].
      destruct (copy_operand_spec _ _ _ _ Gd E1) as [Gd1 [X1 R1]].
      split; [exact Gd1|]. split; [exact X1|]. intros F' X. constructor. apply R1. exact X.
    - apply bind_some in E. destruct E as [[o' s1] [E1 E]]. cbn [fst snd] in E.
      apply bind_some in E. destruct E as [a' [A E]]. apply bind_some in E. destruct E as [b' [B E]]. injection E as <- <-.
      apply c_block_spec in A. destruct A as [-> _]. apply c_block_spec in B. destruct B as [-> _].
      destruct (copy_operation_spec _ _ _ _ Gd E1) as [Gd1 [X1 R1]].
      split; [exact Gd1|]. split; [exact X1|]. intros F' X. constructor. apply R1. exact X.
    - injection E as <- <-. split; [exact Gd|]. split; [apply ext_refl|]. intros F' X. constructor.
    - apply bind_some in E. destruct E as [e [B E]]. injection E as <- <-.
      split; [exact Gd|]. split; [apply ext_refl|]. intros F' X. constructor. exact B.
    - injection E as <- <-. split; [exact Gd|]. split; [apply ext_refl|]. intros F' X. constructor.
    - discriminate E.
  Qed.

  Lemma copy_block_spec : copies (copy_block c) (fun F' =>
    copied_block G F' (c_arguments c) (c_marker c) (c_base c) (c_normal c) (c_error c) rho).
  Proof.
    intros B s B' s' Gd E. unfold copy_block in E.
    apply bind_some in E. destruct E as [[os s1] [E1 E]]. cbn [fst snd] in E.
    apply bind_some in E. destruct E as [[p s2] [E2 E]]. cbn [fst snd] in E. injection E as <- <-.
    destruct (copy_all_spec _ _ copy_operation_spec _ _ _ _ Gd E1) as [Gd1 [X1 R1]].
    destruct (copy_terminator_spec _ _ _ _ Gd1 E2) as [Gd2 [X2 R2]].
    split; [exact Gd2|]. split; [eapply ext_trans; eauto|]. intros F' X.
    exists os, (fst p). split; [reflexivity|]. split; [apply R1; eapply ext_trans; eauto|apply R2; exact X].
  Qed.

  (** ** It succeeds *)
  Definition fine {A B} (f : A -> pool -> option (B * pool)) (a : A) : Prop := forall s, f a s <> None.

  Lemma copy_all_fine {A B} (f : A -> pool -> option (B * pool)) l : Forall (fine f) l -> fine (copy_all f) l.
  Proof.
    induction 1 as [|a l Fa _ IH]; intros s; cbn [copy_all]; [discriminate|].
    destruct (f a s) as [p|] eqn:E; [|exfalso; exact (Fa s E)]. cbn [bind].
    destruct (copy_all f l (snd p)) as [q|] eqn:E2; [|exfalso; exact (IH _ E2)]. cbn. discriminate.
  Qed.

  Hypothesis args_ok : length (c_arguments c) = length (f_params G).
  Hypothesis regs_ok : forall r, In r (flat_map results (f_blocks G)) -> exists x, lookup r (c_registers c) = Some x.

  Lemma copy_operand_fine o : operand_ok G o -> fine (copy_operand c) o.
  Proof.
    intros H s. destruct o as [k|p|n|q|g|i|r]; cbn in *; try discriminate.
    - destruct (lookup k (snd s)); [discriminate|]. rewrite CC.
      destruct (nth_error (f_constants G) k) eqn:E.
      + cbn. destruct (add_constant n (fst s)). discriminate.
      + apply nth_error_None in E. lia.
    - destruct (nth_error (c_arguments c) i) eqn:E; [discriminate|]. apply nth_error_None in E. lia.
    - destruct (regs_ok _ H) as [x ->]. discriminate.
  Qed.

  Lemma copy_operation_fine o : (forall x, In x (o_operands o) -> operand_ok G x) ->
    (forall r, o_result o = Some r -> In r (flat_map results (f_blocks G))) -> fine (copy_operation c) o.
  Proof.
    intros H K s. unfold copy_operation.
    destruct (copy_all (copy_operand c) (o_operands o) s) as [p|] eqn:E.
    - cbn [bind]. destruct (o_result o) as [r|]; [|discriminate].
      destruct (regs_ok _ (K _ eq_refl)) as [x ->]. discriminate.
    - exfalso. revert E. apply copy_all_fine. apply Forall_forall. intros x I. apply copy_operand_fine. auto.
  Qed.

  Lemma c_block_fine b : b < length (f_blocks G) -> c_block c b = Some (c_base c + b).
  Proof. intros L. unfold c_block. rewrite CN. apply Nat.ltb_lt in L. now rewrite L. Qed.

  Lemma copy_block_fine B : body_ok G -> In B (f_blocks G) ->
    (forall x b, b_term B <> TYield x b) -> (b_term B = TPropagate -> c_error c <> None) ->
    fine (copy_block c) B.
  Proof.
    intros [H1 [H2 H3]] I NY PE s. unfold copy_block.
    assert (RES : forall o, In o (block_operations B) -> forall r, o_result o = Some r ->
              In r (flat_map results (f_blocks G))).
    { intros o J r R. apply in_flat_map. exists B. split; [exact I|]. unfold results. apply in_flat_map.
      exists o. split; [exact J|]. rewrite R. now left. }
    assert (FO : forall o, In o (block_operations B) -> fine (copy_operation c) o).
    { intros o J. apply copy_operation_fine; [|apply RES; exact J]. intros x X. eapply H1; eauto. }
    destruct (copy_all (copy_operation c) (b_ops B) s) as [p|] eqn:E.
    - cbn [bind]. destruct (copy_terminator c (b_term B) (snd p)) as [q|] eqn:E2; [discriminate|].
      exfalso. pose proof (H3 B) as TG. destruct (b_term B) as [b|o a b|o a b| | | |o b] eqn:T; cbn [copy_terminator] in E2.
      + rewrite c_block_fine in E2; [discriminate E2|]. apply TG; auto. now left.
      + destruct (copy_operand c o (snd p)) as [q|] eqn:E3.
        * cbn [bind] in E2. rewrite c_block_fine in E2; [|apply TG; auto; now left]. cbn [bind] in E2.
          rewrite c_block_fine in E2; [discriminate E2|apply TG; auto; right; now left].
        * revert E3. apply copy_operand_fine. eapply H2; eauto.
      + destruct (copy_operation c o (snd p)) as [q|] eqn:E3.
        * cbn [bind] in E2. rewrite c_block_fine in E2; [|apply TG; auto; now left]. cbn [bind] in E2.
          rewrite c_block_fine in E2; [discriminate E2|apply TG; auto; right; now left].
        * revert E3. apply FO. unfold block_operations. rewrite T. apply in_app_iff. right. now left.
      + discriminate E2.
      + destruct (c_error c); [discriminate E2|]. apply PE; reflexivity.
      + discriminate E2.
      + exact (NY _ _ eq_refl).
    - exfalso. revert E. apply copy_all_fine. apply Forall_forall. intros o J. apply FO.
      unfold block_operations. apply in_app_iff. auto.
  Qed.
End Copy.
