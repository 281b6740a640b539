(** The merging of equal blocks. *)
From Coq Require Import List Arith Bool Lia Relations.
From Verif Require Import FrameModel FrameSpec NegationSpec FrameProofs FrameChange FrameRename TailMergeModel
  TailMergeSpec TailJumps.
Import ListNotations.

(** ** Plans *)
Definition keys (l : replacement) : list nat := map fst l.
Definition kept (l : replacement) : list nat := map snd l.

Definition equivalent (l : replacement) (a b : block) : Prop :=
  exists xs ys, operations_equivalent [] [] (operations a) (operations b) = Some (xs, ys) /\
    ends_equivalent l xs ys (term a) (term b) = true.

Fixpoint good (p : body) (l : replacement) : Prop :=
  match l with
  | [] => True
  | (b, r) :: l =>
      good p l /\ ~ In b (keys l) /\ ~ In b (kept l) /\ ~ In r (keys l) /\ r <> b /\ b <> 0 /\
      exists bl bl', nth_error p b = Some bl /\ nth_error p r = Some bl' /\ equivalent l bl bl'
  end.

Lemma replaced_In : forall l b r, replaced l b = Some r -> In (b, r) l.
Proof.
  induction l as [|[k v] l IH]; cbn; intros b r E; [discriminate|]. destruct (k =? b) eqn:Ek; auto.
  apply Nat.eqb_eq in Ek. inversion E; subst; auto.
Qed.

Lemma replaced_None : forall l b, replaced l b = None <-> ~ In b (keys l).
Proof.
  induction l as [|[k v] l IH]; cbn; intros b; [tauto|]. destruct (k =? b) eqn:Ek.
  - apply Nat.eqb_eq in Ek. split; [discriminate|]. intros H. exfalso. auto.
  - apply Nat.eqb_neq in Ek. rewrite IH. tauto.
Qed.

Lemma kept_not_key : forall p l b r, good p l -> In (b, r) l -> ~ In r (keys l).
Proof.
  intros p. induction l as [|[k v] l IH]; cbn; intros b r G H; [easy|].
  destruct G as (G & H1 & H2 & H3 & H4 & H5 & _). destruct H as [H|H].
  - inversion H; subst. intros [E|E]; auto.
  - intros [E|E]; [|eapply IH; eauto]. subst. apply H2. apply in_map_iff. now exists (b, r).
Qed.

Lemma canonical_key : forall l b, ~ In b (keys l) -> canonical_target l b = b.
Proof. intros l b H. unfold canonical_target. apply replaced_None in H. now rewrite H. Qed.

Lemma canonical_once : forall p l b, good p l -> canonical_target l (canonical_target l b) = canonical_target l b.
Proof.
  intros p l b G. unfold canonical_target at 2 3. destruct (replaced l b) as [r|] eqn:E.
  - apply canonical_key. eapply kept_not_key; eauto. eapply replaced_In; eauto.
  - unfold canonical_target. now rewrite E.
Qed.

Lemma canonical_more : forall p b r l t, good p ((b, r) :: l) ->
  canonical_target ((b, r) :: l) (canonical_target l t) = canonical_target ((b, r) :: l) t.
Proof.
  intros p b r l t G. cbn in G. destruct G as (G & H1 & H2 & H3 & H4 & H5 & _).
  unfold canonical_target at 2. destruct (replaced l t) as [v|] eqn:E; auto.
  pose proof (replaced_In _ _ _ E) as Hv. unfold canonical_target. cbn.
  destruct (b =? v) eqn:E1.
  - apply Nat.eqb_eq in E1. subst v. exfalso. apply H2. apply in_map_iff. now exists (t, b).
  - destruct (b =? t) eqn:E2.
    + apply Nat.eqb_eq in E2. subst t. exfalso. apply H1. apply in_map_iff. now exists (b, v).
    + rewrite E. assert (Hn : replaced l v = None) by (apply replaced_None; eapply kept_not_key; eauto).
      now rewrite Hn.
Qed.

Lemma equivalent_more : forall p b r l a a', good p ((b, r) :: l) -> equivalent l a a' ->
  equivalent ((b, r) :: l) a a'.
Proof.
  intros p b r l a a' G (xs & ys & E & H). exists xs, ys. split; auto.
  assert (C : forall x y, (canonical_target l x =? canonical_target l y) = true ->
    (canonical_target ((b, r) :: l) x =? canonical_target ((b, r) :: l) y) = true).
  { intros x y Exy. apply Nat.eqb_eq in Exy. apply Nat.eqb_eq.
    rewrite <- (canonical_more p b r l x), <- (canonical_more p b r l y) by auto. now rewrite Exy. }
  remember ((b, r) :: l) as l' eqn:El. clear El G.
  destruct (term a), (term a'); cbn in *; try discriminate; auto;
    repeat (apply andb_true_iff in H; destruct H as [H ?]);
    repeat (apply andb_true_iff; split); auto.
Qed.

Lemma good_pair : forall p l b r, good p l -> In (b, r) l ->
  exists bl bl', nth_error p b = Some bl /\ nth_error p r = Some bl' /\ equivalent l bl bl'.
Proof.
  intros p. induction l as [|[k v] l IH]; intros b r G H; [easy|]. destruct H as [H|H].
  - inversion H; subst. pose proof G as G'. cbn in G'.
    destruct G' as (_ & _ & _ & _ & _ & _ & bl & bl' & E & E' & Q).
    exists bl, bl'. repeat split; auto. eapply equivalent_more; eauto.
  - pose proof G as G'. destruct G' as (G' & _). destruct (IH b r G' H) as (bl & bl' & E & E' & Q).
    exists bl, bl'. repeat split; auto. eapply equivalent_more; eauto.
Qed.

Lemma good_entry : forall p l, good p l -> ~ In 0 (keys l).
Proof.
  intros p. induction l as [|[k v] l IH]; cbn; intros G H; [easy|].
  destruct G as (G & _ & _ & _ & _ & H5 & _). destruct H; auto. now apply IH.
Qed.

(** ** A block is equivalent to itself *)
Lemma literal_eqb_eq : forall a b, literal_eqb a b = true <-> a = b.
Proof.
  intros [x|x] [y|y]; cbn; split; intros H; try discriminate; try (inversion H; fail).
  - apply Bool.eqb_prop in H. now subst.
  - inversion H. apply Bool.eqb_reflx.
  - apply Nat.eqb_eq in H. now subst.
  - inversion H. apply Nat.eqb_refl.
Qed.

Lemma operand_eqb_eq : forall a b, operand_eqb a b = true <-> a = b.
Proof.
  intros a b. destruct a, b; cbn; try (split; discriminate); rewrite ?literal_eqb_eq, ?Nat.eqb_eq;
    split; intros H; try (now subst); now inversion H.
Qed.

Lemma kind_eqb_eq : forall a b, kind_eqb a b = true <-> a = b.
Proof.
  intros a b. destruct a, b; cbn; try (split; discriminate); try (split; auto; fail);
    rewrite ?andb_true_iff, ?Nat.eqb_eq, ?Bool.eqb_true_iff; split; intros H; try (now inversion H);
    try (destruct H; now subst); now subst.
Qed.

Lemma values_refl : forall x xs, values_alpha_equivalent x x xs xs = true.
Proof.
  intros x xs. destruct x as [a|a|n|n|r]; try (apply operand_eqb_eq; reflexivity). cbn.
  destruct (ordinal xs r); apply Nat.eqb_refl.
Qed.

Lemma all_refl : forall os xs, all_equivalent xs xs os os = true.
Proof. induction os as [|o os IH]; intros xs; cbn; auto. now rewrite values_refl, IH. Qed.

Definition results_of (os : list operation) : list nat :=
  flat_map (fun o => match op_result o with Some r => [r] | None => [] end) os.

Lemma operations_results : forall os os' xs ys xs' ys',
  operations_equivalent xs ys os os' = Some (xs', ys') ->
  xs' = xs ++ results_of os /\ ys' = ys ++ results_of os' /\ (length xs = length ys -> length xs' = length ys').
Proof.
  induction os as [|o os IH]; intros [|o' os'] xs ys xs' ys' E; cbn in E; try discriminate.
  - inversion E; subst. cbn. now rewrite !app_nil_r.
  - destruct (kind_eqb _ _ && all_equivalent _ _ _ _); [|discriminate]. cbn [results_of flat_map].
    destruct (op_result o) as [r|], (op_result o') as [r'|]; try discriminate.
    + destruct (IH _ _ _ _ _ E) as (H1 & H2 & H3). cbn. rewrite <- !app_assoc in H1, H2. cbn in *.
      repeat split; auto. intros. apply H3. rewrite !app_length. cbn. lia.
    + cbn. eauto.
Qed.

Lemma operations_refl : forall os xs, operations_equivalent xs xs os os = Some (xs ++ results_of os, xs ++ results_of os).
Proof.
  induction os as [|o os IH]; intros xs; cbn; [now rewrite app_nil_r|].
  assert (K : kind_eqb (op_kind o) (op_kind o) = true) by now apply kind_eqb_eq.
  rewrite K, all_refl. cbn. destruct (op_result o) as [r|]; rewrite IH; auto. now rewrite <- app_assoc.
Qed.

Lemma equivalent_refl : forall l bl, (forall o a b, term bl <> TInvoke o a b) -> equivalent l bl bl.
Proof.
  intros l bl H. exists (results_of (operations bl)), (results_of (operations bl)).
  rewrite operations_refl. split; auto.
  destruct (term bl) eqn:E; cbn; rewrite ?values_refl, ?Nat.eqb_refl; auto. exfalso. eapply H; eauto.
Qed.

Lemma equivalent_no_invoke : forall l a b, equivalent l a b ->
  (forall o x y, term a <> TInvoke o x y) /\ (forall o x y, term b <> TInvoke o x y).
Proof.
  intros l a b (xs & ys & _ & H). split; intros o x y E; rewrite E in H.
  - discriminate.
  - destruct (term a); discriminate.
Qed.

Lemma NoDup_left : forall (a b : list nat), NoDup (a ++ b) -> NoDup a.
Proof.
  induction a as [|x a IH]; intros b H; [constructor|]. inversion H; subst. constructor; eauto.
  intros Hin. apply H2. apply in_or_app. auto.
Qed.

Lemma NoDup_right : forall (a b : list nat), NoDup (a ++ b) -> NoDup b.
Proof. induction a as [|x a IH]; intros b H; auto. inversion H; subst. eauto. Qed.

(** ** Ordinals *)
Lemma ordinal_nth : forall xs r i, ordinal xs r = Some i -> nth_error xs i = Some r.
Proof.
  induction xs as [|x xs IH]; intros r i E; cbn in E; [discriminate|]. destruct (x =? r) eqn:Ex.
  - apply Nat.eqb_eq in Ex. inversion E; subst; auto.
  - destruct (ordinal xs r) as [j|] eqn:Ej; cbn in E; [|discriminate]. inversion E; subst. cbn. auto.
Qed.

Lemma ordinal_In : forall xs r, ordinal xs r = None <-> ~ In r xs.
Proof.
  induction xs as [|x xs IH]; intros r; cbn; [tauto|]. destruct (x =? r) eqn:Ex.
  - apply Nat.eqb_eq in Ex. split; [discriminate|]. intros H. exfalso. auto.
  - apply Nat.eqb_neq in Ex. specialize (IH r). destruct (ordinal xs r); cbn.
    + split; [discriminate|]. intros H. exfalso. assert (Hn : ~ In r xs) by tauto. apply IH in Hn. discriminate.
    + assert (Hn : ~ In r xs) by now apply IH. tauto.
Qed.

Lemma combine_nth_In : forall (xs ys : list nat) i x y, nth_error xs i = Some x -> nth_error ys i = Some y ->
  In (x, y) (combine xs ys).
Proof.
  induction xs as [|a xs IH]; intros [|b ys] [|i] x y E E'; cbn in *; try discriminate.
  - inversion E; inversion E'; subst; auto.
  - right. eauto.
Qed.

Lemma combine_one : forall (xs ys : list nat) x y x' y', NoDup xs -> NoDup ys ->
  In (x, y) (combine xs ys) -> In (x', y') (combine xs ys) -> (x = x' <-> y = y').
Proof.
  induction xs as [|a xs IH]; intros [|b ys] x y x' y' Nx Ny H H'; cbn in *; try easy.
  inversion Nx; inversion Ny; subst.
  destruct H as [H|H], H' as [H'|H'].
  - inversion H; inversion H'; subst; tauto.
  - inversion H; subst. pose proof (in_combine_l _ _ _ _ H'). pose proof (in_combine_r _ _ _ _ H').
    split; intros; subst; contradiction.
  - inversion H'; subst. pose proof (in_combine_l _ _ _ _ H). pose proof (in_combine_r _ _ _ _ H).
    split; intros; subst; contradiction.
  - eapply IH; eauto.
Qed.

Lemma combine_app_one : forall (xs ys : list nat) x y, length xs = length ys ->
  combine (xs ++ [x]) (ys ++ [y]) = combine xs ys ++ [(x, y)].
Proof.
  induction xs as [|a xs IH]; intros [|b ys] x y H; cbn in *; try discriminate; auto.
  now rewrite IH by lia.
Qed.

Section Run.
Context {other world : Type}.
Variable m : machine other world.
Variable p : body.
Variable l : replacement.
Hypothesis Hgood : good p l.
Hypothesis Hsingle : single_definitions p.
Hypothesis Hgives : gives_results m p.

Definition planned (b : nat) : Prop := In b (keys l) \/ In b (kept l).
Hypothesis Hkeeps : forall b, planned b -> keeps_results p b.

(** The registers of the planned blocks. *)
Definition D (r : nat) : Prop :=
  exists b bl, planned b /\ nth_error p b = Some bl /\ In r (results_of (operations bl)).

Definition R (xs ys : list nat) (r r' : nat) : Prop := (r = r' /\ ~ D r) \/ In (r, r') (combine xs ys).

Lemma R_one : forall xs ys, NoDup xs -> NoDup ys -> (forall x, In x xs -> D x) -> (forall y, In y ys -> D y) ->
  one_to_one (R xs ys).
Proof.
  intros xs ys Nx Ny Dx Dy r r' s s' [[-> H]|H] [[-> H']|H'].
  - tauto.
  - pose proof (in_combine_l _ _ _ _ H'). pose proof (in_combine_r _ _ _ _ H').
    split; intros; subst; exfalso; auto.
  - pose proof (in_combine_l _ _ _ _ H). pose proof (in_combine_r _ _ _ _ H).
    split; intros; subst; exfalso; auto.
  - exact (combine_one xs ys r r' s s' Nx Ny H H').
Qed.

Lemma value_renamed : forall xs ys x y, values_alpha_equivalent x y xs ys = true ->
  (forall r, x = OReg r -> D r -> In r xs) -> operand_renamed (R xs ys) x y.
Proof.
  intros xs ys x y E Hu. destruct x as [a|a|n|n|r], y as [b|b|k|k|r']; cbn in *;
    try discriminate; try (apply literal_eqb_eq in E; now subst); try (apply Nat.eqb_eq in E; now subst).
  destruct (ordinal xs r) as [i|] eqn:E1, (ordinal ys r') as [j|] eqn:E2; try discriminate;
    apply Nat.eqb_eq in E; subst.
  - right. eapply combine_nth_In; eapply ordinal_nth; eauto.
  - left. split; auto. intros Hd. apply ordinal_In in E1. apply E1. eapply Hu; eauto.
Qed.

Lemma all_renamed : forall xs ys os os', all_equivalent xs ys os os' = true ->
  (forall r, In (OReg r) os -> D r -> In r xs) -> Forall2 (operand_renamed (R xs ys)) os os'.
Proof.
  intros xs ys. induction os as [|x os IH]; intros [|y os'] E Hu; cbn in E; try discriminate; constructor.
  - apply andb_true_iff in E. destruct E. apply value_renamed; auto. intros. subst. apply Hu; cbn; auto.
  - apply andb_true_iff in E. destruct E. apply IH; auto. intros. apply Hu; cbn; auto.
Qed.

Definition done_renamed (R : nat -> nat -> Prop) (a a' : outcome other world) : Prop :=
  match a with
  | RDone f w => exists f', a' = RDone f' w /\ renamed R f f'
  | RError f w => exists f', a' = RError f' w
  | RStopped w => a' = RStopped w
  | RPanic => a' = RPanic
  | RDiverge => a' = RDiverge
  end.

Lemma steps_renamed : forall os os' xs ys xs' ys' f f' w,
  operations_equivalent xs ys os os' = Some (xs', ys') -> length xs = length ys ->
  NoDup xs' -> NoDup ys' -> (forall x, In x xs' -> D x) -> (forall y, In y ys' -> D y) ->
  (forall i o r, nth_error os i = Some o -> In (OReg r) (op_operands o) -> D r ->
     In r (xs ++ results_of (firstn i os))) ->
  (forall o, In o os -> gives_result m o) ->
  renamed (R xs ys) f f' -> done_renamed (R xs' ys') (steps m os f w) (steps m os' f' w).
Proof.
  induction os as [|o os IH]; intros [|o' os'] xs ys xs' ys' f f' w E Hl Nx Ny Dx Dy Hu Hg H;
    cbn in E; try discriminate.
  - inversion E; subst. cbn. eauto.
  - destruct (kind_eqb _ _) eqn:Ek; cbn [andb] in E; [|discriminate].
    destruct (all_equivalent _ _ _ _) eqn:Ea; [|discriminate].
    apply kind_eqb_eq in Ek.
    assert (Hops : Forall2 (operand_renamed (R xs ys)) (op_operands o) (op_operands o')).
    { apply all_renamed; auto. intros r Hr Hd. specialize (Hu 0 o r eq_refl Hr Hd). cbn in Hu.
      now rewrite app_nil_r in Hu. }
    assert (Hxs : exists xs1 ys1, operations_equivalent xs1 ys1 os os' = Some (xs', ys') /\
      xs1 = xs ++ results_of [o] /\ ys1 = ys ++ results_of [o'] /\ length xs1 = length ys1 /\
      results_renamed (R xs ys) (R xs1 ys1) (op_result o) (op_result o')).
    { cbn [results_of flat_map].
      destruct (op_result o) as [r|], (op_result o') as [r'|]; try discriminate; cbn; rewrite ?app_nil_r.
      - exists (xs ++ [r]), (ys ++ [r']). repeat split; auto; [rewrite !app_length; cbn; lia|].
        destruct (operations_results _ _ _ _ _ _ E) as (Ex & Ey & _).
        rewrite <- app_assoc in Ex, Ey. cbn in Ex, Ey.
        assert (Nr : ~ In r xs).
        { intros Hin. rewrite Ex in Nx. apply NoDup_remove_2 in Nx. apply Nx. apply in_or_app. auto. }
        assert (Nr' : ~ In r' ys).
        { intros Hin. rewrite Ey in Ny. apply NoDup_remove_2 in Ny. apply Ny. apply in_or_app. auto. }
        assert (Dr : D r) by (apply Dx; rewrite Ex; apply in_or_app; cbn; auto).
        assert (Dr' : D r') by (apply Dy; rewrite Ey; apply in_or_app; cbn; auto).
        intros s s' [[-> Hs]|Hs].
        + right. repeat split; try (intros ->; contradiction). left. auto.
        + rewrite combine_app_one in Hs by auto. apply in_app_or in Hs. destruct Hs as [Hs|[Hs|[]]].
          * right. pose proof (in_combine_l _ _ _ _ Hs). pose proof (in_combine_r _ _ _ _ Hs).
            repeat split; try (intros ->; contradiction). now right.
          * inversion Hs; auto.
      - exists xs, ys. repeat split; auto. }
    destruct Hxs as (xs1 & ys1 & E1 & Ex1 & Ey1 & Hl1 & Hr).
    destruct (operations_results _ _ _ _ _ _ E1) as (Ex & Ey & _).
    assert (HR : one_to_one (R xs ys)).
    { apply R_one.
      - rewrite Ex, Ex1, <- app_assoc in Nx. clear - Nx. induction xs as [|a xs IH]; [constructor|].
        inversion Nx; subst. constructor; auto. intros Hin. apply H1. apply in_or_app. auto.
      - rewrite Ey, Ey1, <- app_assoc in Ny. clear - Ny. induction ys as [|a ys IH]; [constructor|].
        inversion Ny; subst. constructor; auto. intros Hin. apply H1. apply in_or_app. auto.
      - intros x Hx. apply Dx. rewrite Ex, Ex1. apply in_or_app. left. apply in_or_app. auto.
      - intros y Hy. apply Dy. rewrite Ey, Ey1. apply in_or_app. left. apply in_or_app. auto. }
    pose proof (step_renamed m (R xs ys) HR (R xs1 ys1) o o' f f' w (eq_sym Ek) Hops Hr
      (Hg o (or_introl eq_refl)) H) as P.
    cbn [steps]. destruct (step m o f w) as [f1 w1|f1 w1|w1| |]; cbn in P.
    + destruct P as (f1' & -> & H1). eapply IH; eauto.
      * intros i o0 r Ei Hi Hd. specialize (Hu (S i) o0 r Ei Hi Hd). cbn [firstn] in Hu.
        rewrite Ex1. unfold results_of in *. cbn [flat_map] in *. rewrite app_nil_r, <- app_assoc. exact Hu.
      * intros o0 Ho. apply Hg. now right.
    + destruct P as (f1' & ->). cbn. eauto.
    + rewrite P. reflexivity.
    + rewrite P. reflexivity.
    + rewrite P. reflexivity.
Qed.

(** ** Leaving a planned block *)

Definition go_agree (x x' : exit (other := other) (world := world)) : Prop :=
  match x with
  | XGo b f w => exists f', x' = XGo (canonical_target l b) f' w /\ agree D f f'
  | XEnd a => x' = XEnd a
  end.

Lemma renamed_agree : forall xs ys (f f' : frame other), renamed (R xs ys) f f' -> agree D f f'.
Proof. intros xs ys f f' [A C S N G]. constructor; auto. intros r Hr. apply G. now left. Qed.

Lemma agree_renamed : forall f f' : frame other, agree D f f' -> renamed (R [] []) f f'.
Proof. intros f f' [A C S N G]. constructor; auto. intros r r' [[<- Hr]|[]]. auto. Qed.

Lemma leave_renamed : forall xs ys t t' f f' w, ends_equivalent l xs ys t t' = true ->
  one_to_one (R xs ys) -> (forall r, In (OReg r) (term_operands t) -> D r -> In r xs) ->
  renamed (R xs ys) f f' -> go_agree (leave m t f w) (leave m (retarget (canonical_target l) t') f' w).
Proof.
  intros xs ys t t' f f' w E HR Hu H. pose proof (renamed_agree _ _ _ _ H) as Ha.
  destruct t as [a|c a b|o a b|q a| | |], t' as [a'|c' a' b'|o' a' b'|q' a'| | |]; cbn in E; try discriminate;
    cbn [retarget]; try reflexivity.
  - apply Nat.eqb_eq in E. cbn. rewrite E. eauto.
  - apply andb_true_iff in E. destruct E as [E E2]. apply andb_true_iff in E. destruct E as [E E1].
    apply Nat.eqb_eq in E1, E2. cbn.
    assert (Hc : operand_renamed (R xs ys) c c').
    { apply value_renamed; auto. intros r -> Hd. apply Hu; cbn; auto. }
    rewrite (inspect_renamed m _ _ _ _ _ w Hc H).
    destruct (inspect m f w c) as [[[[|]|v]|]|]; cbn; eauto; [rewrite E1|rewrite E2]; eauto.
  - apply andb_true_iff in E. destruct E as [E E1]. apply Nat.eqb_eq in E1. cbn.
    assert (Hc : operand_renamed (R xs ys) q q').
    { apply value_renamed; auto. intros r -> Hd. apply Hu; cbn; auto. }
    pose proof (pass_renamed1 m _ HR KYield 0 q q' f f' w Hc H) as P.
    destruct (pass_operand m KYield 0 q f w) as [[[v f1] w1]|]; cbn in P;
      [destruct P as (f1' & -> & H1)|now rewrite P].
    destruct (exec m KYield [v] w1); cbn; eauto. rewrite E1. eexists. split; eauto.
    eapply renamed_agree; eauto.
Qed.

Lemma results_In : forall os r, In r (results_of os) <-> exists o, In o os /\ op_result o = Some r.
Proof.
  intros os r. unfold results_of. rewrite in_flat_map. split; intros (o & Ho & H); exists o; split; auto.
  - destruct (op_result o); cbn in H; [|easy]. destruct H as [-> |[]]. reflexivity.
  - rewrite H. cbn. auto.
Qed.

Lemma block_results : forall b bl, nth_error p b = Some bl -> NoDup (results_of (operations bl)).
Proof.
  intros b bl E. unfold single_definitions, defined, body_operations in Hsingle.
  apply nth_error_split in E. destruct E as (p1 & p2 & E & _). rewrite E in Hsingle.
  rewrite flat_map_app, flat_map_app in Hsingle. cbn [flat_map] in Hsingle.
  rewrite flat_map_app in Hsingle.
  assert (Eb : block_operations bl = operations bl ++ match term bl with TInvoke o _ _ => [o] | _ => [] end)
    by reflexivity.
  rewrite Eb, flat_map_app in Hsingle.
  fold (results_of (operations bl)) in Hsingle.
  apply NoDup_right in Hsingle. apply NoDup_left in Hsingle. now apply NoDup_left in Hsingle.
Qed.

Lemma block_gives : forall b bl o, nth_error p b = Some bl -> In o (operations bl) -> gives_result m o.
Proof.
  intros b bl o E Ho. apply Hgives. unfold body_operations. apply in_flat_map. exists bl.
  split; [eapply nth_error_In; eauto|]. unfold block_operations. apply in_or_app. auto.
Qed.

(** A use of a register of the plan comes after its definition in the block. *)
Lemma use_defined : forall b bl i r, nth_error p b = Some bl -> visited p b ->
  used_at p r (b, i) -> D r -> In r (results_of (firstn i (operations bl))).
Proof.
  intros b bl i r E Hv Hu (c & cl & Hc & Ec & Hr). apply results_In in Hr. destruct Hr as (o & Ho & Er).
  apply In_nth_error in Ho. destruct Ho as (k & Hk).
  destruct (Hkeeps c Hc k o r (b, i)) as [Hb Hlt]; auto; [exists cl; auto|]. cbn in Hb, Hlt. subst c.
  rewrite Ec in E. inversion E; subst.
  apply results_In. exists o. split; auto.
  rewrite <- (firstn_skipn i (operations bl)) in Hk.
  assert (Hn : k < length (operations bl)).
  { rewrite (firstn_skipn i) in Hk. apply nth_error_Some. congruence. }
  rewrite nth_error_app1 in Hk by (rewrite firstn_length; lia). eapply nth_error_In; eauto.
Qed.

Lemma not_planned_unused : forall b bl, nth_error p b = Some bl -> visited p b -> ~ planned b ->
  (forall o, In o (operations bl) -> Forall (unused D) (op_operands o)) /\
  Forall (unused D) (term_operands (term bl)).
Proof.
  intros b bl E Hv Hb.
  assert (H : forall r i, used_at p r (b, i) -> ~ D r).
  { intros r i Hu (c & cl & Hc & Ec & Hr). apply results_In in Hr. destruct Hr as (o & Ho & Er).
    apply In_nth_error in Ho. destruct Ho as (k & Hk).
    destruct (Hkeeps c Hc k o r (b, i)) as [Hbc _]; auto; [exists cl; auto|]. cbn in Hbc. now subst c. }
  split.
  - intros o Ho. apply Forall_forall. intros x Hx r ->. apply In_nth_error in Ho. destruct Ho as (i & Hi).
    apply (H r i). left. exists o. split; auto. exists bl. auto.
  - apply Forall_forall. intros x Hx r ->. apply (H r (length (operations bl))). right. exists (term bl).
    split; auto. exists bl. auto.
Qed.

Lemma pair_step : forall a b bl bl' f f' w, visited p a -> planned a -> planned b ->
  nth_error p a = Some bl -> nth_error p b = Some bl' -> equivalent l bl bl' -> agree D f f' ->
  go_agree (step_block m bl f w)
    (step_block m (Block (operations bl') (retarget (canonical_target l) (term bl'))) f' w).
Proof.
  intros a b bl bl' f f' w Hv Ha Hb Ea Eb (xs & ys & Eo & Ee) H.
  destruct (operations_results _ _ _ _ _ _ Eo) as (Ex & Ey & _). cbn in Ex, Ey.
  assert (Nx : NoDup xs) by (rewrite Ex; eapply block_results; eauto).
  assert (Ny : NoDup ys) by (rewrite Ey; eapply block_results; eauto).
  assert (Dx : forall x, In x xs -> D x) by (intros x Hx; rewrite Ex in Hx; exists a, bl; auto).
  assert (Dy : forall y, In y ys -> D y) by (intros y Hy; rewrite Ey in Hy; exists b, bl'; auto).
  assert (P : done_renamed (R xs ys) (steps m (operations bl) f w) (steps m (operations bl') f' w)).
  { eapply steps_renamed; try exact Eo; auto.
    - intros i o r Ei Hr Hd. cbn [app]. apply (use_defined a bl); auto.
      left. exists o. split; auto. exists bl. auto.
    - intros o Ho. apply (block_gives a bl); auto.
    - now apply agree_renamed. }
  unfold step_block. cbn [operations term].
  destruct (steps m (operations bl) f w) as [f1 w1|f1 w1|w1| |]; cbn in P.
  - destruct P as (f1' & -> & H1). eapply leave_renamed; eauto.
    + now apply R_one.
    + intros r Hr Hd. rewrite Ex. rewrite <- (firstn_all (operations bl)). apply (use_defined a bl); auto.
      right. exists (term bl). split; auto. exists bl. auto.
  - destruct P as (f1' & ->). reflexivity.
  - rewrite P. reflexivity.
  - rewrite P. reflexivity.
  - rewrite P. reflexivity.
Qed.

Lemma alone_step : forall b bl f f' w, visited p b -> ~ planned b -> nth_error p b = Some bl -> agree D f f' ->
  go_agree (step_block m bl f w)
    (step_block m (Block (operations bl) (retarget (canonical_target l) (term bl))) f' w).
Proof.
  intros b bl f f' w Hv Hb Eb H. destruct (not_planned_unused b bl Eb Hv Hb) as [Ho Ht].
  pose proof (steps_agree m D (operations bl) f f' w Ho H) as P. unfold step_block. cbn [operations term].
  destruct (steps m (operations bl) f w) as [f1 w1|f1 w1|w1| |]; cbn in P.
  - destruct P as (f1' & -> & H1). rewrite retarget_leave.
    pose proof (leave_agree m D (term bl) f1 f1' w1 Ht H1) as Q.
    destruct (leave m (term bl) f1 w1) as [c f2 w2|a]; cbn in Q.
    + destruct Q as (f2' & -> & H2). cbn. eauto.
    + rewrite Q. reflexivity.
  - destruct P as (f1' & -> & _). reflexivity.
  - rewrite P. reflexivity.
  - rewrite P. reflexivity.
  - rewrite P. reflexivity.
Qed.

Lemma planned_dec : forall b, {planned b} + {~ planned b}.
Proof.
  intros b. unfold planned. destruct (in_dec Nat.eq_dec b (keys l)); [left; auto|].
  destruct (in_dec Nat.eq_dec b (kept l)); [left; auto|right; tauto].
Qed.

Lemma nth_retargeted : forall b, nth_error (retargeted l p) b =
  option_map (fun bl => Block (operations bl) (retarget (canonical_target l) (term bl))) (nth_error p b).
Proof. intros b. unfold retargeted. apply nth_error_map. Qed.

Lemma block_step : forall b bl f f' w, visited p b -> nth_error p b = Some bl -> agree D f f' ->
  exists bl', nth_error (retargeted l p) (canonical_target l b) = Some bl' /\
    go_agree (step_block m bl f w) (step_block m bl' f' w).
Proof.
  intros b bl f f' w Hv Eb H. unfold canonical_target at 1. destruct (replaced l b) as [r|] eqn:Er.
  - apply replaced_In in Er. destruct (good_pair p l b r Hgood Er) as (x & y & Ex & Ey & Q).
    rewrite Eb in Ex. inversion Ex; subst x. rewrite nth_retargeted, Ey. cbn. eexists. split; [reflexivity|].
    apply (pair_step b r); auto.
    + left. apply in_map_iff. now exists (b, r).
    + right. apply in_map_iff. now exists (b, r).
  - rewrite nth_retargeted, Eb. cbn. eexists. split; [reflexivity|].
    destruct (planned_dec b) as [Hb|Hb]; [|now apply (alone_step b)].
    apply (pair_step b b); auto. apply equivalent_refl.
    apply replaced_None in Er. destruct Hb as [Hb|Hb]; [contradiction|].
    apply in_map_iff in Hb. destruct Hb as ([a r] & E & Hin). cbn in E. subst r.
    destruct (good_pair p l a b Hgood Hin) as (x & y & Ex & Ey & Q). rewrite Eb in Ey. inversion Ey; subst y.
    now apply equivalent_no_invoke in Q.
Qed.

Lemma leave_successor : forall t f w c f1 w1, leave m t f w = XGo c f1 w1 -> In c (successors t).
Proof.
  intros t f w c f1 w1 E. destruct t as [a|x a b|o a b|q a| | |]; cbn in *; try discriminate.
  - inversion E; auto.
  - destruct (inspect m f w x) as [[[[|]|v]|]|]; inversion E; auto.
  - destruct (step m o f w); inversion E; auto.
  - destruct (pass_operand m KYield 0 q f w) as [[[v f2] w2]|]; [|discriminate].
    destruct (exec m KYield [v] w2); inversion E; auto.
Qed.

Lemma block_successor : forall bl f w c f1 w1, step_block m bl f w = XGo c f1 w1 -> In c (successors (term bl)).
Proof.
  intros bl f w c f1 w1 E. unfold step_block in E. destruct (steps m (operations bl) f w); try discriminate.
  eapply leave_successor; eauto.
Qed.

Lemma run_merged : forall n b f f' w, visited p b -> agree D f f' -> run m n p b f w <> Panicked ->
  run m n (retargeted l p) (canonical_target l b) f' w = run m n p b f w.
Proof.
  induction n as [|n IH]; intros b f f' w Hv H Hp; auto. cbn in *.
  destruct (nth_error p b) as [bl|] eqn:Eb; [|easy].
  destruct (block_step b bl f f' w Hv Eb H) as (bl' & -> & G).
  destruct (step_block m bl f w) as [c f1 w1|a] eqn:Es; cbn in G.
  - destruct G as (f1' & -> & H1). apply IH; auto. eapply Relation_Operators.rtn1_trans; [|exact Hv]. exists bl. split; auto.
    eapply block_successor; eauto.
  - rewrite G. reflexivity.
Qed.

Lemma merged_same_calls : same_calls m p (retargeted l p).
Proof.
  intros n params w Hp. unfold call in *.
  rewrite <- (canonical_key l 0) at 1 by (eapply good_entry; eauto).
  apply run_merged; auto; [constructor|apply agree_refl].
Qed.
End Run.

(** ** The plan the pass makes *)
Section Plan.
Variable hash : list (kind * list hashed) -> hashed_end -> nat.
Variable p : body.

Definition mergingok (s : merging) (left : list nat) : Prop :=
  good p (merged s) /\
  (forall h r, In (h, r) (representatives s) -> ~ In r (keys (merged s)) /\ ~ In r left) /\
  (forall b, In b left -> ~ In b (keys (merged s)) /\ ~ In b (kept (merged s))) /\
  (forall r, In r (kept (merged s)) -> exists h, In (h, r) (representatives s)).

Lemma merge_block_ok : forall s b left, mergingok s (b :: left) -> NoDup (b :: left) -> b <> 0 ->
  mergingok (merge_block hash p s b) left.
Proof.
  intros s b left (G & Hr & Hl & Hk) Nd Hb.
  assert (Hs : mergingok s left).
  { split; [auto|split; [|split; auto]].
    - intros h r Hin. destruct (Hr h r Hin). cbn in *. tauto.
    - intros x Hx. apply Hl. now right. }
  inversion Nd as [|? ? Nb Nl]; subst.
  destruct (Hl b (or_introl eq_refl)) as [Hb1 Hb2].
  unfold merge_block. destruct (nth_error p b) as [bl|] eqn:Eb; auto.
  destruct (block_fingerprint hash (merged s) bl) as [h|]; auto.
  destruct (find _ _) as [[h' r]|] eqn:Ef.
  - apply find_some in Ef. destruct Ef as [Hin Ef]. apply andb_true_iff in Ef. destruct Ef as [_ Ef].
    destruct (nth_error p r) as [bl'|] eqn:Er; [|discriminate].
    destruct (Hr h' r Hin) as [Hr1 Hr2].
    assert (Hne : r <> b) by (intros ->; apply Hr2; now left).
    split; [|split; [|split]]; cbn [merged representatives].
    + cbn. repeat split; auto. exists bl, bl'. repeat split; auto.
      unfold blocks_alpha_equivalent in Ef.
      destruct (operations_equivalent _ _ _ _) as [[xs ys]|] eqn:Eo; [|discriminate]. exists xs, ys. auto.
    + intros h2 r2 H2. destruct (Hr h2 r2 H2) as [A B]. cbn in *. split; [|tauto].
      intros [E|E]; [|contradiction]. subst. apply B. auto.
    + intros x Hx. destruct (Hl x (or_intror Hx)) as [A B]. cbn. split.
      * intros [E|E]; [subst; contradiction|contradiction].
      * intros [E|E]; [subst; apply Hr2; now right|contradiction].
    + cbn. intros x [E|E]; [subst; eauto|auto].
  - split; [auto|split; [|split; auto]]; cbn [merged representatives].
    + intros h2 r2 H2. apply in_app_or in H2. destruct H2 as [H2|[H2|[]]].
      * destruct (Hr h2 r2 H2) as [A B]. cbn in *. tauto.
      * inversion H2; subst. auto.
    + intros x Hx. apply Hl. now right.
    + intros r Hin. destruct (Hk r Hin) as (h2 & H2). exists h2. apply in_or_app. auto.
Qed.

Lemma fold_ok : forall left s, mergingok s left -> NoDup left -> ~ In 0 left ->
  good p (merged (fold_left (merge_block hash p) left s)).
Proof.
  induction left as [|b left IH]; intros s H Nd Hz; cbn [fold_left].
  - apply H.
  - apply IH.
    + apply merge_block_ok; auto. intros ->. apply Hz. now left.
    + now inversion Nd.
    + intros Hin. apply Hz. now right.
Qed.

Lemma candidates_NoDup : forall reached, NoDup (candidates p reached).
Proof.
  intros reached. unfold candidates. apply NoDup_rev. apply NoDup_filter. apply seq_NoDup.
Qed.

Lemma candidates_In : forall reached b, In b (candidates p reached) <-> 0 < b < length p /\ In b reached.
Proof.
  intros reached b. unfold candidates. rewrite <- in_rev, filter_In, in_seq, existsb_exists.
  split.
  - intros (H & x & Hx & E). apply Nat.eqb_eq in E. subst. split; auto. lia.
  - intros (H & Hin). split; [lia|]. exists b. split; auto. apply Nat.eqb_refl.
Qed.

Lemma merged_good : forall reached, good p (merged_blocks hash p reached).
Proof.
  intros reached. unfold merged_blocks. apply fold_ok.
  - split; [exact I|]. split; [easy|]. split; [auto|easy].
  - apply candidates_NoDup.
  - rewrite candidates_In. lia.
Qed.
End Plan.
