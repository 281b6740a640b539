From Coq Require Import List Bool Arith Lia Permutation Sorted.
From Verif Require Import ListUtil GraphModel InternModel InternSpec InternKinds InternSim InternFind InternProofs InternCanon InternPlace InternAgain.
Import ListNotations.

Local Arguments ty_eq_dec : simpl never.

Lemma sorted_id : forall l : list (nat * ty), StronglySorted lt (map fst l) -> sort by_name l = l.
Proof.
  intros l H. symmetry. apply sorted_perm_eq; auto; [|apply sort_perm]. apply sort_sorted.
  clear - H. induction (map fst l) as [|x m IH]; constructor; inversion H as [|? ? H1 H2]; subst; auto. intros J. rewrite Forall_forall in H2. specialize (H2 x J). lia.
Qed.
Lemma normal_id : forall k, normal k -> normalize k = k.
Proof. intros [] H; simpl; auto; unfold normal in H; simpl in H; rewrite sorted_id; auto. Qed.
Lemma normal_named : forall k, normal k -> well_named k.
Proof.
  intros k H. assert (X : NoDup (names k)).
  { unfold normal in H. induction (names k) as [|x l IH]; constructor; inversion H as [|? ? H1 H2]; subst; auto. intros J. rewrite Forall_forall in H2. specialize (H2 x J). lia. }
  destruct k; simpl in *; auto.
Qed.

Lemma flat_ok : forall l u, inv u -> (forall k ws, In (k, ws) l -> recursive_worlds_if_no_local_refs k = Some ws /\ normal k /\ forall c, In c (kids k) -> exists m, get u c = Some m) ->
  exists u' ts, insert_flat u l = Val (u', ts) /\ inv u' /\ below (get u) (get u') /\ Forall2 (fun p t => get u' t = Some (fst p)) l ts /\
    (forall t k, get u' t = Some k -> get u t = Some k \/ In t ts) /\ (canon u -> canon u').
Proof.
  induction l as [|[k ws] l IH]; cbn [insert_flat]; intros u I H.
  - exists u, []. split; auto. split; auto. split; [intros ? ? X; exact X|]. split; auto.
  - destruct (IH u I) as (u1 & ts & E & I1 & B1 & F & Nw & C1); [intros; apply H; simpl; auto|]. rewrite E. cbn [bind].
    destruct (H k ws (or_introl eq_refl)) as (R & N & K).
    assert (K1 : forall c, In c (kids k) -> exists m, get u1 c = Some m) by (intros c J; destruct (K c J) as (m & M); eauto).
    destruct (insert_nonrec_ok u1 k ws I1 K1 R) as [(t & E1 & G)|(E1 & Z & Wk)]; rewrite E1; cbn [bind].
    + exists u1, (t :: ts). split; auto. split; auto. split; auto. split; [constructor; auto|]. split; auto. intros t' k' X. destruct (Nw t' k' X); simpl; auto.
    + exists (add_zero u1 k), (Glob 0 (zero_len u1) :: ts). split; auto. split; [apply add_zero_inv; auto|]. split; [intros t' k' X; apply add_zero_below; auto|].
      split; [constructor; [apply add_zero_new; auto|]|split].
      * eapply Forall2_imp; [|exact F]. intros p t' _ _ X. apply add_zero_below. auto.
      * intros t' k' X. rewrite get_add_zero in X. destruct (ty_eq_dec t' (Glob 0 (zero_len u1))) as [->|]; [simpl; auto|]. destruct (Nw t' k' X); simpl; auto.
      * intros C. apply canon_add_zero; auto.
Qed.

Lemma combine_nth_inv : forall A B (l : list A) (m : list B) i a b, nth_error (combine l m) i = Some (a, b) -> nth_error l i = Some a /\ nth_error m i = Some b.
Proof. induction l as [|x l IH]; intros [|y m] [|i] a b E; simpl in *; try discriminate; [inversion E; auto|]. apply IH; auto. Qed.

Section Store.
Variable le : kind -> kind -> bool.
Variable order : list nat -> list nat.
Hypothesis HO : iteration order.

Section One.
Variables (u : universe) (kinds : list kind).
Let ks := map normalize kinds.
Let D := described u ks.
Hypothesis I0 : inv u.
Hypothesis SE : sensible u kinds.

Lemma norm_described : forall t, norm (described u kinds) t = D t.
Proof.
  intros [i|w i]; unfold norm, D, ks; cbn [described]; [rewrite nth_error_map; auto|].
  destruct (get u (Glob w i)) as [k|] eqn:E; simpl; auto. rewrite normal_id; auto. eapply i_normal; eauto.
Qed.
Lemma below_1 : below (norm (described u kinds)) D.
Proof. intros t k H. rewrite <- norm_described. auto. Qed.
Lemma below_2 : below D (norm (described u kinds)).
Proof. intros t k H. rewrite norm_described. auto. Qed.
Lemma named_d : named (described u kinds).
Proof.
  intros t k E. destruct t as [i|w i]; [|apply normal_named; apply (i_normal _ I0 (Glob w i)); exact E]. apply (proj1 SE). eapply nth_error_In; eauto.
Qed.
Lemma named_u : forall v, inv v -> named (get v).
Proof. intros v I t k E. apply normal_named. eapply i_normal; eauto. Qed.
Lemma norm_u : forall v, inv v -> below (norm (get v)) (get v) /\ below (get v) (norm (get v)).
Proof.
  intros v I. split; intros t k E.
  - apply norm_inv in E. destruct E as (l & E & ->). rewrite normal_id; auto. eapply i_normal; eauto.
  - rewrite (norm_val _ _ _ E). rewrite normal_id; auto. eapply i_normal; eauto.
Qed.
Lemma same_store : forall v a b, inv v -> (same (described u kinds) (get v) a b <-> sim D (get v) a b).
Proof.
  intros v a b I. rewrite (same_sim _ _ a b named_d (named_u v I)). destruct (norm_u v I) as [B1 B2].
  split; apply sim_mono; auto using below_1, below_2.
Qed.
Lemma same_desc : forall a b, same (described u kinds) (described u kinds) a b <-> sim D D a b.
Proof. intros a b. rewrite (same_sim _ _ a b named_d named_d). split; apply sim_mono; auto using below_1, below_2. Qed.
Lemma path_desc : forall a b, path (described u kinds) a b <-> path D a b.
Proof. intros a b. rewrite <- path_norm. split; apply path_mono; auto using below_1, below_2. Qed.
Lemma cyclic_desc : forall a, cyclic (described u kinds) a <-> path1 D a a.
Proof. intros a. rewrite <- cyclic_norm, cyclic_path1. split; apply path1_mono; auto using below_1, below_2. Qed.

Lemma total_d : total D.
Proof.
  intros t k c E J. destruct t as [i|w i].
  - unfold D, ks in E. simpl in E. rewrite nth_error_map in E. destruct (nth_error kinds i) as [k'|] eqn:E'; [|discriminate]. simpl in E. inversion E; subst k.
    apply mentions_normalize in J. destruct (proj2 SE _ _ (nth_error_In _ _ E') J) as (l & L). exists (normalize l). apply below_1. apply norm_val. auto.
  - destruct (i_total _ I0 _ _ _ E J) as (l & L). destruct (get_glob _ _ _ L) as (w' & i' & ->). eauto.
Qed.
Lemma normal_d : forall t k, D t = Some k -> normal k.
Proof.
  intros t k E. destruct t as [i|w i]; [|apply (i_normal _ I0 (Glob w i)); exact E]. unfold D, ks in E. simpl in E. rewrite nth_error_map in E. destruct (nth_error kinds i) as [k'|] eqn:E'; [|discriminate]. simpl in E. inversion E; subst k.
  apply normalize_normal. apply (proj1 SE). eapply nth_error_In; eauto.
Qed.
Lemma plain_d : plain_cycles u kinds -> forall i k, nth_error ks i = Some k -> path1 D (Loc i) (Loc i) -> plain k.
Proof.
  intros P i k E C. unfold ks in E. rewrite nth_error_map in E. destruct (nth_error kinds i) as [k'|] eqn:E'; [|discriminate]. simpl in E. inversion E; subst k.
  apply plain_normalize. eapply P; eauto. apply cyclic_desc. auto.
Qed.
Lemma distinct_d : distinct_cycles u kinds -> forall i j, path D (Loc i) (Loc j) -> path D (Loc j) (Loc i) -> sim D D (Loc i) (Loc j) -> i = j.
Proof. intros H i j P Q S'. apply H; [apply path_desc|apply path_desc|apply same_desc]; auto. Qed.
Lemma folded_d : folded_cycles u kinds -> folded u ks.
Proof. intros H i t C P S'. apply H; [apply cyclic_desc|apply path_desc|apply same_desc]; auto. Qed.

Lemma insert_ok : plain_cycles u kinds -> distinct_cycles u kinds ->
  exists u' ts, insert_types le order u kinds = Val (u', ts) /\ inv u' /\ below (get u) (get u') /\ length ts = length kinds /\
    (forall i t, nth_error ts i = Some t -> sim D (get u') (Loc i) t) /\ (forall t k, get u' t = Some k -> get u t = Some k \/ In t ts) /\
    (folded_cycles u kinds -> canon u -> canon u').
Proof.
  intros PC DC. pose proof total_d as TD. unfold insert_types.
  assert (V : forallb validate kinds = true) by (apply forallb_forall; intros k J; apply validate_ok; apply (proj1 SE); auto). rewrite V. cbn [negb].
  fold ks. destruct (unwrap_all (map recursive_worlds_if_no_local_refs ks)) as [ws|] eqn:U.
  - apply unwrap_some in U. assert (Lw : length ws = length ks) by (rewrite <- (map_length recursive_worlds_if_no_local_refs ks), U, map_length; auto).
    destruct (flat_ok (combine ks ws) u I0) as (u' & ts & E & I' & B & F & Nw & C).
    { intros k w J. apply In_nth_error in J. destruct J as (i & J).
      assert (X : nth_error ks i = Some k /\ nth_error ws i = Some w).
      { apply combine_nth_inv. auto. }
      destruct X as [X1 X2]. assert (R : recursive_worlds_if_no_local_refs k = Some w).
      { pose proof (f_equal (fun l => nth_error l i) U) as Y. simpl in Y. rewrite !nth_error_map, X1, X2 in Y. simpl in Y. inversion Y. auto. }
      split; auto. split; [apply (normal_d (Loc i)); auto|]. intros c J'. destruct (TD (Loc i) k c X1 J') as (l & L).
      destruct (worlds_of_some _ _ _ R) as [G _]. destruct (G c J') as (w' & i' & ->). eauto. }
    assert (Lts : length ts = length kinds).
    { rewrite <- (Forall2_len _ _ _ _ _ F), combine_length, Lw, Nat.min_id. unfold ks. apply map_length. }
    exists u', ts. split; auto. split; auto. split; auto. split; auto. split; [|split; auto].
    intros i t E'. destruct (Forall2_nth_r _ _ _ _ _ _ _ F E') as ([k w] & X & G). simpl in G.
    assert (Y : nth_error ks i = Some k /\ nth_error ws i = Some w).
    { apply combine_nth_inv. auto. }
    destruct Y as [X1 X2]. assert (R : recursive_worlds_if_no_local_refs k = Some w).
    { pose proof (f_equal (fun l => nth_error l i) U) as Y. simpl in Y. rewrite !nth_error_map, X1, X2 in Y. simpl in Y. inversion Y. auto. }
    apply (sim_one _ _ _ _ k k X1 G). split; auto. apply Forall2_refl_in. intros c J. destruct (TD (Loc i) k c X1 J) as (l & L).
    destruct (worlds_of_some _ _ _ R) as [G' _]. destruct (G' c J) as (w' & i' & ->). eapply sim_glob; eauto.
  - assert (Hn : length ks <> 0) by (intros X; destruct ks; [simpl in U|]; discriminate).
    destruct (sccs_ok u ks I0 TD order HO Hn) as (sccs & E & O). rewrite E. cbn [bind].
    assert (ST : state u ks [] u (repeat None (length ks))).
    { constructor; auto.
      - intros ? ? X; exact X.
      - apply repeat_length.
      - intros i. split; [intros []|]. intros (t & X). apply nth_error_In in X. apply repeat_spec in X. discriminate.
      - intros i t X. apply nth_error_In in X. apply repeat_spec in X. discriminate. }
    destruct (place_components_ok u ks I0 TD normal_d (plain_d PC) (distinct_d DC) le sccs [] u _ O ST) as (u' & r' & pre' & E2 & P2 & S2 & B2 & C2).
    rewrite E2. cbn [bind]. eexists _, _. split; [reflexivity|]. split; [apply (s_inv _ _ _ _ _ S2)|]. split; auto.
    assert (DN : forall i o, nth_error r' i = Some o -> exists t, o = Some t).
    { intros i o X. assert (Li : i < length ks) by (rewrite <- (s_len _ _ _ _ _ S2); apply nth_error_Some; congruence).
      apply P2 in Li. apply (s_done _ _ _ _ _ S2) in Li. destruct Li as (t & T). exists t. congruence. }
    split; [rewrite map_length, (s_len _ _ _ _ _ S2); unfold ks; apply map_length|]. split; [|split].
    + intros i t X. rewrite nth_error_map in X. destruct (nth_error r' i) as [o|] eqn:Y; [|discriminate]. destruct (DN i o Y) as (t' & ->). simpl in X. inversion X; subst.
      eapply (s_sim _ _ _ _ _ S2); eauto.
    + intros t k X. destruct (s_new _ _ _ _ _ S2 t k X) as [Y|(i & Y)]; auto. right. apply in_map_iff. exists (Some t). split; auto. eapply nth_error_In; eauto.
    + intros FC C. apply C2; auto. apply folded_d. auto.
Qed.
End One.

Lemma folded_distinct : forall u kinds, folded_cycles u kinds -> distinct_cycles u kinds.
Proof.
  intros u kinds F i j P Q S'. destruct (Nat.eq_dec i j); auto. assert (X : Loc j = Loc i); [|congruence]. apply F; auto.
  destruct (path_front _ _ _ P) as [E|(k & c & E & J & P')]; [congruence|]. exists k, c. split; auto. split; [apply mentions_kids; auto|]. eapply path_trans; eauto.
Qed.

Lemma built_inv : forall u, built le order storable u -> inv u.
Proof.
  intros u B. induction B as [|u kinds u' ts B IH (S1 & P & Dc) E]; [apply inv_empty|].
  destruct (insert_ok u kinds IH S1 P Dc) as (u2 & ts2 & E2 & I2 & _). congruence.
Qed.
Lemma built_canon : forall u, built le order canonical u -> inv u /\ canon u.
Proof.
  intros u B. induction B as [|u kinds u' ts B [I C] (S1 & P & F) E]; [split; [apply inv_empty|apply canon_empty]|].
  destruct (insert_ok u kinds I S1 P (folded_distinct _ _ F)) as (u2 & ts2 & E2 & I2 & _ & _ & _ & _ & C2).
  assert (u2 = u') by congruence. subst. auto.
Qed.

Theorem store_faithful : forall u kinds, built le order storable u -> storable u kinds ->
  exists u' ts, insert_types le order u kinds = Val (u', ts) /\ length ts = length kinds /\
    (forall i t, nth_error ts i = Some t -> same (described u kinds) (get u') (Loc i) t) /\
    (forall t k, get u t = Some k -> get u' t = Some k) /\ (forall t k, get u' t = Some k -> get u t = Some k \/ In t ts).
Proof.
  intros u kinds B (S1 & P & Dc). pose proof (built_inv u B) as I. destruct (insert_ok u kinds I S1 P Dc) as (u' & ts & E & I' & B' & L & SM & Nw & _).
  exists u', ts. split; auto. split; auto. split; auto. intros i t X. apply same_store; auto.
Qed.

Theorem store_canonical : forall u, built le order canonical u -> forall a b, same (get u) (get u) a b <-> a = b /\ exists k, get u a = Some k.
Proof.
  intros u B a b. destruct (built_canon u B) as [I C]. rewrite (same_sim _ _ a b (named_u u I) (named_u u I)).
  destruct (norm_u u I) as [B1 B2]. split.
  - intros X. assert (Y : sim (get u) (get u) a b) by (eapply sim_mono; eauto). split; [apply (c_red _ C); auto|]. destruct (sim_unfold _ _ _ _ Y) as (k & l & E & _). eauto.
  - intros [<- (k & E)]. eapply sim_mono; eauto. eapply sim_refl; [apply (i_total _ I)|eauto].
Qed.

Theorem store_known : forall u kinds, built le order canonical u -> canonical u kinds ->
  exists u' ts, insert_types le order u kinds = Val (u', ts) /\ forall i t, same (described u kinds) (get u) (Loc i) t -> nth_error ts i = Some t.
Proof.
  intros u kinds B (S1 & P & F). destruct (built_canon u B) as [I C].
  destruct (insert_ok u kinds I S1 P (folded_distinct _ _ F)) as (u' & ts & E & I2 & B2 & L & SM & _ & C2). exists u', ts. split; auto.
  intros i t S'. apply (same_store u kinds I S1 u _ t I) in S'.
  assert (Li : i < length ts). { destruct (sim_unfold _ _ _ _ S') as (k & l & X & _). rewrite L, <- (map_length normalize kinds). apply nth_error_Some. simpl in X. congruence. }
  destruct (nth_error ts i) as [t'|] eqn:T; [|apply nth_error_None in T; lia]. f_equal.
  apply (c_red _ (C2 F C)). eapply sim_trans; [apply sim_sym; apply SM; exact T|]. eapply sim_mono; [|exact B2|exact S']. intros ? ? X; exact X.
Qed.

Theorem store_all_known : forall u kinds, built le order canonical u -> canonical u kinds ->
  (forall i, i < length kinds -> exists t, same (described u kinds) (get u) (Loc i) t) ->
  exists u' ts, insert_types le order u kinds = Val (u', ts) /\ forall t, get u' t = get u t.
Proof.
  intros u kinds B (S1 & P & F) A. destruct (built_canon u B) as [I C].
  destruct (insert_ok u kinds I S1 P (folded_distinct _ _ F)) as (u' & ts & E & I2 & B2 & L & SM & Nw & C2). exists u', ts. split; auto.
  intros t. destruct (get u' t) as [k|] eqn:G.
  - destruct (Nw t k G) as [|J]; auto. apply In_nth_error in J. destruct J as (i & J).
    destruct (A i) as (t' & S'); [rewrite <- L; apply nth_error_Some; congruence|]. apply (same_store u kinds I S1 u _ t' I) in S'.
    assert (t = t'). { apply (c_red _ (C2 F C)). eapply sim_trans; [apply sim_sym; apply SM; exact J|]. eapply sim_mono; [|exact B2|exact S']. intros ? ? X; exact X. }
    subst t'. destruct (sim_unfold _ _ _ _ S') as (k1 & l1 & _ & X & _). rewrite X. apply B2 in X. congruence.
  - destruct (get u t) as [k|] eqn:G'; auto. apply B2 in G'. congruence.
Qed.

Lemma built_worlds : forall ok u, built le order ok u -> worlds u <> [].
Proof.
  intros ok u B. induction B as [|u kinds u' ts B IH _ E]; [discriminate|]. destruct (insert_again le order _ _ _ _ IH E) as [G _]. eapply grows_some; eauto.
Qed.
End Store.
