(** Equal blocks are merged; merged blocks are not reached. *)
From Coq Require Import List Arith Bool Lia Relations Sorted.
From Verif Require Import FrameModel FrameSpec NegationSpec FrameProofs TailMergeModel
  TailMergeSpec TailJumps TailMergeProofs TailMergeEnds.
Import ListNotations.

(** ** Merged blocks are not reached *)
Lemma collapse_targets : forall t c, In c (successors (collapse t)) -> In c (successors t).
Proof.
  intros t c H. destruct t as [a|x a b|o a b|q a| | |]; auto. cbn in *. destruct (a =? b); auto.
  cbn in *. tauto.
Qed.

Lemma retarget_targets : forall g t c, In c (successors (retarget g t)) ->
  exists d, In d (successors t) /\ c = g d.
Proof.
  intros g t c H. destruct t as [a|x a b|o a b|q a| | |]; cbn in *; try easy;
    repeat (destruct H as [<-|H]; [eexists; split; [|reflexivity]; auto|]); easy.
Qed.

Section Unreached.
Variable K : nat -> Prop.

Definition avoids (p : body) : Prop := forall b c, goes p b c -> ~ K c.

Lemma forward_avoids : forall p, avoids p -> forall limit target current, ~ K target -> ~ K current ->
  ~ K (forward_from p target current limit).
Proof.
  intros p Hp. induction limit as [|limit IH]; intros target current Ht Hc; cbn [forward_from]; auto.
  destruct (nth_error p current) as [[[|o os] t]|] eqn:E; auto.
  destruct t as [a|x a b|o a b|q a| | |]; auto. destruct (a =? current); auto. apply IH; auto.
  apply (Hp current). exists (Block [] (TGoto a)). cbn. auto.
Qed.

Lemma set_term_avoids : forall p b t, avoids p -> (forall c, In c (successors t) -> ~ K c) ->
  avoids (set_term b t p).
Proof.
  intros p b t Hp Ht x c (bl & E & Hc). rewrite nth_set_term in E.
  destruct (nth_error p x) as [xl|] eqn:Ex; [|discriminate]. inversion E; subst.
  destruct (b =? x); auto. apply (Hp x). exists xl. auto.
Qed.

Lemma forward_block_avoids : forall limit p b, avoids p -> avoids (forward_block limit p b).
Proof.
  intros limit p b Hp. unfold forward_block. destruct (nth_error p b) as [bl|] eqn:E; auto.
  destruct (forallb _ _); auto. apply set_term_avoids; auto. intros c Hc. apply collapse_targets in Hc.
  apply retarget_targets in Hc. destruct Hc as (d & Hd & ->).
  assert (Hn : ~ K d) by (apply (Hp b); exists bl; auto). now apply forward_avoids.
Qed.

Lemma end_block_avoids : forall p b, avoids p -> avoids (end_block p b).
Proof.
  intros p b Hp. unfold end_block. destruct (nth_error p b) as [bl|]; auto.
  destruct (term bl) as [t|c x y|o x y|q x| | |]; auto. destruct (nth_error p t) as [target|]; auto.
  destruct (is_empty target && is_operand_free_terminal (term target)) eqn:E; auto.
  apply set_term_avoids; auto. apply andb_true_iff in E. destruct E as [_ E].
  destruct (term target); discriminate || easy.
Qed.

Lemma fold_avoids : forall (step : body -> nat -> body), (forall p b, avoids p -> avoids (step p b)) ->
  forall l p, avoids p -> avoids (fold_left step l p).
Proof. intros step H. induction l as [|b l IH]; intros p Hp; cbn; auto. Qed.
End Unreached.

Lemma redirect_avoids : forall p l, good p l -> avoids (fun b => In b (keys l)) (redirect l p).
Proof.
  intros p l G b c (bl & E & H). unfold redirect in E. rewrite nth_error_map in E.
  destruct (nth_error p b) as [x|]; cbn in E; [|discriminate]. inversion E; subst. cbn in H.
  apply collapse_targets in H. apply retarget_targets in H. destruct H as (d & Hd & ->).
  unfold canonical_target. destruct (replaced l d) as [r|] eqn:Er; [|now apply replaced_None].
  apply (kept_not_key p l d r G). now apply replaced_In.
Qed.

Lemma simplify_unreached : forall hash p q reached, simplify_tails hash p = Some (Some q) ->
  reachable_blocks p = Some reached -> forall b, In b (keys (merged_blocks hash p reached)) -> ~ visited q b.
Proof.
  intros hash p q reached E Er b Hb Hv. unfold simplify_tails in E. destruct (length p <? 2); [discriminate|].
  rewrite Er in E. destruct (_ && _); [discriminate|]. inversion E; subst. clear E.
  set (l := merged_blocks hash p reached) in *. assert (G : good p l) by apply merged_good.
  inversion Hv as [|y z Hg Hy]; subst; [eapply good_entry; eauto|].
  revert Hb. change (~ (fun b => In b (keys l)) b). revert Hg.
  apply fold_avoids with (step := end_block) (1 := end_block_avoids _).
  apply fold_avoids; [intros; now apply forward_block_avoids|]. now apply redirect_avoids.
Qed.

(** ** Equal blocks *)
Definition matched (R : list (nat * nat)) (xs ys : list nat) : Prop :=
  R = rev (combine xs ys) /\ length xs = length ys.

Lemma combine_fst : forall (xs ys : list nat), length xs = length ys -> map fst (combine xs ys) = xs.
Proof. induction xs as [|x xs IH]; intros [|y ys] H; cbn in *; try discriminate; auto. now rewrite IH by lia. Qed.

Lemma combine_snd : forall (xs ys : list nat), length xs = length ys -> map snd (combine xs ys) = ys.
Proof. induction xs as [|x xs IH]; intros [|y ys] H; cbn in *; try discriminate; auto. now rewrite IH by lia. Qed.

Lemma nth_ordinal : forall xs i r, NoDup xs -> nth_error xs i = Some r -> ordinal xs r = Some i.
Proof.
  induction xs as [|x xs IH]; intros [|i] r N E; cbn in *; try discriminate; inversion N; subst.
  - inversion E; subst. now rewrite Nat.eqb_refl.
  - destruct (x =? r) eqn:Ex.
    + apply Nat.eqb_eq in Ex. subst. exfalso. apply H1. eapply nth_error_In; eauto.
    + now rewrite (IH i r).
Qed.

Lemma combine_position : forall (xs ys : list nat) x y, In (x, y) (combine xs ys) ->
  exists i, nth_error xs i = Some x /\ nth_error ys i = Some y.
Proof.
  induction xs as [|a xs IH]; intros [|b ys] x y H; cbn in H; try easy. destruct H as [H|H].
  - inversion H; subst. now exists 0.
  - destruct (IH ys x y H) as (i & ? & ?). now exists (S i).
Qed.

Lemma same_operand_ok : forall R xs ys x y, matched R xs ys -> NoDup xs -> NoDup ys -> same_operand R x y ->
  hash_value xs x = hash_value ys y /\ values_alpha_equivalent x y xs ys = true.
Proof.
  intros R xs ys x y (-> & Hl) Nx Ny H.
  destruct x as [a|a|n|n|r], y as [b|b|k|k|r']; cbn in H; try easy; try (inversion H; subst);
    try (split; [reflexivity|now apply operand_eqb_eq]).
  - apply in_rev in H0. apply combine_position in H0. destruct H0 as (i & E & E').
    cbn. rewrite (nth_ordinal _ _ _ Nx E), (nth_ordinal _ _ _ Ny E'). split; auto. apply Nat.eqb_refl.
  - destruct H0 as (-> & H1 & H2). rewrite map_rev, combine_fst in H1 by auto.
    rewrite map_rev, combine_snd in H2 by auto. rewrite <- in_rev in H1, H2.
    apply ordinal_In in H1, H2. cbn. rewrite H1, H2. split; auto. apply Nat.eqb_refl.
Qed.

Lemma same_operands_ok : forall R xs ys os os', matched R xs ys -> NoDup xs -> NoDup ys ->
  Forall2 (same_operand R) os os' ->
  map (hash_value xs) os = map (hash_value ys) os' /\ all_equivalent xs ys os os' = true.
Proof.
  intros R xs ys os os' Hm Nx Ny H. induction H as [|x y os os' Hx H [IH1 IH2]]; cbn; auto.
  destruct (same_operand_ok R xs ys x y Hm Nx Ny Hx) as [E1 E2]. rewrite E1, E2, IH1, IH2. auto.
Qed.

Lemma same_operations_ok : forall R os os' R2, same_operations R os os' R2 ->
  forall xs ys, matched R xs ys -> NoDup (xs ++ results_of os) -> NoDup (ys ++ results_of os') ->
  fst (hash_operations xs os) = fst (hash_operations ys os') /\
  exists xs' ys', snd (hash_operations xs os) = xs' /\ snd (hash_operations ys os') = ys' /\
    operations_equivalent xs ys os os' = Some (xs', ys') /\ matched R2 xs' ys' /\ NoDup xs' /\ NoDup ys'.
Proof.
  intros R os os' R2 H. induction H as [R|R R1 R2 o o' os os' Hk Ho Hr H IH]; intros xs ys Hm Nx Ny.
  - cbn in *. rewrite app_nil_r in Nx, Ny. split; auto. exists xs, ys. auto 6.
  - destruct (same_operands_ok R xs ys _ _ Hm (NoDup_left _ _ Nx) (NoDup_left _ _ Ny) Ho) as [E1 E2].
    assert (G : exists a b, and_result xs o = a /\ and_result ys o' = b /\ matched R1 a b /\
      NoDup (a ++ results_of os) /\ NoDup (b ++ results_of os') /\
      operations_equivalent xs ys (o :: os) (o' :: os') = operations_equivalent a b os os').
    { cbn [operations_equivalent]. rewrite Hk, E2.
      assert (Ek : kind_eqb (op_kind o) (op_kind o) = true) by now apply kind_eqb_eq.
      rewrite Ek. cbn [andb]. unfold and_result, and_results in *. destruct Hm as (-> & Hl).
      unfold results_of in Nx, Ny. cbn [flat_map] in Nx, Ny.
      destruct (op_result o) as [r|], (op_result o') as [r'|]; try discriminate; inversion Hr; subst.
      - exists (xs ++ [r]), (ys ++ [r']). repeat split; auto.
        + rewrite combine_app_one by auto. now rewrite rev_app_distr.
        + rewrite !app_length. cbn. lia.
        + now rewrite <- app_assoc.
        + now rewrite <- app_assoc.
      - exists xs, ys. repeat split; auto. }
    destruct G as (a & b & Ea & Eb & Hm1 & Na & Nb & Eo).
    destruct (IH a b Hm1 Na Nb) as (I1 & xs' & ys' & I2 & I3 & I4 & I5).
    cbn [hash_operations]. rewrite Ea, Eb.
    destruct (hash_operations a os) as [la fa], (hash_operations b os') as [lb fb]. cbn in I1, I2, I3 |- *.
    cbn in Eo. rewrite Eo. split; [now rewrite E1, Hk, I1|]. exists xs', ys'. auto 6.
Qed.

Lemma same_block_ok : forall hash l l' bl bl', same_block bl bl' ->
  NoDup (results_of (operations bl)) -> NoDup (results_of (operations bl')) ->
  (forall c, In c (successors (term bl)) -> canonical_target l c = canonical_target l' c) ->
  (exists h, block_fingerprint hash l bl = Some h /\ block_fingerprint hash l' bl' = Some h) /\
  blocks_alpha_equivalent l bl bl' = true.
Proof.
  intros hash l l' bl bl' (R & Ho & He) Nx Ny Hc.
  destruct (same_operations_ok _ _ _ _ Ho [] []) as (E1 & xs & ys & E2 & E3 & E4 & Hm & Mx & My); auto.
  { split; auto. }
  unfold block_fingerprint, blocks_alpha_equivalent. rewrite E4.
  destruct (hash_operations [] (operations bl)) as [a fa], (hash_operations [] (operations bl')) as [b fb].
  cbn in E1, E2, E3. subst.
  destruct (term bl) as [t|c x y|o x y|q x| | |], (term bl') as [t'|c' x' y'|o' x' y'|q' x'| | |];
    cbn in He; try easy; cbn in Hc; cbn [ends_equivalent].
  - subst t'. rewrite (Hc t) by auto. split; [eauto|]. apply Nat.eqb_refl.
  - destruct He as (He & -> & ->). destruct (same_operand_ok _ _ _ _ _ Hm Mx My He) as [V1 V2].
    rewrite V2, V1, (Hc x'), (Hc y') by auto. split; [eauto|]. now rewrite !Nat.eqb_refl.
  - destruct He as (He & ->). destruct (same_operand_ok _ _ _ _ _ Hm Mx My He) as [V1 V2].
    rewrite V2, V1, (Hc x') by auto. split; [eauto|]. now rewrite !Nat.eqb_refl.
  - split; eauto.
  - split; eauto.
  - split; eauto.
Qed.

Lemma same_operand_sym : forall R x y, same_operand R x y ->
  same_operand (map (fun e => (snd e, fst e)) R) y x.
Proof.
  intros R x y H. destruct x, y; cbn in *; auto. destruct H as [H|(-> & H1 & H2)].
  - left. apply in_map_iff. eexists. split; [|exact H]. reflexivity.
  - right. rewrite !map_map. cbn. auto.
Qed.

Lemma same_operations_sym : forall R os os' R2, same_operations R os os' R2 ->
  same_operations (map (fun e => (snd e, fst e)) R) os' os (map (fun e => (snd e, fst e)) R2).
Proof.
  intros R os os' R2 H. induction H as [R|R R1 R2 o o' os os' Hk Ho Hr H IH]; [constructor|].
  apply (same_one _ (map (fun e => (snd e, fst e)) R1)); auto.
  - clear - Ho. induction Ho; constructor; auto. now apply same_operand_sym.
  - unfold and_results in *. destruct (op_result o), (op_result o'); try discriminate; inversion Hr; subst; auto.
Qed.

Lemma same_block_sym : forall bl bl', same_block bl bl' -> same_block bl' bl.
Proof.
  intros bl bl' (R & Ho & He). exists (map (fun e => (snd e, fst e)) R).
  split; [apply (same_operations_sym _ _ _ _ Ho)|].
  destruct (term bl), (term bl'); cbn in *; try easy.
  - destruct He as (He & -> & ->). auto using same_operand_sym.
  - destruct He as (He & ->). auto using same_operand_sym.
Qed.

Lemma same_block_targets : forall bl bl', same_block bl bl' -> successors (term bl') = successors (term bl).
Proof.
  intros bl bl' (R & _ & He). destruct (term bl), (term bl'); cbn in *; try easy.
  - now subst.
  - now destruct He as (_ & -> & ->).
  - now destruct He as (_ & ->).
Qed.

(** ** The order of the candidates *)
Lemma candidates_sorted : forall p reached, StronglySorted (fun x y => y < x) (candidates p reached).
Proof.
  intros p reached. unfold candidates. generalize (length p - 1) as n. generalize 1 as a.
  intros a n. revert a. induction n as [|n IH]; intros a; [constructor|].
  rewrite seq_S, filter_app, rev_app_distr. cbn [filter].
  destruct (existsb (Nat.eqb (a + n)) reached); cbn [rev app]; auto.
  constructor; auto. apply Forall_forall. intros y Hy. apply in_rev in Hy. apply filter_In in Hy.
  destruct Hy as [Hy _]. apply in_seq in Hy. lia.
Qed.

Lemma sorted_split : forall a x b, StronglySorted (fun x y => y < x) (a ++ x :: b) ->
  (forall y, In y a -> x < y) /\ (forall y, In y b -> y < x).
Proof.
  induction a as [|z a IH]; intros x b H; cbn in H; inversion H as [|? ? Hs Hf]; subst.
  - split; [easy|]. now apply Forall_forall.
  - destruct (IH x b Hs) as [H1 H2]. split; auto. intros y [<-|Hy]; auto.
    rewrite Forall_forall in Hf. apply Hf. apply in_or_app. right. now left.
Qed.

Section Equal.
Variable hash : list (kind * list hashed) -> hashed_end -> nat.
Variable p : body.

(** A block that was looked at: merged, or kept as a representative. *)
Definition handled (x : nat) (bl : block) (s : merging) : Prop :=
  In x (keys (merged s)) \/
  exists l1 l0 h, merged s = l1 ++ l0 /\ (forall k, In k (keys l1) -> k < x) /\
    block_fingerprint hash l0 bl = Some h /\ In (h, x) (representatives s).

Lemma handled_block : forall x bl s h, nth_error p x = Some bl ->
  block_fingerprint hash (merged s) bl = Some h -> handled x bl (merge_block hash p s x).
Proof.
  intros x bl s h E Ef. unfold merge_block. rewrite E, Ef. destruct (find _ _) as [[h' r]|].
  - left. cbn. auto.
  - right. exists [], (merged s), h. cbn. repeat split; auto; [easy|]. apply in_or_app. right. now left.
Qed.

Lemma handled_more : forall x bl b s, handled x bl s -> b < x -> handled x bl (merge_block hash p s b).
Proof.
  intros x bl b s H Hb.
  destruct (merge_block_cases hash p s b) as [-> |[(h & ->)|(h & r & Hin & ->)]]; auto.
  - destruct H as [H|(l1 & l0 & h' & H1 & H2 & H3 & H4)]; [now left|]. right. exists l1, l0, h'. cbn.
    repeat split; auto. apply in_or_app. auto.
  - destruct H as [H|(l1 & l0 & h' & H1 & H2 & H3 & H4)]; [left; cbn; auto|]. right.
    exists ((b, r) :: l1), l0, h'. cbn. rewrite H1. repeat split; auto. intros k [<-|Hk]; auto.
Qed.

Lemma handled_fold : forall x bl left s, handled x bl s -> (forall b, In b left -> b < x) ->
  handled x bl (fold_left (merge_block hash p) left s).
Proof.
  intros x bl. induction left as [|b left IH]; intros s H Hl; cbn; auto. apply IH.
  - apply handled_more; auto. apply Hl. now left.
  - intros y Hy. apply Hl. now right.
Qed.

Lemma keys_more : forall x b s, In x (keys (merged s)) -> In x (keys (merged (merge_block hash p s b))).
Proof.
  intros x b s H. destruct (merge_block_cases hash p s b) as [-> |[(h & ->)|(h & r & _ & ->)]]; cbn; auto.
Qed.

Lemma keys_fold : forall x left s, In x (keys (merged s)) ->
  In x (keys (merged (fold_left (merge_block hash p) left s))).
Proof. intros x. induction left as [|b left IH]; intros s H; cbn; auto. apply IH. now apply keys_more. Qed.

Lemma replaced_app : forall l1 l0 t, ~ In t (keys l1) -> replaced (l1 ++ l0) t = replaced l0 t.
Proof.
  induction l1 as [|[k v] l1 IH]; intros l0 t H; cbn in *; auto.
  destruct (k =? t) eqn:E; [apply Nat.eqb_eq in E; tauto|]. apply IH. tauto.
Qed.

Lemma equal_merged : forall reached x y xl yl, single_definitions p ->
  In x reached -> In y reached -> 0 < y -> y < x -> nth_error p x = Some xl -> nth_error p y = Some yl ->
  same_block yl xl -> (forall c, In c (successors (term yl)) -> x < c) ->
  In x (keys (merged_blocks hash p reached)) \/ In y (keys (merged_blocks hash p reached)).
Proof.
  intros reached x y xl yl Hs Rx Ry Hy Hyx Ex Ey Hb Hc.
  assert (Lx : x < length p) by (apply nth_error_Some; congruence).
  assert (Cx : In x (candidates p reached)) by (apply candidates_In; split; auto; lia).
  assert (Cy : In y (candidates p reached)) by (apply candidates_In; split; auto; lia).
  apply in_split in Cx. destruct Cx as (A & B & EC).
  pose proof (candidates_sorted p reached) as So. rewrite EC in So.
  destruct (sorted_split _ _ _ So) as [SA SB].
  rewrite EC in Cy. apply in_app_or in Cy. destruct Cy as [Cy|[Cy|Cy]]; [apply SA in Cy; lia|lia|].
  apply in_split in Cy. destruct Cy as (B1 & B2 & EB). subst B.
  unfold merged_blocks. rewrite EC, fold_left_app. cbn [fold_left]. rewrite fold_left_app. cbn [fold_left].
  set (s1 := fold_left (merge_block hash p) A (Merging [] [])).
  assert (Nx : NoDup (results_of (operations xl))) by (eapply block_results; eauto).
  assert (Ny : NoDup (results_of (operations yl))) by (eapply block_results; eauto).
  destruct (same_block_ok hash (merged s1) (merged s1) yl xl Hb Ny Nx) as ((h & _ & Fx) & _); auto.
  pose proof (handled_block x xl s1 h Ex Fx) as H1.
  apply (handled_fold x xl B1) in H1.
  2:{ intros b Hin. apply SB. apply in_or_app. auto. }
  set (s2 := fold_left (merge_block hash p) B1 (merge_block hash p s1 x)) in *.
  destruct H1 as [H1|(l1 & l0 & h' & El & Hl & Fx' & Hin)].
  - left. apply keys_fold. now apply keys_more.
  - right. apply keys_fold.
    destruct (same_block_ok hash (merged s2) l0 yl xl Hb Ny Nx) as ((g & Fy & Fx2) & Heq).
    { intros c Hin'. specialize (Hc c Hin'). unfold canonical_target. rewrite El, replaced_app; auto.
      intros Hk. apply Hl in Hk. lia. }
    rewrite Fx' in Fx2. inversion Fx2; subst g.
    unfold merge_block. rewrite Ey, Fy.
    destruct (find _ _) as [[h2 r2]|] eqn:Ef; [cbn; auto|]. exfalso.
    pose proof (find_none _ _ Ef (h', x) Hin) as N. cbn in N. rewrite Nat.eqb_refl, Ex, Heq in N. discriminate.
Qed.
End Equal.

(** One of two equal blocks goes. *)
Lemma equal_blocks_merged : forall hash p b b' bl bl', single_definitions p -> targets_exist p ->
  b <> b' -> b <> 0 -> b' <> 0 -> visited p b -> visited p b' ->
  nth_error p b = Some bl -> nth_error p b' = Some bl' -> same_block bl bl' ->
  (forall c, In c (successors (term bl)) -> b < c /\ b' < c) ->
  exists q, simplify_tails hash p = Some (Some q) /\ (~ visited q b \/ ~ visited q b').
Proof.
  intros hash p b b' bl bl' Hs Ht Hne Hb Hb' Vb Vb' Eb Eb' Hsame Hc.
  assert (Lb : b < length p) by (apply nth_error_Some; congruence).
  destruct (search_ends p Ht) as (reached & Er); [intros ->; cbn in Lb; lia|].
  pose proof (search_exact p reached Er) as Hx. apply Hx in Vb, Vb'.
  assert (K : In b (keys (merged_blocks hash p reached)) \/ In b' (keys (merged_blocks hash p reached))).
  { destruct (lt_eq_lt_dec b b') as [[L|L]|L]; [| contradiction|].
    - destruct (equal_merged hash p reached b' b bl' bl); auto; try lia. intros c Hin. now apply Hc.
    - apply (equal_merged hash p reached b b' bl bl'); auto; try lia.
      + now apply same_block_sym.
      + intros c Hin. rewrite (same_block_targets _ _ Hsame) in Hin. now apply Hc. }
  assert (Eq : exists q, simplify_tails hash p = Some (Some q)).
  { unfold simplify_tails. replace (length p <? 2) with false by (symmetry; apply Nat.ltb_ge; lia).
    rewrite Er. destruct (merged_blocks hash p reached) as [|e l]; [destruct K as [[]|[]]|].
    cbn [orb negb andb]. eauto. }
  destruct Eq as (q & Eq). exists q. split; auto.
  destruct K as [K|K]; [left|right]; eapply simplify_unreached; eauto.
Qed.
