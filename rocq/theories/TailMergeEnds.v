(** Reachable blocks, what the plan merges, bodies without loops. *)
From Coq Require Import List Arith Bool Lia Relations.
From Verif Require Import FrameModel FrameSpec NegationSpec FrameProofs TailMergeModel
  TailMergeSpec TailJumps TailMergeProofs.
From Verif Require NegationProofs.
Import ListNotations.

(** ** The search for reachable blocks *)
Section Search.
Variable p : body.
Hypothesis Ht : targets_exist p.

Lemma goes_exists : forall b c, goes p b c -> c < length p.
Proof. intros b c (bl & E & H). eapply Ht; eauto. eapply nth_error_In; eauto. Qed.

Lemma existsb_In : forall b l, existsb (Nat.eqb b) l = true <-> In b l.
Proof.
  intros b l. rewrite existsb_exists. split.
  - intros (x & H & E). apply Nat.eqb_eq in E. now subst.
  - intros H. exists b. split; auto. apply Nat.eqb_refl.
Qed.

Definition degree (b : nat) : nat :=
  match nth_error p b with Some bl => length (successors (term bl)) | None => 0 end.

Definition rest (reached : list nat) (l : list nat) : nat :=
  list_sum (map (fun b => if existsb (Nat.eqb b) reached then 0 else degree b) l).

Lemma rest_cons : forall reached x l,
  rest reached (x :: l) = (if existsb (Nat.eqb x) reached then 0 else degree x) + rest reached l.
Proof. reflexivity. Qed.

Lemma rest_same : forall b reached l, ~ In b l -> rest (b :: reached) l = rest reached l.
Proof.
  intros b reached. induction l as [|x l IH]; intros H; auto. rewrite !rest_cons. cbn in H.
  rewrite IH by tauto. f_equal. cbn. destruct (x =? b) eqn:E; auto. apply Nat.eqb_eq in E. subst. tauto.
Qed.

Lemma rest_less : forall b reached l, NoDup l -> In b l -> ~ In b reached ->
  rest (b :: reached) l + degree b = rest reached l.
Proof.
  intros b reached. induction l as [|x l IH]; intros N H Hr; [easy|]. inversion N; subst.
  rewrite !rest_cons. cbn [existsb]. destruct (Nat.eq_dec x b) as [-> |Hne].
  - rewrite rest_same by auto. rewrite Nat.eqb_refl. cbn [orb].
    destruct (existsb (Nat.eqb b) reached) eqn:Eb; [apply existsb_In in Eb; contradiction|]. lia.
  - destruct H as [H|H]; [contradiction|]. specialize (IH H3 H Hr).
    destruct (x =? b) eqn:E; [apply Nat.eqb_eq in E; contradiction|]. cbn [orb]. lia.
Qed.

Lemma reach_ends : forall fuel pending reached, (forall b, In b pending -> b < length p) ->
  length pending + rest reached (seq 0 (length p)) <= fuel ->
  exists l, reach_from fuel p pending reached = Some l.
Proof.
  induction fuel as [|fuel IH]; intros [|b pending] reached Hp Hf; cbn [reach_from]; eauto.
  - cbn in Hf. lia.
  - cbn [length] in Hf. destruct (existsb (Nat.eqb b) reached) eqn:Eb.
    + apply IH; [|lia]. intros x Hx. apply Hp. now right.
    + assert (Hb : b < length p) by (apply Hp; now left).
      destruct (nth_error p b) as [bl|] eqn:E; [|apply nth_error_None in E; lia].
      apply IH.
      * intros x Hx. apply in_app_or in Hx. destruct Hx as [Hx|Hx]; [|apply Hp; now right].
        apply in_rev in Hx. apply (goes_exists b). exists bl. auto.
      * assert (Hin : ~ In b reached) by (intros H; apply existsb_In in H; congruence).
        pose proof (rest_less b reached (seq 0 (length p)) (seq_NoDup _ _)) as R.
        rewrite <- R in Hf by (auto; apply in_seq; lia). unfold degree in Hf. rewrite E in Hf.
        rewrite app_length, rev_length. lia.
Qed.

Lemma edges_rest : edges p = rest [] (seq 0 (length p)).
Proof.
  unfold edges, rest. cbn [existsb].
  assert (G : forall l k, (forall i, nth_error l i = nth_error p (k + i)) ->
    map (fun bl => length (successors (term bl))) l = map (fun b => degree b) (seq k (length l))).
  { induction l as [|x l IH]; intros k H; cbn; auto. f_equal.
    - unfold degree. specialize (H 0). rewrite Nat.add_0_r in H. rewrite <- H. reflexivity.
    - apply IH. intros i. specialize (H (S i)). cbn in H. rewrite H. f_equal. lia. }
  rewrite (G p 0) by auto. reflexivity.
Qed.

Lemma search_ends : p <> [] -> exists l, reachable_blocks p = Some l.
Proof.
  intros Hp. apply reach_ends.
  - intros b [<-|[]]. destruct p; [easy|cbn; lia].
  - rewrite edges_rest. cbn. lia.
Qed.
End Search.

Lemma reach_sound : forall fuel p pending reached l, reach_from fuel p pending reached = Some l ->
  (forall b, In b pending -> visited p b) -> (forall b, In b reached -> visited p b) ->
  forall b, In b l -> visited p b.
Proof.
  induction fuel as [|fuel IH]; intros p [|x pending] reached l E Hp Hr; cbn in E;
    try (inversion E; subst; now auto); try discriminate.
  destruct (existsb (Nat.eqb x) reached) eqn:Ex.
  - eapply IH; eauto. intros b Hb. apply Hp. now right.
  - destruct (nth_error p x) as [bl|] eqn:Eb; [|discriminate].
    assert (Hx : visited p x) by (apply Hp; now left).
    eapply IH; eauto.
    + intros b Hb. apply in_app_or in Hb. destruct Hb as [Hb|Hb]; [|apply Hp; now right].
      apply in_rev in Hb. eapply Relation_Operators.rtn1_trans; [|exact Hx]. exists bl. auto.
    + intros b [<-|Hb]; auto.
Qed.

Lemma reach_closed : forall fuel p pending reached l, reach_from fuel p pending reached = Some l ->
  (forall b c, In b reached -> goes p b c -> In c reached \/ In c pending) ->
  (forall b, In b reached \/ In b pending -> In b l) /\ (forall b c, In b l -> goes p b c -> In c l).
Proof.
  induction fuel as [|fuel IH]; intros p [|x pending] reached l E Hc; cbn in E; try discriminate.
  - inversion E; subst. split; [intros b [H|[]]; auto|]. intros b c Hb Hg. destruct (Hc b c Hb Hg) as [H|[]]; auto.
  - inversion E; subst. split; [intros b [H|[]]; auto|]. intros b c Hb Hg. destruct (Hc b c Hb Hg) as [H|[]]; auto.
  - destruct (existsb (Nat.eqb x) reached) eqn:Ex.
    + apply existsb_In in Ex. destruct (IH _ _ _ _ E) as [H1 H2].
      * intros b c Hb Hg. destruct (Hc b c Hb Hg) as [H|[->|H]]; auto.
      * split; auto. intros b [H|[->|H]]; auto.
    + destruct (nth_error p x) as [bl|] eqn:Eb; [|discriminate].
      destruct (IH _ _ _ _ E) as [H1 H2].
      * intros b c [<-|Hb] Hg.
        -- destruct Hg as (bl' & Eb' & Hs). rewrite Eb in Eb'. inversion Eb'; subst. right.
           apply in_or_app. left. now apply -> in_rev.
        -- destruct (Hc b c Hb Hg) as [H|[->|H]]; [left; now right|left; now left|right].
           apply in_or_app. auto.
      * split; auto. intros b [H|[->|H]]; apply H1; [left; now right|left; now left|right].
        apply in_or_app. auto.
Qed.

Lemma search_exact : forall p l, reachable_blocks p = Some l -> forall b, In b l <-> visited p b.
Proof.
  intros p l E b. unfold reachable_blocks in E. split.
  - apply (reach_sound _ _ _ _ _ E); [intros x [<-|[]]; constructor|easy].
  - destruct (reach_closed _ _ _ _ _ E) as [H1 H2]; [easy|]. intros Hv.
    induction Hv as [|y z Hg Hv IH]; [apply H1; right; now left|eauto].
Qed.

(** ** Planned blocks *)
Lemma merge_block_cases : forall hash p s b,
  merge_block hash p s b = s \/
  (exists h, merge_block hash p s b = Merging (representatives s ++ [(h, b)]) (merged s)) \/
  (exists h r, In (h, r) (representatives s) /\
     merge_block hash p s b = Merging (representatives s) ((b, r) :: merged s)).
Proof.
  intros hash p s b. unfold merge_block. destruct (nth_error p b) as [bl|]; auto.
  destruct (block_fingerprint hash (merged s) bl) as [h|]; auto.
  destruct (find _ _) as [[h' r]|] eqn:Ef; [|right; left; eauto].
  right. right. apply find_some in Ef. destruct Ef. eauto.
Qed.

Lemma fold_from : forall hash p left s (P : nat -> Prop), (forall b, In b left -> P b) ->
  (forall h r, In (h, r) (representatives s) -> P r) ->
  (forall b, In b (keys (merged s)) \/ In b (kept (merged s)) -> P b) ->
  let s' := fold_left (merge_block hash p) left s in
  forall b, In b (keys (merged s')) \/ In b (kept (merged s')) -> P b.
Proof.
  intros hash p. induction left as [|x left IH]; intros s P Hl Hr Hm; cbn; auto.
  assert (Hx : P x) by (apply Hl; now left).
  apply IH.
  - intros b Hb. apply Hl. now right.
  - destruct (merge_block_cases hash p s x) as [-> |[(h & ->)|(h & r & Hin & ->)]]; auto. cbn.
    intros h2 r2 H2. apply in_app_or in H2. destruct H2 as [H2|[H2|[]]]; [eauto|]. inversion H2; now subst.
  - destruct (merge_block_cases hash p s x) as [-> |[(h & ->)|(h & r & Hin & ->)]]; auto. cbn.
    intros b [[<-|H]|[<-|H]]; eauto.
Qed.

Lemma planned_visited : forall hash p reached b, reachable_blocks p = Some reached ->
  planned (merged_blocks hash p reached) b -> visited p b /\ b <> 0.
Proof.
  intros hash p reached b E H. unfold planned, merged_blocks in H.
  pose proof (fold_from hash p (candidates p reached) (Merging [] []) (fun b => In b (candidates p reached))) as F.
  cbn in F. specialize (F (fun b H => H)).
  assert (Hc : In b (candidates p reached)) by (apply F; [easy|intros x [[]|[]]|exact H]).
  apply candidates_In in Hc. split; [|lia]. apply (search_exact p reached E). tauto.
Qed.

Lemma operands_shape : forall xs ys os os', all_equivalent xs ys os os' = true ->
  map (fun x => match x with OReg _ => None | x => Some x end) os
  = map (fun x => match x with OReg _ => None | x => Some x end) os'.
Proof.
  intros xs ys. induction os as [|x os IH]; intros [|y os'] E; cbn in E; try discriminate; auto.
  apply andb_true_iff in E. destruct E as [E E']. cbn. rewrite (IH _ E'). f_equal.
  destruct x, y; cbn in E; try discriminate; auto;
    try (apply literal_eqb_eq in E; now subst); apply Nat.eqb_eq in E; now subst.
Qed.

Lemma equivalent_alike : forall l bl bl', equivalent l bl bl' -> look_alike bl bl'.
Proof.
  intros l bl bl' (xs & ys & E & _). unfold look_alike. revert E.
  generalize (operations bl) (operations bl'). clear. intros os os'.
  generalize (@nil nat) at 1. generalize (@nil nat). intros b a. revert a b os'.
  induction os as [|o os IH]; intros a b [|o' os'] E; cbn in E; try discriminate; auto.
  destruct (kind_eqb _ _) eqn:Ek; cbn [andb] in E; [|discriminate].
  destruct (all_equivalent _ _ _ _) eqn:Ea; [|discriminate].
  apply kind_eqb_eq in Ek. cbn [map]. f_equal.
  - unfold shape. rewrite Ek. f_equal. eapply operands_shape; eauto.
  - destruct (op_result o), (op_result o'); try discriminate; eauto.
Qed.

Lemma planned_alike : forall hash p reached, reachable_blocks p = Some reached ->
  forall b, planned (merged_blocks hash p reached) b -> exists b',
    alike p b b' /\
    canonical_target (merged_blocks hash p reached) b = canonical_target (merged_blocks hash p reached) b'.
Proof.
  intros hash p reached E b Hb. set (l := merged_blocks hash p reached) in *.
  assert (G : good p l) by apply merged_good.
  assert (P : forall a r, In (a, r) l -> alike p a r /\ alike p r a /\ canonical_target l a = canonical_target l r).
  { intros a r Hin.
    assert (Ka : planned l a) by (left; apply in_map_iff; now exists (a, r)).
    assert (Kr : planned l r) by (right; apply in_map_iff; now exists (a, r)).
    destruct (planned_visited hash p reached a E Ka) as [Va Na].
    destruct (planned_visited hash p reached r E Kr) as [Vr Nr].
    destruct (good_pair p l a r G Hin) as (bl & bl' & Ea & Er & Q). apply equivalent_alike in Q.
    assert (Hne : a <> r).
    { intros ->. apply (kept_not_key p l r r G Hin). apply in_map_iff. now exists (r, r). }
    assert (C : canonical_target l a = r).
    { unfold canonical_target. destruct (replaced l a) as [r'|] eqn:Ra.
      - apply replaced_In in Ra. clear - G Hin Ra. induction l as [|[k v] l IH]; [easy|].
        cbn in G. destruct G as (G & H1 & _). destruct Hin as [Hi|Hi], Ra as [Hj|Hj].
        + inversion Hi; inversion Hj; congruence.
        + inversion Hi; subst. exfalso. apply H1. apply in_map_iff. now exists (a, r').
        + inversion Hj; subst. exfalso. apply H1. apply in_map_iff. now exists (a, r).
        + auto.
      - apply replaced_None in Ra. exfalso. apply Ra. apply in_map_iff. now exists (a, r). }
    split; [|split].
    - repeat split; auto. exists bl, bl'. auto.
    - repeat split; auto. exists bl', bl. repeat split; auto. red in Q |- *. auto.
    - rewrite C. symmetry. apply canonical_key. eapply kept_not_key; eauto. }
  destruct Hb as [Hb|Hb]; apply in_map_iff in Hb; destruct Hb as ([a r] & Er & Hin); cbn in Er; subst;
    destruct (P _ _ Hin) as (P1 & P2 & P3); eauto.
Qed.

(** ** The pass *)
Section Pass.
Context {other world : Type}.
Variable m : machine other world.

Lemma simplify_runs : forall hash p q, single_definitions p -> gives_results m p ->
  (forall reached, reachable_blocks p = Some reached ->
     forall b, planned (merged_blocks hash p reached) b -> keeps_results p b) ->
  simplify_tails hash p = Some (Some q) -> same_runs m p q.
Proof.
  intros hash p q Hs Hg Hk E. unfold simplify_tails in E. destruct (length p <? 2); [discriminate|].
  destruct (reachable_blocks p) as [reached|] eqn:Er; [|discriminate].
  destruct (_ && _); [discriminate|]. inversion E; subst. clear E.
  set (l := merged_blocks hash p reached).
  apply (runs_trans m p (retargeted l p)).
  { apply same_calls_runs. apply merged_same_calls; auto; [apply merged_good|]. intros b Hb.
    apply (Hk reached eq_refl b Hb). }
  apply (runs_trans m _ (redirect l p)); [apply redirect_runs|apply folds_runs].
Qed.

Lemma simplify_alike : forall hash p q, single_definitions p -> gives_results m p ->
  (forall b b', alike p b b' -> keeps_results p b) ->
  simplify_tails hash p = Some (Some q) -> same_runs m p q.
Proof.
  intros hash p q Hs Hg Hk. apply simplify_runs; auto. intros reached Er b Hb.
  destruct (planned_alike hash p reached Er b Hb) as (b' & H & _). eauto.
Qed.
End Pass.

(** ** Bodies without loops *)
Section LoopFree.
Variable p : body.
Variable l : replacement.
Hypothesis Hgood : good p l.
Hypothesis Hsingle : single_definitions p.
Hypothesis Hfirst : definitions_first p.
Variable level : nat -> nat.
Hypothesis Hlevel : forall b c, goes p b c -> level c < level b.

Notation canon := (canonical_target l).

Lemma ends_successors : forall xs ys t t', ends_equivalent l xs ys t t' = true ->
  Forall2 (fun a b => canon a = canon b) (successors t) (successors t').
Proof.
  intros xs ys t t' H. destruct t, t'; cbn in *; try discriminate; auto;
    repeat (apply andb_true_iff in H; destruct H as [H ?]);
    repeat match goal with H : (_ =? _) = true |- _ => apply Nat.eqb_eq in H end; auto.
Qed.

Lemma canon_block : forall b bl, nth_error p b = Some bl -> exists bl',
  nth_error p (canon b) = Some bl' /\ (b = canon b \/ equivalent l bl bl').
Proof.
  intros b bl E. unfold canonical_target. destruct (replaced l b) as [r|] eqn:Er; eauto.
  apply replaced_In in Er. destruct (good_pair p l b r Hgood Er) as (x & y & Ex & Ey & Q).
  rewrite E in Ex. inversion Ex; subst x. eauto.
Qed.

Lemma canon_goes_1 : forall b c, goes p b c -> exists c', goes p (canon b) c' /\ canon c = canon c'.
Proof.
  intros b c (bl & E & H). destruct (canon_block b bl E) as (bl' & E' & [Hb|Q]).
  - exists c. split; auto. exists bl. rewrite <- Hb. auto.
  - destruct Q as (xs & ys & _ & He). apply ends_successors in He.
    clear - He H E'. assert (G : exists c', In c' (successors (term bl')) /\ canon c = canon c').
    { revert H. induction He; intros H1; [easy|]. destruct H1 as [-> |H1]; [eexists; split; [now left|auto]|].
      destruct (IHHe H1) as (c' & ? & ?). exists c'. split; auto. now right. }
    destruct G as (c' & ? & ?). exists c'. split; auto. exists bl'. auto.
Qed.

Lemma canon_goes_2 : forall b c, (exists bl, nth_error p b = Some bl) -> goes p (canon b) c ->
  exists c', goes p b c' /\ canon c = canon c'.
Proof.
  intros b c (bl & E) (bl2 & E2 & H). destruct (canon_block b bl E) as (bl' & E' & [Hb|Q]).
  - exists c. split; auto. exists bl2. rewrite Hb. auto.
  - rewrite E2 in E'. inversion E'; subst bl'.
    destruct Q as (xs & ys & _ & He). apply ends_successors in He.
    clear - He H E. assert (G : exists c', In c' (successors (term bl)) /\ canon c = canon c').
    { revert H. induction He; intros H1; [easy|]. destruct H1 as [-> |H1]; [eexists; split; [now left|auto]|].
      destruct (IHHe H1) as (c' & ? & ?). exists c'. split; auto. now right. }
    destruct G as (c' & ? & ?). exists c'. split; auto. exists bl. auto.
Qed.

Definition exists_block (b : nat) : Prop := exists bl, nth_error p b = Some bl.

Lemma canon_goes : forall b b' c, exists_block b' -> canon b = canon b' -> goes p b c ->
  exists c', goes p b' c' /\ canon c = canon c'.
Proof.
  intros b b' c Hb E H. destruct (canon_goes_1 b c H) as (c1 & H1 & E1). rewrite E in H1.
  destruct (canon_goes_2 b' c1 Hb H1) as (c2 & H2 & E2). exists c2. split; auto. congruence.
Qed.

Hypothesis Htargets : targets_exist p.

Lemma goes_block : forall b c, goes p b c -> exists_block c.
Proof.
  intros b c H. apply (goes_exists p Htargets) in H. apply nth_error_Some in H. unfold exists_block.
  destruct (nth_error p c); [eauto|easy].
Qed.

Fixpoint tall (n b : nat) : Prop :=
  match n with 0 => True | S n => exists c, goes p b c /\ tall n c end.

Lemma tall_canon : forall n b b', exists_block b' -> canon b = canon b' -> tall n b -> tall n b'.
Proof.
  induction n as [|n IH]; intros b b' Hb E H; cbn in *; auto. destruct H as (c & Hc & H).
  destruct (canon_goes b b' c Hb E Hc) as (c' & Hc' & E'). exists c'. split; auto.
  eapply IH; eauto. eapply goes_block; eauto.
Qed.

Lemma tall_level : forall n b, tall n b -> n <= level b.
Proof.
  induction n as [|n IH]; intros b H; cbn in *; [lia|]. destruct H as (c & Hc & H). apply IH in H.
  apply Hlevel in Hc. lia.
Qed.

Lemma tall_less : forall n k b, k <= n -> tall n b -> tall k b.
Proof.
  induction n as [|n IH]; intros [|k] b Hk H; cbn in *; auto; [lia|]. destruct H as (c & Hc & H).
  exists c. split; auto. apply IH; auto. lia.
Qed.

Definition reach := clos_refl_trans_1n nat (goes p).

Lemma reach_trans : forall a b c, reach a b -> reach b c -> reach a c.
Proof.
  intros a b c H1. revert c. induction H1 as [x|x y z Hg H IH]; intros c H2; auto.
  apply (Relation_Operators.rt1n_trans _ _ x y c); [exact Hg|]. now apply IH.
Qed.

Lemma reach_step : forall a b c, reach a b -> goes p b c -> reach a c.
Proof.
  intros a b c H1 H2. eapply reach_trans; eauto. apply (Relation_Operators.rt1n_trans _ _ b c c); auto.
  constructor.
Qed.

Lemma tall_reach : forall a b n, reach a b -> tall n b -> tall n a.
Proof.
  intros a b n H. induction H as [|a c b Hg H IH]; auto. intros Hn. specialize (IH Hn).
  apply (tall_less (S n)); [lia|]. cbn. eauto.
Qed.

(** No block is merged with a block it leads to. *)
Lemma no_descendant : forall a c b, goes p a c -> reach c b -> canon a = canon b -> False.
Proof.
  intros a c b Hg Hr E.
  assert (Hb : exists_block b).
  { clear E. revert a Hg. induction Hr as [|c d b Hcd Hr IH]; intros a Hg; [eapply goes_block; eauto|].
    eapply IH; eauto. }
  assert (T : forall n, tall n a).
  { induction n as [|n IH]; [exact I|]. cbn. exists c. split; auto. eapply tall_reach; eauto.
    eapply tall_canon; eauto. }
  specialize (T (S (level a))). apply tall_level in T. lia.
Qed.

Lemma reach_descendant : forall a b, reach a b -> a <> b -> canon a = canon b -> False.
Proof.
  intros a b H Hn E. inversion H; subst; [congruence|]. eapply no_descendant; eauto.
Qed.

(** A way from the entry that does not go through a block. *)
Inductive route (a : nat) : nat -> Prop :=
| route_entry : 0 <> a -> route a 0
| route_on b c : route a b -> goes p b c -> c <> a -> route a c.

Lemma visited_route : forall a x, visited p x -> route a x \/ reach a x.
Proof.
  intros a x H. induction H as [|y x Hg H IH].
  - destruct (Nat.eq_dec 0 a) as [<-|Hn]; [right; constructor|left; now constructor].
  - destruct IH as [IH|IH].
    + destruct (Nat.eq_dec x a) as [-> |Hn]; [right; constructor|left; econstructor; eauto].
    + right. eapply reach_step; eauto.
Qed.

Lemma walk_ops : forall D b bl, nth_error p b = Some bl -> avoiding p D (b, 0) ->
  forall j, j <= length (operations bl) -> (forall i, i < j -> ~ D (b, i)) -> avoiding p D (b, j).
Proof.
  intros D b bl E H0. induction j as [|j IH]; intros Hj Hd; auto.
  destruct (nth_error (operations bl) j) as [o|] eqn:Eo; [|apply nth_error_None in Eo; lia].
  apply (avoiding_next p D b j o).
  - apply IH; [lia|]. intros i Hi. apply Hd. lia.
  - exists bl. auto.
  - apply Hd. lia.
Qed.

Lemma route_ne : forall a x, route a x -> x <> a.
Proof. intros a x H. destruct H; auto. Qed.

Lemma route_start : forall a i x, route a x -> avoiding p (eq (a, i)) (x, 0).
Proof.
  intros a i x H. induction H as [|b c H IH (bl & E & Hc) Hn]; [constructor|].
  apply (avoiding_jump p _ b (length (operations bl)) (term bl)); auto.
  - apply (walk_ops _ b bl); auto. intros k _ Ek. inversion Ek. subst. eapply route_ne; eauto.
  - exists bl. auto.
Qed.

Lemma used_block : forall r x, used_at p r x -> exists bl, nth_error p (fst x) = Some bl /\
  snd x <= length (operations bl).
Proof.
  intros r x [(o & (bl & E & Eo) & _)|(t & (bl & E & Ei & _) & _)]; exists bl; split; auto; [|lia].
  assert (snd x < length (operations bl)) by (apply nth_error_Some; congruence). lia.
Qed.

Lemma route_used : forall a i o r x j, next_operation p (a, i) o -> op_result o = Some r ->
  route a x -> ~ used_at p r (x, j).
Proof.
  intros a i o r x j Ho Er Hr Hu. apply (Hfirst (a, i) o r (x, j) Ho Er Hu).
  destruct (used_block _ _ Hu) as (bl & E & Hj). cbn in E, Hj.
  apply (walk_ops _ x bl); auto; [now apply route_start|]. intros k _ Ek. inversion Ek. subst.
  eapply route_ne; eauto.
Qed.

(** Registers of other blocks are the same in equivalent blocks. *)
Lemma all_use : forall xs ys os os' r, all_equivalent xs ys os os' = true ->
  (~ In r xs -> In (OReg r) os -> In (OReg r) os') /\ (~ In r ys -> In (OReg r) os' -> In (OReg r) os).
Proof.
  intros xs ys. induction os as [|x os IH]; intros [|y os'] r E; cbn in E; try discriminate; [easy|].
  apply andb_true_iff in E. destruct E as [E E']. destruct (IH _ r E') as [I1 I2].
  assert (V : (~ In r xs -> x = OReg r -> y = OReg r) /\ (~ In r ys -> y = OReg r -> x = OReg r)).
  { split; intros Hn ->.
    - destruct y as [b|b|k|k|r0]; cbn in E; try discriminate. apply ordinal_In in Hn. rewrite Hn in E.
      destruct (ordinal ys r0); [discriminate|]. apply Nat.eqb_eq in E. now subst.
    - destruct x as [b|b|k|k|r0]; cbn in E; try discriminate. apply ordinal_In in Hn. rewrite Hn in E.
      destruct (ordinal xs r0); [discriminate|]. apply Nat.eqb_eq in E. now subst. }
  destruct V as [V1 V2]. cbn. split; intros Hn [H|H]; auto.
Qed.

Lemma operations_use : forall os os' xs ys xs' ys' r, operations_equivalent xs ys os os' = Some (xs', ys') ->
  (~ In r xs' -> (exists o, In o os /\ In (OReg r) (op_operands o)) ->
     exists o, In o os' /\ In (OReg r) (op_operands o)) /\
  (~ In r ys' -> (exists o, In o os' /\ In (OReg r) (op_operands o)) ->
     exists o, In o os /\ In (OReg r) (op_operands o)).
Proof.
  induction os as [|o os IH]; intros [|o' os'] xs ys xs' ys' r E; cbn in E; try discriminate.
  - split; intros _ (o & [] & _).
  - destruct (kind_eqb _ _) eqn:Ek; cbn [andb] in E; [|discriminate].
    destruct (all_equivalent _ _ _ _) eqn:Ea; [|discriminate].
    destruct (all_use xs ys _ _ r Ea) as [U1 U2].
    assert (Hrest : exists a b, operations_equivalent a b os os' = Some (xs', ys') /\
      (forall x, In x xs -> In x a) /\ (forall x, In x ys -> In x b)).
    { destruct (op_result o), (op_result o'); try discriminate; eexists; eexists; (split; [exact E|]);
        split; auto; intros; apply in_or_app; auto. }
    destruct Hrest as (a & b & Er & Ha & Hb). destruct (IH _ _ _ _ _ r Er) as [I1 I2].
    destruct (operations_results _ _ _ _ _ _ Er) as (Ex & Ey & _).
    split; intros Hn (x & [<-|Hx] & Hr).
    + exists o'. split; [now left|]. apply U1; auto. intros Hin. apply Hn. rewrite Ex. apply in_or_app. auto.
    + destruct I1 as (y & Hy & Hry); eauto. exists y. split; auto. now right.
    + exists o. split; [now left|]. apply U2; auto. intros Hin. apply Hn. rewrite Ey. apply in_or_app. auto.
    + destruct I2 as (y & Hy & Hry); eauto. exists y. split; auto. now right.
Qed.

Definition uses (r : nat) (bl : block) : Prop :=
  (exists o, In o (operations bl) /\ In (OReg r) (op_operands o)) \/ In (OReg r) (term_operands (term bl)).

Lemma equivalent_uses : forall bl bl' r, equivalent l bl bl' ->
  (~ In r (results_of (operations bl)) -> uses r bl -> uses r bl') /\
  (~ In r (results_of (operations bl')) -> uses r bl' -> uses r bl).
Proof.
  intros bl bl' r (xs & ys & Eo & Ee). destruct (operations_results _ _ _ _ _ _ Eo) as (Ex & Ey & _).
  cbn in Ex, Ey. destruct (operations_use _ _ _ _ _ _ r Eo) as [U1 U2]. rewrite Ex in U1. rewrite Ey in U2.
  assert (Et : all_equivalent xs ys (term_operands (term bl)) (term_operands (term bl')) = true).
  { destruct (term bl), (term bl'); cbn in *; try discriminate; auto;
      repeat (apply andb_true_iff in Ee; destruct Ee as [Ee ?]); rewrite ?Ee; auto. }
  destruct (all_use xs ys _ _ r Et) as [V1 V2]. rewrite Ex in V1. rewrite Ey in V2.
  split; intros Hn [H|H]; [left|right|left|right]; auto.
Qed.

Lemma used_uses : forall r b i, used_at p r (b, i) -> exists bl, nth_error p b = Some bl /\ uses r bl.
Proof.
  intros r b i [(o & (bl & E & Eo) & H)|(t & (bl & E & Ei & ->) & H)]; exists bl; split; auto.
  - left. exists o. split; auto. eapply nth_error_In; eauto.
  - now right.
Qed.

Lemma uses_used : forall r b bl, nth_error p b = Some bl -> uses r bl -> exists i, used_at p r (b, i).
Proof.
  intros r b bl E [(o & Ho & H)|H].
  - apply In_nth_error in Ho. destruct Ho as (i & Hi). exists i. left. exists o. split; auto. exists bl. auto.
  - exists (length (operations bl)). right. exists (term bl). split; auto. exists bl. auto.
Qed.

Lemma result_block : forall a i o r b bl, next_operation p (a, i) o -> op_result o = Some r ->
  nth_error p b = Some bl -> In r (results_of (operations bl)) -> a = b.
Proof.
  intros a i o r b bl (al & Ea & Ei) Er Eb Hr. cbn in Ea, Ei.
  unfold single_definitions, defined, body_operations in Hsingle.
  rewrite NegationProofs.flat_map_flat_map in Hsingle.
  eapply (NegationProofs.flat_map_position _ _ _ p a b al bl r Hsingle Ea Eb).
  - apply in_flat_map. exists o. split; [|rewrite Er; now left]. unfold block_operations. apply in_or_app.
    left. eapply nth_error_In; eauto.
  - apply results_In in Hr. destruct Hr as (o' & Ho' & Er'). apply in_flat_map. exists o'.
    split; [|rewrite Er'; now left]. unfold block_operations. apply in_or_app. auto.
Qed.

Lemma mirror : forall a x, reach a x -> forall b, exists_block b -> canon a = canon b ->
  exists x', reach b x' /\ exists_block x' /\ canon x = canon x'.
Proof.
  intros a x H. induction H as [a|a c x Hg H IH]; intros b Hb E; [exists b; repeat split; auto; constructor|].
  destruct (canon_goes a b c Hb E Hg) as (c' & Hg' & E').
  destruct (IH c') as (x' & Hr & Hx & Ex); [eapply goes_block; eauto|auto|].
  exists x'. repeat split; auto. econstructor; eauto.
Qed.

Lemma route_reach : forall a b x, route a b -> reach b x -> route a x \/ reach b a.
Proof.
  intros a b x Hr H.
  assert (G : forall y, reach b y -> route a y -> reach y x -> route a x \/ reach b a).
  { intros y Hby Hy Hyx. clear Hr H. induction Hyx as [y|y z x Hg H IH]; auto.
    destruct (Nat.eq_dec z a) as [-> |Hn].
    - right. eapply reach_step; eauto.
    - apply IH; [eapply reach_step; eauto|]. econstructor; eauto. }
  apply (G b); auto. constructor.
Qed.

Lemma loop_free_keeps : forall a b, visited p a -> visited p b -> a <> b -> exists_block b ->
  canon a = canon b -> keeps_results p a.
Proof.
  intros a b Va Vb Hab Hb E i o r [x j] Ho Er Hu Vx. cbn [fst snd] in *.
  destruct (Nat.eq_dec x a) as [-> |Hxa].
  - split; auto. destruct (le_lt_dec j i) as [Hji|]; auto. exfalso.
    apply (Hfirst (a, i) o r (a, j) Ho Er Hu). destruct (used_block _ _ Hu) as (bl & Ea & Hj). cbn in Ea, Hj.
    apply (walk_ops _ a bl); auto; [|intros k Hk Ek; inversion Ek; lia].
    inversion Va as [|y z Hg Vy]; subst; [constructor|].
    destruct (visited_route a y Vy) as [Hr|Hr].
    + destruct Hg as (yl & Ey & Hc). apply (avoiding_jump p _ y (length (operations yl)) (term yl)); auto.
      * apply (walk_ops _ y yl); auto; [now apply route_start|]. intros k _ Ek. inversion Ek. subst.
        eapply route_ne; eauto.
      * exists yl. auto.
    + exfalso. clear - Hr Hg Hlevel. assert (G : level y <= level a).
      { clear Hg. induction Hr as [|a c y Hg Hr IH]; auto. apply Hlevel in Hg. lia. }
      apply Hlevel in Hg. lia.
  - exfalso. destruct (visited_route a x Vx) as [Hr|Hr]; [eapply route_used; eauto|].
    assert (Hne : canon a <> canon x) by (intros Ec; apply (reach_descendant a x); auto).
    destruct (mirror a x Hr b Hb E) as (x' & Hrb & Hx' & Ex').
    destruct (visited_route a b Vb) as [Rb|Rb]; [|apply (reach_descendant a b); auto].
    destruct (route_reach a b x' Rb Hrb) as [Rx|Rx]; [|apply (reach_descendant b a); auto].
    destruct (used_uses _ _ _ Hu) as (xl & Exl & Ux).
    destruct (canon_block x xl Exl) as (yl & Eyl & Hy).
    destruct Hx' as (xl' & Exl'). destruct (canon_block x' xl' Exl') as (yl' & Eyl' & Hy').
    rewrite <- Ex' in Eyl'. rewrite Eyl in Eyl'. inversion Eyl'; subst yl'.
    assert (Uy : uses r yl).
    { destruct Hy as [Hy|Hy].
      - rewrite <- Hy in Eyl. rewrite Exl in Eyl. inversion Eyl; subst. auto.
      - apply (equivalent_uses xl yl r Hy); auto. intros Hin.
        apply Hxa. symmetry. eapply result_block; eauto. }
    assert (Ux' : uses r xl').
    { destruct Hy' as [Hy'|Hy'].
      - rewrite Ex', <- Hy' in Eyl. rewrite Exl' in Eyl. inversion Eyl; subst. auto.
      - apply (equivalent_uses xl' yl r Hy'); auto. intros Hin.
        assert (Hc : a = canon x) by (eapply result_block; eauto).
        apply Hne. rewrite Hc at 1. eapply canonical_once; eauto. }
    destruct (uses_used r x' xl' Exl' Ux') as (k & Hk). eapply route_used; eauto.
Qed.
End LoopFree.

Lemma simplify_loop_free : forall (other world : Type) (m : machine other world) hash p q,
  single_definitions p -> gives_results m p -> definitions_first p -> targets_exist p -> loop_free p ->
  simplify_tails hash p = Some (Some q) -> same_runs m p q.
Proof.
  intros other world m hash p q Hs Hg Hf Ht (level & Hl). apply simplify_runs; auto.
  intros reached Er b Hb. destruct (planned_alike hash p reached Er b Hb) as (b' & H & E).
  destruct H as (H1 & _ & _ & H4 & H5 & bl & bl' & _ & E' & _).
  eapply (loop_free_keeps p (merged_blocks hash p reached)); eauto; [apply merged_good|].
  exists bl'. auto.
Qed.
