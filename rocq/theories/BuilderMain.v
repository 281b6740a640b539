From Coq Require Import List Bool Arith Lia Permutation.
From Verif Require Import ListUtil GraphModel InternModel InternSpec InternKinds InternSim InternFind InternProofs InternMain BuilderModel BuilderSpec BuilderAlike BuilderProofs.
Import ListNotations.

Section Store.
Variable le : kind -> kind -> bool.
Variable order : list nat -> list nat.
Hypothesis HO : iteration order.
Variable bodies : list rtype.
Variable u0 : universe.
Let n := length bodies.
Hypothesis I0 : inv u0.
Hypothesis TI : forall b, In b bodies -> tidy b.
Hypothesis BU : forall b, In b bodies -> built_up b.
Hypothesis PR : forall b, In b bodies -> proper u0 n b.

(** * The roots *)
Lemma roots_ok : forall rest i, (forall b, In b rest -> In b bodies) -> i + length rest = n -> forall reps s, Inv n u0 reps s -> (forall j, i <= j -> j < n -> nth_error reps j = Some None) ->
  ((exists r, In r rest /\ duplicates r) /\ desugar_roots le order i rest s = Rejected) \/
  ((forall r, In r rest -> ~ duplicates r) /\ exists s' reps', desugar_roots le order i rest s = Done (map Loc (seq i (length rest)), s') /\ Inv n u0 reps' s' /\
    below (get (fst s)) (get (fst s')) /\ (forall j, j < i -> nth_error reps' j = nth_error reps j) /\ (forall j b, nth_error rest j = Some b -> nth_error reps' (i + j) = Some (Some b)) /\
    Permutation (filled reps') (flat_map places rest ++ filled reps)).
Proof.
  induction rest as [|b rest IH]; intros i Hin Ln reps s V Z; simpl in Ln.
  - right. split; [intros r []|]. exists s, reps. split; [reflexivity|]. split; auto. split; [apply below_refl|]. split; auto. split; auto. intros [|j] b X; discriminate.
  - pose proof (Hin b (or_introl eq_refl)) as Jb.
    destruct (desugar_ok le order n u0 b (TI b Jb) (PR b Jb) (Some i) reps s V) as [[D E]|[D (t & s1 & reps1 & E & V1 & X1 & B1 & R1 & K1 & S1 & P1)]].
    { intros j X. inversion X; subst j. split; [apply Z; lia|]. apply BU. auto. }
    + left. split; [exists b; simpl; auto|]. cbn [desugar_roots]. rewrite E. auto.
    + destruct (S1 i eq_refl) as [Ei ->].
      destruct (IH (Datatypes.S i) (fun b J => Hin b (or_intror J))) with (reps := reps1) (s := s1) as [[(r' & J & D') E']|[D' (s2 & reps2 & E2 & V2 & B2 & K2 & F2 & P2)]]; auto; [lia| | |].
      { intros j L1 L2. rewrite K1; [apply Z; lia|auto|]. intros X. inversion X. lia. }
      * left. split; [exists r'; simpl; auto|]. cbn [desugar_roots]. rewrite E. cbn [andthen fst snd]. rewrite E'. auto.
      * right. split; [intros r [<-|J]; auto|]. exists s2, reps2. cbn [desugar_roots]. rewrite E. cbn [andthen fst snd]. rewrite E2. cbn [andthen fst snd length seq map].
        split; [reflexivity|]. split; auto. split; [eapply below_trans; eauto|]. split; [|split].
        -- intros j Lj. rewrite K2 by lia. apply K1; [lia|]. intros X. inversion X. lia.
        -- intros [|j] b' X; simpl in X.
           ++ inversion X; subst b'. rewrite Nat.add_0_r, K2 by lia. auto.
           ++ rewrite <- Nat.add_succ_comm. apply F2. auto.
        -- simpl. eapply Permutation_trans; [exact P2|]. rewrite <- app_assoc. eapply Permutation_trans; [apply Permutation_app_head; exact P1|].
           rewrite !app_assoc. apply Permutation_app_tail. apply Permutation_app_comm.
Qed.

Lemma filled_none : forall m, filled (repeat None m) = [].
Proof. induction m; simpl; auto. Qed.
Lemma start_inv : Inv n u0 (repeat None n) (u0, repeat KNever n).
Proof.
  constructor; simpl; auto.
  - apply below_refl.
  - rewrite !repeat_length. auto.
  - rewrite repeat_length. auto.
  - intros j r E. apply nth_error_In in E. apply repeat_spec in E. discriminate.
  - intros j L E. assert (j < length (repeat (@None rtype) n)) by (apply nth_error_Some; congruence). rewrite repeat_length in H. lia.
Qed.

Lemma all_filled : forall reps, (forall j, nth_error reps j <> Some None) -> reps = map Some (filled reps).
Proof.
  induction reps as [|[r|] reps IH]; intros H; simpl; auto.
  - f_equal. apply IH. intros j. apply (H (Datatypes.S j)).
  - destruct (H 0). auto.
Qed.

(** * Meaning of the kinds *)
Section Kinds.
Variables (u : universe) (kinds : list kind) (reps : list (option rtype)).
Hypothesis V : Inv n u0 reps (u, kinds).
Hypothesis RO : forall j b, nth_error bodies j = Some b -> nth_error reps j = Some (Some b).
Let d := described u kinds.
Let L := filled reps.

Lemma reps_all : reps = map Some L.
Proof.
  apply all_filled. intros j. destruct (Nat.lt_ge_cases j n) as [Lj|Lj]; [|apply (v_rest _ _ _ _ V); auto].
  destruct (nth_error bodies j) as [b|] eqn:E; [|apply nth_error_None in E; unfold n in Lj; lia]. rewrite (RO j b E). discriminate.
Qed.
Lemma reps_at : forall j r, nth_error reps j = Some (Some r) <-> nth_error L j = Some r.
Proof.
  intros j r. pose proof (f_equal (fun l => nth_error l j) reps_all) as E. simpl in E. rewrite nth_error_map in E. rewrite E.
  destruct (nth_error L j); simpl; split; congruence.
Qed.
Lemma at_place : forall j r, nth_error reps j = Some (Some r) -> place r.
Proof. intros j r E. destruct (v_kind _ _ _ _ V j r E) as (_ & k & _ & K). destruct r; simpl in *; auto. Qed.
Lemma low : below (get u) d.
Proof. intros t k G. destruct (get_glob _ _ _ G) as (w & i & ->). exact G. Qed.
Lemma rel_kind : forall r t, rel n reps u r t -> exists k, d t = Some k.
Proof.
  intros r t H. inversion H; subst.
  - exists k. apply low. auto.
  - destruct (nth_error bodies i) as [b|] eqn:E; [|apply nth_error_None in E; unfold n in *; lia].
    destruct (v_kind _ _ _ _ V i b (RO i b E)) as (_ & k & X & _). exists k. exact X.
  - destruct (v_kind _ _ _ _ V j r) as (_ & k & X & _); auto. exists k. exact X.
  - eexists. apply low. eassumption.
  - eexists. apply low. eassumption.
Qed.

Lemma kind_shows : forall r k, kind_ok n reps u r k -> shows bodies d (rel n reps u) r k.
Proof.
  intros [] k H; simpl in H; try contradiction.
  - destruct H as (t & G & ->). apply sh_tag. eapply rel_atom; [constructor|exact G].
  - destruct H as (_ & ts & F & ->). eapply sh_node; [exact F|]. apply alike_eq_refl.
Qed.
Lemma rel_denote : forall r t, rel n reps u r t -> denote bodies d r t.
Proof.
  intros r t H. exists (rel n reps u). split; auto. clear r t H. intros r t H. inversion H; subst.
  - exists k. split; [apply low; auto|]. eapply sh_stored; [apply low; eassumption|]. apply alike_refl_on. intros c J.
    destruct (i_total _ (v_inv _ _ _ _ V) _ _ _ H0 J) as (l & G). eapply rel_stored; eauto.
  - destruct (nth_error bodies i) as [b|] eqn:E; [|apply nth_error_None in E; unfold n in *; lia].
    destruct (v_kind _ _ _ _ V i b (RO i b E)) as (_ & k & X & K). exists k. split; [exact X|]. eapply sh_alias; [exact E|]. apply kind_shows. auto.
  - destruct (v_kind _ _ _ _ V j r) as (_ & k & X & K); auto. exists k. split; [exact X|]. apply kind_shows. auto.
  - eexists. split; [apply low; eassumption|]. apply sh_atom. auto.
  - eexists. split; [apply low; eassumption|]. apply sh_leaf.
Qed.

Lemma kind_at : forall j k, nth_error kinds j = Some k -> exists r, nth_error reps j = Some (Some r) /\ nth_error L j = Some r /\ proper u0 n r /\ kind_ok n reps u r k.
Proof.
  intros j k E. assert (Lj : j < length reps). { rewrite (v_len _ _ _ _ V). simpl. apply nth_error_Some. congruence. }
  destruct (nth_error reps j) as [o|] eqn:F; [|apply nth_error_None in F; lia].
  assert (X : exists r, o = Some r). { pose proof F as F'. rewrite reps_all, nth_error_map in F'. destruct (nth_error L j); inversion F'; eauto. }
  destruct X as (r & ->). destruct (v_kind _ _ _ _ V j r F) as (P & k' & E' & K). simpl in E'. assert (k' = k) by congruence. subst k'. exists r. split; auto. split; [apply reps_at; auto|]. auto.
Qed.
Lemma kind_kids : forall j k c, nth_error kinds j = Some k -> In c (kids k) -> exists r, nth_error L j = Some r /\
  ((exists l, get u c = Some l) \/ exists con parts p, r = RNode con parts /\ In p parts /\ rel n reps u p c).
Proof.
  intros j k c E J. destruct (kind_at j k E) as (r & _ & Lr & P & K). exists r. split; auto. destruct r; simpl in K; try contradiction.
  - destruct K as (t & G & ->). destruct J as [<-|[]]. left. eauto.
  - destruct K as (_ & ts & F & ->). inversion P; subst. apply kids_plug in J; [|rewrite <- (Forall2_len _ _ _ _ _ F); auto].
    destruct (Forall2_In_r _ _ _ _ _ _ F J) as (p & Jp & R). right. eauto 7.
Qed.

Lemma group_sensible : sensible u kinds.
Proof.
  split.
  - intros k J. apply In_nth_error in J. destruct J as (j & E). destruct (kind_at j k E) as (r & _ & _ & P & K). destruct r; simpl in K; try contradiction.
    + destruct K as (t & _ & ->). simpl. constructor; [intros []|constructor].
    + destruct K as (D & ts & F & ->). inversion P; subst. apply named_plug; auto. rewrite <- (Forall2_len _ _ _ _ _ F); auto.
  - intros k t J M. apply mentions_kids in M. apply In_nth_error in J. destruct J as (j & E).
    destruct (kind_kids j k t E M) as (r & _ & [(l & G)|(con & parts & p & _ & _ & R)]); [|eapply rel_kind; eauto]. exists l. apply low. auto.
Qed.
Lemma group_plain : plain_cycles u kinds.
Proof.
  intros j k E _. destruct (kind_at j k E) as (r & _ & _ & _ & K). destruct r; simpl in K; try contradiction.
  - destruct K as (t & _ & ->). exact I.
  - destruct K as (_ & ts & _ & ->). destruct c; exact I.
Qed.

Lemma alias_at : forall i, i < n -> exists b, nth_error bodies i = Some b /\ nth_error L i = Some b.
Proof.
  intros i Li. destruct (nth_error bodies i) as [b|] eqn:E; [|apply nth_error_None in E; unfold n in *; lia]. exists b. split; auto. apply reps_at. auto.
Qed.
Lemma rel_meets : forall a r j, meets bodies a r -> rel n reps u r (Loc j) -> exists b, nth_error L j = Some b /\ meets bodies a b.
Proof.
  intros a r j M R. inversion R; subst; try (simpl in *; discriminate).
  - destruct (alias_at j) as (b & E & F); auto. exists b. split; auto. eapply meets_alias; eauto.
  - exists r. split; auto. apply reps_at. auto.
Qed.
Lemma path_meets : forall i a t, nth_error L i = Some a -> path d (Loc i) t -> (exists l, get u t = Some l) \/ exists r, meets bodies a r /\ rel n reps u r t.
Proof.
  intros i a t E P. induction P as [|b k c P IH G M].
  - right. exists a. split; [apply meets_here|]. apply rel_place; [apply reps_at; auto|]. eapply at_place. apply reps_at. exact E.
  - apply mentions_kids in M. destruct b as [j|w j].
    + destruct IH as [(l & X)|(r & Mr & R)]; [simpl in X; discriminate|]. destruct (rel_meets a r j Mr R) as (b & Lb & Mb).
      destruct (kind_kids j k c G M) as (b' & Lb' & [X|(con & parts & p & -> & Jp & Rp)]); auto. right. assert (b = RNode con parts) by congruence. subst b.
      exists p. split; auto. eapply meets_part; eauto.
    + left. exact (i_total _ (v_inv _ _ _ _ V) (Glob w j) k c G M).
Qed.

Lemma group_denote_same : forall e r x y, (forall t k, get u0 t = Some k -> e t = Some k) -> proper u0 n r -> denote bodies d r x -> same d e x y -> denote bodies e r y.
Proof.
  intros e r x y He P D S'. eapply (denote_same bodies u0 (i_total _ I0) PR d e); eauto. intros t k G. apply low. apply (v_below _ _ _ _ V). auto.
Qed.

Lemma group_distinct : distinct_places u0 bodies -> Permutation L (flat_map places bodies) -> distinct_cycles u kinds.
Proof.
  intros DP PM i j P1 P2 S'. apply Permutation_sym in PM. apply Permutation_nth_error in PM. destruct PM as (_ & f & Inj & F).
  assert (K : exists k1 k2, d (Loc i) = Some k1 /\ d (Loc j) = Some k2).
  { destruct S' as (R & J & H). destruct (H _ _ J) as (k1 & k2 & X & Y & _). eauto. }
  destruct K as (k1 & k2 & G1 & G2). destruct (kind_at i k1 G1) as (a & Ra & La & Pa & _). destruct (kind_at j k2 G2) as (b & Rb & Lb & Pb & _).
  apply Inj. apply (DP (f i) (f j) a b); [rewrite <- F; auto|rewrite <- F; auto| | |].
  - destruct (path_meets i a (Loc j) La P1) as [(l & X)|(r & M & R)]; [simpl in X; discriminate|]. destruct (rel_meets a r j M R) as (b' & X & Y). congruence.
  - destruct (path_meets j b (Loc i) Lb P2) as [(l & X)|(r & M & R)]; [simpl in X; discriminate|]. destruct (rel_meets b r i M R) as (b' & X & Y). congruence.
  - exists d, (Loc j). split; [intros t k G; apply low; apply (v_below _ _ _ _ V); auto|]. split.
    + eapply group_denote_same; [intros t k G; apply low; apply (v_below _ _ _ _ V); auto|auto| |exact S'].
      apply rel_denote. apply rel_place; auto. eapply at_place; eauto.
    + apply rel_denote. apply rel_place; auto. eapply at_place; eauto.
Qed.
End Kinds.

Lemma unwrap_locals : forall (ts : list ty) m i, i + m <= length ts -> exists l, unwrap_all (map (root_type ts) (map Loc (seq i m))) = Some l /\ length l = m /\
  forall j, j < m -> nth_error l j = nth_error ts (i + j).
Proof.
  intros ts. induction m as [|m IH]; intros i H.
  - exists []. split; auto. split; auto. intros j L. lia.
  - destruct (IH (Datatypes.S i)) as (l & E & Len & F); [lia|]. destruct (nth_error ts i) as [t|] eqn:T; [|apply nth_error_None in T; lia].
    exists (t :: l). cbn [seq map root_type]. rewrite T. split; [apply unwrap_some in E; rewrite E; apply unwrap_some; auto|]. split; [simpl; lia|].
    intros [|j] L; simpl; [rewrite Nat.add_0_r; auto|]. rewrite F by lia. f_equal. lia.
Qed.

Theorem build_rejected : (exists b, In b bodies /\ duplicates b) -> build le order u0 bodies = Rejected.
Proof.
  intros (b & J & D). unfold build.
  destruct (roots_ok bodies 0 (fun b J => J) eq_refl _ _ start_inv) as [[_ E]|[N _]].
  { intros j _ L. apply (nth_error_repeat None L). }
  - unfold n in E. rewrite E. auto.
  - destruct (N b J D).
Qed.
Theorem build_ok : (forall b, In b bodies -> ~ duplicates b) -> distinct_places u0 bodies ->
  exists u ts, build le order u0 bodies = Done (u, ts) /\ inv u /\ below (get u0) (get u) /\ length ts = n /\
    forall i t, nth_error ts i = Some t -> denote bodies (get u) (RAlias i) t.
Proof.
  intros N DP. unfold build.
  destruct (roots_ok bodies 0 (fun b J => J) eq_refl _ _ start_inv) as [[(b & J & D) _]|[_ ([u kinds] & reps & E & V & B & _ & RO & PM)]].
  { intros j _ L. apply (nth_error_repeat None L). }
  { destruct (N b J D). }
  unfold n in E. rewrite E. cbn [andthen fst snd]. unfold finish. cbn [fst snd]. simpl in RO. rewrite filled_none, app_nil_r in PM. simpl in B.
  pose proof (group_sensible u kinds reps V RO) as SE.
  destruct (insert_ok le order HO u kinds (v_inv _ _ _ _ V) SE (group_plain u kinds reps V RO) (group_distinct u kinds reps V RO DP PM)) as (u' & ts & E2 & I2 & B2 & L2 & S2 & _).
  rewrite E2. pose proof (v_roots _ _ _ _ V) as LR. rewrite (v_len _ _ _ _ V) in LR. simpl in LR.
  destruct (unwrap_locals ts n 0) as (l & E3 & L3 & F3); [simpl; lia|]. unfold n in E3 at 1. rewrite E3. exists u', l. split; auto. split; auto.
  split; [eapply below_trans; eauto|]. split; auto. intros i t T.
  assert (Li : i < n) by (rewrite <- L3; apply nth_error_Some; congruence).
  rewrite F3 in T by auto. simpl in T. apply S2 in T. apply (same_store u kinds (v_inv _ _ _ _ V) SE u' _ _ I2) in T.
  eapply group_denote_same; [exact V| |apply pr_alias; exact Li| |exact T].
  - intros t' k G. apply B2, B. auto.
  - eapply rel_denote; [exact V|exact RO|]. apply rel_alias. auto.
Qed.
End Store.
