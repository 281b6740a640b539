From Coq Require Import List Bool Arith Lia Permutation Sorted.
From Verif Require Import ListUtil GraphModel InternModel InternSpec InternKinds InternSim InternFind InternProofs.
Import ListNotations.

Local Arguments ty_eq_dec : simpl never.

Record canon (u : universe) : Prop := {
  c_red : forall a b, sim (get u) (get u) a b -> a = b;
  c_conn : forall w i j k l, get u (Glob (Datatypes.S w) i) = Some k -> get u (Glob (Datatypes.S w) j) = Some l -> path1 (get u) (Glob (Datatypes.S w) i) (Glob (Datatypes.S w) j);
  c_same : forall a b, path1 (get u) a b -> path1 (get u) b a -> exists w i j, a = Glob (Datatypes.S w) i /\ b = Glob (Datatypes.S w) j }.

Lemma empty_get : forall t, get new_empty t = None.
Proof.
  intros [i|w i]; auto. simpl. destruct w as [|[|w]]; auto. destruct i; auto.
Qed.
Lemma canon_empty : canon new_empty.
Proof.
  constructor.
  - intros a b S. destruct (sim_unfold _ _ _ _ S) as (k & l & E & _). rewrite empty_get in E. discriminate.
  - intros w i j k l E. rewrite empty_get in E. discriminate.
  - intros a b (k & c & E & _). rewrite empty_get in E. discriminate.
Qed.

Lemma path1_end : forall d a b, total d -> path1 d a b -> exists l, d b = Some l.
Proof. intros d a b T (k & c & E & J & P). destruct (T _ _ _ E J) as (l & L). eapply path_total; eauto. Qed.

Lemma canon_add_zero : forall u k, inv u -> canon u -> (forall c, In c (kids k) -> exists l, get u c = Some l) ->
  (forall i, get u (Glob 0 i) <> Some k) -> (forall w i j, In (Glob w j) (kids k) -> get u (Glob w i) <> Some k) -> canon (add_zero u k).
Proof.
  intros u k I C K Z W. pose proof (add_zero_below u k) as B. pose proof (i_total _ I) as T.
  assert (X : forall t l, get (add_zero u k) t = Some l -> get u t = Some l \/ (t = Glob 0 (zero_len u) /\ l = k)).
  { intros t l H. rewrite get_add_zero in H. destruct (ty_eq_dec t (Glob 0 (zero_len u))) as [->|]; auto. right. destruct (worlds u); inversion H. auto. }
  assert (OLD : forall a b l, sim (get (add_zero u k)) (get (add_zero u k)) a b -> get u a = Some l -> forall m, get u b = Some m -> a = b).
  { intros a b l S A m M. apply (c_red _ C). eapply sim_restrict; eauto. eapply sim_restrict_r; eauto. }
  assert (MIX : forall b l, sim (get (add_zero u k)) (get (add_zero u k)) (Glob 0 (zero_len u)) b -> get u b = Some l -> False).
  { intros b l S E. destruct (sim_unfold _ _ _ _ S) as (k1 & l1 & F & G & M). rewrite (add_zero_new u k I) in F. inversion F; subst k1.
    apply B in E as E'. assert (l1 = l) by congruence. subst l1.
    assert (k = l).
    { apply mat_eq. eapply mat_imp; [|exact M]. intros x y Jx Jy S'. destruct (K x Jx) as (a & A). destruct (T _ _ _ E Jy) as (b' & B'). eapply OLD; eauto. }
    subst l. destruct (get_glob _ _ _ E) as (w & i & ->). destruct w as [|w]; [eapply Z; eauto|].
    destruct (c_conn _ C w i i _ _ E E) as (k2 & c & E2 & J & P). assert (k2 = k) by congruence. subst k2.
    destruct (path_front _ _ _ P) as [->|(k3 & c' & E3 & J3 & P3)]; [eapply W; eauto|].
    assert (Q1 : path1 (get u) (Glob (Datatypes.S w) i) c) by (exists k, c; repeat split; auto; apply path_here).
    assert (Q2 : path1 (get u) c (Glob (Datatypes.S w) i)) by (exists k3, c'; auto).
    destruct (c_same _ C _ _ Q1 Q2) as (w' & i' & j' & A1 & A2). inversion A1; subst. eapply W; eauto. }
  constructor.
  - intros a b S. destruct (sim_unfold _ _ _ _ S) as (k1 & l1 & F & G & _).
    destruct (X _ _ F) as [F'|[-> ->]]; destruct (X _ _ G) as [G'|[-> ->]]; auto; [eapply OLD; eauto| |]; exfalso; eapply MIX; eauto. apply sim_sym. eauto.
  - intros w i j k1 l1 F G. destruct (X _ _ F) as [F'|[? ?]]; [|discriminate]. destruct (X _ _ G) as [G'|[? ?]]; [|discriminate].
    eapply path1_mono; eauto. eapply c_conn; eauto.
  - assert (O : forall a b l, get u a = Some l -> path1 (get (add_zero u k)) a b -> path1 (get u) a b) by (intros; eapply path1_restrict; eauto).
    assert (Nw : forall b, path1 (get (add_zero u k)) (Glob 0 (zero_len u)) b -> exists l, get u b = Some l).
    { intros b (k1 & c & E & J & P). rewrite (add_zero_new u k I) in E. inversion E; subst k1. destruct (K c J) as (l & L).
      eapply path_total; [exact T|exact L|]. eapply path_restrict; eauto. }
    intros a b P Q. assert (EX : forall x y, path1 (get (add_zero u k)) x y -> exists l, get (add_zero u k) x = Some l) by (intros x y (l & c & E & _); eauto).
    destruct (EX _ _ P) as (l & L). destruct (EX _ _ Q) as (m & M).
    destruct (X _ _ L) as [L'|[-> ->]].
    + assert (P' : path1 (get u) a b) by eauto. destruct (path1_end _ _ _ T P') as (m' & M'). eapply (c_same _ C); eauto.
    + destruct (Nw _ P) as (m' & M'). assert (Q' : path1 (get u) b (Glob 0 (zero_len u))) by eauto. destruct (path1_end _ _ _ T Q') as (x & Y). rewrite zero_new in Y. discriminate.
Qed.

Section Call.
Variables (u0 : universe) (ks : list kind).
Let n := length ks.
Let D := described u0 ks.
Hypothesis I0 : inv u0.
Hypothesis TD : total D.
Hypothesis ND : forall t k, D t = Some k -> normal k.
Hypothesis PD : forall i k, nth_error ks i = Some k -> path1 D (Loc i) (Loc i) -> plain k.
Hypothesis FD : forall i t, path1 D (Loc i) (Loc i) -> path D (Loc i) t -> sim D D (Loc i) t -> t = Loc i.

Lemma glob_path : forall a b k, get u0 a = Some k -> path D a b -> exists l, get u0 b = Some l.
Proof.
  intros a b k E P. eapply path_total; [apply (i_total _ I0)|exact E|].
  eapply (path_restrict (get u0) D); [|apply (i_total _ I0)|exact E|exact P]. intros t l H. destruct (get_glob _ _ _ H) as (w & i & ->). exact H.
Qed.

Lemma fd_dd : forall i j, path D (Loc i) (Loc j) -> path D (Loc j) (Loc i) -> sim D D (Loc i) (Loc j) -> i = j.
Proof.
  intros i j P Q S. destruct (Nat.eq_dec i j); auto. assert (X : Loc j = Loc i); [|congruence]. apply FD; auto.
  destruct (path_front _ _ _ P) as [E|(k & c & E & J & P')]; [congruence|]. exists k, c. repeat split; auto. eapply path_trans; eauto.
Qed.

Section Step.
Variables (pre scc : list nat) (u : universe) (r : list (option ty)) (idx : list nat).
Hypothesis RY : ready u0 ks pre scc.
Hypothesis ST : state u0 ks pre u r.
Hypothesis PI : Permutation scc idx.
Hypothesis CY : forall i, In i scc -> path1 D (Loc i) (Loc i).
Hypothesis C : canon u.

Local Notation kt := (kat ks).
Local Notation lw := (lworld ks r idx).

Lemma two_sim : forall x a b, sim D (get u) x a -> sim D (get u) x b -> a = b.
Proof. intros x a b S1 S2. apply (c_red _ C). eapply sim_trans; [apply sim_sym; exact S1|exact S2]. Qed.

Lemma Forall2_exists : forall A B (P : A -> B -> Prop) l, (forall x, In x l -> exists y, P x y) -> exists m, Forall2 P l m.
Proof.
  induction l as [|x l IH]; intros H; [exists []; constructor|]. destruct (H x (or_introl eq_refl)) as [y Y]. destruct IH as [m M]; [intros; apply H; right; auto|].
  exists (y :: m). constructor; auto.
Qed.
Lemma Forall2_nth : forall A B (P : A -> B -> Prop) l m i x, Forall2 P l m -> nth_error l i = Some x -> exists y, nth_error m i = Some y /\ P x y.
Proof.
  intros A B P l m i x F. revert i. induction F as [|a b l m H F IH]; intros [|i]; simpl; intros E; try discriminate; [inversion E; subst; eauto|auto].
Qed.
Lemma Forall2_nth_r : forall A B (P : A -> B -> Prop) l m i y, Forall2 P l m -> nth_error m i = Some y -> exists x, nth_error l i = Some x /\ P x y.
Proof.
  intros A B P l m i x F. revert i. induction F as [|a b l m H F IH]; intros [|i]; simpl; intros E; try discriminate; [inversion E; subst; eauto|auto].
Qed.

Lemma none_old : forall i t, find_world lw 1 (skipn 1 (worlds u)) = Val None -> In i scc -> sim D (get u) (Loc i) t -> False.
Proof.
  intros i t FW Ji S.
  pose proof (s_inv _ _ _ _ _ ST) as I. pose proof (i_total _ I) as T.
  assert (Tt : path1 (get u) t t).
  { destruct (sim_path1 _ _ _ _ _ S (CY i Ji)) as (b & P & S'). rewrite (two_sim _ _ _ S S'). rewrite (two_sim _ _ _ S S') in P. auto. }
  destruct (c_same _ C _ _ Tt Tt) as (v & a & _ & Et & _). subst t.
  destruct (sim_unfold _ _ _ _ S) as (ki & ka & Eki & Eka & _).
  assert (M1 : forall i', In i' idx -> exists e, sim D (get u) (Loc i') (Glob (Datatypes.S v) e)).
  { intros i' J. apply (idx_in scc idx PI) in J. destruct (sim_path _ _ _ _ _ S (r_conn _ _ _ _ RY i i' Ji J)) as (t' & P & S').
    destruct (sim_path _ _ _ _ _ S' (r_conn _ _ _ _ RY i' i J Ji)) as (t'' & P' & S''). rewrite <- (two_sim _ _ _ S S'') in P'.
    destruct (c_same _ C (Glob (Datatypes.S v) a) t') as (v' & x & y & X1 & X2).
    - eapply path1_trans; eauto.
    - eapply path_path1; eauto.
    - inversion X1; subst. eauto. }
  destruct (Forall2_exists _ _ (fun i' e => sim D (get u) (Loc i') (Glob (Datatypes.S v) e)) idx M1) as (m & M).
  apply get_world in Eka. destruct Eka as (ew & Wv & Ea).
  assert (IN : NoDup idx) by (eapply idx_nodup; eauto).
  assert (Nm : NoDup m).
  { apply NoDup_nth_error. intros p q L E. destruct (nth_error m p) as [e|] eqn:Ep; [|apply nth_error_None in Ep; lia]. symmetry in E.
    destruct (Forall2_nth_r _ _ _ _ _ _ _ M Ep) as (x & X1 & X2). destruct (Forall2_nth_r _ _ _ _ _ _ _ M E) as (y & Y1 & Y2).
    assert (Jx : In x scc) by (apply (idx_in scc idx PI); eapply nth_error_In; eauto). assert (Jy : In y scc) by (apply (idx_in scc idx PI); eapply nth_error_In; eauto).
    assert (x = y) by (apply fd_dd; try (apply (r_conn _ _ _ _ RY); auto); eapply sim_trans; [exact X2|apply sim_sym; exact Y2]).
    subst. eapply (proj1 (NoDup_nth_error idx) IN); [apply nth_error_Some; congruence|congruence]. }
  assert (Lm : length m = length idx) by (symmetry; eapply Forall2_len; eauto).
  assert (M2 : forall e, In e m -> e < length ew).
  { intros e J. destruct (Forall2_In_r _ _ _ _ _ _ M J) as (x & _ & X). destruct (sim_unfold _ _ _ _ X) as (k1 & l1 & _ & G & _).
    apply get_world in G. destruct G as (ew' & E1 & E2). assert (ew' = ew) by congruence. subst. apply nth_error_Some. congruence. }
  assert (M3 : forall e, e < length ew -> In e m).
  { intros e L. destruct (nth_error ew e) as [ke|] eqn:Ee; [|apply nth_error_None in Ee; lia].
    assert (Ge : get u (Glob (Datatypes.S v) e) = Some ke) by (apply get_world; eauto).
    assert (Ga : get u (Glob (Datatypes.S v) a) = Some ka) by (apply get_world; eauto).
    destruct (sim_path_r _ _ _ _ _ S (path1_path _ _ _ (c_conn _ C v a e _ _ Ga Ge))) as (x & Px & Sx).
    destruct (sim_path_r _ _ _ _ _ Sx (path1_path _ _ _ (c_conn _ C v e a _ _ Ge Ga))) as (z & Pz & Sz).
    assert (z = Loc i). { apply FD; [apply CY; auto|eapply path_trans; eauto|]. eapply sim_trans; [exact S|apply sim_sym; exact Sz]. }
    subst z. destruct x as [l|wx ix].
    - assert (Jl : In l scc) by (eapply (r_all _ _ _ _ RY i); eauto). apply (idx_in scc idx PI) in Jl.
      destruct (Forall2_In_l _ _ _ _ _ _ M Jl) as (e' & J' & S'). pose proof (two_sim _ _ _ Sx S') as E. inversion E; subst. auto.
    - exfalso. destruct (sim_unfold _ _ _ _ Sx) as (kx & _ & Ex & _). destruct (glob_path (Glob wx ix) (Loc i) kx Ex Pz) as (l & L'). discriminate. }
  assert (Len : length ew = length lw).
  { unfold lworld. rewrite map_length, <- Lm. assert (P : Permutation (seq 0 (length ew)) m).
    { apply NoDup_Permutation; auto; [apply seq_NoDup|]. intros x. rewrite in_seq. split; [intros [_ X]; apply M3; auto|intros X; split; [lia|apply M2; auto]]. }
    apply Permutation_length in P. rewrite seq_length in P. auto. }
  assert (F : fits lw (Datatypes.S v) m ew).
  { split; [unfold lworld; rewrite map_length; auto|]. intros p k E. apply (lworld_nth ks r idx) in E. destruct E as (x & Ep & ->).
    assert (Jx : In x scc) by (apply (idx_in scc idx PI); eapply nth_error_In; eauto). split.
    - intros q K. destruct (lk_kids u0 ks TD pre scc u r RY ST idx PI x _ Jx K) as [(l & L)|(q' & X & L)]; [discriminate|]. inversion X; subst. unfold lworld. rewrite map_length. auto.
    - destruct (Forall2_nth _ _ _ _ _ _ _ M Ep) as (e & Ee & Se). exists e. split; auto.
      destruct (sim_unfold _ _ _ _ Se) as (k1 & k2 & G1 & G2 & [H1 H2]). apply get_world in G2. destruct G2 as (ew' & W' & G2). assert (ew' = ew) by congruence. subst ew'.
      rewrite G2. f_equal. assert (k1 = kt x) by (pose proof (scc_kat u0 ks pre scc RY x Jx); unfold D in G1; simpl in G1; congruence). subst k1.
      unfold lk, res. rewrite !map_kids_comp. apply kind_ext; [rewrite head_map; auto|]. rewrite kids_map.
      assert (Hs : forall c, In c (kids (kt x)) -> In c (kids (kt x))) by auto. revert H2 Hs. generalize (kids (kt x)) at 1 2 4 as l. intros l. generalize (kids k2) as l2.
      induction l as [|c l IH]; intros l2 H2 Hs; inversion H2 as [|? b ? l2' Sc F2]; subst; simpl; auto. f_equal; [|apply IH; auto; intros; apply Hs; simpl; auto].
      destruct (part_cases u0 ks TD pre scc u r RY ST x c Jx (Hs c (or_introl eq_refl))) as [(l' & A & X)|[(j & t' & l' & -> & A & _ & X' & X)|(j & -> & A & K)]]; rewrite A.
      + rewrite <- (two_sim c c b); auto; [destruct (get_glob _ _ _ X) as (v1 & i1 & ->); auto|]. eapply sim_glob; eauto. apply (s_below _ _ _ _ _ ST).
      + rewrite (two_sim _ _ _ X Sc) in *. destruct (get_glob _ _ _ X') as (v1 & i1 & ->). auto.
      + simpl. destruct (local_index_in _ (mems ks r idx) j) as [q Q]; [rewrite fst_mems; apply (idx_in scc idx PI); auto|]. rewrite Q. simpl.
        apply local_index_some in Q. rewrite fst_mems in Q. destruct (Forall2_nth _ _ _ _ _ _ _ M Q) as (e' & Ee' & Se'). rewrite Ee'. symmetry. eapply two_sim; eauto. }
  apply (isomorphism_complete lw ew (Datatypes.S v) m); auto.
  - eapply lworld_plain; eauto.
  - apply Forall_forall. intros k J. apply In_nth_error in J. destruct J as [j J]. apply (i_plain _ I v j). apply get_world. eauto.
  - eapply (find_world_complete lw (skipn 1 (worlds u)) 1); eauto; [lia|]. destruct (i_zero _ I) as (w0 & ws & Z). rewrite Z in *. simpl in *. rewrite Nat.sub_0_r. auto.
Qed.

Lemma canon_new : find_world lw 1 (skipn 1 (worlds u)) = Val None -> canon (new_universe ks u r idx).
Proof.
  intros FW. pose proof (s_inv _ _ _ _ _ ST) as I. pose proof (i_total _ I) as T.
  set (u' := new_universe ks u r idx).
  pose proof (new_inv u0 ks TD ND PD pre scc u r RY ST idx PI CY) as I'. fold u' in I'.
  pose proof (new_below ks u r idx) as B. fold u' in B. set (W := length (worlds u)).
  assert (X : forall t k, get u' t = Some k -> get u t = Some k \/ exists p i, t = Glob W p /\ nth_error idx p = Some i /\ In i scc).
  { intros t k H. unfold u' in H. rewrite get_new in H. destruct t as [i|w i]; [discriminate|]. fold W in H. destruct (Nat.eqb_spec w W) as [->|]; auto.
    right. destruct (nth_error lw i) as [l|] eqn:E; [|discriminate]. apply lworld_nth in E. destruct E as (q & E & ->).
    exists i, q. repeat split; auto. apply (idx_in scc idx PI). eapply nth_error_In; eauto. }
  assert (NW : forall p k, get u (Glob W p) = Some k -> False) by (intros p k H; apply (get_lt u) in H; unfold W in H; lia).
  assert (SM : forall p i, nth_error idx p = Some i -> sim D (get u') (Loc i) (Glob W p)).
  { intros p i E. eapply (fits_sim u0 ks I0 TD pre scc u r RY ST idx PI u' W (seq 0 (length lw))); eauto.
    - unfold u', new_universe. simpl. unfold W. rewrite nth_error_app2, Nat.sub_diag by lia. simpl. reflexivity.
    - eapply new_fits; eauto.
    - assert (p < length lw) by (unfold lworld; rewrite map_length; apply nth_error_Some; congruence).
      rewrite nth_error_nth' with (d := 0) by (rewrite seq_length; auto). rewrite seq_nth by auto. auto. }
  assert (MIX : forall p i t k, nth_error idx p = Some i -> In i scc -> get u t = Some k -> sim (get u') (get u') (Glob W p) t -> False).
  { intros p i t k E J G S. apply (none_old i t FW J). eapply sim_restrict_r; [exact B|exact T|exact G|]. eapply sim_trans; [apply SM; eauto|exact S]. }
  assert (RED : forall a b, sim (get u') (get u') a b -> a = b).
  { intros a b S. destruct (sim_unfold _ _ _ _ S) as (k1 & l1 & F & G & _).
    destruct (X _ _ F) as [F'|(p & i & -> & P & J)]; destruct (X _ _ G) as [G'|(q & j & -> & Q & K)].
    - apply (c_red _ C). eapply sim_restrict; eauto. eapply sim_restrict_r; eauto.
    - exfalso. eapply (MIX q j); eauto. apply sim_sym. auto.
    - exfalso. eapply (MIX p i); eauto.
    - assert (i = j).
      { apply fd_dd; try (apply (r_conn _ _ _ _ RY); auto). eapply sim_trans; [apply SM; eauto|]. eapply sim_trans; [exact S|apply sim_sym; apply SM; auto]. }
      subst. f_equal. eapply (proj1 (NoDup_nth_error idx)); [eapply idx_nodup; eauto|apply nth_error_Some; congruence|congruence]. }
  constructor; auto.
  - intros w i j k1 l1 F G. destruct (X _ _ F) as [F'|(p & i' & E & P & J)]; destruct (X _ _ G) as [G'|(q & j' & E' & Q & K)].
    + eapply path1_mono; eauto. eapply c_conn; eauto.
    + inversion E'; subst. rewrite H0 in F'. destruct (NW _ _ F').
    + inversion E; subst. rewrite H0 in G'. destruct (NW _ _ G').
    + rewrite E, E'. assert (P1 : path1 D (Loc i') (Loc j')) by (eapply path1_trans; [apply CY; auto|apply (r_conn _ _ _ _ RY); auto]).
      destruct (sim_path1 _ _ _ _ _ (SM _ _ P) P1) as (b & Pb & Sb). replace (Glob W q) with b; auto.
      apply RED. eapply sim_trans; [apply sim_sym; exact Sb|apply SM; auto].
  - intros a b P Q. assert (EX : forall x y, path1 (get u') x y -> exists l, get u' x = Some l) by (intros x y (l & c & E & _); eauto).
    assert (O : forall x y l, get u x = Some l -> path1 (get u') x y -> path1 (get u) x y) by (intros; eapply path1_restrict; eauto).
    destruct (EX _ _ P) as (l & L). destruct (EX _ _ Q) as (m & M).
    destruct (X _ _ L) as [L'|(p & i & -> & Pp & J)].
    + assert (P' : path1 (get u) a b) by eauto. destruct (path1_end _ _ _ T P') as (m' & M'). eapply (c_same _ C); eauto.
    + destruct (X _ _ M) as [M'|(q & j & -> & Qq & K)].
      * assert (Q' : path1 (get u) b (Glob W p)) by eauto. destruct (path1_end _ _ _ T Q') as (m' & Y). destruct (NW _ _ Y).
      * destruct (i_zero _ I) as (w0 & ws & Z). exists (length ws), p, q. unfold W. rewrite Z. auto.
Qed.
End Step.
End Call.
