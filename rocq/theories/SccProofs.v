From Coq Require Import List Bool Arith Lia Permutation Sorted.
From Verif Require Import ListUtil GraphModel GraphSpec GraphProofs.
Import ListNotations.

Section Tarjan.
Variable g : graph.
Hypothesis W : well_formed g.
Notation n := (length g).

Definition num (t : tarjan) (v : nat) : option nat := nth v (t_indices t) None.
Definition visited (t : tarjan) (v : nat) : Prop := num t v <> None.
Definition nm (t : tarjan) (v : nat) : nat := match num t v with Some k => k | None => 0 end.
Definition low (t : tarjan) (v : nat) : nat := nth v (t_low_link t) 0.
Definition finished (t : tarjan) (v : nat) : Prop := In v (concat (t_sccs t)).

Record inv (gray : list nat) (t : tarjan) : Prop := {
  v_len : length (t_in_stack t) = n /\ length (t_indices t) = n /\ length (t_low_link t) = n;
  v_instack : forall v, nth v (t_in_stack t) false = true <-> In v (t_stack t);
  v_range : forall v, In v (t_stack t) \/ finished t v -> v < n;
  v_visited : forall v, visited t v <-> In v (t_stack t) \/ finished t v;
  v_nodup : NoDup (t_stack t ++ concat (t_sccs t));
  v_bound : forall v, In v (t_stack t) -> nm t v < t_index t;
  v_sorted : StronglySorted (fun x y => nm t y < nm t x) (t_stack t);
  v_gray : forall y, In y gray -> In y (t_stack t);
  v_down : forall y x, In y gray -> In x (t_stack t) -> nm t y <= nm t x -> reach g y x;
  v_up : forall x, In x (t_stack t) -> exists y, In y gray /\ nm t y <= nm t x /\ reach g x y;
  v_black : forall u v, visited t u -> ~ In u gray -> edge g u v -> visited t v;
  v_done : forall u v, finished t u -> edge g u v -> finished t v;
  v_sccs : forall c, In c (t_sccs t) -> c <> [] /\ forall u v, In u c -> (connected g u v <-> In v c);
  v_order : forall i j c d u v, nth_error (t_sccs t) i = Some c -> nth_error (t_sccs t) j = Some d -> In u c -> In v d -> edge g u v -> j <= i
}.

(** What a call changes. *)
Record ext (t t' : tarjan) (s' : list nat) : Prop := {
  e_stack : t_stack t' = s' ++ t_stack t;
  e_num : forall v, visited t v -> num t' v = num t v;
  e_low : forall v, visited t v -> low t' v = low t v;
  e_index : t_index t <= t_index t';
  e_sccs : exists more, t_sccs t' = t_sccs t ++ more
}.

Lemma ext_nm : forall t t' s' v, ext t t' s' -> visited t v -> nm t' v = nm t v.
Proof. intros t t' s' v E H. unfold nm. rewrite (e_num _ _ _ E v H). auto. Qed.
Lemma ext_visited : forall t t' s' v, ext t t' s' -> visited t v -> visited t' v.
Proof. intros t t' s' v E H. unfold visited. rewrite (e_num _ _ _ E v H). auto. Qed.

(** ** Number of unvisited nodes *)
Fixpoint whites (l : list (option nat)) : nat :=
  match l with [] => 0 | None :: r => S (whites r) | Some _ :: r => whites r end.
Lemma whites_upd : forall l i k, nth_error l i = Some None -> S (whites (upd l i (Some k))) = whites l.
Proof. induction l as [|[m|] l IH]; intros [|i] k H; simpl in *; try discriminate; rewrite ?(IH _ k H); auto. Qed.
Lemma whites_mono : forall l l', length l = length l' -> (forall v, nth v l None <> None -> nth v l' None <> None) -> whites l' <= whites l.
Proof.
  induction l as [|a l IH]; intros [|b l'] L H; simpl in *; try lia. assert (IH' : whites l' <= whites l) by (apply IH; [lia|intros v; apply (H (S v))]).
  specialize (H 0). simpl in H. destruct a, b; try lia. exfalso. apply H; congruence.
Qed.
Lemma whites_repeat : forall k, whites (repeat None k) = k.
Proof. induction k; simpl; auto. Qed.
Lemma ext_whites : forall gray gray' t t' s', inv gray t -> inv gray' t' -> ext t t' s' -> whites (t_indices t') <= whites (t_indices t).
Proof.
  intros gray gray' t t' s' I I' E. apply whites_mono.
  - destruct (v_len _ _ I) as (_ & -> & _), (v_len _ _ I') as (_ & -> & _). auto.
  - intros v H. apply (ext_visited t t' s' v E). auto.
Qed.

Lemma nth_some : forall A (l : list A) i d, i < length l -> nth_error l i = Some (nth i l d).
Proof. intros. apply nth_error_nth'. auto. Qed.

Lemma sorted_split : forall (R : nat -> nat -> Prop) s x r, StronglySorted R (s ++ x :: r) -> (forall y, In y s -> R y x) /\ (forall y, In y r -> R x y).
Proof.
  induction s as [|a s IH]; intros x r H; simpl in H; inversion H; subst.
  - split; [intros y []|]. apply Forall_forall. auto.
  - destruct (IH _ _ H2) as [I1 I2]. split; auto. intros y [->|Hy]; auto. rewrite Forall_forall in H3. apply H3. apply in_app_iff. right. simpl. auto.
Qed.

Lemma pop_ok : forall s1 x rest in_stack scc, ~ In x s1 -> (forall v, In v (s1 ++ [x]) -> v < length in_stack) ->
  exists in_stack', pop_scc (s1 ++ x :: rest) in_stack scc x = Val (rest, in_stack', scc ++ s1 ++ [x]) /\ length in_stack' = length in_stack /\
    forall v, nth v in_stack' false = true <-> nth v in_stack false = true /\ ~ In v (s1 ++ [x]).
Proof.
  induction s1 as [|w s1 IH]; intros x rest in_stack scc N L; cbn [pop_scc app].
  - rewrite wr_val by (apply L; simpl; auto). cbn [bind]. rewrite Nat.eqb_refl. eexists. split; [reflexivity|]. rewrite upd_length. split; auto.
    intros v. rewrite nth_upd. destruct (Nat.eqb_spec x v).
    + subst. destruct (Nat.ltb_spec v (length in_stack)); [split; [discriminate|simpl; tauto]|]. specialize (L v ltac:(simpl; auto)). lia.
    + simpl. intuition.
  - rewrite wr_val by (apply L; simpl; auto). cbn [bind]. destruct (Nat.eqb_spec w x); [subst; simpl in N; tauto|].
    destruct (IH x rest (upd in_stack w false) (scc ++ [w])) as (st & E & Le & H).
    + simpl in N. tauto.
    + intros v Hv. rewrite upd_length. apply L. simpl. auto.
    + exists st. rewrite E. rewrite <- app_assoc. split; auto. rewrite upd_length in Le. split; auto. intros v. rewrite H, nth_upd. destruct (Nat.eqb_spec w v).
      * subst. destruct (Nat.ltb_spec v (length in_stack)); [split; [intros [? _]; discriminate|simpl; tauto]|]. specialize (L v ltac:(simpl; auto)). lia.
      * simpl. intuition.
Qed.

(** ** The specification of [strong_connect] *)
Definition connects (rec : nat -> tarjan -> gres tarjan) (m : nat) : Prop :=
  forall gray t x, inv gray t -> ~ visited t x -> x < n -> (forall y, In y gray -> reach g y x) -> whites (t_indices t) <= m ->
  exists t' s', rec x t = Val t' /\ inv gray t' /\ ext t t' s' /\ visited t' x /\
    (s' = [] -> t_index t <= low t' x) /\
    (s' <> [] -> exists y, In y (t_stack t) /\ nm t y = low t' x /\ reach g x y) /\
    (forall y z, In y s' -> In z (t_stack t) -> edge g y z -> low t' x <= nm t z).

(** State of the loop over the neighbors of [x]: [s0] is the stack below [x]. *)
Record loop (gray : list nat) (x : nat) (s0 : list nat) (t0 : tarjan) (seen : list nat) (t : tarjan) (s1 : list nat) : Prop := {
  l_inv : inv (x :: gray) t;
  l_stack : t_stack t = s1 ++ x :: s0;
  l_num : forall v, visited t0 v -> num t v = num t0 v;
  l_low : forall v, visited t0 v -> v <> x -> low t v = low t0 v;
  l_index : t_index t0 <= t_index t;
  l_sccs : exists more, t_sccs t = t_sccs t0 ++ more;
  l_grays : forall y, In y gray -> In y s0 /\ reach g y x;
  l_attained : exists y, In y (x :: s0) /\ nm t y = low t x /\ reach g x y;
  l_le : low t x <= nm t x;
  l_bound : forall y z, In y s1 -> In z s0 -> edge g y z -> low t x <= nm t z;
  l_seen : forall v, In v seen -> visited t v /\ (In v s0 -> low t x <= nm t v)
}.

Definition set_low (t : tarjan) (x k : nat) : tarjan :=
  mkTarjan (t_index t) (t_stack t) (t_in_stack t) (t_indices t) (upd (t_low_link t) x k) (t_sccs t).

Lemma inv_set_low : forall gray t x k, inv gray t -> inv gray (set_low t x k).
Proof. intros gray t x k []. constructor; auto. destruct v_len0 as (? & ? & ?). simpl. rewrite upd_length. auto. Qed.
Lemma low_set : forall t x k, x < length (t_low_link t) -> low (set_low t x k) x = k.
Proof. intros t x k L. unfold low. simpl. rewrite nth_upd, Nat.eqb_refl. destruct (Nat.ltb_spec x (length (t_low_link t))); auto; lia. Qed.
Lemma low_set_other : forall t x k v, v <> x -> low (set_low t x k) v = low t v.
Proof. intros t x k v N. unfold low. simpl. rewrite nth_upd. destruct (Nat.eqb_spec x v); auto; congruence. Qed.

Lemma explore_ok : forall rec m gray x s0 t0, connects rec m -> visited t0 x -> ~ In x s0 -> (forall v, In v s0 -> visited t0 v) ->
  forall neighbors seen t s1, loop gray x s0 t0 seen t s1 -> (forall v, In v neighbors -> edge g x v) -> whites (t_indices t) <= m ->
  exists t' s1', explore rec x neighbors t = Val t' /\ loop gray x s0 t0 (seen ++ neighbors) t' s1'.
Proof.
  intros rec m gray x s0 t0 HR Vx0 Nx Vs0. induction neighbors as [|v ns IH]; intros seen t s1 L Hns Hw; cbn [explore].
  { exists t, s1. rewrite app_nil_r. auto. }
  pose proof L as [I S N Lo X C G (y0 & Y1 & Y2 & Y3) LE B SE].
  pose proof (v_len _ _ I) as (L1 & L2 & L3). assert (Ev : edge g x v) by (apply Hns; simpl; auto). assert (Lv : v < n) by (eapply W; eauto).
  assert (Lx : x < n) by (apply (edge_src g x v Ev)).
  assert (Sx : In x (t_stack t)) by (rewrite S; apply in_app_iff; simpl; auto).
  assert (Vx : visited t x) by (apply (v_visited _ _ I); auto).
  assert (SS : forall z, In z s0 -> In z (t_stack t)) by (intros z Hz; rewrite S; apply in_app_iff; simpl; auto).
  pose proof (v_sorted _ _ I) as SO. rewrite S in SO. destruct (sorted_split _ _ _ _ SO) as [SO1 SO2]. clear SO.
  rewrite (rd_val _ _ _ (num t v)) by (apply nth_some; lia). cbn [bind]. destruct (num t v) as [k|] eqn:Ek.
  - (* already numbered *)
    assert (Vv : visited t v) by (unfold visited; congruence).
    rewrite (rd_val _ _ _ (nth v (t_in_stack t) false)) by (apply nth_some; lia). cbn [bind].
    destruct (nth v (t_in_stack t) false) eqn:Eb.
    + assert (Sv : In v (t_stack t)) by (apply (v_instack _ _ I); auto).
      rewrite (rd_val _ _ _ (low t x)) by (apply nth_some; lia). cbn [bind]. rewrite wr_val by lia. cbn [bind].
      assert (Kv : nm t v = k) by (unfold nm; rewrite Ek; auto).
      fold (set_low t x (Nat.min (low t x) k)).
      replace (seen ++ v :: ns) with ((seen ++ [v]) ++ ns) by (rewrite <- app_assoc; auto). apply (IH _ _ s1); [|intros; apply Hns; simpl; auto|auto].
      assert (LX : low (set_low t x (Nat.min (low t x) k)) x = Nat.min (low t x) k) by (apply low_set; lia).
      constructor; auto.
      * apply inv_set_low. auto.
      * intros w Vw Nw. rewrite low_set_other; auto.
      * rewrite LX. change (nm (set_low t x (Nat.min (low t x) k))) with (nm t). destruct (Nat.le_gt_cases (low t x) k).
        -- exists y0. rewrite Nat.min_l by lia. auto.
        -- exists v. rewrite Nat.min_r by lia. split; [|split; [auto|apply reach_edge; auto]].
           rewrite S in Sv. apply in_app_or in Sv. destruct Sv as [Sv|Sv]; auto. specialize (SO1 v Sv). lia.
      * rewrite LX. change (nm (set_low t x (Nat.min (low t x) k))) with (nm t). lia.
      * rewrite LX. change (nm (set_low t x (Nat.min (low t x) k))) with (nm t). intros y z Hy Hz E. specialize (B y z Hy Hz E). lia.
      * rewrite LX. intros w Hw'. change (nm (set_low t x (Nat.min (low t x) k))) with (nm t). change (visited (set_low t x (Nat.min (low t x) k)) w) with (visited t w).
        apply in_app_or in Hw'. destruct Hw' as [Hw'|[<-|[]]]; [destruct (SE w Hw') as [Q1 Q2]; split; auto; intros Q3; specialize (Q2 Q3); lia|]. split; auto. lia.
    + assert (Sv : ~ In v (t_stack t)) by (intros H; apply (v_instack _ _ I) in H; congruence).
      replace (seen ++ v :: ns) with ((seen ++ [v]) ++ ns) by (rewrite <- app_assoc; auto). apply (IH _ _ s1); [|intros; apply Hns; simpl; auto|auto].
      constructor; auto; [exists y0; auto|].
      intros w Hw'. apply in_app_or in Hw'. destruct Hw' as [Hw'|[<-|[]]]; auto. split; auto. intros H. apply SS in H. tauto.
  - (* recursion *)
    assert (Vv : ~ visited t v) by (unfold visited; congruence).
    destruct (HR (x :: gray) t v I Vv Lv) as (t2 & s2 & R & I2 & E2 & V2 & P1 & P2 & P3); auto.
    { intros y [<-|Hy]; [apply reach_edge; auto|]. eapply reach_step; [apply G; auto|auto]. }
    rewrite R. cbn [bind]. pose proof (v_len _ _ I2) as (M1 & M2 & M3).
    rewrite (rd_val _ _ _ (low t2 x)) by (apply nth_some; lia). cbn [bind].
    rewrite (rd_val _ _ _ (low t2 v)) by (apply nth_some; lia). cbn [bind]. rewrite wr_val by lia. cbn [bind].
    fold (set_low t2 x (Nat.min (low t2 x) (low t2 v))). rewrite (e_low _ _ _ E2 x Vx).
    set (t3 := set_low t2 x (Nat.min (low t x) (low t2 v))).
    replace (seen ++ v :: ns) with ((seen ++ [v]) ++ ns) by (rewrite <- app_assoc; auto).
    apply (IH _ t3 (s2 ++ s1)); [|intros; apply Hns; simpl; auto|unfold t3; simpl; pose proof (ext_whites _ _ _ _ _ I I2 E2); lia].
    assert (LX : low t3 x = Nat.min (low t x) (low t2 v)) by (apply low_set; lia).
    assert (NM : forall w, visited t w -> nm t3 w = nm t w) by (intros w Vw; exact (ext_nm t t2 s2 w E2 Vw)).
    assert (VT : forall w, visited t0 w -> visited t w) by (intros w Vw; unfold visited; rewrite (N w Vw); auto).
    constructor; auto.
    + apply inv_set_low. auto.
    + simpl. rewrite (e_stack _ _ _ E2), S. rewrite app_assoc. auto.
    + intros w Vw. change (num t3 w) with (num t2 w). rewrite (e_num _ _ _ E2 w (VT w Vw)). auto.
    + intros w Vw Nw. unfold t3. rewrite low_set_other by auto. rewrite (e_low _ _ _ E2 w (VT w Vw)). auto.
    + simpl. pose proof (e_index _ _ _ E2). lia.
    + simpl. destruct C as (c1 & C), (e_sccs _ _ _ E2) as (c2 & C2). rewrite C2, C. exists (c1 ++ c2). rewrite app_assoc. auto.
    + rewrite LX. destruct (Nat.le_gt_cases (low t x) (low t2 v)).
      * exists y0. rewrite Nat.min_l by lia. rewrite NM; auto; destruct Y1 as [<-|Y1]; auto; apply VT, Vs0; auto.
      * rewrite Nat.min_r by lia. destruct s2 as [|a s2].
        -- specialize (P1 eq_refl). pose proof (v_bound _ _ I x Sx). lia.
        -- destruct P2 as (y & Q1 & Q2 & Q3); [discriminate|]. exists y. rewrite NM by (apply (v_visited _ _ I); auto). split; [|split; [auto|eapply reach_trans; [apply reach_edge; eauto|auto]]].
           rewrite S in Q1. apply in_app_or in Q1. destruct Q1 as [Q1|Q1]; auto. specialize (SO1 y Q1). lia.
    + rewrite LX. rewrite NM by auto. lia.
    + rewrite LX. intros y z Hy Hz E. rewrite NM by (apply VT, Vs0; auto). apply in_app_or in Hy. destruct Hy as [Hy|Hy].
      * specialize (P3 y z Hy (SS z Hz) E). lia.
      * specialize (B y z Hy Hz E). lia.
    + rewrite LX. intros w Hw'. apply in_app_or in Hw'. destruct Hw' as [Hw'|[<-|[]]].
      * destruct (SE w Hw') as [Q1 Q2]. split; [exact (ext_visited t t2 s2 w E2 Q1)|]. intros Q3. specialize (Q2 Q3). rewrite NM by auto. lia.
      * split; [exact V2|]. intros H. exfalso. apply Vv, VT, Vs0. auto.
Qed.

Lemma concat_snoc : forall A (l : list (list A)) c, concat (l ++ [c]) = concat l ++ c.
Proof. intros. rewrite concat_app. simpl. rewrite app_nil_r. auto. Qed.

Lemma nth_error_snoc : forall A (l : list A) c i x, nth_error (l ++ [c]) i = Some x -> nth_error l i = Some x \/ (i = length l /\ x = c).
Proof.
  intros A l c i x H. destruct (Nat.lt_ge_cases i (length l)); [rewrite nth_error_app1 in H; auto|]. right. rewrite nth_error_app2 in H by lia.
  pose proof (range_of _ _ _ _ H). simpl in H1. assert (i = length l) by lia. subst. rewrite Nat.sub_diag in H. inversion H. auto.
Qed.

Lemma finished_reach : forall gray t u v, inv gray t -> finished t u -> reach g u v -> finished t v.
Proof. intros gray t u v I F R. induction R; auto. eapply (v_done _ _ I); eauto. Qed.

Lemma strong_connect_ok : forall m, connects (strong_connect m g) m.
Proof.
  induction m as [|m IH]; intros gray t x I Vx Lx HG Hw; pose proof (v_len _ _ I) as (L1 & L2 & L3).
  { assert (E : nth_error (t_indices t) x = Some None).
    { rewrite (nth_some _ _ _ None) by lia. f_equal. unfold visited, num in Vx. destruct (nth x (t_indices t) None); auto. exfalso. apply Vx. discriminate. }
    pose proof (whites_upd _ _ 0 E). lia. }
  assert (Ex : num t x = None) by (unfold visited in Vx; destruct (num t x); auto; exfalso; apply Vx; discriminate).
  assert (NS : ~ In x (t_stack t) /\ ~ finished t x) by (split; intros H; apply Vx, (v_visited _ _ I); auto).
  cbn [strong_connect]. rewrite !wr_val by lia. cbn [bind t_index t_stack t_in_stack t_indices t_low_link t_sccs].
  destruct (in_range _ g x Lx) as (ss & Hss). rewrite (rd_val _ _ _ _ Hss). cbn [bind].
  set (k0 := t_index t). set (s0 := t_stack t).
  set (t0 := mkTarjan (S k0) (x :: s0) (upd (t_in_stack t) x true) (upd (t_indices t) x (Some k0)) (upd (t_low_link t) x k0) (t_sccs t)).
  assert (N0 : forall v, num t0 v = if x =? v then Some k0 else num t v).
  { intros v. unfold num, t0. simpl. rewrite nth_upd. destruct (Nat.eqb_spec x v); auto. destruct (Nat.ltb_spec x (length (t_indices t))); auto; lia. }
  assert (NX : num t0 x = Some k0) by (rewrite N0, Nat.eqb_refl; auto).
  assert (NO : forall v, v <> x -> num t0 v = num t v) by (intros v H; rewrite N0; destruct (Nat.eqb_spec x v); congruence).
  assert (MX : nm t0 x = k0) by (unfold nm; rewrite NX; auto).
  assert (MO : forall v, v <> x -> nm t0 v = nm t v) by (intros v H; unfold nm; rewrite NO; auto).
  assert (SX : forall v, In v s0 -> v <> x) by (intros v Hv ->; tauto).
  assert (VO : forall v, visited t v -> v <> x) by (intros v Hv ->; tauto).
  assert (VV : forall v, visited t0 v <-> v = x \/ visited t v).
  { intros v. unfold visited at 1. destruct (Nat.eq_dec v x) as [->|H]; [rewrite NX; split; auto; discriminate|]. rewrite NO by auto. unfold visited. tauto. }
  assert (I0 : inv (x :: gray) t0).
  { constructor.
    - unfold t0. simpl. rewrite !upd_length. auto.
    - intros v. unfold t0. simpl. rewrite nth_upd. destruct (Nat.eqb_spec x v).
      + subst. destruct (Nat.ltb_spec v (length (t_in_stack t))); [tauto|lia].
      + rewrite (v_instack _ _ I v). tauto.
    - intros v Hv. unfold finished, t0 in Hv. simpl in Hv. destruct Hv as [[<-|Hv]|Hv]; auto; apply (v_range _ _ I); auto.
    - intros v. rewrite VV, (v_visited _ _ I v). unfold finished, t0. simpl. intuition.
    - unfold t0. simpl. constructor; [|apply (v_nodup _ _ I)]. rewrite in_app_iff. tauto.
    - intros v [<-|Hv]; [rewrite MX; unfold t0; simpl; lia|]. rewrite MO by auto. pose proof (v_bound _ _ I v Hv). unfold t0. simpl. lia.
    - unfold t0. simpl. constructor.
      + assert (H : forall l, (forall v, In v l -> v <> x) -> StronglySorted (fun a b => nm t b < nm t a) l -> StronglySorted (fun a b => nm t0 b < nm t0 a) l).
        { induction l; intros Q1 Q2; constructor; inversion Q2; subst; [apply IHl; auto; intros v Hv; apply Q1; simpl; auto|].
          rewrite Forall_forall in *. intros b Hb. rewrite !MO by (apply Q1; simpl; auto). auto. }
        apply H; auto. apply (v_sorted _ _ I).
      + apply Forall_forall. intros v Hv. change (nm t0 v < nm t0 x). rewrite MX, MO by auto. apply (v_bound _ _ I). auto.
    - intros y [<-|Hy]; simpl; auto. right. apply (v_gray _ _ I). auto.
    - intros y z [<-|Hy] [<-|Hz] Hle; [apply reach_here| |apply HG; auto|].
      + rewrite MX, MO in Hle by auto. pose proof (v_bound _ _ I z Hz). fold k0 in H. lia.
      + rewrite !MO in Hle; auto; [|apply SX, (v_gray _ _ I); auto]. apply (v_down _ _ I); auto.
    - intros z [<-|Hz]; [exists x; simpl; split; auto; split; auto; apply reach_here|]. destruct (v_up _ _ I z Hz) as (y & Y1 & Y2 & Y3).
      exists y. simpl. split; auto. rewrite !MO; auto. apply SX, (v_gray _ _ I); auto.
    - intros u v Hu NG E. apply VV. right. apply VV in Hu. destruct Hu as [->|Hu]; [simpl in NG; tauto|]. simpl in NG. apply (v_black _ _ I u); auto.
    - exact (v_done _ _ I).
    - exact (v_sccs _ _ I).
    - exact (v_order _ _ I). }
  assert (Lo0 : low t0 x = k0) by (unfold low, t0; simpl; rewrite nth_upd, Nat.eqb_refl; destruct (Nat.ltb_spec x (length (t_low_link t))); auto; lia).
  destruct (explore_ok (strong_connect m g) m gray x s0 t0 IH) with (neighbors := ss) (seen := @nil nat) (t := t0) (s1 := @nil nat) as (t1 & s1 & R & L).
  { apply VV. auto. } { tauto. } { intros v Hv. apply VV. right. apply (v_visited _ _ I). auto. }
  { constructor; auto; try lia.
    - exists []. rewrite app_nil_r. auto.
    - intros y Hy. split; auto. apply (v_gray _ _ I). auto.
    - exists x. simpl. split; auto. split; [congruence|apply reach_here].
    - intros y z [].
    - intros v []. }
  { intros v Hv. exists ss. auto. }
  { unfold t0. simpl. assert (E : nth_error (t_indices t) x = Some None) by (rewrite (nth_some _ _ _ None) by lia; f_equal; exact Ex). pose proof (whites_upd _ _ k0 E). lia. }
  rewrite R. cbn [bind]. simpl in L. destruct L as [I1 S N Lo X C G (y0 & Y1 & Y2 & Y3) LE B SE].
  pose proof (v_len _ _ I1) as (M1 & M2 & M3).
  assert (NX1 : num t1 x = Some k0) by (rewrite N; auto; apply VV; auto).
  assert (MX1 : nm t1 x = k0) by (unfold nm; rewrite NX1; auto).
  rewrite (rd_val _ _ _ (low t1 x)) by (apply nth_some; lia). cbn [bind].
  rewrite (rd_val _ _ _ (num t1 x)) by (apply nth_some; lia). cbn [bind]. rewrite NX1.
  pose proof (v_sorted _ _ I1) as SO. rewrite S in SO. destruct (sorted_split _ _ _ _ SO) as [SO1 SO2]. clear SO.
  pose proof (v_nodup _ _ I1) as ND. rewrite S, <- app_assoc in ND. simpl in ND.
  assert (Sin : forall z, In z (t_stack t1) <-> In z (s1 ++ [x]) \/ In z s0) by (intros z; rewrite S, !in_app_iff; simpl; intuition).
  assert (D1 : forall z, In z (s1 ++ [x]) -> ~ In z s0 /\ ~ finished t1 z).
  { intros z Hz. replace (s1 ++ x :: s0 ++ concat (t_sccs t1)) with ((s1 ++ [x]) ++ s0 ++ concat (t_sccs t1)) in ND by (rewrite <- app_assoc; auto).
    apply in_split in Hz. destruct Hz as (a & b & EQ). rewrite EQ in ND. rewrite <- app_assoc in ND. simpl in ND. apply NoDup_remove_2 in ND. rewrite !in_app_iff in ND. unfold finished. tauto. }
  assert (D2 : ~ In x s1) by (apply NoDup_remove_2 in ND; rewrite !in_app_iff in ND; tauto).
  assert (ED : forall v, edge g x v -> In v ss) by (intros v (ss' & Q1 & Q2); congruence).
  assert (VS : forall v, visited t v -> visited t0 v /\ num t1 v = num t v /\ low t1 v = low t v).
  { intros v Hv. assert (V0 : visited t0 v) by (apply VV; auto). split; auto. split; [rewrite N by auto; apply NO; auto|].
    rewrite Lo by auto. unfold low, t0. simpl. rewrite nth_upd. destruct (Nat.eqb_spec x v); auto. exfalso. eapply VO; eauto. }
  assert (NMt : forall v, In v s0 -> nm t1 v = nm t v) by (intros v Hv; unfold nm; rewrite (proj1 (proj2 (VS v (proj2 (v_visited _ _ I v) (or_introl Hv))))); auto).
  assert (VX1 : visited t1 x) by (unfold visited; congruence).
  assert (BX : forall y z, In y (s1 ++ [x]) -> In z s0 -> edge g y z -> low t1 x <= nm t1 z).
  { intros y z Hy Hz E. apply in_app_or in Hy. destruct Hy as [Hy|[<-|[]]]; [eapply B; eauto|]. apply SE; auto. }
  destruct (Nat.eqb_spec (low t1 x) k0) as [Q|Q].
  - (* x is the root of a component *)
    assert (PL : forall v, In v (s1 ++ [x]) -> v < length (t_in_stack t1)) by (intros v Hv; rewrite M1; apply (v_range _ _ I1); left; apply Sin; auto).
    destruct (pop_ok s1 x s0 (t_in_stack t1) [] D2 PL) as (st & PE & PL' & PH). rewrite S, PE. cbn [bind]. simpl app.
    set (t2 := mkTarjan (t_index t1) s0 st (t_indices t1) (t_low_link t1) (t_sccs t1 ++ [s1 ++ [x]])).
    assert (F1 : forall y z, In y (s1 ++ [x]) -> edge g y z -> In z (s1 ++ [x]) \/ finished t1 z).
    { intros y z Hy E. assert (Vz : visited t1 z).
      { destruct (Nat.eq_dec y x) as [->|NE]; [apply SE; auto|]. apply (v_black _ _ I1 y); auto.
        - apply (v_visited _ _ I1). left. apply Sin. auto.
        - intros [H|H]; [congruence|]. apply (proj1 (D1 y Hy)). apply G. auto. }
      apply (v_visited _ _ I1) in Vz. destruct Vz as [Vz|Vz]; auto. apply Sin in Vz. destruct Vz as [Vz|Vz]; auto. specialize (BX y z Hy Vz E). specialize (SO2 z Vz). lia. }
    assert (F2 : forall y z, In y (s1 ++ [x]) -> reach g y z -> In z (s1 ++ [x]) \/ finished t1 z).
    { intros y z Hy HR. induction HR; auto. destruct IHHR as [H1|H1]; [eapply F1; eauto|right; eapply (v_done _ _ I1); eauto]. }
    assert (F3 : forall y, In y (s1 ++ [x]) -> reach g y x).
    { intros y Hy. destruct (v_up _ _ I1 y) as (w & W1 & W2 & W3); [apply Sin; auto|]. destruct W1 as [<-|W1]; auto.
      destruct (G w W1) as [W4 _]. destruct (F2 y w Hy W3) as [H|H]; exfalso; [apply (proj1 (D1 w H)); auto|].
      assert (~ (In w s0 /\ finished t1 w)); [|tauto]. intros _. apply NoDup_app_remove_l in ND. simpl in ND. apply NoDup_cons_iff in ND. destruct ND as [_ ND].
      apply in_split in W4. destruct W4 as (a & b & EQ). rewrite EQ, <- app_assoc in ND. simpl in ND. apply NoDup_remove_2 in ND. rewrite !in_app_iff in ND. unfold finished in H. tauto. }
    assert (F4 : forall y, In y (s1 ++ [x]) -> reach g x y).
    { intros y Hy. apply (v_down _ _ I1); simpl; auto; [apply Sin; auto|]. apply in_app_or in Hy. destruct Hy as [Hy|[<-|[]]]; auto. specialize (SO1 y Hy). lia. }
    assert (FF : forall v, finished t2 v <-> finished t1 v \/ In v (s1 ++ [x])) by (intros v; unfold finished, t2; simpl; rewrite concat_snoc, in_app_iff; tauto).
    assert (FV : forall v, visited t2 v <-> visited t1 v) by (intros; unfold visited, num, t2; simpl; tauto).
    assert (FN : forall v, nm t2 v = nm t1 v) by reflexivity.
    exists t2, []. split; [reflexivity|]. split; [|split; [|split; [|split; [|split]]]].
    + constructor.
      * unfold t2. simpl. lia.
      * intros v. change (nth v st false = true <-> In v s0). rewrite PH, (v_instack _ _ I1 v), Sin. split; [tauto|]. intros Hv. split; auto. intros H. apply (proj1 (D1 v H)). auto.
      * intros v [Hv|Hv]; [apply (v_range _ _ I1); left; apply Sin; auto|]. apply FF in Hv. apply (v_range _ _ I1). destruct Hv as [Hv|Hv]; auto. left. apply Sin. auto.
      * intros v. rewrite FV, (v_visited _ _ I1 v), FF. change (t_stack t2) with s0. rewrite Sin. tauto.
      * unfold t2. simpl. rewrite concat_snoc. apply (Permutation_NoDup (l := s1 ++ x :: s0 ++ concat (t_sccs t1))); [|exact ND].
        change (s1 ++ x :: s0 ++ concat (t_sccs t1)) with (s1 ++ [x] ++ s0 ++ concat (t_sccs t1)). rewrite app_assoc. rewrite (app_assoc s0). apply Permutation_app_comm.
      * intros v Hv. rewrite FN. apply (v_bound _ _ I1), Sin. auto.
      * pose proof (v_sorted _ _ I1) as SO. rewrite S in SO. change (StronglySorted (fun a b => nm t1 b < nm t1 a) s0).
        clear - SO. induction s1; simpl in SO; inversion SO; auto.
      * intros y Hy. apply G. auto.
      * intros y z Hy Hz Hle. apply (v_down _ _ I1); simpl; auto. apply Sin. auto.
      * intros z Hz. destruct (v_up _ _ I1 z) as (y & Z1 & Z2 & Z3); [apply Sin; auto|]. exists y. split; auto. destruct Z1 as [<-|Z1]; auto. specialize (SO2 z Hz). lia.
      * intros u v Hu NG E. apply FV. apply FV in Hu. destruct (Nat.eq_dec u x) as [->|NE]; [apply SE; auto|]. apply (v_black _ _ I1 u); auto. simpl. intuition.
      * intros u v Hu E. apply FF. apply FF in Hu. destruct Hu as [Hu|Hu]; [left; eapply (v_done _ _ I1); eauto|]. destruct (F1 u v Hu E); auto.
      * intros c Hc. unfold t2 in Hc. simpl in Hc. apply in_app_or in Hc. destruct Hc as [Hc|[<-|[]]]; [apply (v_sccs _ _ I1); auto|].
        split; [destruct s1; discriminate|]. intros u v Hu. split.
        -- intros [H1 H2]. destruct (F2 u v Hu H1) as [H|H]; auto. exfalso. apply (proj2 (D1 u Hu)). eapply finished_reach; eauto.
        -- intros Hv. split; eapply reach_trans; eauto.
      * intros i j c d u v Hi Hj Hu Hv E. unfold t2 in Hi, Hj. simpl in Hi, Hj. apply nth_error_snoc in Hi, Hj. destruct Hj as [Hj|[-> ->]].
        -- destruct Hi as [Hi|[-> ->]]; [eapply (v_order _ _ I1); eauto|]. apply range_of in Hj. lia.
        -- destruct Hi as [Hi|[-> ->]]; auto. exfalso. apply (proj2 (D1 v Hv)). apply (v_done _ _ I1 u); auto. unfold finished. apply in_concat. exists c. split; auto. eapply nth_error_In; eauto.
    + constructor.
      * reflexivity.
      * intros v Hv. apply VS. auto.
      * intros v Hv. apply VS. auto.
      * unfold t2. simpl. unfold t0, k0 in X. simpl in X. lia.
      * unfold t2. simpl. destruct C as (c & C). rewrite C. simpl. exists (c ++ [s1 ++ [x]]). rewrite app_assoc. auto.
    + apply FV. auto.
    + intros _. change (low t2 x) with (low t1 x). fold k0. lia.
    + congruence.
    + intros y z [].
  - (* x stays on the stack *)
    assert (LT : low t1 x < nm t1 x) by lia.
    assert (Y0 : In y0 s0) by (destruct Y1 as [<-|Y1]; auto; lia).
    exists t1, (s1 ++ [x]). split; [reflexivity|]. split; [|split; [|split; [|split; [|split]]]].
    + destruct I1. constructor; auto.
      * intros y Hy. apply v_gray0. simpl. auto.
      * intros y z Hy. apply v_down0. simpl. auto.
      * intros z Hz. destruct (v_up0 z Hz) as (y & Z1 & Z2 & Z3). destruct Z1 as [<-|Z1]; [|exists y; auto].
        destruct (v_up0 y0) as (w & W1 & W2 & W3); [apply Sin; auto|]. destruct W1 as [<-|W1]; [lia|].
        exists w. split; auto. split; [lia|]. eapply reach_trans; [exact Z3|]. eapply reach_trans; eauto.
      * intros u v Hu NG E. destruct (Nat.eq_dec u x) as [->|NE]; [apply SE; auto|]. apply (v_black0 u); auto. simpl. intuition.
    + constructor.
      * rewrite S, <- app_assoc. auto.
      * intros v Hv. apply VS. auto.
      * intros v Hv. apply VS. auto.
      * unfold t0, k0 in X. simpl in X. lia.
      * exact C.
    + auto.
    + intros H. destruct s1; discriminate.
    + intros _. exists y0. rewrite <- NMt by auto. auto.
    + intros y z Hy Hz E. rewrite <- NMt by auto. eapply BX; eauto.
Qed.

Lemma connect_all_ok : forall nodes t, inv [] t -> (forall v, In v nodes -> v < n) ->
  exists t', connect_all g nodes t = Val t' /\ inv [] t' /\ (forall v, visited t v -> visited t' v) /\ forall v, In v nodes -> visited t' v.
Proof.
  induction nodes as [|x ns IH]; intros t I H; cbn [connect_all].
  { exists t. split; auto. split; auto. split; auto. intros v []. }
  pose proof (v_len _ _ I) as (L1 & L2 & L3). assert (Lx : x < n) by (apply H; simpl; auto).
  rewrite (rd_val _ _ _ (num t x)) by (apply nth_some; lia). cbn [bind]. destruct (num t x) as [k|] eqn:E.
  - destruct (IH t I) as (t' & -> & I' & V1 & V2); [intros; apply H; simpl; auto|]. exists t'. split; auto. split; auto. split; auto.
    intros v [<-|Hv]; auto. apply V1. unfold visited. congruence.
  - destruct (strong_connect_ok n [] t x I) as (t1 & s1 & -> & I1 & E1 & V & _); auto.
    + intros y [].
    + assert (G : forall l : list (option nat), whites l <= length l) by (induction l as [|[?|] l IHl]; simpl; lia). rewrite <- L2. apply G.
    + cbn [bind]. destruct (IH t1 I1) as (t' & -> & I' & V1 & V2); [intros; apply H; simpl; auto|]. exists t'. split; auto. split; auto.
      split; [intros v Hv; apply V1; eapply ext_visited; eauto|]. intros v [<-|Hv]; auto.
Qed.

Lemma scc_ok : exists sccs, find_strongly_connected_components g = Val sccs /\
  NoDup (concat sccs) /\ (forall v, In v (concat sccs) <-> v < n) /\ (forall c, In c sccs -> c <> []) /\
  (forall c u v, In c sccs -> In u c -> (connected g u v <-> In v c)) /\
  (forall i j c d u v, nth_error sccs i = Some c -> nth_error sccs j = Some d -> In u c -> In v d -> edge g u v -> j <= i).
Proof.
  unfold find_strongly_connected_components.
  set (t := mkTarjan 0 [] (repeat false n) (repeat None n) (repeat 0 n) []).
  assert (NV : forall v, ~ visited t v) by (intros v; unfold visited, num, t; simpl; rewrite nth_repeat_any; auto).
  assert (I : inv [] t).
  { constructor; try (intros; simpl in *; tauto).
    - unfold t. simpl. rewrite !repeat_length. auto.
    - intros v. unfold t. simpl. rewrite nth_repeat_any. intuition discriminate.
    - intros v [[]|[]].
    - intros v. change (visited t v <-> False \/ False). specialize (NV v). tauto.
    - constructor.
    - constructor.
    - intros u v Hu. apply NV in Hu. tauto.
    - intros i j c d u v Hi. destruct i; discriminate. }
  destruct (connect_all_ok (seq 0 n) t I) as (t' & -> & I' & _ & V); [intros v Hv; apply in_seq in Hv; lia|]. cbn [bind]. exists (t_sccs t'). split; auto.
  assert (SE : t_stack t' = []).
  { destruct (t_stack t') as [|x s] eqn:E; auto. destruct (v_up _ _ I' x) as (y & [] & _). rewrite E. simpl. auto. }
  pose proof (v_nodup _ _ I') as ND. rewrite SE in ND. split; auto. split; [|split; [|split]].
  - intros v. split; [intros H; apply (v_range _ _ I'); right; auto|]. intros H. specialize (V v ltac:(apply in_seq; lia)). apply (v_visited _ _ I') in V. rewrite SE in V. destruct V as [[]|V]; auto.
  - intros c Hc. apply (v_sccs _ _ I' c Hc).
  - intros c u v Hc. apply (v_sccs _ _ I' c Hc).
  - exact (v_order _ _ I').
Qed.
End Tarjan.
