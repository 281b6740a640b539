From Coq Require Import List Bool Arith Lia Permutation.
From Verif Require Import ListUtil GraphModel GraphSpec GraphProofs SccProofs.
Import ListNotations.

(** ** Sums over nodes *)
Definition sumf (f : nat -> nat) (l : list nat) : nat := fold_right (fun p s => f p + s) 0 l.
Lemma sumf_cons : forall f x l, sumf f (x :: l) = f x + sumf f l.
Proof. reflexivity. Qed.
Lemma sumf_app : forall f a b, sumf f (a ++ b) = sumf f a + sumf f b.
Proof. induction a; intros; simpl; auto. rewrite IHa. lia. Qed.
Lemma sumf_perm : forall f a b, Permutation a b -> sumf f a = sumf f b.
Proof. intros f a b H. induction H; simpl; lia. Qed.
Lemma sumf_incl : forall f l m, NoDup l -> incl l m -> sumf f l <= sumf f m.
Proof.
  induction l as [|x l IH]; intros m N I; simpl; [lia|]. inversion N; subst. assert (In x m) by (apply I; simpl; auto).
  apply in_split in H. destruct H as (a & b & ->). assert (incl l (a ++ b)).
  { intros y Hy. assert (In y (a ++ x :: b)) by (apply I; simpl; auto). rewrite in_app_iff in *. simpl in H. destruct H as [H|[->|H]]; auto. tauto. }
  specialize (IH _ H2 H). rewrite sumf_app in *. simpl. lia.
Qed.
Lemma sumf_ext : forall f h l, (forall x, In x l -> f x = h x) -> sumf f l = sumf h l.
Proof. induction l; intros H; simpl; auto. rewrite H, IHl; simpl; auto. intros; apply H; simpl; auto. Qed.
Lemma sumf_map : forall f h l, sumf f (map h l) = sumf (fun x => f (h x)) l.
Proof. induction l; simpl; auto. Qed.
Definition cnt (l : list nat) (j : nat) : nat := count_occ Nat.eq_dec l j.
Lemma cnt_app : forall a b j, cnt (a ++ b) j = cnt a j + cnt b j.
Proof. intros. apply count_occ_app. Qed.
Lemma cnt_concat : forall sg j, cnt (concat sg) j = sumf (fun p => cnt (nth p sg []) j) (seq 0 (length sg)).
Proof.
  induction sg as [|s sg IH]; intros j; auto. simpl concat. rewrite cnt_app, IH. change (seq 0 (length (s :: sg))) with (0 :: seq 1 (length sg)).
  rewrite <- seq_shift. set (F := fun p => cnt (nth p (s :: sg) []) j). change (sumf F (0 :: map S (seq 0 (length sg)))) with (cnt s j + sumf F (map S (seq 0 (length sg)))).
  rewrite sumf_map. reflexivity.
Qed.
Lemma cnt_upd : forall sg i s j k, nth_error sg i = Some s -> cnt (concat (upd sg i (s ++ [j]))) k = cnt (concat sg) k + (if Nat.eq_dec j k then 1 else 0).
Proof.
  induction sg as [|a sg IH]; intros [|i] s j k H; simpl in *; try discriminate.
  - inversion H; subst. rewrite !cnt_app. unfold cnt at 2. simpl. destruct (Nat.eq_dec j k); lia.
  - rewrite !cnt_app, (IH _ _ _ _ H). lia.
Qed.

Section Topo.
Variable g : graph.
Hypothesis W : well_formed g.
Variable sccs : list (list nat).
Hypothesis Nodes : forall v, In v (concat sccs) -> v < length g.
Hypothesis Disjoint : NoDup (concat sccs).
Notation k := (length sccs).

(** ** Numbering *)
Lemma number_nodes_ok : forall i scc m, (forall v, In v scc -> v < length m) -> exists m', number_nodes i scc m = Val m' /\ length m' = length m /\
  forall v, (In v scc -> nth v m' None = Some i) /\ (~ In v scc -> nth v m' None = nth v m None).
Proof.
  induction scc as [|x scc IH]; intros m L; cbn [number_nodes].
  - exists m. split; auto. split; auto. intros v. split; [intros []|auto].
  - rewrite wr_val by (apply L; simpl; auto). cbn [bind]. destruct (IH (upd m x (Some i))) as (m' & E & L' & H); [intros v Hv; rewrite upd_length; apply L; simpl; auto|].
    exists m'. split; auto. rewrite upd_length in L'. split; auto. intros v. destruct (H v) as [H1 H2]. split.
    + intros Hv. destruct (in_dec Nat.eq_dec v scc); auto. destruct Hv as [<-|Hv]; [|tauto]. rewrite H2 by auto. rewrite nth_upd, Nat.eqb_refl.
      destruct (Nat.ltb_spec x (length m)); auto. specialize (L x ltac:(simpl; auto)). lia.
    + intros Hv. simpl in Hv. rewrite H2 by tauto. rewrite nth_upd. destruct (Nat.eqb_spec x v); auto. subst. tauto.
Qed.
Lemma number_sccs_ok : forall cs i m, (forall v, In v (concat cs) -> v < length m) -> NoDup (concat cs) ->
  exists m', number_sccs i cs m = Val m' /\ length m' = length m /\
  (forall v, ~ In v (concat cs) -> nth v m' None = nth v m None) /\
  forall j c v, nth_error cs j = Some c -> In v c -> nth v m' None = Some (i + j).
Proof.
  induction cs as [|c cs IH]; intros i m L N; cbn [number_sccs].
  - exists m. split; auto. split; auto. split; auto. intros [|j] c v H; discriminate.
  - simpl in L, N. destruct (number_nodes_ok i c m) as (m1 & -> & L1 & H1); [intros v Hv; apply L, in_app_iff; auto|]. cbn [bind].
    destruct (IH (S i) m1) as (m2 & E & L2 & H2 & H3); [intros v Hv; rewrite L1; apply L, in_app_iff; auto|eapply NoDup_app_remove_l; eauto|].
    exists m2. split; auto. split; [lia|]. split.
    + intros v Hv. simpl in Hv. rewrite in_app_iff in Hv. rewrite H2 by tauto. apply H1. tauto.
    + intros [|j] c' v Hc Hv; simpl in Hc.
      * inversion Hc; subst. rewrite Nat.add_0_r. rewrite H2; [apply H1; auto|]. intros H. apply in_split in Hv. destruct Hv as (a & b & ->). rewrite <- app_assoc in N. simpl in N. apply NoDup_remove_2 in N. rewrite !in_app_iff in N. tauto.
      * rewrite (H3 j c' v Hc Hv). f_equal. lia.
Qed.

Lemma in_component : forall v, In v (concat sccs) -> exists j c, nth_error sccs j = Some c /\ In v c.
Proof. intros v H. apply in_concat in H. destruct H as (c & H1 & H2). apply In_nth_error in H1. destruct H1 as (j & H1). eauto. Qed.

(** ** The condensed graph *)
Variable nts : list (option nat).
Hypothesis Lnts : length nts = length g.
Hypothesis Hin : forall j c v, nth_error sccs j = Some c -> In v c -> nth v nts None = Some j.
Hypothesis Hout : forall v, ~ In v (concat sccs) -> nth v nts None = None.

Definition link (i j : nat) : Prop := i <> j /\ exists c d u v, nth_error sccs i = Some c /\ nth_error sccs j = Some d /\ In u c /\ In v d /\ edge g u v.

Record cond (sg : list (list nat)) (deg : list nat) : Prop := {
  c_len : length sg = k /\ length deg = k;
  c_nodup : forall i, NoDup (nth i sg []);
  c_sound : forall i j, In j (nth i sg []) -> link i j;
  c_deg : forall j, nth j deg 0 = cnt (concat sg) j
}.
Definition sub (sg sg' : list (list nat)) : Prop := forall i j, In j (nth i sg []) -> In j (nth i sg' []).

Lemma link_range : forall i j, link i j -> i < k /\ j < k.
Proof. intros i j (_ & c & d & u & v & H1 & H2 & _). split; eapply range_of; eauto. Qed.

Lemma condense_edges_ok : forall i u c ns sg deg, nth_error sccs i = Some c -> In u c -> (forall v, In v ns -> edge g u v) -> cond sg deg ->
  exists sg' deg', condense_edges nts i ns sg deg = Val (sg', deg') /\ cond sg' deg' /\ sub sg sg' /\
    forall v j d, In v ns -> nth_error sccs j = Some d -> In v d -> i <> j -> In j (nth i sg' []).
Proof.
  intros i u c. induction ns as [|v ns IH]; intros sg deg Hc Hu HE C; cbn [condense_edges].
  - exists sg, deg. split; auto. split; auto. split; [intros ? ? ?; auto|]. intros v j d [].
  - assert (Ev : edge g u v) by (apply HE; simpl; auto). assert (Lv : v < length g) by (eapply W; eauto). assert (HE' : forall w, In w ns -> edge g u w) by (intros; apply HE; simpl; auto).
    assert (Li : i < k) by (eapply range_of; eauto). pose proof (c_len _ _ C) as [L1 L2].
    rewrite (rd_val _ _ _ (nth v nts None)) by (apply nth_some; lia). cbn [bind].
    destruct (in_dec Nat.eq_dec v (concat sccs)) as [I|I].
    2:{ rewrite (Hout v I). destruct (IH sg deg Hc Hu HE' C) as (sg' & deg' & E & C' & S & H). exists sg', deg'. split; auto. split; auto. split; auto.
        intros w j d [<-|Hw] Hd Hw'; [|eauto]. exfalso. apply I. apply in_concat. exists d. split; auto. eapply nth_error_In; eauto. }
    destruct (in_component v I) as (j & d & Hj & Hv). rewrite (Hin j d v Hj Hv). assert (Lj : j < k) by (eapply range_of; eauto).
    assert (U : forall j' d', nth_error sccs j' = Some d' -> In v d' -> j' = j) by (intros j' d' H1 H2; pose proof (Hin j' d' v H1 H2); pose proof (Hin j d v Hj Hv); congruence).
    destruct (Nat.eqb_spec i j) as [EQ|NE]; cbn [negb].
    + destruct (IH sg deg Hc Hu HE' C) as (sg' & deg' & E & C' & S & H). exists sg', deg'. split; auto. split; auto. split; auto.
      intros w j' d' [<-|Hw] Hd Hw' N; [|eauto]. rewrite (U j' d' Hd Hw') in N. congruence.
    + assert (LK : link i j) by (split; auto; exists c, d, u, v; auto).
      rewrite (rd_val _ _ _ (nth i sg [])) by (apply nth_some; lia). cbn [bind]. destruct (existsb (Nat.eqb j) (nth i sg [])) eqn:EX.
      * destruct (IH sg deg Hc Hu HE' C) as (sg' & deg' & E & C' & S & H). exists sg', deg'. split; auto. split; auto. split; auto.
        intros w j' d' [<-|Hw] Hd Hw' N; [|eauto]. rewrite (U j' d' Hd Hw'). apply S. apply existsb_exists in EX. destruct EX as (x & X1 & X2). apply Nat.eqb_eq in X2. subst. auto.
      * rewrite wr_val by lia. cbn [bind]. rewrite (rd_val _ _ _ (nth j deg 0)) by (apply nth_some; lia). cbn [bind]. rewrite wr_val by lia. cbn [bind].
        assert (NJ : ~ In j (nth i sg [])).
        { intros H. assert (existsb (Nat.eqb j) (nth i sg []) = true) by (apply existsb_exists; exists j; split; auto; apply Nat.eqb_refl). congruence. }
        assert (NT : forall i', nth i' (upd sg i (nth i sg [] ++ [j])) [] = if i =? i' then nth i sg [] ++ [j] else nth i' sg []).
        { intros i'. rewrite nth_upd. destruct (Nat.eqb_spec i i'); auto. destruct (Nat.ltb_spec i (length sg)); auto; lia. }
        destruct (IH (upd sg i (nth i sg [] ++ [j])) (upd deg j (S (nth j deg 0))) Hc Hu HE') as (sg' & deg' & E & C' & S & H).
        { constructor.
          - rewrite !upd_length. auto.
          - intros i'. rewrite NT. destruct (Nat.eqb_spec i i'); [|apply (c_nodup _ _ C)]. apply (Permutation_NoDup (l := j :: nth i sg [])); [apply Permutation_cons_append|]. constructor; auto. apply (c_nodup _ _ C).
          - intros i' j'. rewrite NT. destruct (Nat.eqb_spec i i'); [|apply (c_sound _ _ C)]. subst. intros Hj'. apply in_app_or in Hj'. destruct Hj' as [Hj'|[<-|[]]]; auto. apply (c_sound _ _ C). auto.
          - intros j'. rewrite nth_upd. rewrite (cnt_upd sg i (nth i sg []) j j') by (apply nth_some; lia). rewrite <- (c_deg _ _ C). destruct (Nat.eqb_spec j j') as [EJ|NJ'].
            + subst. destruct (Nat.ltb_spec j' (length deg)); [|lia]. destruct (Nat.eq_dec j' j'); [lia|congruence].
            + destruct (Nat.eq_dec j j'); [congruence|lia]. }
        assert (SB : sub sg (upd sg i (nth i sg [] ++ [j]))).
        { intros i' j' Hj'. rewrite NT. destruct (Nat.eqb_spec i i'); auto. subst. apply in_app_iff. auto. }
        exists sg', deg'. split; auto. split; auto. split; [intros i' j' Hj'; apply S, SB; auto|].
        intros w j' d' [<-|Hw] Hd Hw' N; [|eauto]. rewrite (U j' d' Hd Hw'). apply S. rewrite NT, Nat.eqb_refl. apply in_app_iff. simpl. auto.
Qed.

Lemma condense_nodes_ok : forall i c, nth_error sccs i = Some c -> forall us sg deg, (forall u, In u us -> In u c) -> cond sg deg ->
  exists sg' deg', condense_nodes g nts i us sg deg = Val (sg', deg') /\ cond sg' deg' /\ sub sg sg' /\
    forall u v j d, In u us -> edge g u v -> nth_error sccs j = Some d -> In v d -> i <> j -> In j (nth i sg' []).
Proof.
  intros i c Hc. induction us as [|u us IH]; intros sg deg HU C; cbn [condense_nodes].
  - exists sg, deg. split; auto. split; auto. split; [intros ? ? ?; auto|]. intros u v j d [].
  - assert (Hu : In u c) by (apply HU; simpl; auto). assert (Lu : u < length g) by (apply Nodes, in_concat; exists c; split; auto; eapply nth_error_In; eauto).
    destruct (in_range _ g u Lu) as (ss & Hs). rewrite (rd_val _ _ _ _ Hs). cbn [bind].
    destruct (condense_edges_ok i u c ss sg deg Hc Hu) as (sg1 & deg1 & -> & C1 & S1 & H1); auto; [intros v Hv; exists ss; auto|]. cbn [bind].
    destruct (IH sg1 deg1) as (sg2 & deg2 & E & C2 & S2 & H2); auto; [intros; apply HU; simpl; auto|].
    exists sg2, deg2. split; auto. split; auto. split; [intros i' j' H; apply S2, S1; auto|].
    intros w v j d [<-|Hw] HE Hd Hv N; [|eauto]. apply S2. apply (H1 v j d); auto. destruct HE as (ss' & Q1 & Q2). congruence.
Qed.

Lemma condense_ok : forall cs i sg deg, (forall j c, nth_error cs j = Some c -> nth_error sccs (i + j) = Some c) -> cond sg deg ->
  exists sg' deg', condense g nts i cs sg deg = Val (sg', deg') /\ cond sg' deg' /\ sub sg sg' /\
    forall p c u v j d, nth_error cs p = Some c -> In u c -> edge g u v -> nth_error sccs j = Some d -> In v d -> i + p <> j -> In j (nth (i + p) sg' []).
Proof.
  induction cs as [|c cs IH]; intros i sg deg HC C; cbn [condense].
  - exists sg, deg. split; auto. split; auto. split; [intros ? ? ?; auto|]. intros [|p] c u v j d H; discriminate.
  - assert (Hc : nth_error sccs i = Some c) by (rewrite <- (Nat.add_0_r i); apply HC; auto).
    destruct (condense_nodes_ok i c Hc c sg deg) as (sg1 & deg1 & -> & C1 & S1 & H1); auto. cbn [bind].
    destruct (IH (S i) sg1 deg1) as (sg2 & deg2 & E & C2 & S2 & H2); auto.
    { intros j c' Hj. replace (S i + j) with (i + S j) by lia. apply HC. auto. }
    exists sg2, deg2. split; auto. split; auto. split; [intros i' j' H; apply S2, S1; auto|].
    intros [|p] c' u v j d Hp Hu HE Hd Hv N; simpl in Hp.
    + inversion Hp; subst. rewrite Nat.add_0_r in *. apply S2. eapply H1; eauto.
    + replace (i + S p) with (S i + p) in * by lia. eapply H2; eauto.
Qed.

End Topo.

(** ** Kahn's algorithm *)
Section Kahn.
Variable g : graph.
Variable sccs : list (list nat).
Notation k := (length sccs).
Notation link := (link g sccs).
Variable order : list nat -> list nat.
Hypothesis Order : forall l, Permutation l (order l).

Lemma initial_queue_in : forall deg i x, In x (initial_queue i deg) <-> i <= x /\ x < i + length deg /\ nth (x - i) deg 0 = 0.
Proof.
  induction deg as [|d deg IH]; intros i x; cbn [initial_queue length].
  - simpl. lia.
  - assert (T : In x (initial_queue (S i) deg) <-> i < x /\ x < i + S (length deg) /\ nth (x - i) (d :: deg) 0 = 0).
    { rewrite IH. destruct (Nat.le_gt_cases x i); [lia|]. replace (x - i) with (S (x - S i)) by lia. simpl. lia. }
    destruct (Nat.eqb_spec d 0); simpl In; rewrite T; (destruct (Nat.eq_dec x i) as [->|NE]; [rewrite Nat.sub_diag; simpl; lia|lia]).
Qed.
Lemma initial_queue_nodup : forall deg i, NoDup (initial_queue i deg).
Proof.
  induction deg as [|d deg IH]; intros i; cbn [initial_queue]; [constructor|]. destruct (d =? 0); auto. constructor; auto. rewrite initial_queue_in. lia.
Qed.

Lemma release_ok : forall ns deg q, NoDup ns -> (forall x, In x ns -> x < length deg /\ 0 < nth x deg 0) ->
  exists deg' fresh, release ns deg q = Val (deg', q ++ fresh) /\ length deg' = length deg /\ NoDup fresh /\
    (forall x, nth x deg' 0 = nth x deg 0 - cnt ns x) /\ forall x, In x fresh <-> In x ns /\ nth x deg 0 = 1.
Proof.
  induction ns as [|y ns IH]; intros deg q N H; cbn [release].
  - exists deg, []. rewrite app_nil_r. split; auto. split; auto. split; [constructor|]. split; [intros; simpl; lia|]. simpl. tauto.
  - destruct (H y ltac:(simpl; auto)) as [Ly Py]. rewrite (rd_val _ _ _ (nth y deg 0)) by (apply nth_some; auto). cbn [bind].
    destruct (nth y deg 0) as [|d] eqn:Ed; [lia|]. rewrite wr_val by auto. cbn [bind]. inversion N; subst.
    assert (NT : forall x, nth x (upd deg y d) 0 = if y =? x then d else nth x deg 0).
    { intros x. rewrite nth_upd. destruct (Nat.eqb_spec y x); auto. destruct (Nat.ltb_spec y (length deg)); auto; lia. }
    destruct (IH (upd deg y d) (if d =? 0 then q ++ [y] else q) H3) as (deg' & fresh & E & L & NF & HD & HF).
    { intros x Hx. rewrite upd_length, NT. destruct (H x ltac:(simpl; auto)). destruct (Nat.eqb_spec y x); [subst; tauto|auto]. }
    exists deg', (if d =? 0 then y :: fresh else fresh). rewrite E. rewrite upd_length in L. split; [|split; [auto|split; [|split]]].
    + destruct (d =? 0); auto. rewrite <- app_assoc. auto.
    + destruct (d =? 0); auto. constructor; auto. rewrite HF. tauto.
    + intros x. rewrite HD, NT. unfold cnt. simpl. destruct (Nat.eqb_spec y x).
      * subst. destruct (Nat.eq_dec x x); [|congruence]. rewrite Ed. lia.
      * destruct (Nat.eq_dec y x); [congruence|]. auto.
    + intros x. assert (Q : In x fresh <-> In x ns /\ nth x deg 0 = 1).
      { rewrite HF, NT. destruct (Nat.eqb_spec y x); [subst; tauto|tauto]. }
      destruct (Nat.eqb_spec d 0); simpl In; rewrite Q; (destruct (Nat.eq_dec x y) as [->|]; [rewrite Ed; intuition lia|intuition congruence]).
Qed.

Variables (sg : list (list nat)).
Hypothesis Lsg : length sg = k.
Hypothesis NDsg : forall i, NoDup (nth i sg []).
Hypothesis LKsg : forall i j, In j (nth i sg []) -> link i j.
Hypothesis Rank : forall i j, link i j -> j < i.

Definition from (j : nat) (p : nat) : nat := cnt (nth p sg []) j.
Definition total (j : nat) : nat := sumf (from j) (seq 0 k).

Record kinv (P Q deg : list nat) : Prop := {
  k_len : length deg = k;
  k_nodup : NoDup (P ++ Q);
  k_range : forall x, In x (P ++ Q) -> x < k;
  k_deg : forall j, j < k -> nth j deg 0 + sumf (from j) P = total j;
  k_zero : forall j, j < k -> (nth j deg 0 = 0 <-> In j (P ++ Q));
  k_order : forall i j, In j (nth i sg []) -> In j P -> before P i j
}.

Lemma from_pos : forall i j, In j (nth i sg []) <-> 0 < from j i.
Proof. intros i j. unfold from, cnt. rewrite (count_occ_In Nat.eq_dec). lia. Qed.
Lemma from_le1 : forall i j, from j i <= 1.
Proof. intros i j. unfold from, cnt. apply (proj1 (NoDup_count_occ Nat.eq_dec _) (NDsg i)). Qed.
Lemma incl_nodes : forall P, (forall x, In x P -> x < k) -> incl P (seq 0 k).
Proof. intros P H x Hx. apply in_seq. specialize (H x Hx). lia. Qed.

(** A node with no degree left has all its predecessors in [P]. *)
Lemma preds_in : forall P Q deg i j, kinv P Q deg -> In j (nth i sg []) -> nth j deg 0 = 0 -> In i P.
Proof.
  intros P Q deg i j K H Z. destruct (link_range g sccs i j (LKsg i j H)) as [Li Lj]. pose proof (k_deg _ _ _ K j Lj) as D. rewrite Z in D. simpl in D.
  destruct (in_dec Nat.eq_dec i P); auto. exfalso. assert (LE : sumf (from j) (i :: P) <= sumf (from j) (seq 0 k)).
  { apply sumf_incl.
    - constructor; auto. eapply NoDup_app_remove_r. apply (k_nodup _ _ _ K).
    - intros x [<-|Hx]; [apply in_seq; lia|]. apply in_seq. pose proof (k_range _ _ _ K x ltac:(apply in_app_iff; auto)). lia. }
  simpl in LE. fold (sumf (from j) P) in LE. apply from_pos in H. unfold total in D. lia.
Qed.

Lemma kahn_step : forall P i Q deg, kinv P (i :: Q) deg -> exists deg' fresh, release (order (nth i sg [])) deg Q = Val (deg', Q ++ fresh) /\ kinv (P ++ [i]) (Q ++ fresh) deg'.
Proof.
  intros P i Q deg K. assert (Li : i < k) by (apply (k_range _ _ _ K), in_app_iff; simpl; auto).
  assert (NP : ~ In i P /\ ~ In i Q) by (pose proof (k_nodup _ _ _ K) as N; apply NoDup_remove_2 in N; rewrite in_app_iff in N; tauto).
  assert (PO : forall j, In j (order (nth i sg [])) <-> In j (nth i sg [])) by (intros j; split; apply Permutation_in; [apply Permutation_sym|]; apply Order).
  assert (CO : forall j, cnt (order (nth i sg [])) j = from j i) by (intros j; unfold from, cnt; symmetry; apply Permutation_count_occ; apply Order).
  assert (LEs : forall j, sumf (from j) P + from j i <= total j).
  { intros j. assert (LE : sumf (from j) (i :: P) <= total j); [|simpl in LE; fold (sumf (from j) P) in LE; lia]. apply sumf_incl.
    - constructor; [tauto|]. eapply NoDup_app_remove_r. apply (k_nodup _ _ _ K).
    - intros x [<-|Hx]; [apply in_seq; lia|]. apply in_seq. pose proof (k_range _ _ _ K x ltac:(apply in_app_iff; auto)). lia. }
  destruct (release_ok (order (nth i sg [])) deg Q) as (deg' & fresh & E & L & NF & HD & HF).
  - eapply Permutation_NoDup; [apply Order|apply NDsg].
  - intros j Hj. apply PO in Hj. destruct (link_range g sccs i j (LKsg i j Hj)) as [_ Lj]. split; [rewrite (k_len _ _ _ K); auto|].
    pose proof (k_deg _ _ _ K j Lj). specialize (LEs j). apply from_pos in Hj. lia.
  - exists deg', fresh. split; auto. pose proof (k_len _ _ _ K) as KL.
    assert (FP : forall x, In x fresh -> x < k /\ nth x deg 0 = 1 /\ In x (nth i sg [])).
    { intros x Hx. apply HF in Hx. destruct Hx as [H1 H2]. apply PO in H1. split; auto. apply (link_range g sccs i x (LKsg i x H1)). }
    constructor.
    + congruence.
    + rewrite <- app_assoc. simpl. replace (P ++ i :: Q ++ fresh) with ((P ++ i :: Q) ++ fresh) by (rewrite <- app_assoc; auto).
      assert (DJ : forall x, In x fresh -> ~ In x (P ++ i :: Q)).
      { intros x Hx Hin'. destruct (FP x Hx) as (F1 & F2 & _). apply (k_zero _ _ _ K x F1) in Hin'. lia. }
      clear - NF DJ K. pose proof (k_nodup _ _ _ K) as N. revert N DJ. generalize (P ++ i :: Q) as l. induction l as [|a l IHl]; intros N DJ; simpl; auto.
      inversion N; subst. constructor; [|apply IHl; auto; intros x Hx Hl; apply (DJ x Hx); simpl; auto]. rewrite in_app_iff. intros [H|H]; auto. apply (DJ a H). simpl. auto.
    + intros x Hx. rewrite <- app_assoc in Hx. simpl in Hx. rewrite in_app_iff in Hx. simpl in Hx. rewrite in_app_iff in Hx.
      destruct Hx as [Hx|[<-|[Hx|Hx]]]; auto; [| |apply FP; auto]; apply (k_range _ _ _ K), in_app_iff; simpl; auto.
    + intros j Lj. rewrite sumf_app, HD, CO. simpl. pose proof (k_deg _ _ _ K j Lj). specialize (LEs j). lia.
    + intros j Lj. rewrite HD, CO. pose proof (k_zero _ _ _ K j Lj) as Z. pose proof (k_deg _ _ _ K j Lj). specialize (LEs j). pose proof (from_le1 i j).
      rewrite <- app_assoc. simpl. rewrite in_app_iff in *. simpl in *. rewrite in_app_iff. split.
      * intros HZ. destruct (Nat.eq_dec (nth j deg 0) 0) as [Z0|Z0]; [apply Z in Z0; tauto|]. assert (In j fresh); [|tauto]. apply HF. split; [|lia]. apply PO, from_pos. lia.
      * intros HZ. assert (D : (In j P \/ i = j \/ In j Q) \/ In j fresh) by tauto. destruct D as [D|D]; [apply Z in D; lia|].
        apply FP in D. destruct D as (_ & D1 & D2). apply from_pos in D2. lia.
    + intros a j Ha Hj. apply in_app_or in Hj. destruct Hj as [Hj|[<-|[]]].
      * apply before_app_l. apply (k_order _ _ _ K); auto.
      * apply before_new. apply (preds_in P (i :: Q) deg a i K Ha). apply (k_zero _ _ _ K i Li). apply in_app_iff. simpl. auto.
Qed.

Lemma kahn_all : forall P deg, kinv P [] deg -> forall j, j < k -> In j P.
Proof.
  intros P deg K. assert (A : forall m j, k - j <= m -> j < k -> In j P).
  2:{ intros j Lj. apply (A k j); lia. }
  induction m as [|m IH]; intros j Hm Lj; [lia|]. destruct (in_dec Nat.eq_dec j P) as [|NI]; auto. exfalso.
  assert (Z : nth j deg 0 <> 0) by (intros Z; apply (k_zero _ _ _ K j Lj) in Z; rewrite app_nil_r in Z; tauto).
  pose proof (k_deg _ _ _ K j Lj) as D.
  assert (EX : exists i, i < k /\ ~ In i P /\ 0 < from j i).
  { destruct (Exists_dec (fun i => ~ In i P /\ 0 < from j i) (seq 0 k)) as [H|H].
    - intros i. destruct (in_dec Nat.eq_dec i P); [right; tauto|]. destruct (Nat.eq_dec (from j i) 0); [right; lia|left; split; auto; lia].
    - apply Exists_exists in H. destruct H as (i & H1 & H2 & H3). apply in_seq in H1. exists i. split; [lia|auto].
    - exfalso. assert (LE : total j <= sumf (from j) P); [|lia]. clear - H. unfold total.
      assert (G : forall l, NoDup l -> incl l (seq 0 k) -> sumf (from j) l <= sumf (from j) (filter (fun i => if in_dec Nat.eq_dec i P then true else false) l)).
      { induction l as [|x l IH]; intros N I; cbn [filter]; auto. inversion N; subst. specialize (IH H3 (fun y Hy => I y (or_intror Hy))). destruct (in_dec Nat.eq_dec x P).
        - rewrite !sumf_cons. lia.
        - rewrite sumf_cons. assert (from j x = 0); [|lia]. destruct (Nat.eq_dec (from j x) 0); auto. exfalso. apply H. apply Exists_exists. exists x. split; [apply I; simpl; auto|]. split; auto. lia. }
      eapply Nat.le_trans; [apply G; [apply seq_NoDup|apply incl_refl]|]. apply sumf_incl; [apply NoDup_filter, seq_NoDup|].
      intros x Hx. apply filter_In in Hx. destruct Hx as [_ Hx]. destruct (in_dec Nat.eq_dec x P); [auto|discriminate]. }
  destruct EX as (i & Li & NP & F). apply NP. apply IH; auto. apply from_pos in F. pose proof (Rank i j (LKsg i j F)). lia.
Qed.

Lemma kahn_ok : forall fuel P Q deg, kinv P Q deg -> k - length P < fuel ->
  exists P' deg', kahn order fuel sccs sg deg Q (map (fun i => nth i sccs []) P) = Val (map (fun i => nth i sccs []) P') /\ kinv P' [] deg'.
Proof.
  induction fuel as [|fuel IH]; intros P Q deg K L; [lia|]. cbn [kahn]. destruct Q as [|i Q]; [eauto|].
  assert (Li : i < k) by (apply (k_range _ _ _ K), in_app_iff; simpl; auto).
  rewrite (rd_val _ _ _ (nth i sccs [])) by (apply nth_some; auto). cbn [bind]. rewrite (rd_val _ _ _ (nth i sg [])) by (apply nth_some; lia). cbn [bind].
  destruct (kahn_step P i Q deg K) as (deg' & fresh & -> & K'). cbn [bind].
  replace (map (fun i0 => nth i0 sccs []) P ++ [nth i sccs []]) with (map (fun i0 => nth i0 sccs []) (P ++ [i])) by (rewrite map_app; auto).
  apply IH; auto. rewrite app_length. simpl. assert (length P < k); [|lia].
  assert (length (P ++ [i]) <= length (seq 0 k)).
  { apply NoDup_incl_length.
    - pose proof (k_nodup _ _ _ K') as N. eapply NoDup_app_remove_r. exact N.
    - intros x Hx. apply in_seq. pose proof (k_range _ _ _ K' x ltac:(apply in_app_iff; auto)). lia. }
  rewrite app_length, seq_length in H. simpl in H. lia.
Qed.
End Kahn.

Lemma before_map : forall A B (f : A -> B) l a b, before l a b -> before (map f l) (f a) (f b).
Proof. intros A B f l a b (i & j & H & H1 & H2). exists i, j. rewrite !nth_error_map, H1, H2. auto. Qed.

Lemma seq_nth_map : forall A (l : list A) d, map (fun i => nth i l d) (seq 0 (length l)) = l.
Proof.
  induction l as [|x l IH]; intros d; auto. cbn [length seq map nth]. f_equal. rewrite <- seq_shift, map_map. apply IH.
Qed.

Lemma topological_ok : forall (order : list nat -> list nat) g sccs, (forall l, Permutation l (order l)) -> well_formed g ->
  (forall v, In v (concat sccs) -> v < length g) -> NoDup (concat sccs) ->
  (forall i j c d u v, nth_error sccs i = Some c -> nth_error sccs j = Some d -> In u c -> In v d -> edge g u v -> j <= i) ->
  exists sorted, topological_sort_sccs order g sccs = Val sorted /\ Permutation sccs sorted /\
    forall c d u v, In c sccs -> In d sccs -> In u c -> In v d -> edge g u v -> c <> d -> before sorted c d.
Proof.
  intros order g sccs HO HW HN HD HR. unfold topological_sort_sccs.
  destruct (number_sccs_ok sccs 0 (repeat None (length g))) as (nts & -> & L & H1 & H2); auto; [intros v Hv; rewrite repeat_length; auto|]. cbn [bind]. rewrite repeat_length in L.
  assert (Hout : forall v, ~ In v (concat sccs) -> nth v nts None = None) by (intros v Hv; rewrite H1 by auto; apply nth_repeat_any).
  destruct (condense_ok g HW sccs HN nts L H2 Hout sccs 0 (repeat [] (length sccs)) (repeat 0 (length sccs))) as (sg & deg & -> & C & _ & H3); auto.
  { assert (E : forall j, nth j (repeat (@nil nat) (length sccs)) [] = []) by (intros; apply nth_repeat_any).
    constructor; rewrite ?repeat_length; auto.
    - intros i. rewrite E. constructor.
    - intros i j. rewrite E. intros [].
    - intros j. rewrite nth_repeat_any. clear. induction (length sccs); simpl; auto. }
  cbn [bind]. destruct C as [[C1 C1'] C2 C3 C4].
  assert (RK : forall i j, link g sccs i j -> j < i).
  { intros i j (N & c & d & u & v & Q1 & Q2 & Q3 & Q4 & Q5). pose proof (HR i j c d u v Q1 Q2 Q3 Q4 Q5). lia. }
  destruct (kahn_ok g sccs order HO sg C1 C2 C3 (S (length sccs)) [] (initial_queue 0 deg) deg) as (P & deg' & E & K).
  { constructor; auto.
    - simpl. apply initial_queue_nodup.
    - simpl. intros x Hx. apply initial_queue_in in Hx. lia.
    - intros j Lj. simpl. rewrite Nat.add_0_r, C4, cnt_concat, C1. reflexivity.
    - intros j Lj. simpl. rewrite initial_queue_in, Nat.sub_0_r. split; [intros; split; [lia|split; [lia|auto]]|tauto].
    - intros i j _ []. }
  { simpl. lia. }
  simpl map in E. rewrite E. eexists. split; [reflexivity|]. pose proof (kahn_all g sccs sg C1 C3 RK P deg' K) as ALL.
  pose proof (k_nodup _ _ _ _ _ K) as ND. rewrite app_nil_r in ND.
  assert (PE : Permutation (seq 0 (length sccs)) P).
  { apply NoDup_Permutation; auto; [apply seq_NoDup|]. intros x. rewrite in_seq. split; [intros; apply ALL; lia|]. intros Hx. pose proof (k_range _ _ _ _ _ K x ltac:(rewrite app_nil_r; auto)). lia. }
  split.
  - rewrite <- (seq_nth_map _ sccs []) at 1. apply Permutation_map. auto.
  - intros c d u v Hc Hd Hu Hv HE N. apply In_nth_error in Hc, Hd. destruct Hc as (i & Hi), Hd as (j & Hj).
    assert (NE : i <> j) by congruence. specialize (H3 i c u v j d Hi Hu HE Hj Hv NE). simpl in H3.
    rewrite <- (nth_error_nth _ _ [] Hi), <- (nth_error_nth _ _ [] Hj). apply (before_map _ _ (fun i => nth i sccs [])).
    apply (k_order _ _ _ _ _ K); auto. apply ALL. eapply range_of; eauto.
Qed.

Lemma scc_topological_ok : forall (order : list nat -> list nat) g, (forall l, Permutation l (order l)) -> well_formed g ->
  exists sccs sorted, find_strongly_connected_components g = Val sccs /\ topological_sort_sccs order g sccs = Val sorted /\ Permutation sccs sorted /\
    forall c d u v, In c sccs -> In d sccs -> In u c -> In v d -> edge g u v -> c <> d -> before sorted c d.
Proof.
  intros order g HO HW. destruct (scc_ok g HW) as (sccs & E & N & R & _ & _ & HR). exists sccs.
  destruct (topological_ok order g sccs HO HW) as (sorted & E2 & P & B); auto; [intros v Hv; apply R; auto|]. exists sorted. auto.
Qed.
