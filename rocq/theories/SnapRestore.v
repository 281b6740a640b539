From Coq Require Import List Bool Arith Lia Permutation Sorted.
From Verif Require Import ListUtil GraphModel InternModel InternSpec InternKinds InternSim InternFind InternProofs InternCanon InternMain SnapModel SnapSpec SnapCapture.
Import ListNotations.

Local Arguments ty_eq_dec : simpl never.

Definition at_local (tys : list ty) (t s : ty) : Prop := exists i, s = Loc i /\ at_ tys t i.

Section Restore.
Variables (nn nt : nat -> option nat).
Hypothesis NB : names_back nn nt.

Section Nodes.
Variables (tys : list ty) (count : nat).
Hypothesis HC : count = length tys.

Lemma local_ok : forall t i, at_ tys t i -> local count i = Ok (Loc i).
Proof. intros t i H. unfold local. rewrite HC. assert (X : i < length tys) by (apply nth_error_Some; unfold at_ in H; congruence). apply Nat.ltb_lt in X. rewrite X. auto. Qed.
Lemma read_types_ok : forall l m, Forall2 (at_ tys) l m -> exists ts, read_types count m = Ok ts /\ Forall2 (at_local tys) l ts.
Proof.
  intros l m F. induction F as [|t i l m A F (ts & E & G)]; simpl; [exists []; auto|]. rewrite (local_ok t i A). cbn [rbind]. rewrite E. cbn [rbind].
  exists (Loc i :: ts). split; auto. constructor; auto. exists i. auto.
Qed.
Lemma read_tagged_ok : forall A (l : list (A * ty)) m, Forall2 (tagged_by (at_ tys)) l m ->
  exists ts, read_tagged count m = Ok ts /\ map fst l = map fst ts /\ Forall2 (at_local tys) (map snd l) (map snd ts).
Proof.
  intros A l m F. induction F as [|[a t] [a' i] l m [X Y] F (ts & E & G & H)]; simpl in *; [exists []; repeat split; constructor|]. subst a'. rewrite (local_ok t i Y). cbn [rbind]. rewrite E. cbn [rbind].
  eexists (_ :: ts). simpl. split; [reflexivity|]. simpl. split; [congruence|]. constructor; auto. exists i. auto.
Qed.
Lemma tag_head : forall A (l m : list (A * ty)), map fst l = map fst m -> map (fun x => (fst x, Loc 0)) l = map (fun x => (fst x, Loc 0)) m.
Proof. induction l as [|[a t] l IH]; intros [|[b s] m] E; simpl in *; try discriminate E; auto. inversion E. f_equal; auto. Qed.
Lemma read_node_ok : forall k n, describes nn (at_ tys) k n -> exists k', read_node nt count n = Ok k' /\ mat (at_local tys) k k'.
Proof.
  assert (LH : forall (P : ty -> ty -> Prop) l m, Forall2 P l m -> map (fun _ : ty => Loc 0) l = map (fun _ => Loc 0) m) by (intros P l m F; apply const_len; eapply Forall2_len; eauto).
  intros k n D. destruct k, n; simpl in D; try contradiction; cbn [read_node].
  - destruct D as [E F]. rewrite (NB _ _ E). destruct (read_types_ok _ _ F) as (ts & X & Y). rewrite X. cbn [rbind]. eexists. split; [reflexivity|]. split; simpl; auto. unfold head. simpl. f_equal. eauto.
  - subst. eexists. split; [reflexivity|]. split; simpl; auto.
  - destruct (read_tagged_ok _ _ _ D) as (ts & X & Y & Z). rewrite X. cbn [rbind]. eexists. split; [reflexivity|]. split; simpl; auto. unfold head. simpl. f_equal. apply tag_head; auto.
  - destruct (read_types_ok _ _ D) as (ts & X & Y). rewrite X. cbn [rbind]. eexists. split; [reflexivity|]. split; simpl; auto. unfold head. simpl. f_equal. eauto.
  - destruct (read_tagged_ok _ _ _ D) as (ts & X & Y & Z). rewrite X. cbn [rbind]. eexists. split; [reflexivity|]. split; simpl; auto. unfold head. simpl. f_equal. apply tag_head; auto.
  - destruct D as (D & R & <-). destruct (read_tagged_ok _ _ _ D) as (ts & X & Y & Z). rewrite X. cbn [rbind]. rewrite (local_ok _ _ R). cbn [rbind]. eexists. split; [reflexivity|]. split; simpl.
    + unfold head. simpl. f_equal. apply tag_head; auto.
    + apply Forall2_app; auto. constructor; auto. exists ret0. auto.
  - destruct D as (D & R & <- & <-). destruct (read_tagged_ok _ _ _ D) as (ts & X & Y & Z). rewrite X. cbn [rbind]. rewrite (local_ok _ _ R). cbn [rbind]. eexists. split; [reflexivity|]. split; simpl.
    + unfold head. simpl. f_equal. apply tag_head; auto.
    + apply Forall2_app; auto. constructor; auto. exists ret0. auto.
  - destruct D as (<- & F & <-). destruct (read_types_ok _ _ F) as (ts & X & Y). rewrite X. cbn [rbind]. eexists. split; [reflexivity|]. split; simpl; auto. unfold head. simpl. f_equal. eauto.
  - eexists. split; [reflexivity|]. split; simpl; auto.
Qed.
Lemma read_nodes_ok : forall (P : ty -> kind -> Prop) l g, Forall2 (fun t n => exists k, P t k /\ describes nn (at_ tys) k n) l g ->
  exists kinds, read_nodes nt count g = Ok kinds /\ Forall2 (fun t k' => exists k, P t k /\ mat (at_local tys) k k') l kinds.
Proof.
  intros P l g F. induction F as [|t n l g (k & E & D) F (ks & X & Y)]; simpl; [exists []; auto|].
  destruct (read_node_ok k n D) as (k' & A & B). rewrite A. cbn [rbind]. rewrite X. cbn [rbind]. exists (k' :: ks). split; auto. constructor; eauto.
Qed.
End Nodes.

Section Store.
Variables (le : kind -> kind -> bool) (order : list nat -> list nat).
Hypothesis HO : iteration order.
Variables (u v : universe) (tys : list ty) (g : list node).
Hypothesis IU : inv u.
Hypothesis CU : canon u.
Hypothesis L : lists nn u tys g.

Section Kinds.
Variable kinds : list kind.
Hypothesis FK : Forall2 (fun t k' => exists k, get u t = Some k /\ mat (at_local tys) k k') tys kinds.
Let D := described v kinds.

Lemma desc_at : forall t i, at_ tys t i -> exists k k', get u t = Some k /\ D (Loc i) = Some k' /\ mat (at_local tys) k k'.
Proof. intros t i A. destruct (Forall2_nth _ _ _ _ _ _ _ FK A) as (k' & E & k & G & M). exists k, k'. auto. Qed.
Lemma desc_loc : forall i k', D (Loc i) = Some k' -> exists t k, at_ tys t i /\ get u t = Some k /\ mat (at_local tys) k k'.
Proof. intros i k' E. simpl in E. destruct (Forall2_nth_r _ _ _ _ _ _ _ FK E) as (t & A & k & G & M). exists t, k. auto. Qed.
Lemma kinds_normal : forall i k', nth_error kinds i = Some k' -> normal k'.
Proof. intros i k' E. destruct (desc_loc i k' E) as (t & k & _ & G & M). eapply normal_head; [exact (proj1 M)|]. exact (i_normal _ IU _ _ G). Qed.
Lemma sim_at : forall t i, at_ tys t i -> sim (get u) D t (Loc i).
Proof. intros t i A. exists (at_local tys). split; [exists i; auto|]. intros x y (j & -> & B). destruct (desc_at x j B) as (k & k' & E & F & M). eauto. Qed.
Lemma at_inj : forall t i j, at_ tys t i -> at_ tys t j -> i = j.
Proof. intros t i j A B. unfold at_ in *. apply (proj1 (NoDup_nth_error tys) (l_nodup _ _ _ _ L)); [apply nth_error_Some|]; congruence. Qed.
Lemma loc_reach : forall i t, path D (Loc i) t -> i < length tys -> exists j s, t = Loc j /\ at_ tys s j.
Proof.
  intros i t P Li. induction P as [|b k c P IH E M].
  - destruct (nth_error tys i) as [s|] eqn:X; [|apply nth_error_None in X; lia]. exists i, s. auto.
  - destruct IH as (j & s & -> & A). apply mentions_kids in M. destruct (desc_loc j k E) as (s' & k0 & A' & G & [_ F]).
    destruct (Forall2_In_r _ _ _ _ _ _ F M) as (x & _ & (j' & -> & B)). eauto.
Qed.
Lemma ks_id : map normalize kinds = kinds.
Proof.
  assert (X : forall k, In k kinds -> normal k) by (intros k J; apply In_nth_error in J; destruct J as (i & E); eapply kinds_normal; eauto).
  clear - X. induction kinds as [|k l IH]; simpl; auto. f_equal; [apply normal_id; apply X; simpl; auto|apply IH; intros; apply X; simpl; auto].
Qed.

Hypothesis IV : inv v.
Lemma d_sensible : sensible v kinds.
Proof.
  split.
  - intros k J. apply In_nth_error in J. destruct J as (i & E). apply normal_named. eapply kinds_normal; eauto.
  - intros k t J M. apply In_nth_error in J. destruct J as (i & E). apply mentions_kids in M. destruct (desc_loc i k E) as (s & k0 & _ & _ & [_ F]).
    destruct (Forall2_In_r _ _ _ _ _ _ F M) as (x & _ & (j & -> & B)). destruct (desc_at x j B) as (a & b & _ & X & _). eauto.
Qed.
Lemma d_sim : forall a b, same D D a b <-> sim D D a b.
Proof. intros a b. unfold D. rewrite (same_desc v kinds IV d_sensible). rewrite ks_id. tauto. Qed.
Lemma d_plain : plain_cycles v kinds.
Proof.
  intros i k E C. apply cyclic_path1 in C. destruct (desc_loc i k E) as (t & k0 & A & G & M).
  destruct (sim_path1 _ _ _ _ _ (sim_sym _ _ _ _ (sim_at t i A)) C) as (t' & P & S').
  assert (t = t') by (apply (c_red _ CU); eapply sim_trans; [apply sim_at; exact A|exact S']). subst t'.
  destruct (c_same _ CU _ _ P P) as (w & a & b & -> & _). eapply plain_head; [exact (proj1 M)|]. eapply (i_plain _ IU). exact G.
Qed.
Lemma d_distinct : forall i j s t, at_ tys s i -> at_ tys t j -> sim D D (Loc i) (Loc j) -> i = j.
Proof.
  intros i j s t A B S'. assert (s = t).
  { apply (c_red _ CU). eapply sim_trans; [apply sim_at; exact A|]. eapply sim_trans; [exact S'|]. apply sim_sym. apply sim_at. exact B. }
  subst. eapply at_inj; eauto.
Qed.
Lemma d_folded : folded_cycles v kinds.
Proof.
  intros i t C P S'. apply d_sim in S'. destruct C as (k & _ & E & _). destruct (desc_loc i k E) as (s & k0 & A & _).
  destruct (loc_reach i t P) as (j & s' & -> & B); [apply nth_error_Some; unfold at_ in A; congruence|]. f_equal. symmetry. eapply d_distinct; eauto.
Qed.
End Kinds.

Hypothesis BV : built le order canonical v.

Lemma restore_ok : exists v' ts, materialize le order nt v g = Ok (v', ts) /\ built le order canonical v' /\ keeps v v' /\ length ts = length g /\
  (forall i t t', at_ tys t i -> nth_error ts i = Some t' -> sim (get u) (get v') t t') /\ NoDup ts /\
  (forall t k, get v' t = Some k -> get v t = Some k \/ In t ts).
Proof.
  destruct (built_canon le order HO v BV) as [IV CV].
  assert (Lg : length g = length tys) by (symmetry; eapply Forall2_len; apply (l_node _ _ _ _ L)).
  unfold materialize. destruct (read_nodes_ok tys (length g) Lg _ _ _ (l_node _ _ _ _ L)) as (kinds & R & FK). rewrite R. cbn [rbind].
  assert (CAN : canonical v kinds) by (split; [apply d_sensible; auto|split; [apply d_plain; auto|apply d_folded; auto]]).
  destruct (insert_ok le order HO v kinds IV (proj1 CAN) (proj1 (proj2 CAN)) (folded_distinct _ _ (proj2 (proj2 CAN)))) as (v' & ts & E & I' & B & Lt & SM & Nw & C').
  rewrite E. exists v', ts. split; [reflexivity|]. split; [eapply built_insert; eauto|]. split; [exact B|].
  assert (Lk : length kinds = length tys) by (symmetry; eapply Forall2_len; exact FK).
  rewrite (ks_id kinds FK) in SM. split; [congruence|]. split; [|split; [|exact Nw]].
  - intros i t t' A H. eapply sim_trans; [apply (sim_at kinds FK); exact A|]. apply SM. exact H.
  - apply NoDup_nth_error. intros i j Li Eij.
    assert (X : forall i, i < length ts -> exists s t', at_ tys s i /\ nth_error ts i = Some t').
    { intros x Lx. destruct (nth_error ts x) as [t'|] eqn:T; [|apply nth_error_None in T; lia]. destruct (nth_error tys x) as [s|] eqn:T2; [|apply nth_error_None in T2; lia]. exists s, t'. auto. }
    destruct (X i Li) as (s & t' & A & T). assert (Lj : j < length ts) by (apply nth_error_Some; congruence). destruct (X j Lj) as (s2 & t2 & A2 & T2).
    eapply (d_distinct kinds FK); eauto. eapply sim_trans; [apply SM; exact T|]. apply sim_sym. apply SM. congruence.
Qed.

Lemma restore_same : keeps u v -> exists v', materialize le order nt v g = Ok (v', tys) /\ (forall t, get v' t = get v t) /\ built le order canonical v'.
Proof.
  intros K. destruct restore_ok as (v' & ts & E & B' & Kv & Lt & SM & N & Nw). destruct (built_canon le order HO v' B') as [I' C'].
  assert (Lg : length g = length tys) by (symmetry; eapply Forall2_len; apply (l_node _ _ _ _ L)).
  assert (X : forall i t t', at_ tys t i -> nth_error ts i = Some t' -> t = t').
  { intros i t t' A T. apply (c_red _ C'). eapply sim_mono; [|intros x y Z; exact Z|eapply SM; eauto]. intros x k Z. apply Kv. apply K. exact Z. }
  assert (ts = tys).
  { assert (Le : length ts = length tys) by congruence. clear - X Le. revert tys X Le. unfold at_. induction ts as [|a l IH]; intros [|b m] X Le; simpl in Le; try discriminate Le; auto. f_equal.
    - symmetry. apply (X 0); auto.
    - apply IH; [|lia]. intros i t t' A B. apply (X (S i)); auto. }
  subst ts. exists v'. split; auto. split; auto. intros t. destruct (get v' t) as [k|] eqn:G.
  - destruct (Nw t k G) as [|J]; auto. destruct (Forall2_In_l _ _ _ _ _ _ (l_node _ _ _ _ L) J) as (n & _ & k' & G' & _). apply K in G'. rewrite G'. apply Kv in G'. congruence.
  - destruct (get v t) as [k|] eqn:G'; auto. apply Kv in G'. congruence.
Qed.
End Store.
End Restore.
