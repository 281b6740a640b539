From Coq Require Import List Bool Arith Lia Permutation.
From Verif Require Import ListUtil GraphModel GraphSpec.
Import ListNotations.

(** ** Generic facts *)
Lemma rd_val : forall A (l : list A) i x, nth_error l i = Some x -> rd l i = Val x.
Proof. intros A l i x H. unfold rd. rewrite H. auto. Qed.
Lemma wr_val : forall A (l : list A) i x, i < length l -> wr l i x = Val (upd l i x).
Proof. intros A l i x H. unfold wr. destruct (Nat.ltb_spec i (length l)); [auto|lia]. Qed.
Lemma in_range : forall A (l : list A) i, i < length l -> exists x, nth_error l i = Some x.
Proof. intros A l i H. destruct (nth_error l i) eqn:E; [eauto|]. apply nth_error_None in E. lia. Qed.
Lemma range_of : forall A (l : list A) i x, nth_error l i = Some x -> i < length l.
Proof. intros A l i x H. apply nth_error_Some. congruence. Qed.

Lemma reach_trans : forall g a b c, reach g a b -> reach g b c -> reach g a c.
Proof. intros g a b c H1 H2. induction H2; auto. eapply reach_step; eauto. Qed.
Lemma reach_edge : forall g a b, edge g a b -> reach g a b.
Proof. intros. eapply reach_step; [apply reach_here|auto]. Qed.
Lemma reach_front : forall g a b, reach g a b -> a = b \/ exists c, edge g a c /\ reach g c b.
Proof.
  intros g a b H. induction H; auto. right. destruct IHreach as [->|(c & E & R)].
  - exists w. split; auto. apply reach_here.
  - exists c. split; auto. eapply reach_step; eauto.
Qed.
Lemma reach_range : forall g a b, well_formed g -> a < length g -> reach g a b -> b < length g.
Proof. intros g a b W L H. induction H; eauto. Qed.
Lemma edge_src : forall g u v, edge g u v -> u < length g.
Proof. intros g u v (ss & E & _). eapply range_of; eauto. Qed.
Lemma edge_at : forall g u ss k v, nth_error g u = Some ss -> nth_error ss k = Some v -> edge g u v.
Proof. intros g u ss k v H1 H2. exists ss. split; auto. eapply nth_error_In; eauto. Qed.
Lemma edge_inv : forall g u ss v, nth_error g u = Some ss -> edge g u v -> exists k, nth_error ss k = Some v.
Proof. intros g u ss v H1 (ss' & H2 & H3). rewrite H1 in H2. inversion H2; subst. apply In_nth_error; auto. Qed.

Lemma before_app_l : forall A (l r : list A) a b, before l a b -> before (l ++ r) a b.
Proof. intros A l r a b (i & j & H & H1 & H2). exists i, j. rewrite !nth_error_app1; eauto using range_of. Qed.
Lemma before_new : forall A (l : list A) a b, In a l -> before (l ++ [b]) a b.
Proof.
  intros A l a b H. apply In_nth_error in H. destruct H as (i & H). exists i, (length l). split; [eapply range_of; eauto|].
  rewrite nth_error_app1 by (eapply range_of; eauto). split; auto. rewrite nth_error_app2 by lia. rewrite Nat.sub_diag. auto.
Qed.
Lemma before_in : forall A (l : list A) a b, before l a b -> In a l /\ In b l.
Proof. intros A l a b (i & j & _ & H1 & H2). split; eapply nth_error_In; eauto. Qed.
Lemma nodup_nth : forall A (l : list A) i j x, NoDup l -> nth_error l i = Some x -> nth_error l j = Some x -> i = j.
Proof. intros A l i j x N H1 H2. eapply (proj1 (NoDup_nth_error l) N); [eapply range_of; eauto|congruence]. Qed.
Lemma before_irrefl : forall A (l : list A) a, NoDup l -> ~ before l a a.
Proof. intros A l a N (i & j & H & H1 & H2). assert (i = j) by eauto using nodup_nth. lia. Qed.
Lemma before_trans : forall A (l : list A) a b c, NoDup l -> before l a b -> before l b c -> before l a c.
Proof. intros A l a b c N (i & j & H & H1 & H2) (i' & j' & H' & H1' & H2'). assert (j = i') by eauto using nodup_nth. subst. exists i, j'. split; auto. lia. Qed.
Lemma before_rev : forall A (l : list A) a b, before l a b -> before (rev l) b a.
Proof.
  intros A l a b (i & j & H & H1 & H2). pose proof (range_of _ _ _ _ H1). pose proof (range_of _ _ _ _ H2).
  assert (R : forall k x, k < length l -> nth_error l k = Some x -> nth_error (rev l) (length l - 1 - k) = Some x).
  { intros k x Hk E. rewrite nth_error_nth' with (d := x) by (rewrite rev_length; lia). f_equal. rewrite rev_nth by lia.
    replace (length l - S (length l - 1 - k)) with k by lia. apply nth_error_nth. auto. }
  exists (length l - 1 - j), (length l - 1 - i). split; [lia|]. split; apply R; auto.
Qed.

Lemma NoDup_app_remove_l : forall A (l l' : list A), NoDup (l ++ l') -> NoDup l'.
Proof. induction l; simpl; intros l' H; auto. inversion H; auto. Qed.
Lemma NoDup_app_remove_r : forall A (l l' : list A), NoDup (l ++ l') -> NoDup l.
Proof. induction l; simpl; intros l' H; constructor; inversion H; subst; eauto. rewrite in_app_iff in *. tauto. Qed.

(** ** Depth-first search *)
Fixpoint chain (g : graph) (l : list nat) : Prop :=
  match l with
  | x :: ((y :: _) as r) => edge g y x /\ chain g r
  | _ => True
  end.
Lemma chain_tail : forall g x l, chain g (x :: l) -> chain g l.
Proof. intros g x [|y l]; simpl; tauto. Qed.
Lemma chain_reach : forall g l x y, chain g (x :: l) -> In y (x :: l) -> reach g y x.
Proof.
  induction l as [|z l IH]; intros x y C H.
  - destruct H as [->|[]]. apply reach_here.
  - destruct H as [->|H]; [apply reach_here|]. destruct C as [E C]. eapply reach_step; [|exact E]. apply IH; auto.
Qed.

(** The number of iterations left. *)
Fixpoint unseen (g : graph) (visited : list bool) : nat :=
  match g, visited with
  | ss :: g', b :: v' => (if b then 0 else S (length ss)) + unseen g' v'
  | _, _ => 0
  end.
Lemma unseen_upd : forall g visited s ss, nth_error g s = Some ss -> nth_error visited s = Some false ->
  unseen g (upd visited s true) + S (length ss) = unseen g visited.
Proof.
  induction g as [|x g IH]; intros [|b v] [|s] ss H1 H2; simpl in *; try discriminate.
  - inversion H1; inversion H2; subst. lia.
  - specialize (IH v s ss H1 H2). destruct b; lia.
Qed.
Lemma unseen_init : forall g, unseen g (repeat false (length g)) = work g.
Proof. induction g; simpl; auto. Qed.
Definition frames (g : graph) (stack : list (nat * nat)) : nat :=
  fold_right (fun f n => S (length (nth (fst f) g []) - snd f) + n) 0 stack.

Section Search.
Variable g : graph.
Hypothesis W : well_formed g.
Variable entry : nat.

Definition seen (stack : list (nat * nat)) (post : list nat) (v : nat) : Prop := In v (map fst stack) \/ In v post.

(** [strong]: edges from finished nodes go strictly to earlier finished nodes (no cycle found so far). *)
Record dfs (strong : bool) (stack : list (nat * nat)) (post : list nat) : Prop := {
  d_range : forall v, seen stack post v -> v < length g;
  d_nodup : NoDup (map fst stack ++ post);
  d_chain : chain g (map fst stack);
  d_frames : forall above n i below ss k v, stack = above ++ (n, i) :: below -> nth_error g n = Some ss -> k < i -> nth_error ss k = Some v ->
    if strong then In v post \/ In v (map fst above) else seen stack post v;
  d_index : forall n i ss, In (n, i) stack -> nth_error g n = Some ss -> i <= length ss;
  d_entry : (exists s, map fst stack = s ++ [entry]) \/ (stack = [] /\ exists p, post = p ++ [entry]);
  d_reach : forall v, seen stack post v -> reach g entry v;
  d_post : forall u v, In u post -> edge g u v -> seen stack post v /\ (before post v u \/ (strong = false /\ reach g v u));
  d_parent : forall v, In v post -> v <> entry -> exists u, edge g u v /\ (In u (map fst stack) \/ before post v u)
}.

Lemma dfs_init : forall strong, entry < length g -> dfs strong [(entry, 0)] [].
Proof.
  intros strong L. constructor; unfold seen; simpl.
  - intros v [[<-|[]]|[]]. auto.
  - repeat constructor; auto.
  - auto.
  - intros [|a [|b above]] n i below ss k v E; simpl in E; inversion E; subst; lia.
  - intros n i ss [E|[]] _. inversion E; subst. lia.
  - left. exists []. auto.
  - intros v [[<-|[]]|[]]. apply reach_here.
  - tauto.
  - tauto.
Qed.

Lemma dfs_push : forall strong n i rest post ss s, dfs strong ((n, i) :: rest) post -> nth_error g n = Some ss -> nth_error ss i = Some s ->
  ~ seen ((n, i) :: rest) post s -> dfs strong ((s, 0) :: (n, S i) :: rest) post.
Proof.
  intros strong n i rest post ss s [R N C F X E H P PA] Hn Hs NS.
  assert (ED : edge g n s) by (eapply edge_at; eauto).
  assert (S1 : forall v, seen ((n, i) :: rest) post v -> seen ((s, 0) :: (n, S i) :: rest) post v) by (unfold seen; simpl; tauto).
  assert (S2 : forall v, seen ((s, 0) :: (n, S i) :: rest) post v -> v = s \/ seen ((n, i) :: rest) post v) by (unfold seen; simpl; intuition).
  constructor.
  - intros v Hv. destruct (S2 v Hv) as [->|Hv']; auto. eapply W; eauto.
  - simpl in *. constructor; auto. intros I. apply NS. unfold seen. simpl. apply (in_app_or (n :: map fst rest)) in I. auto.
  - simpl in *. split; auto.
  - intros above m j below ss' k v EQ Hm Hk Hv. destruct above as [|a above]; simpl in EQ; [inversion EQ; subst; lia|]. injection EQ as <- EQ.
    destruct above as [|b above]; simpl in *.
    + inversion EQ; subst. rewrite Hn in Hm. inversion Hm; subst. destruct (Nat.eq_dec k i) as [->|NE].
      * rewrite Hs in Hv. inversion Hv; subst. destruct strong; [right; simpl; auto|unfold seen; simpl; auto].
      * specialize (F [] m i below ss' k v eq_refl Hn ltac:(lia) Hv). destruct strong; simpl in *; [destruct F as [F|[]]; auto|auto].
    + injection EQ as <- ->. specialize (F ((n, i) :: above) m j below ss' k v eq_refl Hm Hk Hv). destruct strong; simpl in *; [intuition|auto].
  - intros m j ss' [I|[I|I]] Hm.
    + inversion I; subst. lia.
    + inversion I; subst. rewrite Hn in Hm. inversion Hm; subst. apply range_of in Hs. lia.
    + eapply X; eauto. right; auto.
  - left. destruct E as [(q & E)|(E & _)]; [|discriminate]. exists (s :: q). simpl in *. rewrite E. auto.
  - intros v Hv. destruct (S2 v Hv) as [->|Hv']; auto. eapply reach_step; [|exact ED]. apply H. left. simpl. auto.
  - intros u v Hu HE. destruct (P u v Hu HE). split; auto.
  - intros v Hv Ne. destruct (PA v Hv Ne) as (u & Hu & D). exists u. split; auto. simpl in *. intuition.
Qed.

Lemma dfs_skip : forall strong n i rest post ss s, dfs strong ((n, i) :: rest) post -> nth_error g n = Some ss -> nth_error ss i = Some s ->
  (if strong then In s post else seen ((n, i) :: rest) post s) -> dfs strong ((n, S i) :: rest) post.
Proof.
  intros strong n i rest post ss s [R N C F X E H P PA] Hn Hs HS.
  assert (SE : forall v, seen ((n, S i) :: rest) post v <-> seen ((n, i) :: rest) post v) by (unfold seen; simpl; tauto).
  constructor; auto.
  - intros above m j below ss' k v EQ Hm Hk Hv. destruct above as [|a above]; simpl in EQ; inversion EQ; subst.
    + rewrite Hn in Hm. inversion Hm; subst. destruct (Nat.eq_dec k i) as [->|NE].
      * rewrite Hs in Hv. inversion Hv; subst. destruct strong; [auto|apply SE; auto].
      * specialize (F [] m i below ss' k v eq_refl Hn ltac:(lia) Hv). destruct strong; auto; apply SE; auto.
    + specialize (F ((n, i) :: above) m j below ss' k v eq_refl Hm Hk Hv). destruct strong; simpl in *; auto; apply SE; auto.
  - intros m j ss' [I|I] Hm.
    + inversion I; subst. rewrite Hn in Hm. inversion Hm; subst. apply range_of in Hs. lia.
    + eapply X; eauto. right; auto.
  - left. destruct E as [(q & E)|(E & _)]; [|discriminate]. exists q. auto.
Qed.

Lemma dfs_pop : forall strong n i rest post ss, dfs strong ((n, i) :: rest) post -> nth_error g n = Some ss -> length ss <= i ->
  dfs strong rest (post ++ [n]).
Proof.
  intros strong n i rest post ss [R N C F X E H P PA] Hn Hi.
  assert (SE : forall v, seen rest (post ++ [n]) v <-> seen ((n, i) :: rest) post v).
  { intros v. unfold seen. simpl. rewrite in_app_iff. simpl. intuition. }
  constructor.
  - intros v Hv. apply R, SE, Hv.
  - simpl in N. rewrite app_assoc. apply NoDup_cons_iff in N. destruct N as [N1 N2]. apply (Permutation_NoDup (l := n :: map fst rest ++ post)).
    + apply Permutation_cons_append.
    + constructor; auto.
  - eapply chain_tail. exact C.
  - intros above m j below ss' k v EQ Hm Hk Hv. subst rest. specialize (F ((n, i) :: above) m j below ss' k v eq_refl Hm Hk Hv).
    destruct strong; simpl in *; [rewrite in_app_iff; simpl; intuition|apply SE; auto].
  - intros m j ss' I Hm. eapply X; eauto. right; auto.
  - destruct rest as [|f rest].
    + right. split; auto. exists post. destruct E as [(q & E)|(E & _)]; [|discriminate]. simpl in E. destruct q as [|a [|b q]]; simpl in E; inversion E; subst; auto.
    + left. destruct E as [(q & E)|(E & _)]; [|discriminate]. simpl in E. destruct q as [|a q]; simpl in E; inversion E; subst. exists q. auto.
  - intros v Hv. apply H, SE, Hv.
  - intros u v Hu HE. apply in_app_or in Hu. destruct Hu as [Hu|[<-|[]]].
    + destruct (P u v Hu HE) as [P1 P2]. split; [apply SE; auto|]. destruct P2 as [P2|P2]; auto. left. apply before_app_l. auto.
    + destruct (edge_inv g n ss v Hn HE) as (k & Hk). pose proof (range_of _ _ _ _ Hk).
      specialize (F [] n i rest ss k v eq_refl Hn ltac:(lia) Hk). destruct strong.
      * destruct F as [F|[]]. split; [apply SE; right; auto|]. left. apply before_new. auto.
      * split; [apply SE; auto|]. destruct F as [F|F]; [right; split; auto|left; apply before_new; auto]. apply (chain_reach g (map fst rest)); auto.
  - intros v Hv Ne. apply in_app_or in Hv. destruct Hv as [Hv|[<-|[]]].
    + destruct (PA v Hv Ne) as (u & Hu & D). exists u. split; auto. simpl in D. destruct D as [[<-|D]|D]; auto; [right; apply before_new; auto|right; apply before_app_l; auto].
    + destruct rest as [|(m, j) rest].
      * exfalso. destruct E as [(q & E)|(E & _)]; [|discriminate]. simpl in E. destruct q as [|a [|b q]]; simpl in E; inversion E; subst; auto.
      * exists m. simpl in C. split; [tauto|]. left. simpl. auto.
Qed.

Lemma dfs_closed : forall strong post, dfs strong [] post -> forall v, reach g entry v -> In v post.
Proof.
  intros strong post D v H. induction H.
  - destruct (d_entry _ _ _ D) as [(q & E)|(_ & p & ->)]; [destruct q; discriminate|]. apply in_app_iff. simpl. auto.
  - destruct (d_post _ _ _ D v w IHreach H0) as [[[]|S] _]; auto.
Qed.

(** Where a frame's next step is measured. *)
Lemma frames_top : forall n i rest ss, nth_error g n = Some ss -> frames g ((n, i) :: rest) = S (length ss - i) + frames g rest.
Proof. intros n i rest ss H. unfold frames at 1. simpl. rewrite (nth_error_nth _ _ _ H). auto. Qed.

(** ** Reverse postorder *)
Definition marks (visited : list bool) (stack : list (nat * nat)) (post : list nat) : Prop :=
  length visited = length g /\ forall v b, nth_error visited v = Some b -> (b = true <-> seen stack post v).

Lemma rpo_loop_ok : forall fuel visited post stack, dfs false stack post -> marks visited stack post ->
  frames g stack + unseen g visited < fuel -> exists post', rpo_loop fuel g visited post stack = Val post' /\ dfs false [] post'.
Proof.
  induction fuel as [|fuel IH]; intros visited post stack D M L; [lia|]. cbn [rpo_loop]. destruct stack as [|(n, i) rest]; [eauto|].
  destruct M as [ML MS]. assert (Ln : n < length g) by (apply (d_range _ _ _ D); left; simpl; auto).
  destruct (in_range _ g n Ln) as (ss & Hn). rewrite (rd_val _ _ _ _ Hn). cbn [bind]. rewrite (frames_top n i rest ss Hn) in L.
  destruct (nth_error ss i) as [s|] eqn:Hs.
  - assert (Ls : s < length g) by (eapply W, edge_at; eauto). destruct (in_range _ visited s) as (b & Hb); [lia|]. rewrite (rd_val _ _ _ _ Hb). cbn [bind].
    destruct b; cbn [negb].
    + apply IH.
      * eapply dfs_skip; eauto. simpl. apply (MS s true Hb). auto.
      * split; auto.
      * rewrite (frames_top n (S i) rest ss Hn). apply range_of in Hs. lia.
    + rewrite wr_val by lia. cbn [bind]. apply IH.
      * eapply dfs_push; eauto. intros HS. apply (MS s false Hb) in HS. discriminate.
      * split; [rewrite upd_length; auto|]. intros v b Hv. rewrite nth_error_upd in Hv. unfold seen. simpl. destruct (Nat.eqb_spec s v).
        -- subst. destruct (Nat.ltb_spec v (length visited)); [|lia]. inversion Hv. tauto.
        -- rewrite (MS v b Hv). unfold seen. simpl. intuition.
      * destruct (in_range _ g s Ls) as (ss' & Hs'). rewrite (frames_top s 0 _ ss' Hs'), (frames_top n (S i) rest ss Hn). pose proof (unseen_upd g visited s ss' Hs' Hb). apply range_of in Hs. lia.
  - apply nth_error_None in Hs. apply IH.
    + eapply dfs_pop; eauto.
    + split; auto. intros v b Hv. rewrite (MS v b Hv). unfold seen. simpl. rewrite in_app_iff. simpl. intuition.
    + lia.
Qed.

Lemma marks_init : entry < length g -> marks (upd (repeat false (length g)) entry true) [(entry, 0)] [].
Proof.
  intros L. split; [rewrite upd_length, repeat_length; auto|]. intros v b Hv. rewrite nth_error_upd in Hv. unfold seen. simpl. destruct (Nat.eqb_spec entry v).
  - subst. rewrite repeat_length in Hv. destruct (Nat.ltb_spec v (length g)); [|lia]. inversion Hv. tauto.
  - apply nth_error_In, repeat_spec in Hv. subst. intuition discriminate.
Qed.
Lemma fuel_init : entry < length g -> frames g [(entry, 0)] + unseen g (upd (repeat false (length g)) entry true) < S (work g).
Proof.
  intros L. destruct (in_range _ g entry L) as (ss & Hs). rewrite (frames_top entry 0 [] ss Hs).
  assert (HF : nth_error (repeat false (length g)) entry = Some false).
  { rewrite nth_error_nth' with (d := false) by (rewrite repeat_length; auto). rewrite nth_repeat_any. auto. }
  pose proof (unseen_upd g _ entry ss Hs HF) as U. rewrite unseen_init in U. simpl. lia.
Qed.

Lemma reverse_postorder_ok : entry < length g -> exists order, reverse_postorder g entry = Val order /\ NoDup order /\
  (forall v, In v order <-> reach g entry v) /\ hd_error order = Some entry /\
  (forall u v, In u order -> edge g u v -> before order u v \/ reach g v u) /\
  (forall v, In v order -> v <> entry -> exists u, edge g u v /\ before order u v).
Proof.
  intros L. unfold reverse_postorder. rewrite wr_val by (rewrite repeat_length; auto). cbn [bind].
  destruct (rpo_loop_ok (S (work g)) _ [] [(entry, 0)] (dfs_init false L) (marks_init L) (fuel_init L)) as (post & -> & D).
  cbn [bind]. exists (rev post). split; auto. split; [apply NoDup_rev, (d_nodup _ _ _ D)|]. split; [|split; [|split]].
  - intros v. rewrite <- in_rev. split; [intros I; apply (d_reach _ _ _ D); right; auto|apply (dfs_closed false post D)].
  - destruct (d_entry _ _ _ D) as [(q & E)|(_ & p & ->)]; [destruct q; discriminate|]. rewrite rev_app_distr. auto.
  - intros u v Hu HE. rewrite <- in_rev in Hu. destruct (d_post _ _ _ D u v Hu HE) as [_ [B|[_ B]]]; auto. left. apply before_rev. auto.
  - intros v Hv Ne. rewrite <- in_rev in Hv. destruct (d_parent _ _ _ D v Hv Ne) as (u & HE & [[]|B]). exists u. split; auto. apply before_rev. auto.
Qed.

(** ** Cycle search *)
Definition visited_of (state : list visit_state) : list bool := map (fun s => match s with Unvisited => false | _ => true end) state.
Definition states (state : list visit_state) (stack : list (nat * nat)) (post : list nat) : Prop :=
  length state = length g /\ forall v s, nth_error state v = Some s ->
    match s with Unvisited => ~ seen stack post v | OnStack => In v (map fst stack) | Done => In v post end.

Lemma visited_upd : forall state v s, visited_of (upd state v s) = upd (visited_of state) v (match s with Unvisited => false | _ => true end).
Proof. induction state; intros [|v] s; simpl; auto. rewrite IHstate. auto. Qed.
Lemma visited_same : forall state v s s', nth_error state v = Some s -> s <> Unvisited -> s' <> Unvisited -> visited_of (upd state v s') = visited_of state.
Proof. induction state; intros [|v] s s' H1 H2 H3; simpl in *; auto; [|erewrite IHstate; eauto]. inversion H1; subst. destruct s, s'; congruence. Qed.

Lemma skip_to : forall (l r : list nat) x, ~ In x l -> skip_while (fun id => negb (id =? x)) (l ++ x :: r) = x :: r.
Proof.
  induction l as [|y l IH]; intros r x H; simpl.
  - rewrite Nat.eqb_refl. auto.
  - destruct (Nat.eqb_spec y x); [subst; simpl in H; tauto|]. simpl. apply IH. simpl in H. tauto.
Qed.

Lemma nth_edges : forall l first x, chain g (l ++ [first]) -> x = hd first l -> forall i u, nth_error (first :: rev l) i = Some u ->
  (S i < length (first :: rev l) -> edge g u (nth (S i) (first :: rev l) first)) /\ (S i = length (first :: rev l) -> u = x).
Proof.
  induction l as [|y l IH]; intros first x C -> i u Hu.
  - simpl in *. destruct i as [|[|i]]; simpl in *; try discriminate. inversion Hu; subst. split; [lia|auto].
  - assert (C' : chain g (l ++ [first])) by (destruct l; simpl in *; tauto).
    assert (EL : first :: rev (y :: l) = (first :: rev l) ++ [y]) by reflexivity. rewrite EL in *. rewrite app_length. cbn [length hd].
    destruct (Nat.eq_dec i (S (length (rev l)))) as [->|NE].
    + rewrite nth_error_app2 in Hu by (simpl; lia). simpl length in Hu. replace (S (length (rev l)) - S (length (rev l))) with 0 in Hu by lia. inversion Hu; subst. split; [simpl; lia|auto].
    + pose proof (range_of _ _ _ _ Hu) as Li. rewrite app_length in Li. cbn [length] in Li. rewrite nth_error_app1 in Hu by (simpl; lia). specialize (IH first (hd first l) C' eq_refl i u Hu). cbn [length] in IH. split; [|lia].
      intros _. destruct (Nat.eq_dec i (length (rev l))) as [->|NE'].
      * rewrite app_nth2 by (simpl; lia). cbn [length]. rewrite Nat.sub_diag. simpl nth. destruct IH as [_ IH]. rewrite (IH eq_refl). destruct l; simpl in *; tauto.
      * rewrite app_nth1 by (simpl; lia). apply IH. lia.
Qed.

Lemma path_cycle : forall above v below, chain g (above ++ v :: below) -> edge g (hd v above) v -> is_cycle g (v :: rev above).
Proof.
  intros above v below C E i u Hu. assert (C' : chain g (above ++ [v])).
  { clear - C. induction above as [|a l IH]; simpl in *; auto. destruct l; simpl in *; [tauto|]. split; [tauto|]. apply IH; tauto. }
  destruct (nth_edges _ v _ C' eq_refl i u Hu) as [H1 H2]. pose proof (range_of _ _ _ _ Hu).
  destruct (Nat.eq_dec (S i) (length (v :: rev above))) as [EQ|NE].
  - rewrite nth_overflow by lia. rewrite (H2 EQ). auto.
  - apply H1. lia.
Qed.

Definition no_cycle : Prop := forall v w, reach g entry v -> edge g v w -> ~ reach g w v.

Lemma strong_acyclic : forall post, dfs true [] post -> no_cycle.
Proof.
  intros post D v w Hv HE HR. pose proof (d_nodup _ _ _ D) as N. simpl in N.
  assert (B : forall a b, edge g a b -> In a post -> before post b a).
  { intros a b E I. destruct (d_post _ _ _ D a b I E) as [_ [B|[B _]]]; [auto|discriminate]. }
  pose proof (dfs_closed true post D v Hv) as Iv.
  assert (A : forall b, reach g w b -> b = w \/ before post b w).
  { intros b Hb. induction Hb; auto. right.
    assert (I : In v0 post). { destruct IHHb as [->|B']; [exact (proj1 (before_in _ _ _ _ (B v w HE Iv)))|exact (proj1 (before_in _ _ _ _ B'))]. }
    specialize (B _ _ H I). destruct IHHb as [->|B']; auto. eapply before_trans; eauto. }
  specialize (B v w HE Iv). destruct (A v HR) as [->|B']; [eapply before_irrefl; eauto|]. eapply before_irrefl; [exact N|]. eapply before_trans; eauto.
Qed.

Lemma cycle_loop_ok : forall fuel state post stack, dfs true stack post -> states state stack post ->
  frames g stack + unseen g (visited_of state) < fuel ->
  exists r, cycle_loop fuel g state stack (rev (map fst stack)) = Val r /\
    match r with
    | Some c => is_cycle g c /\ NoDup c /\ forall v, In v c -> reach g entry v
    | None => no_cycle
    end.
Proof.
  induction fuel as [|fuel IH]; intros state post stack D [SL SS] L; [lia|]. cbn [cycle_loop]. destruct stack as [|(n, i) rest].
  { exists None. split; auto. eapply strong_acyclic; eauto. }
  assert (Ln : n < length g) by (apply (d_range _ _ _ D); left; simpl; auto).
  destruct (in_range _ g n Ln) as (ss & Hn). rewrite (rd_val _ _ _ _ Hn). cbn [bind]. rewrite (frames_top n i rest ss Hn) in L.
  destruct (Nat.ltb_spec i (length ss)) as [Li|Li].
  - destruct (in_range _ ss i Li) as (s & Hs). rewrite (rd_val _ _ _ _ Hs). cbn [bind].
    assert (Ls : s < length g) by (eapply W, edge_at; eauto). destruct (in_range _ state s) as (st & Hst); [lia|]. rewrite (rd_val _ _ _ _ Hst). cbn [bind].
    pose proof (SS s st Hst) as HS. destruct st.
    + rewrite wr_val by lia. cbn [bind]. change (rev (map fst ((n, i) :: rest)) ++ [s]) with (rev (map fst ((s, 0) :: (n, S i) :: rest))). apply (IH _ post).
      * eapply dfs_push; eauto.
      * split; [rewrite upd_length; auto|]. intros v st Hv. rewrite nth_error_upd in Hv. destruct (Nat.eqb_spec s v).
        -- subst. destruct (Nat.ltb_spec v (length state)); [|lia]. inversion Hv. simpl. auto.
        -- pose proof (SS v st Hv) as Q. destruct st; unfold seen in *; simpl in *; intuition.
      * destruct (in_range _ g s Ls) as (ss' & Hs'). rewrite (frames_top s 0 _ ss' Hs'), (frames_top n (S i) rest ss Hn), visited_upd.
        assert (HF : nth_error (visited_of state) s = Some false) by (unfold visited_of; rewrite nth_error_map, Hst; auto).
        pose proof (unseen_upd g _ s ss' Hs' HF). lia.
    + eexists. split; [reflexivity|]. cbn beta iota. apply in_split in HS. destruct HS as (above & below & EQ).
      pose proof (d_nodup _ _ _ D) as N. apply NoDup_app_remove_r in N.
      assert (EV : skip_while (fun id => negb (id =? s)) (rev (map fst ((n, i) :: rest))) = s :: rev above).
      { rewrite EQ, rev_app_distr. simpl. rewrite <- app_assoc. simpl. apply skip_to. rewrite <- in_rev. rewrite EQ in N. apply NoDup_remove in N. rewrite in_app_iff in N. tauto. }
      rewrite EV. split; [|split].
      * apply (path_cycle above s below).
        -- rewrite <- EQ. apply (d_chain _ _ _ D).
        -- destruct above as [|a above]; simpl in EQ; inversion EQ; subst; simpl; eapply edge_at; eauto.
      * rewrite EQ in N. apply NoDup_rev in N. rewrite rev_app_distr in N. simpl in N. rewrite <- app_assoc in N. apply NoDup_app_remove_l in N. auto.
      * intros v Hv. apply (d_reach _ _ _ D). left. rewrite EQ, in_app_iff. destruct Hv as [->|Hv]; [simpl; auto|]. rewrite <- in_rev in Hv. auto.
    + change (rev (map fst ((n, i) :: rest))) with (rev (map fst ((n, S i) :: rest))). apply (IH _ post).
      * eapply dfs_skip; eauto.
      * split; auto.
      * rewrite (frames_top n (S i) rest ss Hn). lia.
  - rewrite wr_val by lia. cbn [bind]. cbn [map fst rev]. rewrite removelast_last. apply (IH _ (post ++ [n])).
    + eapply dfs_pop; eauto.
    + split; [rewrite upd_length; auto|]. pose proof (d_nodup _ _ _ D) as N. simpl in N. apply NoDup_cons_iff in N. destruct N as [N _]. rewrite in_app_iff in N.
      intros v st Hv. rewrite nth_error_upd in Hv. destruct (Nat.eqb_spec n v).
      * subst. destruct (Nat.ltb_spec v (length state)); [|lia]. inversion Hv. rewrite in_app_iff. simpl. auto.
      * pose proof (SS v st Hv) as Q. destruct st; unfold seen in *; simpl in *; rewrite ?in_app_iff; simpl; intuition.
    + destruct (in_range _ state n) as (st & Hst); [lia|]. rewrite (visited_same state n st Done); auto; try discriminate; [lia|].
      intros ->. apply (SS n Unvisited Hst). left. simpl. auto.
Qed.

Lemma find_cycle_ok : entry < length g -> exists r, find_cycle_from g entry = Val r /\
  match r with
  | Some c => is_cycle g c /\ NoDup c /\ forall v, In v c -> reach g entry v
  | None => no_cycle
  end.
Proof.
  intros L. unfold find_cycle_from. rewrite wr_val by (rewrite repeat_length; auto). cbn [bind]. apply (cycle_loop_ok (S (work g)) _ [] [(entry, 0)]).
  - apply dfs_init; auto.
  - split; [rewrite upd_length, repeat_length; auto|]. intros v s Hv. rewrite nth_error_upd in Hv. unfold seen. simpl. destruct (Nat.eqb_spec entry v).
    + subst. rewrite repeat_length in Hv. destruct (Nat.ltb_spec v (length g)); [|lia]. inversion Hv. auto.
    + apply nth_error_In, repeat_spec in Hv. subst. tauto.
  - rewrite visited_upd. replace (visited_of (repeat Unvisited (length g))) with (repeat false (length g)).
    + apply fuel_init. auto.
    + unfold visited_of. clear. induction (length g); simpl; congruence.
Qed.
End Search.
