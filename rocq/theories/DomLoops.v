From Coq Require Import List Bool Arith Lia Permutation.
From Verif Require Import ListUtil GraphModel GraphSpec GraphProofs DomModel DomSpec DomProofs.
Import ListNotations.

(** ** Predecessors *)
Definition preds_of (preds : list (list nat)) (v : nat) : list nat := nth v preds [].

Lemma add_predecessors_ok : forall u targets preds, (forall v, In v targets -> v < length preds) ->
  exists preds', add_predecessors u targets preds = Val preds' /\ length preds' = length preds /\
  forall v p, In p (preds_of preds' v) <-> In p (preds_of preds v) \/ (p = u /\ In v targets).
Proof.
  induction targets as [|t ts IH]; intros preds B.
  - exists preds. simpl. repeat split; auto. intros [H|[_ []]]; auto.
  - assert (Lt : t < length preds) by (apply B; simpl; auto). simpl.
    rewrite (rd_val _ _ _ _ (nth_error_nth' preds [] Lt)). simpl. rewrite wr_val by auto. simpl.
    destruct (IH (upd preds t (nth t preds [] ++ [u]))) as (preds' & E & L & H); [intros v Hv; rewrite upd_length; apply B; simpl; auto|].
    exists preds'. rewrite upd_length in L. repeat split; auto; rewrite H; unfold preds_of; rewrite nth_upd.
    + destruct (Nat.eqb_spec t v) as [->|N]; intros [H'|H']; try tauto.
      destruct (Nat.ltb_spec v (length preds)); auto. apply in_app_or in H'. simpl in H'. intuition.
    + destruct (Nat.eqb_spec t v) as [->|N].
      * destruct (Nat.ltb_spec v (length preds)); [|lia]. intros [H'|[-> _]]; left; apply in_or_app; simpl; auto.
      * intros [H'|[-> [H'|H']]]; auto. congruence.
Qed.

Lemma all_predecessors_ok : forall ss u preds, (forall i targets v, nth_error ss i = Some targets -> In v targets -> v < length preds) ->
  exists preds', all_predecessors u ss preds = Val preds' /\ length preds' = length preds /\
  forall v p, In p (preds_of preds' v) <-> In p (preds_of preds v) \/ exists i targets, nth_error ss i = Some targets /\ p = u + i /\ In v targets.
Proof.
  induction ss as [|ts ss IH]; intros u preds B.
  - exists preds. simpl. repeat split; auto. intros [H|(i & t & H & _)]; auto. destruct i; discriminate.
  - simpl. destruct (add_predecessors_ok u ts preds) as (p1 & E1 & L1 & H1); [intros v; apply (B 0 ts v); auto|]. rewrite E1. simpl.
    destruct (IH (S u) p1) as (p2 & E2 & L2 & H2); [intros i t v Hi; rewrite L1; apply (B (S i) t v); auto|].
    exists p2. split; [auto|]. split; [congruence|]. intros v p. rewrite H2, H1. split.
    + intros [[H|[-> H]]|(i & t & Hi & -> & H)]; auto.
      * right. exists 0, ts. repeat split; auto.
      * right. exists (S i), t. repeat split; auto. lia.
    + intros [H|([|i] & t & Hi & -> & H)]; auto.
      * simpl in Hi. inversion Hi; subst t. left. right. split; auto.
      * right. exists i, t. repeat split; auto. lia.
Qed.

(** ** Ranks *)
Fixpoint index_in (l : list nat) (v : nat) : nat :=
  match l with
  | [] => 0
  | x :: l' => if x =? v then 0 else S (index_in l' v)
  end.
Lemma index_nth : forall l v, In v l -> nth_error l (index_in l v) = Some v.
Proof. induction l as [|x l IH]; simpl; intros v H; [tauto|]. destruct (Nat.eqb_spec x v) as [->|N]; auto. apply IH. tauto. Qed.
Lemma index_unique : forall l i v, NoDup l -> nth_error l i = Some v -> index_in l v = i.
Proof. intros l i v N H. eapply nodup_nth; eauto. apply index_nth. eapply nth_error_In; eauto. Qed.
Lemma index_lt : forall l v, In v l -> index_in l v < length l.
Proof. intros l v H. eapply range_of. apply index_nth; auto. Qed.

Lemma number_order_ok : forall order i idx, NoDup order -> (forall v, In v order -> v < length idx) ->
  exists idx', number_order i order idx = Val idx' /\ length idx' = length idx /\
  (forall v, In v order -> get idx' v = Some (i + index_in order v)) /\ (forall v, ~ In v order -> get idx' v = get idx v).
Proof.
  induction order as [|x order IH]; intros i idx N B.
  - exists idx. simpl. repeat split; auto. tauto.
  - inversion N; subst. assert (Lx : x < length idx) by (apply B; simpl; auto). simpl. rewrite wr_val by auto. simpl.
    destruct (IH (S i) (upd idx x (Some i))) as (idx' & E & L & H & H'); [auto|intros v Hv; rewrite upd_length; apply B; simpl; auto|].
    exists idx'. rewrite upd_length in L. split; [auto|]. split; [auto|]. split.
    + intros v Hv. destruct (Nat.eqb_spec x v) as [->|Ne].
      * rewrite H' by auto. rewrite get_upd, Nat.eqb_refl by auto. f_equal. lia.
      * rewrite H by tauto. f_equal. lia.
    + intros v Hv. rewrite H' by tauto. rewrite get_upd by auto. destruct (Nat.eqb_spec v x); auto. subst. tauto.
Qed.

(** ** The children lists *)
Lemma link_ok : forall nodes idom ch, (forall v, In v nodes -> exists d, get idom v = Some d /\ d < length ch) -> (forall v, In v nodes -> v < length idom) ->
  exists ch', link_children nodes idom ch = Val ch' /\ length ch' = length ch /\
  forall a, nth a ch' [] = nth a ch [] ++ filter (fun v => match get idom v with Some d => d =? a | None => false end) nodes.
Proof.
  induction nodes as [|v nodes IH]; intros idom ch H B; cbn [link_children].
  - exists ch. repeat split; auto. intros a. rewrite app_nil_r. auto.
  - destruct (H v) as (d & E & L); [simpl; auto|]. rewrite rd_get by (apply B; simpl; auto). rewrite E. cbn [bind expect].
    rewrite (rd_val _ _ _ _ (nth_error_nth' ch [] L)). cbn [bind]. rewrite wr_val by auto. cbn [bind].
    destruct (IH idom (upd ch d (nth d ch [] ++ [v]))) as (ch' & E' & L' & F).
    { intros u Hu. rewrite upd_length. apply H. simpl. auto. } { intros; apply B; simpl; auto. }
    exists ch'. rewrite upd_length in L'. split; auto. split; auto. intros a. rewrite F. cbn [filter]. rewrite E, nth_upd.
    destruct (Nat.eqb_spec d a) as [->|N]; auto. destruct (Nat.ltb_spec a (length ch)); [|lia]. rewrite <- app_assoc. auto.
Qed.

(** ** The fixed point computation *)
Section Run.
Variable g : graph.
Hypothesis W : well_formed g.
Variable entry : nat.
Hypothesis Le : entry < length g.
Notation R := (reach g entry).
Variable order : list nat.
Hypothesis O_nodup : NoDup order.
Hypothesis O_in : forall v, In v order <-> R v.
Hypothesis O_hd : hd_error order = Some entry.
Hypothesis O_forward : forall v, In v order -> v <> entry -> exists u, edge g u v /\ before order u v.
Definition rank : nat -> nat := index_in order.
Notation n := (length g).
Variable preds : list (list nat).
Hypothesis P_len : length preds = n.
Hypothesis P_in : forall v p, In p (preds_of preds v) <-> edge g p v.
Variable idx : list (option nat).
Hypothesis X_len : length idx = n.
Hypothesis X_in : forall v, R v -> get idx v = Some (rank v).

Lemma rank_nth : forall v, R v -> nth_error order (rank v) = Some v.
Proof. intros v H. apply index_nth. apply O_in. auto. Qed.
Lemma rank_inj : forall u v, R u -> R v -> rank u = rank v -> u = v.
Proof. intros u v Hu Hv E. apply rank_nth in Hu, Hv. congruence. Qed.
Lemma rank_before : forall u v, before order u v -> rank u < rank v.
Proof. intros u v (i & j & L & H1 & H2). unfold rank. rewrite (index_unique _ _ _ O_nodup H1), (index_unique _ _ _ O_nodup H2). auto. Qed.
Lemma forward : forall v, R v -> v <> entry -> exists u, edge g u v /\ R u /\ rank u < rank v.
Proof.
  intros v Hv N. destruct (O_forward v) as (u & E & B); [apply O_in; auto|auto|]. exists u. split; auto. split; [|apply rank_before; auto].
  apply O_in. apply (before_in _ _ _ _ B).
Qed.
Lemma rank_entry : rank entry = 0.
Proof. apply index_unique; auto. Qed.
Lemma in_g : forall v, R v -> v < n.
Proof. intros. eapply reach_range; eauto. Qed.
Lemma order_len : length order <= n.
Proof.
  rewrite <- (seq_length n 0). apply NoDup_incl_length; auto. intros v Hv. apply in_seq. apply O_in, in_g in Hv. lia.
Qed.
Lemma rank_lt : forall v, R v -> rank v < length order.
Proof. intros v H. eapply range_of. apply rank_nth; auto. Qed.
Lemma rank_n : forall v, R v -> rank v < n.
Proof. intros v H. pose proof (rank_lt v H). pose proof order_len. lia. Qed.

Notation anc := (anc entry).
Notation tree := (tree g entry rank).
Notation inv := (inv g entry rank).
Notation meet := (meet g entry).

Section Meet.
Variable idom : list (option nat).
Hypothesis T : tree idom.
Hypothesis I_len : length idom = n.
Notation K v := (get idom v <> None).
Lemma K_R : forall v, K v -> R v.
Proof. apply T. Qed.
Lemma rd_idx : forall v, K v -> rd idx v = Val (Some (rank v)).
Proof. intros v H. apply K_R in H. rewrite rd_get by (rewrite X_len; apply in_g; auto). rewrite X_in; auto. Qed.

Lemma climb_ok : forall fuel from towards, K from -> K towards -> rank from < fuel ->
  exists r, climb fuel idx idom from towards = Val r /\ K r /\ anc idom r from /\ rank r <= rank towards /\
  (forall x, anc idom x from -> rank x <= rank towards -> anc idom x r) /\ (rank from <= rank towards -> r = from).
Proof.
  induction fuel as [|f IH]; intros from towards K1 K2 L; [lia|]. cbn [climb].
  rewrite rd_idx by auto. rewrite rd_idx by auto. cbn [bind index_gt].
  destruct (Nat.ltb_spec (rank towards) (rank from)).
  - rewrite rd_get by (rewrite I_len; apply in_g, K_R; auto). destruct (get idom from) as [d|] eqn:E; [|congruence]. cbn [bind expect].
    assert (Ne : from <> entry). { intros ->. rewrite rank_entry in *. lia. }
    destruct (tr_up _ _ _ _ T _ _ E Ne) as [L' Kd]. destruct (IH d towards) as (r & E' & Kr & A & L2 & U & _); auto; try lia.
    exists r. split; auto. split; auto. split; [eapply anc_up; eauto|]. split; auto. split; [|lia].
    intros x Hx Lx. assert (x <> from) by (intros ->; lia). apply U; auto. eapply (anc_inv entry idom); eauto.
  - exists from. repeat split; auto; try lia. constructor.
Qed.

Lemma intersect_ok : forall fuel l r, K l -> K r -> rank l + rank r < fuel ->
  exists m, intersect_dominator_paths fuel l r idom idx = Val m /\ K m /\ anc idom m l /\ anc idom m r /\
  (forall x, anc idom x l -> anc idom x r -> anc idom x m).
Proof.
  induction fuel as [|f IH]; intros l r Kl Kr L; [lia|]. cbn [intersect_dominator_paths].
  destruct (Nat.eqb_spec l r) as [->|N]; [exists r; repeat split; auto; constructor|].
  pose proof (rank_n l (K_R _ Kl)). pose proof (rank_n r (K_R _ Kr)).
  destruct (climb_ok (S (length idom)) l r) as (l' & E1 & K1 & A1 & L1 & U1 & S1); auto; [lia|]. rewrite E1. cbn [bind].
  destruct (climb_ok (S (length idom)) r l') as (r' & E2 & K2 & A2 & L2 & U2 & S2); auto; [lia|]. rewrite E2. cbn [bind].
  pose proof (anc_le _ _ _ _ T _ _ A1 Kl). pose proof (anc_le _ _ _ _ T _ _ A2 Kr).
  assert (rank l <> rank r) by (intros F; apply N; apply rank_inj; auto using K_R).
  destruct (IH l' r') as (m & E & Km & M1 & M2 & U); auto.
  { destruct (le_dec (rank l) (rank r)); [|lia]. rewrite (S1 ltac:(lia)) in *. lia. }
  exists m. split; [auto|]. split; [auto|]. split; [apply (anc_trans entry idom m l' l); auto|]. split; [apply (anc_trans entry idom m r' r); auto|].
  intros x X1 X2. pose proof (anc_le _ _ _ _ T _ _ X1 Kl). pose proof (anc_le _ _ _ _ T _ _ X2 Kr).
  assert (X3 : anc idom x l') by (apply U1; auto). pose proof (anc_le _ _ _ _ T _ _ X3 K1). apply U; auto.
Qed.

Lemma known_ok : forall ps, (forall p, In p ps -> p < n) -> exists known, known_predecessors ps idom = Val known /\
  forall p, In p known <-> In p ps /\ K p.
Proof.
  induction ps as [|p ps IH]; intros B; [exists []; simpl; split; auto; tauto|]. cbn [known_predecessors].
  rewrite rd_get by (rewrite I_len; apply B; simpl; auto). destruct IH as (known & E & H); [intros; apply B; simpl; auto|]. rewrite E. cbn [bind].
  destruct (get idom p) eqn:Ep; eexists; (split; [reflexivity|]); intros q; simpl; specialize (H q).
  - intuition (subst; auto; congruence).
  - intuition (subst; auto; congruence).
Qed.

Lemma intersect_all_ok : forall rest d, K d -> (forall p, In p rest -> K p) ->
  exists m, intersect_all rest d idom idx = Val m /\ K m /\ anc idom m d /\ (forall p, In p rest -> anc idom m p) /\
  (forall x, anc idom x d -> (forall p, In p rest -> anc idom x p) -> anc idom x m).
Proof.
  induction rest as [|p rest IH]; intros d Kd B; cbn [intersect_all].
  - exists d. repeat split; auto; [constructor|simpl; tauto].
  - assert (Kp : K p) by (apply B; simpl; auto). pose proof (rank_n p (K_R _ Kp)). pose proof (rank_n d (K_R _ Kd)).
    destruct (intersect_ok (S (2 * length idom)) p d) as (m & E & Km & M1 & M2 & U); auto; [lia|]. rewrite E. cbn [bind].
    destruct (IH m) as (m' & E' & Km' & N1 & N2 & U'); auto; [intros; apply B; simpl; auto|]. exists m'. split; auto. split; auto.
    split; [eapply anc_trans; eauto|]. split.
    + intros q [<-|Q]; auto. eapply anc_trans; eauto.
    + intros x Xd Xp. apply U'; [apply U; auto; apply Xp; simpl; auto|]. intros q Q. apply Xp. simpl. auto.
Qed.
End Meet.

(** The sum of the ranks of the dominators, an unknown one counting [n]. *)
Definition weight (o : option nat) : nat := match o with Some d => rank d | None => n end.
Definition measure (idom : list (option nat)) : nat := fold_right (fun o s => weight o + s) 0 idom.
Lemma measure_upd : forall idom v x, v < length idom -> measure (upd idom v x) + weight (get idom v) = measure idom + weight x.
Proof.
  unfold get. induction idom as [|a l IH]; intros [|v] x L; cbn [upd measure fold_right nth length] in *; try lia.
  change (fold_right (fun o s => weight o + s) 0) with measure in *. specialize (IH v x ltac:(lia)). unfold weight in *. lia.
Qed.

Lemma recompute_ok : forall i idom v changed, inv i idom -> length idom = n -> R v -> rank v = i -> v <> entry ->
  exists idom' changed', recompute preds idx v idom changed = Val (idom', changed') /\ inv (S i) idom' /\ length idom' = n /\
  (changed' = false -> changed = false /\ idom' = idom /\ exists d, get idom v = Some d /\ meet idom v d) /\
  measure idom' <= measure idom /\ (changed' = true -> changed = true \/ measure idom' < measure idom).
Proof.
  intros i idom v changed I IL Rv Ev Nv. pose proof (i_tree _ _ _ _ _ I) as T. unfold recompute.
  pose proof (in_g v Rv) as Lv. assert (Lp : v < length preds) by lia.
  rewrite (rd_val _ _ _ _ (nth_error_nth' preds [] Lp)). cbn [bind]. change (nth v preds []) with (preds_of preds v).
  destruct (known_ok idom IL (preds_of preds v)) as (known & E & H).
  { intros p Hp. apply P_in in Hp. eapply edge_src; eauto. }
  rewrite E. cbn [bind].
  destruct (step_pred g entry rank forward i idom v I Rv Ev Nv) as (q & Eq & Rq & Lq & Kq).
  destruct known as [|first rest].
  { exfalso. assert (F : In q []) by (apply H; split; [apply P_in|]; auto). destruct F. }
  destruct (intersect_all_ok idom T IL rest first) as (d & Ed & Kd & A1 & A2 & U).
  { apply H. simpl. auto. } { intros p Hp. apply H. simpl. auto. }
  rewrite Ed. cbn [bind]. rewrite rd_get by lia. cbn [bind].
  assert (M : meet idom v d).
  { split.
    - intros p Ep Kp. assert (F : In p (first :: rest)) by (apply H; split; [apply P_in|]; auto). destruct F as [<-|F]; auto.
    - intros x Hx. apply U; [|intros p Hp]; apply Hx; try (apply P_in; apply H; simpl; auto); apply H; simpl; auto. }
  destruct (step_ok g entry rank rank_inj forward i idom v d I Rv Ev Nv ltac:(lia) M) as [I' Ld].
  pose proof (step_old g entry rank i idom v d I Nv M) as Old.
  pose proof (measure_upd idom v (Some d) ltac:(lia)) as Mu.
  destruct (get idom v) as [o|] eqn:Eo; [destruct (Nat.eqb_spec o d) as [->|Ne]|].
  - exists idom, changed. rewrite (upd_get _ _ _ Eo) in I'. split; auto. split; auto. split; auto. split.
    + intros ->. split; [auto|]. split; [auto|]. exists d. split; auto.
    + split; auto.
  - rewrite wr_val by lia. eexists _, _. split; [reflexivity|]. split; auto. rewrite upd_length. split; auto. split; [discriminate|].
    pose proof (tr_up _ _ _ _ T _ _ Eo Nv) as [Lo Ko]. pose proof (anc_lt _ _ _ _ T _ _ (Old o eq_refl) Ko ltac:(congruence)).
    simpl in Mu. split; [lia|]. right. lia.
  - rewrite wr_val by lia. eexists _, _. split; [reflexivity|]. split; auto. rewrite upd_length. split; auto. split; [discriminate|].
    pose proof (rank_n d (tr_reach _ _ _ _ T _ Kd)). simpl in Mu. split; [lia|]. right. lia.
Qed.

Lemma skipn_nth : forall A (l : list A) i, i < length l -> exists x, nth_error l i = Some x /\ skipn i l = x :: skipn (S i) l.
Proof. induction l as [|a l IH]; intros [|i] H; simpl in *; try lia; eauto. apply IH. lia. Qed.

Lemma one_pass_ok : forall k i idom changed, k = length order - i -> 1 <= i <= length order -> inv i idom -> length idom = n ->
  exists idom' changed', one_pass preds idx (skipn i order) idom changed = Val (idom', changed') /\ inv (length order) idom' /\ length idom' = n /\
  (changed' = false -> changed = false /\ idom' = idom /\ forall v, In v (skipn i order) -> exists d, get idom v = Some d /\ meet idom v d) /\
  measure idom' <= measure idom /\ (changed' = true -> changed = true \/ measure idom' < measure idom).
Proof.
  induction k as [|k IH]; intros i idom changed Hk Hi I IL.
  - assert (i = length order) by lia. subst i. rewrite skipn_all. simpl. exists idom, changed. split; auto. split; auto. split; auto. split; [|split; auto]. intros C. split; auto. split; auto. intros v [].
  - destruct (skipn_nth _ order i) as (v & Hv & ->); [lia|]. cbn [one_pass].
    assert (Ev : rank v = i) by (apply index_unique; auto). assert (Rv : R v) by (apply O_in; eapply nth_error_In; eauto).
    assert (Nv : v <> entry) by (intros ->; rewrite rank_entry in Ev; lia).
    destruct (recompute_ok i idom v changed I IL Rv Ev Nv) as (id1 & c1 & E1 & I1 & L1 & C1 & M1 & D1). rewrite E1. cbn [bind].
    destruct (IH (S i) id1 c1) as (id2 & c2 & E2 & I2 & L2 & C2 & M2 & D2); auto; try lia.
    exists id2, c2. split; auto. split; auto. split; auto. split; [|split; [lia|]].
    + intros F. destruct (C2 F) as (F1 & -> & H2). destruct (C1 F1) as (F0 & -> & H1). split; auto. split; auto. intros u [<-|Hu]; auto.
    + intros F. destruct (D2 F) as [F1|F1]; [|right; lia]. destruct (D1 F1) as [F0|F0]; auto. right. lia.
Qed.

Lemma inv_again : forall idom, inv (length order) idom -> inv 1 idom.
Proof.
  intros idom I. pose proof (inv_restart _ _ _ _ _ I rank_lt) as J. constructor; try apply J.
  - intros v Rv _. apply I; auto. apply rank_lt; auto.
  - intros w z q Nw Kw A Nz _. apply (i_todo _ _ _ _ _ J); auto. lia.
  - intros w d q Nw Lw E. exfalso. apply Nw. apply rank_inj; [apply (i_tree _ _ _ _ _ I); congruence|apply O_in; destruct order; simpl in *; inversion O_hd; auto|]. rewrite rank_entry. lia.
Qed.

Lemma order_pos : 1 <= length order.
Proof. destruct order; simpl in *; [discriminate|lia]. Qed.
Lemma tl_skipn : forall A (l : list A), tl l = skipn 1 l.
Proof. destruct l; auto. Qed.

Definition final (idom : list (option nat)) : Prop :=
  length idom = n /\ tree idom /\ (forall v, R v -> get idom v <> None) /\ forall a v, R v -> (anc idom a v <-> on_every_path g entry a v).

Lemma passes_ok : forall fuel idom, inv 1 idom -> length idom = n -> measure idom < fuel ->
  exists idom', passes fuel preds idx (tl order) idom = Val idom' /\ final idom'.
Proof.
  rewrite tl_skipn. induction fuel as [|f IH]; intros idom I L M; [lia|]. cbn [passes].
  pose proof order_pos.
  destruct (one_pass_ok _ 1 idom false eq_refl ltac:(lia) I L) as (idom' & c & E & I' & L' & C & M' & D). rewrite E. cbn [bind].
  destruct c.
  - destruct (D eq_refl) as [F|F]; [discriminate|]. apply IH; auto; [apply inv_again; auto|lia].
  - exists idom'. split; auto. destruct (C eq_refl) as (_ & -> & H'). split; auto. split; [apply I'|].
    assert (Kn : forall v, R v -> get idom v <> None). { intros v Rv. apply I'; auto. apply rank_lt; auto. }
    split; auto. apply (fixpoint_ok g entry rank rank_inj (length order) idom I'); auto.
    intros v Rv Nv. apply H'. rewrite <- tl_skipn. apply O_in in Rv. destruct order as [|x l]; simpl in *; [tauto|]. inversion O_hd; subst. destruct Rv; congruence.
Qed.

Lemma get_repeat : forall k v, get (repeat None k) v = None.
Proof. intros. apply nth_repeat_any. Qed.
Lemma inv_init : inv 1 (upd (repeat None n) entry (Some entry)).
Proof.
  assert (G : forall v, get (upd (repeat None n) entry (Some entry)) v = if v =? entry then Some entry else None).
  { intros v. rewrite get_upd by (rewrite repeat_length; auto). rewrite get_repeat. auto. }
  assert (K : forall v, get (upd (repeat None n) entry (Some entry)) v <> None -> v = entry).
  { intros v H. rewrite G in H. destruct (Nat.eqb_spec v entry); congruence. }
  assert (K' : forall v d, get (upd (repeat None n) entry (Some entry)) v = Some d -> v = entry) by (intros; apply K; congruence).
  constructor.
  - constructor.
    + rewrite G, Nat.eqb_refl. auto.
    + intros v H. rewrite (K v H). constructor.
    + intros v d E N. apply K' in E. congruence.
  - intros v Rv L. assert (v = entry) as ->; [|rewrite G, Nat.eqb_refl; discriminate]. apply rank_inj; auto; [constructor|]. rewrite rank_entry. lia.
  - intros w q H Rq L. rewrite (K _ H), rank_entry in L. lia.
  - intros a w D H. pose proof (K _ H). subst w. destruct (D [entry] (path_here _ _)) as [<-|[]]. constructor.
  - intros w d N E. apply K' in E. congruence.
  - intros w d N E. apply K' in E. congruence.
  - intros w z q N H. apply K in H. congruence.
  - intros w d q N L E. apply K' in E. congruence.
Qed.
Lemma measure_init : measure (upd (repeat None n) entry (Some entry)) <= n * n.
Proof.
  pose proof (measure_upd (repeat None n) entry (Some entry) ltac:(rewrite repeat_length; auto)) as M. rewrite get_repeat in M. simpl in M. rewrite rank_entry in M.
  assert (F : forall k, measure (repeat None k) = k * n). { induction k; simpl; auto. } rewrite F in M. lia.
Qed.

(** ** Numbering the tree *)
Section Number.
Variable idom : list (option nat).
Hypothesis F : final idom.
Variable ch : list (list nat).
Hypothesis C_len : length ch = n.
Hypothesis C_nodup : forall a, NoDup (nth a ch []).
Hypothesis C_in : forall a v, In v (nth a ch []) <-> R v /\ v <> entry /\ get idom v = Some a.

Let T : tree idom := proj1 (proj2 F).
Let Kn : forall v, R v -> get idom v <> None := proj1 (proj2 (proj2 F)).

Record num (D : list nat) (t t' : nat) (pre post pre' post' : list (option nat)) : Prop := {
  m_len1 : length pre' = length pre;
  m_len2 : length post' = length post;
  m_out : forall x, ~ In x D -> get pre' x = get pre x /\ get post' x = get post x;
  m_in : forall x, In x D -> exists p q, get pre' x = Some p /\ get post' x = Some q /\ t <= p /\ p < q /\ q < t';
  m_cmp : forall a b pa qa pb qb, In a D -> In b D -> get pre' a = Some pa -> get post' a = Some qa -> get pre' b = Some pb -> get post' b = Some qb ->
    (anc idom a b <-> pa <= pb /\ qb <= qa);
  m_t : t' = t + 2 * length D;
  m_nodup : NoDup D
}.

Definition visits (v : nat) : Prop := forall pre post t stack, length pre = n -> length post = n ->
  exists D t' pre' post', (forall f, number_tree (2 * length D + f) ch pre post t ((v, false) :: stack) = number_tree f ch pre' post' t' stack) /\
  num D t t' pre post pre' post' /\ forall x, In x D <-> R x /\ anc idom v x.

Lemma siblings : forall a c c' x, In c (nth a ch []) -> In c' (nth a ch []) -> R x -> anc idom c x -> anc idom c' x -> c = c'.
Proof.
  intros a c c' x H H' Rx A A'. apply C_in in H, H'. destruct H as (Rc & Nc & E). destruct H' as (Rc' & Nc' & E').
  assert (G : forall c c', R c -> R c' -> c <> entry -> c' <> entry -> get idom c = Some a -> get idom c' = Some a -> anc idom c x -> anc idom c' x -> rank c <= rank c' -> c = c').
  { clear - T Kn Rx. intros c c' Rc Rc' Nc Nc' E E' A A' L. pose proof (anc_linear _ _ _ _ T _ _ _ A A' (Kn _ Rx) L) as B.
    destruct (Nat.eq_dec c c'); auto. exfalso. destruct (anc_inv _ _ _ _ _ B n E') as [_ B'].
    destruct (tr_up _ _ _ _ T _ _ E Nc) as [L' K']. pose proof (anc_le _ _ _ _ T _ _ B' K'). lia. }
  destruct (le_dec (rank c) (rank c')); [eapply G; eauto|symmetry; eapply G; eauto; lia].
Qed.

Lemma num_app : forall D1 D2 t t1 t2 pre post pre1 post1 pre2 post2,
  num D1 t t1 pre post pre1 post1 -> num D2 t1 t2 pre1 post1 pre2 post2 ->
  (forall a b, In a D1 -> In b D2 -> ~ anc idom a b /\ ~ anc idom b a) -> num (D1 ++ D2) t t2 pre post pre2 post2.
Proof.
  intros D1 D2 t t1 t2 pre post pre1 post1 pre2 post2 N1 N2 X.
  pose proof (m_t _ _ _ _ _ _ _ N1). pose proof (m_t _ _ _ _ _ _ _ N2).
  assert (Dis : forall x, In x D1 -> ~ In x D2). { intros x H1 H2. apply (X x x H1 H2). constructor. }
  assert (In1 : forall x, In x D1 -> exists p q, get pre2 x = Some p /\ get post2 x = Some q /\ get pre1 x = Some p /\ get post1 x = Some q /\ t <= p /\ p < q /\ q < t1).
  { intros x Hx. destruct (m_in _ _ _ _ _ _ _ N1 x Hx) as (p & q & E1 & E2 & L). destruct (m_out _ _ _ _ _ _ _ N2 x (Dis x Hx)) as [-> ->]. exists p, q. tauto. }
  constructor.
  - rewrite (m_len1 _ _ _ _ _ _ _ N2). apply N1.
  - rewrite (m_len2 _ _ _ _ _ _ _ N2). apply N1.
  - intros x Hx. destruct (m_out _ _ _ _ _ _ _ N2 x) as [-> ->]; [intros F'; apply Hx, in_or_app; auto|].
    apply (m_out _ _ _ _ _ _ _ N1). intros F'. apply Hx, in_or_app. auto.
  - intros x Hx. apply in_app_or in Hx. destruct Hx as [Hx|Hx].
    + destruct (In1 x Hx) as (p & q & E1 & E2 & _ & _ & L). exists p, q. repeat split; try tauto; lia.
    + destruct (m_in _ _ _ _ _ _ _ N2 x Hx) as (p & q & E1 & E2 & L). exists p, q. repeat split; try tauto; lia.
  - intros a b pa qa pb qb Ha Hb Ea Eqa Eb Eqb. apply in_app_or in Ha, Hb. destruct Ha as [Ha|Ha], Hb as [Hb|Hb].
    + destruct (In1 a Ha) as (p & q & E1 & E2 & E3 & E4 & _). destruct (In1 b Hb) as (p' & q' & E1' & E2' & E3' & E4' & _).
      apply (m_cmp _ _ _ _ _ _ _ N1); auto; congruence.
    + destruct (In1 a Ha) as (p & q & E1 & E2 & E3 & E4 & L). destruct (m_in _ _ _ _ _ _ _ N2 b Hb) as (p' & q' & E1' & E2' & L').
      assert (pa = p) by congruence. assert (qa = q) by congruence. assert (pb = p') by congruence. assert (qb = q') by congruence. subst.
      destruct (X a b Ha Hb). split; [tauto|lia].
    + destruct (In1 b Hb) as (p & q & E1 & E2 & E3 & E4 & L). destruct (m_in _ _ _ _ _ _ _ N2 a Ha) as (p' & q' & E1' & E2' & L').
      assert (pb = p) by congruence. assert (qb = q) by congruence. assert (pa = p') by congruence. assert (qa = q') by congruence. subst.
      destruct (X b a Hb Ha). split; [tauto|lia].
    + apply (m_cmp _ _ _ _ _ _ _ N2); auto.
  - rewrite app_length. lia.
  - pose proof (m_nodup _ _ _ _ _ _ _ N1) as U1. pose proof (m_nodup _ _ _ _ _ _ _ N2) as U2. clear - Dis U1 U2. induction U1 as [|x D1 Hx U1 IH]; simpl; auto. constructor.
    + intros H. apply in_app_or in H. destruct H as [H|H]; auto. apply (Dis x); simpl; auto.
    + apply IH. intros y Hy. apply Dis. simpl. auto.
Qed.

Lemma visit_list : forall cs, NoDup cs -> (exists a, forall c, In c cs -> In c (nth a ch [])) -> (forall c, In c cs -> visits c) ->
  forall pre post t stack, length pre = n -> length post = n ->
  exists D t' pre' post', (forall f, number_tree (2 * length D + f) ch pre post t (map (fun c => (c, false)) cs ++ stack) = number_tree f ch pre' post' t' stack) /\
  num D t t' pre post pre' post' /\ forall x, In x D <-> R x /\ exists c, In c cs /\ anc idom c x.
Proof.
  induction cs as [|c cs IH]; intros U (a & Ha) V pre post t stack L1 L2.
  - exists [], t, pre, post. split; [intros; auto|]. split; [|simpl; split; [tauto|intros (_ & c & [] & _)]].
    constructor; simpl; auto; try tauto; constructor.
  - inversion U; subst. destruct (V c (or_introl eq_refl) pre post t (map (fun c => (c, false)) cs ++ stack) L1 L2) as (D1 & t1 & pre1 & post1 & E1 & N1 & I1).
    pose proof (m_len1 _ _ _ _ _ _ _ N1). pose proof (m_len2 _ _ _ _ _ _ _ N1).
    destruct (IH H2 (ex_intro _ a (fun c Hc => Ha c (or_intror Hc))) (fun c Hc => V c (or_intror Hc)) pre1 post1 t1 stack) as (D2 & t2 & pre2 & post2 & E2 & N2 & I2); try congruence.
    exists (D1 ++ D2), t2, pre2, post2. split; [|split].
    + intros f. rewrite app_length. replace (2 * (length D1 + length D2) + f) with (2 * length D1 + (2 * length D2 + f)) by lia.
      cbn [map app]. rewrite E1, E2. auto.
    + eapply num_app; eauto. intros x y Hx Hy. apply I1 in Hx. apply I2 in Hy. destruct Hx as [Rx Ax]. destruct Hy as (Ry & c' & Hc' & Ay).
      split; intros B.
      * assert (c = c'); [|congruence]. eapply (siblings a c c' y); eauto; [apply Ha; simpl; auto|apply Ha; simpl; auto|eapply anc_trans; eauto].
      * assert (c = c'); [|congruence]. eapply (siblings a c c' x); eauto; [apply Ha; simpl; auto|apply Ha; simpl; auto|eapply anc_trans; eauto].
    + intros x. rewrite in_app_iff, I1, I2. split.
      * intros [[Rx A]|(Rx & c' & Hc & A)]; (split; auto); [exists c|exists c']; simpl; auto.
      * intros (Rx & c' & [<-|Hc] & A); [left|right]; split; auto. exists c'. auto.
Qed.

Lemma stack_push : forall (cs : list nat) st, fold_left (fun stack child => (child, false) :: stack) (rev cs) st = map (fun c => (c, false)) cs ++ st.
Proof. intros cs st. rewrite <- fold_left_rev_right, rev_involutive. induction cs as [|c cs IH]; simpl; auto. rewrite IH. auto. Qed.

Lemma visit_ok : forall v, R v -> visits v.
Proof.
  intros v. remember (n - rank v) as k. revert v Heqk. induction k as [k IH] using lt_wf_ind. intros v Hk Rv pre post t stack L1 L2.
  pose proof (in_g v Rv) as Lv. pose proof (rank_n v Rv) as Lr.
  assert (Sub : forall c, In c (nth v ch []) -> visits c /\ R c /\ anc idom v c /\ rank v < rank c).
  { intros c Hc. apply C_in in Hc. destruct Hc as (Rc & Nc & E). destruct (tr_up _ _ _ _ T _ _ E Nc) as [L _].
    split; [|split; [auto|split; [eapply anc_up; eauto; constructor|auto]]]. pose proof (rank_n c Rc). eapply (IH (n - rank c)); eauto. lia. }
  destruct (visit_list (nth v ch []) (C_nodup v) (ex_intro _ v (fun c Hc => Hc)) (fun c Hc => proj1 (Sub c Hc)) (upd pre v (Some t)) post (S t) ((v, true) :: stack))
    as (D & t1 & pre1 & post1 & E & N & I); [rewrite upd_length; auto|auto|].
  pose proof (m_len1 _ _ _ _ _ _ _ N) as M1. rewrite upd_length in M1. pose proof (m_len2 _ _ _ _ _ _ _ N) as M2. pose proof (m_t _ _ _ _ _ _ _ N) as Mt.
  assert (Nv : ~ In v D).
  { intros H. apply I in H. destruct H as (_ & c & Hc & A). destruct (Sub c Hc) as (_ & Rc & _ & L). pose proof (anc_le _ _ _ _ T _ _ A (Kn _ Rv)). lia. }
  assert (Below : forall x, In x D -> anc idom v x). { intros x Hx. apply I in Hx. destruct Hx as (_ & c & Hc & A). eapply anc_trans; eauto. apply Sub; auto. }
  assert (Gpre : get pre1 v = Some t). { rewrite (proj1 (m_out _ _ _ _ _ _ _ N v Nv)), get_upd, Nat.eqb_refl by lia. auto. }
  assert (Gpost : forall x, get (upd post1 v (Some t1)) x = if x =? v then Some t1 else get post1 x) by (intros; apply get_upd; lia).
  exists (v :: D), (S t1), pre1, (upd post1 v (Some t1)). split; [|split].
  - intros f. replace (2 * length (v :: D) + f) with (S (2 * length D + S f)) by (cbn [length]; lia). cbn [number_tree].
    rewrite wr_val by lia. cbn [bind]. assert (Lc : v < length ch) by lia. rewrite (rd_val _ _ _ _ (nth_error_nth' ch [] Lc)). cbn [bind].
    rewrite stack_push, E. cbn [number_tree]. rewrite wr_val by lia. auto.
  - constructor.
    + lia.
    + rewrite upd_length. lia.
    + intros x Hx. simpl in Hx. rewrite Gpost. destruct (Nat.eqb_spec x v) as [->|Ne]; [tauto|].
      destruct (m_out _ _ _ _ _ _ _ N x) as [-> ->]; [tauto|]. rewrite get_upd by lia. destruct (Nat.eqb_spec x v); [congruence|auto].
    + intros x [<-|Hx].
      * exists t, t1. rewrite Gpost, Nat.eqb_refl. repeat split; auto; lia.
      * rewrite Gpost. destruct (Nat.eqb_spec x v) as [->|Ne]; [tauto|]. destruct (m_in _ _ _ _ _ _ _ N x Hx) as (p & q & E1 & E2 & L). exists p, q. repeat split; try tauto; lia.
    + intros a b pa qa pb qb Ha Hb Ea Eqa Eb Eqb. rewrite Gpost in Eqa, Eqb.
      assert (Rng : forall x p q, In x D -> get pre1 x = Some p -> get post1 x = Some q -> S t <= p /\ p < q /\ q < t1).
      { intros x p q Hx E1 E2. destruct (m_in _ _ _ _ _ _ _ N x Hx) as (p' & q' & E1' & E2' & L). assert (p = p') by congruence. assert (q = q') by congruence. subst. auto. }
      destruct Ha as [<-|Ha], Hb as [<-|Hb].
      * split; [intros _|intros _; constructor]. split; assert (pa = pb) by congruence; assert (qa = qb) by congruence; lia.
      * rewrite Nat.eqb_refl in Eqa. destruct (Nat.eqb_spec b v) as [->|Ne]; [tauto|]. assert (pa = t) by congruence. assert (qa = t1) by congruence. subst pa qa.
        destruct (Rng b pb qb Hb Eb Eqb) as (? & ? & ?). split; [lia|auto].
      * rewrite Nat.eqb_refl in Eqb. destruct (Nat.eqb_spec a v) as [->|Ne]; [tauto|]. assert (pb = t) by congruence. assert (qb = t1) by congruence. subst pb qb.
        destruct (Rng a pa qa Ha Ea Eqa) as (? & ? & ?). split; [|lia]. intros A. exfalso. apply Ne.
        pose proof (Below a Ha) as B. assert (Ra : R a) by (apply I; auto). pose proof (anc_le _ _ _ _ T _ _ A (Kn _ Rv)). pose proof (anc_le _ _ _ _ T _ _ B (Kn _ Ra)). apply rank_inj; auto. lia.
      * destruct (Nat.eqb_spec a v) as [->|Ne1]; [tauto|]. destruct (Nat.eqb_spec b v) as [->|Ne2]; [tauto|]. apply (m_cmp _ _ _ _ _ _ _ N); auto.
    + cbn [length]. lia.
    + constructor; auto. apply N.
  - intros x. simpl. rewrite I. split.
    + intros [<-|(Rx & c & Hc & A)]; [split; auto; constructor|]. split; auto. eapply anc_trans; eauto. apply Sub; auto.
    + intros [Rx A]. destruct (Nat.eq_dec v x) as [->|Ne]; auto. right. split; auto.
      (* the child of v above x *)
      clear - A Ne Rx C_in T Kn. induction A as [|v x d Nx E A IH]; [congruence|].
      destruct (Nat.eq_dec v d) as [->|Nd]; [exists x; split; [apply C_in; auto|constructor]|].
      assert (Rd : R d). { apply T. apply (tr_up _ _ _ _ T _ _ E Nx). }
      destruct (IH Rd Nd) as (c & Hc & B). exists c. split; auto. eapply anc_up; eauto.
Qed.

Lemma number_ok : exists pre post, number_tree (S (2 * n)) ch (repeat None n) (repeat None n) 0 [(entry, false)] = Val (pre, post) /\
  length pre = n /\ length post = n /\
  (forall x, ~ R x -> get pre x = None) /\
  (forall x, R x -> exists p q, get pre x = Some p /\ get post x = Some q) /\
  (forall a b pa qa pb qb, R a -> R b -> get pre a = Some pa -> get post a = Some qa -> get pre b = Some pb -> get post b = Some qb ->
    (anc idom a b <-> pa <= pb /\ qb <= qa)).
Proof.
  destruct (visit_ok entry (reach_here _ _) (repeat None n) (repeat None n) 0 [] (repeat_length _ _) (repeat_length _ _)) as (D & t' & pre & post & E & N & I).
  assert (I' : forall x, In x D <-> R x). { intros x. rewrite I. split; [tauto|]. intros Rx. split; auto. apply (anc_entry g entry rank); auto. }
  assert (Ln : length D <= n).
  { rewrite <- (seq_length n 0). apply NoDup_incl_length; [apply N|]. intros v Hv. apply in_seq. apply I', in_g in Hv. lia. }
  exists pre, post. split; [|split; [|split; [|split; [|split]]]].
  - replace (S (2 * n)) with (2 * length D + S (2 * (n - length D))) by lia. rewrite E. auto.
  - rewrite (m_len1 _ _ _ _ _ _ _ N). apply repeat_length.
  - rewrite (m_len2 _ _ _ _ _ _ _ N). apply repeat_length.
  - intros x Hx. rewrite (proj1 (m_out _ _ _ _ _ _ _ N x ltac:(rewrite I'; auto))). apply get_repeat.
  - intros x Hx. apply I' in Hx. destruct (m_in _ _ _ _ _ _ _ N x Hx) as (p & q & E1 & E2 & _). eauto.
  - intros a b pa qa pb qb Ra Rb. apply (m_cmp _ _ _ _ _ _ _ N); apply I'; auto.
Qed.
End Number.

(** The parents are the immediate dominators. *)
Lemma parent_ok : forall idom, final idom -> forall a v, R v -> v <> entry -> (get idom v = Some a <-> immediate_dominator g entry a v).
Proof.
  intros idom (L & T & Kn & H) a v Rv Nv. destruct (get idom v) as [d|] eqn:E; [|destruct (Kn v Rv E)].
  destruct (tr_up _ _ _ _ T _ _ E Nv) as [Ld Kd]. assert (Rd : R d) by (apply T; auto).
  assert (Up : forall c, c <> v -> on_every_path g entry c v -> anc idom c d).
  { intros c Nc D. apply H in D; auto. eapply anc_inv; eauto. }
  assert (Dd : on_every_path g entry d v). { apply H; auto. eapply anc_up; eauto. constructor. }
  assert (Nd : d <> v) by (intros ->; lia).
  split.
  - intros EQ. inversion EQ; subst a. split; auto. split; auto. intros c Nc D. apply H; auto.
  - intros (Na & Da & Ma). f_equal. pose proof (Up a Na Da) as A1. pose proof (anc_known _ _ _ _ T _ _ A1 Kd) as Ka. assert (Ra : R a) by (apply T; auto).
    assert (A2 : anc idom d a) by (apply H; auto).
    pose proof (anc_le _ _ _ _ T _ _ A1 Kd). pose proof (anc_le _ _ _ _ T _ _ A2 Ka). apply rank_inj; auto. lia.
Qed.
End Run.

Theorem dominance_ok : forall g : graph, well_formed g -> forall entry, entry < length g ->
  exists d, dominance_of g entry = Val d /\
  (forall v, v < length g -> exists b, is_reachable d v = Val b /\ (b = true <-> reach g entry v)) /\
  (forall a b, a < length g -> b < length g -> exists r, dominates d a b = Val r /\
     (r = true <-> reach g entry a /\ reach g entry b /\ on_every_path g entry a b)) /\
  (forall a, a < length g -> exists cs, children_of d a = Val cs /\ NoDup cs /\
     forall b, In b cs <-> reach g entry b /\ immediate_dominator g entry a b).
Proof.
  intros g W entry Le. destruct (reverse_postorder_ok g W entry Le) as (order & EO & ON & OI & OH & _ & OF).
  destruct (all_predecessors_ok g 0 (repeat [] (length g))) as (preds & EP & PL & PI).
  { intros i targets v Hi Hv. rewrite repeat_length. apply (W i v). exists targets. auto. }
  rewrite repeat_length in PL.
  assert (PI' : forall v p, In p (preds_of preds v) <-> edge g p v).
  { intros v p. rewrite PI. unfold preds_of. rewrite nth_repeat_any. split.
    - intros [[]|(i & ts & Hi & -> & Hv)]. exists ts. auto.
    - intros (ts & Hi & Hv). right. exists p, ts. auto. }
  destruct (number_order_ok order 0 (repeat None (length g)) ON) as (idx & EX & XL & XI & _).
  { intros v Hv. rewrite repeat_length. eapply reach_range; eauto. apply OI. auto. }
  rewrite repeat_length in XL.
  assert (XI' : forall v, reach g entry v -> get idx v = Some (rank order v)). { intros v Hv. rewrite XI; [auto|]. apply OI. auto. }
  destruct (passes_ok g W entry Le order ON OI OH OF preds PL PI' idx XL XI' (S (S (length g) * length g)) (upd (repeat None (length g)) entry (Some entry)))
    as (idom & EI & F).
  { eapply inv_init; eauto. } { rewrite upd_length. apply repeat_length. }
  { eapply Nat.le_lt_trans; [eapply measure_init; eauto|simpl; lia]. }
  pose proof F as (IL & T & Kn & H).
  assert (Tl : forall v, In v (tl order) <-> reach g entry v /\ v <> entry).
  { intros v. rewrite <- OI. destruct order as [|x l]; simpl in *; [discriminate|]. inversion OH; subst x. inversion ON; subst. split.
    - intros Hv. split; auto. intros ->. auto.
    - intros [[<-|Hv] Nv]; auto. congruence. }
  destruct (link_ok (tl order) idom (repeat [] (length g))) as (ch & EC & CL & CI).
  { intros v Hv. apply Tl in Hv. destruct Hv as [Rv Nv]. destruct (get idom v) as [d|] eqn:E; [|destruct (Kn v Rv E)]. exists d. split; auto.
    rewrite repeat_length. eapply reach_range; eauto. apply T. apply (tr_up _ _ _ _ T _ _ E Nv). }
  { intros v Hv. apply Tl in Hv. rewrite IL. eapply reach_range; eauto. apply Hv. }
  rewrite repeat_length in CL.
  assert (CI' : forall a v, In v (nth a ch []) <-> reach g entry v /\ v <> entry /\ get idom v = Some a).
  { intros a v. rewrite CI, nth_repeat_any. simpl. rewrite filter_In, Tl. destruct (get idom v) as [d|]; [|split; [intros [_ ?]; discriminate|intros (_ & _ & ?); discriminate]].
    rewrite Nat.eqb_eq. split; [intros [[? ?] ->]; auto|]. intros (? & ? & EQ). inversion EQ. auto. }
  assert (CN : forall a, NoDup (nth a ch [])).
  { intros a. rewrite CI, nth_repeat_any. simpl. apply NoDup_filter. destruct order; simpl; auto. inversion ON; auto. }
  assert (NUM := number_ok). specialize (NUM g W entry Le order ON OI). edestruct NUM as (pre & post & EN & L1 & L2 & U & V & Cmp); eauto. clear NUM.
  assert (PAR : forall a v, reach g entry v -> v <> entry -> (get idom v = Some a <-> immediate_dominator g entry a v)) by (eapply (parent_ok g entry Le order); eauto).
  exists (mkDominance ch pre post). split; [|split; [|split]].
  - unfold dominance_of. rewrite EP. cbn [bind]. rewrite EO. cbn [bind]. rewrite EX. cbn [bind]. rewrite wr_val by (rewrite repeat_length; auto). cbn [bind].
    rewrite EI. cbn [bind]. rewrite EC. cbn [bind]. rewrite EN. auto.
  - intros v Lv. unfold is_reachable. cbn [preorder]. rewrite rd_get by lia. cbn [bind]. eexists. split; [reflexivity|].
    assert (D : reach g entry v \/ ~ reach g entry v). { rewrite <- OI. destruct (in_dec Nat.eq_dec v order); auto. }
    destruct D as [D|D]; [destruct (V v D) as (p & q & -> & _); tauto|rewrite (U v D); split; [discriminate|tauto]].
  - intros a b La Lb. unfold dominates, is_reachable. cbn [preorder postorder]. rewrite !rd_get by lia. cbn [bind].
    assert (Da : reach g entry a \/ ~ reach g entry a). { rewrite <- OI. destruct (in_dec Nat.eq_dec a order); auto. }
    assert (Db : reach g entry b \/ ~ reach g entry b). { rewrite <- OI. destruct (in_dec Nat.eq_dec b order); auto. }
    destruct Da as [Da|Da]; [|rewrite (U a Da); simpl; exists false; split; auto; split; [discriminate|tauto]].
    destruct Db as [Db|Db]; [|rewrite (U b Db); destruct (get pre a); simpl; exists false; split; auto; (split; [discriminate|tauto])].
    destruct (V a Da) as (pa & qa & Ea & Eqa). destruct (V b Db) as (pb & qb & Eb & Eqb). rewrite Ea, Eb, Eqa, Eqb. cbn [bind negb index_le index_gt].
    pose proof (Cmp a b pa qa pb qb Da Db Ea Eqa Eb Eqb) as C. rewrite (H a b Db) in C.
    unfold index_le, index_gt. destruct (Nat.ltb_spec pb pa); cbn [negb]; eexists; (split; [reflexivity|]).
    + split; [discriminate|]. intros (_ & _ & D). apply C in D. lia.
    + destruct (Nat.ltb_spec qa qb); cbn [negb].
      * split; [discriminate|]. intros (_ & _ & D). apply C in D. lia.
      * split; auto. intros _. split; auto. split; auto. apply C. lia.
  - intros a La. unfold children_of. cbn [children]. assert (Lc : a < length ch) by lia. rewrite (rd_val _ _ _ _ (nth_error_nth' ch [] Lc)). eexists. split; [reflexivity|]. split; [auto|].
    intros b. rewrite CI'. split.
    + intros (Rb & Nb & E). split; auto. apply PAR; auto.
    + intros (Rb & ID). split; auto. assert (Nb : b <> entry).
      { intros ->. destruct ID as (Na & D & _). destruct (D [entry] (path_here _ _)) as [<-|[]]. congruence. }
      split; auto. apply PAR; auto.
Qed.
