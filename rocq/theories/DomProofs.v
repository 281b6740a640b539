From Coq Require Import List Bool Arith Lia Permutation.
From Verif Require Import ListUtil GraphModel GraphSpec GraphProofs DomModel DomSpec.
Import ListNotations.

Definition get (idom : list (option nat)) (v : nat) : option nat := nth v idom None.
Lemma get_upd : forall idom v x u, v < length idom -> get (upd idom v x) u = if u =? v then x else get idom u.
Proof.
  intros. unfold get. rewrite nth_upd. destruct (Nat.eqb_spec u v) as [->|N].
  - rewrite Nat.eqb_refl. destruct (Nat.ltb_spec v (length idom)); [auto|lia].
  - destruct (Nat.eqb_spec v u); auto. congruence.
Qed.
Lemma upd_get : forall idom v d, get idom v = Some d -> upd idom v (Some d) = idom.
Proof. unfold get. induction idom as [|a l IH]; intros [|v] d H; simpl in *; auto; try discriminate; [subst; auto|rewrite IH; auto]. Qed.
Lemma get_range : forall idom v, get idom v <> None -> v < length idom.
Proof. intros. destruct (lt_dec v (length idom)); auto. unfold get in H. rewrite nth_overflow in H by lia. congruence. Qed.
Lemma rd_get : forall idom v, v < length idom -> rd idom v = Val (get idom v).
Proof. intros. apply rd_val. unfold get. apply nth_error_nth'. auto. Qed.

(** ** Trees given by the immediate dominators *)
Section Tree.
Variable g : graph.
Variable entry : nat.
Variable rank : nat -> nat.
Notation R := (reach g entry).
Hypothesis rank_inj : forall u v, R u -> R v -> rank u = rank v -> u = v.
Hypothesis forward : forall v, R v -> v <> entry -> exists u, edge g u v /\ R u /\ rank u < rank v.

Inductive anc (idom : list (option nat)) : nat -> nat -> Prop :=
| anc_self : forall v, anc idom v v
| anc_up : forall x v d, v <> entry -> get idom v = Some d -> anc idom x d -> anc idom x v.

Record tree (idom : list (option nat)) : Prop := {
  tr_entry : get idom entry = Some entry;
  tr_reach : forall v, get idom v <> None -> R v;
  tr_up : forall v d, get idom v = Some d -> v <> entry -> rank d < rank v /\ get idom d <> None
}.

Section Facts.
Variable idom : list (option nat).
Hypothesis T : tree idom.
Notation id := (get idom).

Lemma anc_rank : forall x v, anc idom x v -> id v <> None -> id x <> None /\ (x = v \/ rank x < rank v).
Proof.
  intros x v H. induction H; intros K; auto.
  destruct (tr_up _ T _ _ H0 H) as [L K']. destruct (IHanc K') as [K2 D]. split; auto. right. destruct D as [->|D]; lia.
Qed.
Lemma anc_le : forall x v, anc idom x v -> id v <> None -> rank x <= rank v.
Proof. intros x v H K. destruct (anc_rank _ _ H K) as [_ [->|L]]; lia. Qed.
Lemma anc_known : forall x v, anc idom x v -> id v <> None -> id x <> None.
Proof. intros x v H K. apply (anc_rank _ _ H K). Qed.
Lemma anc_lt : forall x v, anc idom x v -> id v <> None -> x <> v -> rank x < rank v.
Proof. intros x v H K N. destruct (anc_rank _ _ H K) as [_ [->|L]]; congruence. Qed.
Lemma anc_trans : forall x y z, anc idom x y -> anc idom y z -> anc idom x z.
Proof. intros x y z H1 H2. induction H2; auto. eapply anc_up; eauto. Qed.
Lemma anc_inv : forall x v d, anc idom x v -> x <> v -> id v = Some d -> v <> entry /\ anc idom x d.
Proof. intros x v d H N E. inversion H; subst; [congruence|]. split; auto. congruence. Qed.
Lemma anc_linear : forall x y w, anc idom x w -> anc idom y w -> id w <> None -> rank x <= rank y -> anc idom x y.
Proof.
  intros x y w Hx Hy. revert x Hx. induction Hy as [|y w d N E Hy IH]; intros x Hx K L; auto.
  destruct (tr_up _ T _ _ E N) as [L' K']. pose proof (anc_le _ _ Hy K').
  destruct (Nat.eq_dec x w) as [->|Ne]; [lia|]. destruct (anc_inv _ _ _ Hx Ne E). auto.
Qed.
Lemma anc_dec : forall x v, id v <> None -> anc idom x v \/ ~ anc idom x v.
Proof.
  intros x v. remember (rank v) as k. revert v Heqk. induction k as [k IH] using lt_wf_ind. intros v -> K.
  destruct (Nat.eq_dec x v) as [->|N]; [left; constructor|].
  destruct (Nat.eq_dec v entry) as [->|NE]; [right; intros H; inversion H; congruence|].
  destruct (id v) as [d|] eqn:E; [|congruence]. destruct (tr_up _ T _ _ E NE) as [L K'].
  destruct (IH _ L d eq_refl K') as [H|H]; [left; eapply anc_up; eauto|right]. intros H'. destruct (anc_inv _ _ _ H' N E). auto.
Qed.
Lemma anc_entry : forall v, id v <> None -> anc idom entry v.
Proof.
  intros v. remember (rank v) as k. revert v Heqk. induction k as [k IH] using lt_wf_ind. intros v -> K.
  destruct (Nat.eq_dec v entry) as [->|NE]; [constructor|].
  destruct (id v) as [d|] eqn:E; [|congruence]. destruct (tr_up _ T _ _ E NE) as [L K']. eapply anc_up; eauto.
Qed.
End Facts.

(** Changing the parent of [v]. *)
Section Change.
Variable idom : list (option nat).
Hypothesis T : tree idom.
Variables v d : nat.
Hypothesis Hlen : v < length idom.
Hypothesis Hd : rank d < rank v.
Hypothesis Kd : get idom d <> None.
Hypothesis Rv : R v.
Hypothesis Nv : v <> entry.
Notation idom' := (upd idom v (Some d)).

Lemma get' : forall u, get idom' u = if u =? v then Some d else get idom u.
Proof. intros. apply get_upd. auto. Qed.
Lemma get'_v : get idom' v = Some d.
Proof. rewrite get', Nat.eqb_refl. auto. Qed.
Lemma get'_other : forall u, u <> v -> get idom' u = get idom u.
Proof. intros. rewrite get'. destruct (Nat.eqb_spec u v); congruence. Qed.
Lemma known' : forall u, get idom u <> None -> get idom' u <> None.
Proof. intros u H. rewrite get'. destruct (u =? v); auto. discriminate. Qed.

Lemma tree' : tree idom'.
Proof.
  constructor.
  - rewrite get'_other by auto. apply T.
  - intros u H. destruct (Nat.eq_dec u v) as [->|N]; auto. rewrite get'_other in H by auto. apply T; auto.
  - intros u e E N. destruct (Nat.eq_dec u v) as [->|N'].
    + rewrite get'_v in E. inversion E; subst e. split; auto. apply known'; auto.
    + rewrite get'_other in E by auto. destruct (tr_up _ T _ _ E N). split; auto. apply known'; auto.
Qed.
Lemma seg : forall x w, anc idom x w -> get idom w <> None -> rank v <= rank x -> anc idom' x w.
Proof.
  intros x w H. induction H as [|x w e N E H IH]; intros K L; [constructor|].
  destruct (tr_up _ T _ _ E N) as [L' K']. pose proof (anc_le _ T _ _ H K'). assert (w <> v) by (intros ->; lia).
  eapply anc_up; eauto. rewrite get'_other; auto.
Qed.
Lemma seg_back : forall x w, anc idom' x w -> get idom' w <> None -> rank v <= rank x -> anc idom x w.
Proof.
  intros x w H. induction H as [|x w e N E H IH]; intros K L; [constructor|].
  destruct (tr_up _ tree' _ _ E N) as [L' K']. pose proof (anc_le _ tree' _ _ H K'). assert (w <> v) by (intros ->; lia).
  rewrite get'_other in E by auto. eapply anc_up; eauto.
Qed.
Lemma off : forall x w, anc idom x w -> ~ anc idom v w -> anc idom' x w.
Proof.
  intros x w H. induction H as [|x w e N E H IH]; intros K; [constructor|].
  assert (w <> v) by (intros ->; apply K; constructor).
  eapply anc_up; [auto|rewrite get'_other; eauto|]. apply IH. intros F. apply K. eapply anc_up; eauto.
Qed.
Lemma off_d : forall x, anc idom x d -> anc idom' x d.
Proof. intros x H. apply off; auto. intros F. pose proof (anc_le _ T _ _ F Kd). lia. Qed.
Lemma mono : (forall o, get idom v = Some o -> anc idom d o) -> forall x w, anc idom' x w -> get idom w <> None -> anc idom x w.
Proof.
  intros Ho x w H. induction H as [|x w e N E H IH]; intros K; [constructor|].
  destruct (Nat.eq_dec w v) as [->|Ne].
  - rewrite get'_v in E. inversion E; subst e. destruct (get idom v) as [o|] eqn:Eo; [|congruence].
    eapply anc_up; [auto|eauto|]. eapply anc_trans; [apply IH; auto|auto].
  - rewrite get'_other in E by auto. destruct (tr_up _ T _ _ E N). eapply anc_up; eauto.
Qed.
End Change.

(** ** Paths staying at or after a rank *)
Inductive ext (k x : nat) : list nat -> nat -> Prop :=
| ext_nil : ext k x [] x
| ext_step : forall l v w, ext k x l v -> edge g v w -> k <= rank w -> ext k x (l ++ [w]) w.

Lemma ext_weaken : forall k k' x l w, ext k x l w -> k' <= k -> ext k' x l w.
Proof. intros k k' x l w H L. induction H; econstructor; eauto. lia. Qed.
Lemma ext_app : forall k x l y l' w, ext k x l y -> ext k y l' w -> ext k x (l ++ l') w.
Proof. intros k x l y l' w H1 H2. induction H2; [rewrite app_nil_r; auto|]. rewrite app_assoc. econstructor; eauto. Qed.
Lemma ext_path : forall k x l' w l, path g entry l x -> ext k x l' w -> path g entry (l ++ l') w.
Proof. intros k x l' w l H1 H2. induction H2; [rewrite app_nil_r; auto|]. rewrite app_assoc. econstructor; eauto. Qed.
Lemma ext_in : forall k x l w y, ext k x l w -> In y l -> k <= rank y.
Proof. intros k x l w y H. induction H; simpl; intros Hy; [tauto|]. apply in_app_or in Hy. destruct Hy as [Hy|[<-|[]]]; auto. Qed.

Definition dom (a b : nat) : Prop := on_every_path g entry a b.

Record inv (i : nat) (idom : list (option nat)) : Prop := {
  i_tree : tree idom;
  i_known : forall v, R v -> rank v < i -> get idom v <> None;
  i_down : forall w q, get idom w <> None -> R q -> rank q < rank w -> get idom q <> None;
  i_low : forall a w, dom a w -> get idom w <> None -> anc idom a w;
  i_path : forall w d, w <> entry -> get idom w = Some d -> exists l, ext (rank d) d l w;
  i_post : forall w d, w <> entry -> get idom w = Some d -> forall x, (forall p, edge g p w -> get idom p <> None -> anc idom x p) -> anc idom x d;
  i_todo : forall w z q, w <> entry -> get idom w <> None -> anc idom z w -> z <> w -> i <= rank z -> edge g q w -> R q -> rank q < rank w -> anc idom z q;
  i_done : forall w d q, w <> entry -> rank w < i -> get idom w = Some d -> edge g q w -> R q -> rank q < rank w -> anc idom d q
}.

Lemma anc_ext : forall i idom, inv i idom -> forall x w, anc idom x w -> get idom w <> None -> exists l, ext (rank x) x l w.
Proof.
  intros i idom I x w H. induction H as [|x w d N E H IH]; intros K; [exists []; constructor|].
  destruct (tr_up _ (i_tree _ _ I) _ _ E N) as [L K']. destruct (IH K') as (l & X). destruct (i_path _ _ I _ _ N E) as (l' & X').
  exists (l ++ l'). eapply ext_app; eauto. eapply ext_weaken; eauto. eapply anc_le; eauto. apply I.
Qed.

(** The nearest common ancestor of the known predecessors. *)
Definition meet (idom : list (option nat)) (v d : nat) : Prop :=
  (forall p, edge g p v -> get idom p <> None -> anc idom d p) /\
  (forall x, (forall p, edge g p v -> get idom p <> None -> anc idom x p) -> anc idom x d).

Lemma step_old : forall i idom v d, inv i idom -> v <> entry -> meet idom v d -> forall o, get idom v = Some o -> anc idom d o.
Proof. intros i idom v d I N [M _] o E. apply (i_post _ _ I v o N E). auto. Qed.

Lemma step_pred : forall i idom v, inv i idom -> R v -> rank v = i -> v <> entry -> exists q, edge g q v /\ R q /\ rank q < rank v /\ get idom q <> None.
Proof. intros i idom v I Rv Ev N. destruct (forward v Rv N) as (q & H1 & H2 & H3). exists q. repeat split; auto. apply I; auto. lia. Qed.

Lemma step_ok : forall i idom v d, inv i idom -> R v -> rank v = i -> v <> entry -> v < length idom -> meet idom v d ->
  inv (S i) (upd idom v (Some d)) /\ rank d < rank v.
Proof.
  intros i idom v d I Rv Ev N Lv M. pose proof (i_tree _ _ I) as T.
  destruct (step_pred _ _ _ I Rv Ev N) as (q & Eq & Rq & Lq & Kq).
  pose proof (proj1 M q Eq Kq) as Dq. pose proof (anc_known _ T _ _ Dq Kq) as Kd. pose proof (anc_le _ T _ _ Dq Kq).
  assert (Ld : rank d < rank v) by lia. split; auto.
  pose proof (step_old _ _ _ _ I N M) as Old.
  pose proof (tree' _ T v d Lv Ld Kd Rv N) as T'.
  assert (Seg : forall x w, anc idom x w -> get idom w <> None -> rank v <= rank x -> anc (upd idom v (Some d)) x w) by (intros; eapply seg; eauto).
  assert (Back : forall x w, anc (upd idom v (Some d)) x w -> get (upd idom v (Some d)) w <> None -> rank v <= rank x -> anc idom x w) by (intros; eapply seg_back; eauto).
  assert (Off : forall x w, anc idom x w -> ~ anc idom v w -> anc (upd idom v (Some d)) x w) by (intros; eapply off; eauto).
  assert (Offd : forall x, anc idom x d -> anc (upd idom v (Some d)) x d) by (intros; eapply off_d; eauto).
  assert (Mono : forall x w, anc (upd idom v (Some d)) x w -> get idom w <> None -> anc idom x w) by (intros; apply (mono idom T v d); auto).
  pose proof (known' _ v d Lv) as Known.
  pose proof (get'_v _ v d Lv) as Gv. pose proof (get'_other _ v d Lv) as Go.
  set (idom' := upd idom v (Some d)) in *.
  assert (Low : forall a, dom a v -> anc idom' a v).
  { intros a Ha. destruct (Nat.eq_dec a v) as [->|Na]; [constructor|]. eapply anc_up; [auto|eauto|]. apply Offd. apply (proj2 M).
    intros p Ep Kp. apply (i_low _ _ I); auto. intros l Hl. specialize (Ha (l ++ [v]) (path_step _ _ _ _ _ Hl Ep)).
    apply in_app_or in Ha. destruct Ha as [Ha|[Ha|[]]]; auto. congruence. }
  assert (Kdec : forall w, get idom' w <> None -> w = v \/ get idom w <> None).
  { intros w K. destruct (Nat.eq_dec w v); auto. rewrite Go in K by auto. auto. }
  constructor; auto.
  - intros u Ru Lu. destruct (Nat.eq_dec u v) as [->|Nu]; [rewrite Gv; discriminate|]. apply Known. apply I; auto.
    destruct (Nat.eq_dec (rank u) i); [|lia]. exfalso. apply Nu. apply rank_inj; auto. congruence.
  - intros w q' K Rq' L. apply Known. destruct (Kdec _ K) as [->|K']; [apply (i_known _ _ I); auto; lia|]. eapply (i_down _ _ I); eauto.
  - intros a w Ha K. destruct (Nat.eq_dec w v) as [->|Nw]; auto. rewrite Go in K by auto.
    pose proof (i_low _ _ I _ _ Ha K) as A. destruct (anc_dec _ T v w K) as [Vw|Vw]; [|apply Off; auto].
    destruct (le_dec (rank v) (rank a)); [apply Seg; auto|].
    assert (dom a v).
    { intros l Hl. destruct (anc_ext _ _ I _ _ Vw K) as (l' & X). specialize (Ha _ (ext_path _ _ _ _ _ Hl X)).
      apply in_app_or in Ha. destruct Ha as [Ha|Ha]; auto. pose proof (ext_in _ _ _ _ _ X Ha). lia. }
    eapply anc_trans; [apply Low; auto|]. apply Seg; auto.
  - intros w e Nw E. destruct (Nat.eq_dec w v) as [->|Nv].
    + rewrite Gv in E. inversion E; subst e. destruct (anc_ext _ _ I _ _ Dq Kq) as (l & X). exists (l ++ [v]). econstructor; eauto. lia.
    + rewrite Go in E by auto. eapply (i_path _ _ I); eauto.
  - intros w e Nw E x H'. destruct (Nat.eq_dec w v) as [->|Nv].
    + rewrite Gv in E. inversion E; subst e. apply Offd. apply (proj2 M). intros p Ep Kp. apply Mono; auto.
    + rewrite Go in E by auto. assert (Kw : get idom w <> None) by congruence. destruct (tr_up _ T _ _ E Nw) as [Le Ke].
      assert (A : anc idom x e). { apply (i_post _ _ I w e Nw E). intros p Ep Kp. apply Mono; auto. }
      destruct (anc_dec _ T v e Ke) as [Ve|Ve]; [|apply Off; auto].
      destruct (le_dec (rank v) (rank x)); [apply Seg; auto|].
      assert (Vw : anc idom v w) by (eapply anc_up; eauto).
      destruct (forward w (tr_reach _ T _ Kw) Nw) as (q' & Eq' & Rq' & Lq'). pose proof (i_down _ _ I _ _ Kw Rq' Lq') as Kq'.
      assert (Vq : anc idom v q').
      { apply (i_todo _ _ I w v q'); auto. lia. }
      eapply anc_trans; [|apply Seg; eauto].
      apply (anc_linear _ T' x v q'); auto. lia.
  - intros w z q' Nw K A Nz L Eq' Rq' Lq'. destruct (Nat.eq_dec w v) as [->|Nv].
    + pose proof (anc_lt _ T' _ _ A K Nz). lia.
    + pose proof K as K0. rewrite Go in K by auto. apply Seg; [|eapply (i_down _ _ I); eauto|lia].
      apply (i_todo _ _ I w z q'); auto; try lia.
  - intros w e q' Nw L E Eq' Rq' Lq'. destruct (Nat.eq_dec w v) as [->|Nv].
    + rewrite Gv in E. inversion E; subst e. assert (Kq' : get idom q' <> None) by (apply (i_known _ _ I); auto; lia).
      apply Off; [apply (proj1 M); auto|]. intros F. pose proof (anc_le _ T _ _ F Kq'). lia.
    + rewrite Go in E by auto. assert (rank w <> i).
      { intros F. apply Nv. apply rank_inj; auto; [apply T; congruence|congruence]. }
      assert (Kq' : get idom q' <> None) by (apply (i_known _ _ I); auto; lia).
      apply Off; [apply (i_done _ _ I w e q'); auto; lia|]. intros F. pose proof (anc_le _ T _ _ F Kq'). lia.
Qed.

Lemma inv_restart : forall n idom, inv n idom -> (forall v, R v -> rank v < n) -> inv 0 idom.
Proof.
  intros n idom I Hn. pose proof (i_tree _ _ I) as T. constructor; try apply I; try (intros; lia).
  intros w z q Nw K A Nz _ Eq Rq Lq. destruct (get idom w) as [d|] eqn:E; [|congruence].
  destruct (anc_inv _ _ _ _ A Nz E) as [_ A']. eapply anc_trans; eauto.
  eapply (i_done _ _ I); eauto. apply Hn. apply T. congruence.
Qed.

(** A state every node of which is its own recomputation gives exactly the dominators. *)
Lemma fixpoint_ok : forall i idom, inv i idom -> (forall v, R v -> get idom v <> None) ->
  (forall v, R v -> v <> entry -> exists d, get idom v = Some d /\ meet idom v d) ->
  forall a v, R v -> (anc idom a v <-> dom a v).
Proof.
  intros i idom I F M a v Rv. split; [|intros H; apply (i_low _ _ I); auto].
  intros A l Hl. revert a A. induction Hl as [|l u w Hl IH E]; intros a A.
  - inversion A; subst; simpl; auto.
  - apply in_or_app. destruct (Nat.eq_dec a w) as [->|N]; [right; simpl; auto|left].
    assert (Ru : R u). { clear - Hl. induction Hl; [constructor|econstructor; eauto]. }
    destruct (Nat.eq_dec w entry) as [->|Nw]; [inversion A; subst; congruence|].
    destruct (M w Rv Nw) as (d & Ed & M1 & _). destruct (anc_inv _ _ _ _ A N Ed) as [_ A'].
    apply IH; auto. eapply anc_trans; eauto.
Qed.
End Tree.
