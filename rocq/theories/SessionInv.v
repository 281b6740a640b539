(** The invariant of the module table and its preservation by one compilation step. *)
From Coq Require Import List Bool Arith ZArith Lia.
From Verif Require Import ListUtil GraphModel GraphSpec GraphProofs SessionModel SessionProofs.
Import ListNotations.

Definition built_at (ms : list entry) (i n : nat) : Prop :=
  exists e deps from, nth_error ms i = Some e /\ stale e = false /\ rev e = Some (Built deps from n).
Definition acyclic (g : graph) : Prop := forall u v, edge g u v -> ~ reach g v u.
Definition origin (e : entry) : option (nat * uses) := option_map (fun s => (source_id s, src_uses s)) (src e).

Record inv (ms : list entry) (clk : nat) : Prop := mkInv {
  inv_wf : well_formed (deps_of ms);
  inv_acyclic : acyclic (deps_of ms);
  inv_stale : forall u v, edge (deps_of ms) u v -> is_stale ms v -> is_stale ms u;
  inv_fresh : forall i e, nth_error ms i = Some e -> stale e = false ->
    last_error e = false /\ exists stamp, rev e = Some (Built (latest_deps e) (origin e) stamp) /\ stamp < clk;
  inv_order : forall i j n, built_at ms i n -> edge (deps_of ms) i j -> exists m, built_at ms j m /\ m < n
}.

(** Modules outside [E] that are stale have a reason to be. *)
Definition justified (E : list nat) (ms : list entry) : Prop := forall i e, nth_error ms i = Some e -> stale e = true -> src e <> None -> ~ In i E ->
  last_error e = true \/ exists j, edge (deps_of ms) i j /\ is_stale ms j.
(** Modules outside [E] have the source and uses they should have. *)
Definition keeps (E : list nat) (W : nat -> option src_info) (ms : list entry) : Prop := forall i e, nth_error ms i = Some e -> ~ In i E -> src e = W i.

Lemma stale_or_fresh : forall ms i, i < length ms -> is_stale ms i \/ is_fresh ms i.
Proof. intros ms i H. destruct (in_range _ ms i H) as (e & E). destruct (stale e) eqn:S; [left|right]; exists e; auto. Qed.
Lemma not_both : forall ms i, is_stale ms i -> is_fresh ms i -> False.
Proof. intros ms i (e & A & B) (f & C & D). congruence. Qed.

Lemma edge_upd_other : forall g t ds u v, u <> t -> edge (upd g t ds) u v <-> edge g u v.
Proof. intros. unfold edge. rewrite nth_error_upd_other by auto. tauto. Qed.
Lemma edge_upd_same : forall g t ds v, t < length g -> edge (upd g t ds) t v <-> In v ds.
Proof.
  intros. unfold edge. rewrite nth_error_upd_same by auto. split; [intros (ss & A & B); inversion A; subst; auto|eauto].
Qed.
Lemma reach_upd : forall g t ds a b, reach (upd g t ds) a b -> reach g a b \/ (reach (upd g t ds) a t /\ reach (upd g t ds) t b).
Proof.
  intros g t ds a b H. induction H as [|v w H IH E].
  - left. constructor.
  - destruct (Nat.eq_dec v t) as [->|N].
    + right. split; auto. apply reach_edge; auto.
    + destruct IH as [IH|(A & B)].
      * left. econstructor; eauto. apply edge_upd_other in E; auto.
      * right. split; auto. econstructor; eauto.
Qed.
Lemma edge_app : forall (g ex : graph) u v, edge g u v -> edge (g ++ ex) u v.
Proof. intros g ex u v (ss & A & B). exists ss. split; auto. rewrite nth_error_app1; auto. eapply range_of; eauto. Qed.
Lemma reach_app : forall (g ex : graph) u v, reach g u v -> reach (g ++ ex) u v.
Proof. intros g ex u v H. induction H; [constructor|econstructor; eauto; apply edge_app; auto]. Qed.

Lemma acyclic_upd : forall g t ds ex, acyclic g -> t < length g ->
  (forall v w, reach (upd g t ds ++ ex) t v -> edge (upd g t ds ++ ex) v w -> ~ reach (upd g t ds ++ ex) w v) -> acyclic (upd g t ds).
Proof.
  intros g t ds ex A L C u v E R. destruct (Nat.eq_dec u t) as [->|N].
  - apply (C t v); [constructor|apply edge_app; auto|apply reach_app; auto].
  - destruct (reach_upd _ _ _ _ _ R) as [R'|(R1 & R2)].
    + apply edge_upd_other in E; auto. eapply A; eauto.
    + apply (C u v); [apply reach_app; auto|apply edge_app; auto|apply reach_app; auto].
Qed.

Lemma graph_from_ok : forall ms k t ds, graph_from k ms t ds = if k <=? t then upd (deps_of ms) (t - k) ds else deps_of ms.
Proof.
  induction ms as [|e ms IH]; intros k t ds; simpl.
  - destruct (k <=? t); auto.
  - rewrite IH. destruct (Nat.eqb_spec k t) as [->|N].
    + rewrite Nat.leb_refl, Nat.sub_diag. destruct (Nat.leb_spec (S t) t); [lia|reflexivity].
    + destruct (Nat.leb_spec k t), (Nat.leb_spec (S k) t); try lia; auto. replace (t - k) with (S (t - S k)) by lia. reflexivity.
Qed.
Lemma cycle_check : forall ms t ds has_old, well_formed (deps_of ms) -> acyclic (deps_of ms) -> t < length ms -> (forall d, In d ds -> d < length ms) ->
  exists r, find_module_deps_cycle ms t ds has_old = Val r /\ (r = None -> well_formed (upd (deps_of ms) t ds) /\ acyclic (upd (deps_of ms) t ds)).
Proof.
  intros ms t ds has_old WF AC L R. unfold find_module_deps_cycle. rewrite graph_from_ok. simpl. rewrite Nat.sub_0_r. set (ex := if has_old then [] else [ds]).
  assert (LG : length (deps_of ms) = length ms) by (unfold deps_of; apply map_length).
  assert (WU : well_formed (upd (deps_of ms) t ds)).
  { intros u v E. rewrite upd_length, LG. destruct (Nat.eq_dec u t) as [->|N].
    - apply edge_upd_same in E; [|lia]. auto.
    - apply edge_upd_other in E; auto. apply WF in E. lia. }
  assert (WX : well_formed (upd (deps_of ms) t ds ++ ex)).
  { intros u v (ss & A & B). rewrite app_length, upd_length, LG. destruct (Nat.lt_ge_cases u (length (upd (deps_of ms) t ds))) as [H|H].
    - rewrite nth_error_app1 in A by auto. assert (v < length (upd (deps_of ms) t ds)) by (apply (WU u); exists ss; auto). rewrite upd_length, LG in H0. lia.
    - rewrite nth_error_app2 in A by auto. unfold ex in A. destruct has_old; [destruct (u - length (upd (deps_of ms) t ds)); discriminate|].
      destruct (u - length (upd (deps_of ms) t ds)) as [|k]; [|destruct k; discriminate]. inversion A; subst ss. apply R in B. lia. }
  destruct (find_cycle_ok _ WX t) as (r & E & H); [rewrite app_length, upd_length, LG; lia|]. exists r. split; auto. intros ->. split; auto.
  eapply acyclic_upd; eauto. lia.
Qed.
Lemma new_cycle_check : forall ms ds, well_formed (deps_of ms) -> acyclic (deps_of ms) -> (forall d, In d ds -> d < length ms) ->
  find_module_deps_cycle ms (length ms) ds false = Val None /\ well_formed (deps_of ms ++ [ds]) /\ acyclic (deps_of ms ++ [ds]).
Proof.
  intros ms ds WF AC R. assert (LG : length (deps_of ms) = length ms) by (unfold deps_of; apply map_length).
  assert (U : graph_from 0 ms (length ms) ds = deps_of ms).
  { rewrite graph_from_ok. simpl. rewrite Nat.sub_0_r. apply nth_error_ext. intros i. rewrite nth_error_upd. destruct (Nat.eqb_spec (length ms) i) as [<-|]; auto.
    destruct (Nat.ltb_spec (length ms) (length (deps_of ms))); [lia|]. symmetry. apply nth_error_None. lia. }
  assert (ED : forall u v, edge (deps_of ms ++ [ds]) u v <-> edge (deps_of ms) u v \/ (u = length ms /\ In v ds)).
  { intros u v. split.
    - intros (ss & A & B). destruct (Nat.lt_ge_cases u (length (deps_of ms))) as [H|H].
      + rewrite nth_error_app1 in A by auto. left. exists ss; auto.
      + rewrite nth_error_app2 in A by auto. destruct (u - length (deps_of ms)) as [|k] eqn:D; [|destruct k; discriminate]. inversion A; subst ss. right. split; auto. lia.
    - intros [H|(-> & H)]; [apply edge_app; auto|]. exists ds. split; auto. rewrite nth_error_app2 by lia. replace (length ms - length (deps_of ms)) with 0 by lia. reflexivity. }
  assert (WX : well_formed (deps_of ms ++ [ds])).
  { intros u v E. rewrite app_length, LG. simpl. apply ED in E. destruct E as [E|(_ & E)]; [apply WF in E; lia|apply R in E; lia]. }
  assert (OLD : forall a b, a < length ms -> reach (deps_of ms ++ [ds]) a b -> reach (deps_of ms) a b /\ b < length ms).
  { intros a b La H. induction H as [|v w H IH E]; [split; [constructor|auto]|]. destruct IH as (IH & Lv). apply ED in E. destruct E as [E|(-> & _)]; [|lia].
    split; [econstructor; eauto|]. apply WF in E. lia. }
  assert (AX : acyclic (deps_of ms ++ [ds])).
  { intros u v E H. apply ED in E. destruct E as [E|(-> & E)].
    - pose proof (edge_src _ _ _ E). pose proof (WF _ _ E). apply OLD in H; [|lia]. apply (AC u v); tauto.
    - apply R in E. apply OLD in H; lia. }
  split; [|auto]. unfold find_module_deps_cycle. rewrite U.
  destruct (find_cycle_ok _ WX (length ms)) as (r & E & H); [rewrite app_length, LG; simpl; lia|]. rewrite E. destruct r as [c|]; auto.
  exfalso. destruct H as (H & _ & _). destruct c as [|x c]; [exact H|]. simpl in H.
  (* a cycle contradicts [acyclic] *)
  assert (RC : forall i u, nth_error (x :: c) i = Some u -> reach (deps_of ms ++ [ds]) x u).
  { induction i as [|i IH]; intros u Hu; [inversion Hu; constructor|]. destruct (nth_error (x :: c) i) as [w|] eqn:W.
    - econstructor; [apply (IH w); auto|]. specialize (H i w W). apply nth_error_nth with (d := x) in Hu. simpl in Hu. simpl in H. rewrite Hu in H. auto.
    - exfalso. apply nth_error_None in W. apply range_of in Hu. simpl in *. lia. }
  destruct (nth_error (x :: c) (length c)) as [w|] eqn:W; [|apply nth_error_None in W; simpl in W; lia].
  pose proof (H _ _ W) as LE. rewrite nth_overflow in LE by (simpl; lia). apply (AX _ _ LE). eapply RC; eauto.
Qed.

(** ** The table once the old revision is put aside and dependents are marked *)
Record prepared (ms ms2 : list entry) (t : nat) (e : entry) : Prop := mkPrepared {
  p_length : length ms2 = length ms;
  p_deps : deps_of ms2 = deps_of ms;
  p_self : nth_error ms2 t = Some (set_placeholder e);
  p_other : forall i, i <> t -> nth_error ms2 i = nth_error ms i \/ newly ms ms2 i;
  p_dependents : forall i, edge (deps_of ms) i t -> is_stale ms2 i;
  p_closed : forall u v, edge (deps_of ms) u v -> v <> t -> is_stale ms2 v -> is_stale ms2 u;
  p_reach : forall i, newly ms ms2 i -> reach (deps_of ms) i t;
  p_reason : forall i, newly ms ms2 i -> edge (deps_of ms) i t \/ exists d, d <> t /\ edge (deps_of ms) i d /\ is_stale ms2 d
}.

Lemma deps_of_upd : forall ms t e, deps_of (upd ms t e) = upd (deps_of ms) t (latest_deps e).
Proof. unfold deps_of. induction ms as [|x ms IH]; intros [|t] e; simpl; auto. f_equal. auto. Qed.
Lemma upd_same : forall A (l : list A) i x, nth_error l i = Some x -> upd l i x = l.
Proof. induction l as [|y l IH]; intros [|i] x H; simpl in *; try discriminate; [inversion H; auto|f_equal; auto]. Qed.

Lemma prepare_ok : forall ms clk t e, inv ms clk -> nth_error ms t = Some e -> exists ms2,
  (if match rev e with Some _ => true | None => false end then mark_stale_transitively (upd ms t (set_placeholder e)) t else Val (upd ms t (set_placeholder e))) = Val ms2 /\
  prepared ms ms2 t e.
Proof.
  intros ms clk t e I E. pose proof (range_of _ _ _ _ E) as L. set (ms1 := upd ms t (set_placeholder e)).
  assert (D1 : deps_of ms1 = deps_of ms).
  { unfold ms1. rewrite deps_of_upd. apply upd_same. unfold deps_of. rewrite nth_error_map, E. reflexivity. }
  assert (S1 : forall i, is_stale ms1 i <-> is_stale ms i).
  { intros i. unfold is_stale, ms1. destruct (Nat.eq_dec t i) as [<-|N].
    - rewrite nth_error_upd_same by auto. split; intros (f & A & B).
      + inversion A; subst f. exists e. auto.
      + exists (set_placeholder e). split; auto. simpl. congruence.
    - rewrite nth_error_upd_other by auto. tauto. }
  destruct (rev e) as [r|] eqn:RV.
  - destruct (mark_ok ms1 t) as (ms2 & Q & F & N & C). exists ms2. split; auto. rewrite D1 in N, C.
    assert (NT : ~ newly ms1 ms2 t).
    { intros H. destruct (N t H) as (d & A & B & _). eapply (inv_acyclic _ _ I); eauto. }
    assert (NW : forall i, newly ms ms2 i <-> newly ms1 ms2 i).
    { intros i. destruct (Nat.eq_dec t i) as [<-|NE].
      - split; [|tauto]. intros (f & A & B & D). exfalso. destruct (proj2 F t) as [H|H]; [|auto]. unfold ms1 in H. rewrite nth_error_upd_same in H by auto.
        rewrite E in A. inversion A; subst f. assert (X : stale (set_placeholder e) = stale (set_stale e)) by congruence. simpl in X. congruence.
      - unfold newly, ms1. rewrite nth_error_upd_other by auto. tauto. }
    constructor.
    + rewrite (proj1 F). unfold ms1. apply upd_length.
    + rewrite (flags_deps _ _ F). auto.
    + destruct (proj2 F t) as [H|H]; [|tauto]. rewrite H. unfold ms1. apply nth_error_upd_same; auto.
    + intros i Hi. destruct (proj2 F i) as [H|H]; [left; rewrite H; unfold ms1; apply nth_error_upd_other; auto|right; apply NW; auto].
    + intros i Hi. eapply C; eauto.
    + intros u v Euv Nv Sv. apply (flags_stale_inv ms1) in Sv; auto. destruct Sv as [Sv|Sv].
      * apply (flags_stale ms1); auto. apply S1. eapply (inv_stale _ _ I); eauto. apply S1; auto.
      * eapply C; eauto.
    + intros i Hi. apply NW in Hi. destruct (N i Hi) as (d & A & B & _). eapply reach_trans; [apply reach_edge; eauto|auto].
    + intros i Hi. apply NW in Hi. destruct (N i Hi) as (d & A & B & [->|D]); auto. right. exists d. split; [|split; [auto|eapply newly_stale; eauto]].
      intros ->. auto.
  - exists ms1. split; auto. assert (ST : is_stale ms t).
    { exists e. split; auto. destruct (stale e) eqn:S; auto. destruct (inv_fresh _ _ I t e E S) as (_ & st & H & _). congruence. }
    assert (NN : forall i, ~ newly ms ms1 i).
    { intros i (f & A & B & D). unfold ms1 in D. destruct (Nat.eq_dec t i) as [<-|NE].
      - destruct ST as (e' & E1 & E2). congruence.
      - rewrite nth_error_upd_other in D by auto. assert (X : stale f = stale (set_stale f)) by congruence. simpl in X. congruence. }
    constructor.
    + unfold ms1. apply upd_length.
    + auto.
    + unfold ms1. apply nth_error_upd_same; auto.
    + intros i Hi. left. unfold ms1. apply nth_error_upd_other; auto.
    + intros i Hi. apply S1. eapply (inv_stale _ _ I); eauto.
    + intros u v Euv Nv Sv. apply S1. eapply (inv_stale _ _ I); eauto. apply S1; auto.
    + intros i Hi. exfalso. eapply NN; eauto.
    + intros i Hi. exfalso. eapply NN; eauto.
Qed.

(** A dependency-closed set without [t] is not touched. *)
Lemma closed_reach : forall g (F : nat -> Prop) a b, (forall x y, F x -> edge g x y -> F y) -> F a -> reach g a b -> F b.
Proof. intros g F a b C A R. induction R; eauto. Qed.
Lemma prepared_frozen : forall ms ms2 t e (F : nat -> Prop), prepared ms ms2 t e -> (forall x y, F x -> edge (deps_of ms) x y -> F y) -> ~ F t ->
  forall x, F x -> nth_error ms2 x = nth_error ms x.
Proof.
  intros ms ms2 t e F P C NF x Fx. destruct (Nat.eq_dec x t) as [->|N]; [tauto|]. destruct (p_other _ _ _ _ P x N) as [H|H]; auto.
  exfalso. apply NF. eapply closed_reach; [exact C|exact Fx|]. eapply p_reach; eauto.
Qed.

(** ** Settling the module *)
Lemma is_stale_upd_other : forall ms t e i, i <> t -> is_stale (upd ms t e) i <-> is_stale ms i.
Proof. intros. unfold is_stale. rewrite nth_error_upd_other by auto. tauto. Qed.
Lemma is_stale_upd_same : forall ms t e, t < length ms -> is_stale (upd ms t e) t <-> stale e = true.
Proof. intros. unfold is_stale. rewrite nth_error_upd_same by auto. split; [intros (f & A & B); inversion A; subst; auto|eauto]. Qed.

Lemma settle_inv : forall ms ms2 clk t e e3, inv ms clk -> prepared ms ms2 t e -> t < length ms ->
  well_formed (upd (deps_of ms) t (latest_deps e3)) -> acyclic (upd (deps_of ms) t (latest_deps e3)) ->
  stale e3 = true \/ (last_error e3 = false /\ rev e3 = Some (Built (latest_deps e3) (origin e3) clk) /\ forall d, In d (latest_deps e3) -> is_fresh ms2 d) ->
  inv (upd ms2 t e3) (S clk).
Proof.
  intros ms ms2 clk t e e3 I P L WF AC H. pose proof (p_length _ _ _ _ P) as PL. pose proof (p_deps _ _ _ _ P) as PD.
  assert (DG : deps_of (upd ms2 t e3) = upd (deps_of ms) t (latest_deps e3)) by (rewrite deps_of_upd, PD; auto).
  assert (LG : length (deps_of ms) = length ms) by (unfold deps_of; apply map_length).
  assert (NS : ~ In t (latest_deps e3)).
  { intros F. apply (AC t t); [apply edge_upd_same; auto; lia|constructor]. }
  assert (OLD : forall i f, i <> t -> nth_error (upd ms2 t e3) i = Some f -> stale f = false -> nth_error ms i = Some f).
  { intros i f N A B. rewrite nth_error_upd_other in A by auto. destruct (p_other _ _ _ _ P i N) as [Q|(g & _ & _ & Q)]; [congruence|]. rewrite Q in A. inversion A; subst f. discriminate. }
  constructor; try rewrite DG; auto.
  - intros u v E S. destruct (Nat.eq_dec u t) as [->|Nu].
    + apply edge_upd_same in E; [|lia]. apply is_stale_upd_same; [lia|]. destruct H as [H|(_ & _ & H)]; auto. exfalso.
      destruct (Nat.eq_dec v t) as [->|Nv]; [tauto|]. apply is_stale_upd_other in S; auto. eapply not_both; eauto.
    + apply edge_upd_other in E; auto. apply is_stale_upd_other; auto. destruct (Nat.eq_dec v t) as [->|Nv].
      * eapply p_dependents; eauto.
      * apply is_stale_upd_other in S; auto. eapply p_closed; eauto.
  - intros i f A B. destruct (Nat.eq_dec i t) as [->|N].
    + rewrite nth_error_upd_same in A by lia. inversion A; subst f. destruct H as [H|(H1 & H2 & _)]; [congruence|]. split; auto. exists clk. auto.
    + destruct (inv_fresh _ _ I i f (OLD i f N A B) B) as (H1 & st & H2 & H3). split; auto. exists st. auto.
  - intros i j n (f & ds & from & A & B & C) E. destruct (Nat.eq_dec i t) as [->|Ni].
    + rewrite nth_error_upd_same in A by lia. inversion A; subst f. destruct H as [H|(_ & H2 & H3)]; [congruence|]. rewrite C in H2. inversion H2; subst ds from n.
      apply edge_upd_same in E; [|lia]. assert (Nj : j <> t) by (intros ->; tauto). destruct (H3 j E) as (fj & Aj & Bj).
      assert (Aj' : nth_error ms j = Some fj) by (apply OLD; auto; rewrite nth_error_upd_other by auto; auto).
      destruct (inv_fresh _ _ I j fj Aj' Bj) as (_ & st & H4 & H5). exists st. split; auto. exists fj, (latest_deps fj), (origin fj). rewrite nth_error_upd_other by auto. auto.
    + apply edge_upd_other in E; auto. pose proof (OLD i f Ni A B) as A'.
      assert (Bi : built_at ms i n) by (exists f, ds, from; auto). destruct (inv_order _ _ I i j n Bi E) as (m & (fj & dj & oj & Aj & Bj & Cj) & Lm).
      exists m. split; auto. assert (Nj : j <> t).
      { intros ->. apply (not_both ms2 i); [eapply p_dependents; eauto|]. exists f. rewrite nth_error_upd_other in A by auto. auto. }
      exists fj, dj, oj. rewrite nth_error_upd_other by auto. split; auto. destruct (p_other _ _ _ _ P j Nj) as [Q|Q]; [congruence|].
      exfalso. apply (not_both ms2 i); [|exists f; rewrite nth_error_upd_other in A by auto; auto]. eapply p_closed; eauto. eapply newly_stale; eauto.
Qed.

Lemma settle_justified : forall ms ms2 t e e3 E, prepared ms ms2 t e -> t < length ms -> justified (t :: E) ms ->
  forall i f, i <> t -> nth_error (upd ms2 t e3) i = Some f -> stale f = true -> src f <> None -> ~ In i E ->
  last_error f = true \/ edge (deps_of ms) i t \/ exists j, j <> t /\ edge (deps_of ms) i j /\ is_stale ms2 j.
Proof.
  intros ms ms2 t e e3 E P L J i f N A B C D. rewrite nth_error_upd_other in A by auto. destruct (p_other _ _ _ _ P i N) as [Q|Q].
  - rewrite Q in A. destruct (J i f A B C) as [H|(j & H1 & H2)]; auto; [intros [->|F]; auto|]. destruct (Nat.eq_dec j t) as [->|Nj]; auto.
    right. right. exists j. repeat split; auto. destruct H2 as (g & G1 & G2). destruct (p_other _ _ _ _ P j Nj) as [R|R]; [exists g; rewrite R; auto|eapply newly_stale; eauto].
  - right. destruct (p_reason _ _ _ _ P i Q) as [H|(d & H1 & H2 & H3)]; auto. right. exists d. auto.
Qed.
Lemma settle_stale_justified : forall ms ms2 t e e3 E, prepared ms ms2 t e -> t < length ms -> justified (t :: E) ms ->
  stale e3 = true -> (last_error e3 = true \/ exists d, In d (latest_deps e3) /\ d <> t /\ is_stale ms2 d) -> justified E (upd ms2 t e3).
Proof.
  intros ms ms2 t e e3 E P L J S3 R i f A B C D. pose proof (p_length _ _ _ _ P) as PL. rewrite deps_of_upd, (p_deps _ _ _ _ P).
  assert (LG : length (deps_of ms) = length ms) by (unfold deps_of; apply map_length).
  destruct (Nat.eq_dec i t) as [->|N].
  - rewrite nth_error_upd_same in A by lia. inversion A; subst f. destruct R as [R|(d & R1 & R2 & R3)]; auto. right. exists d. split; [apply edge_upd_same; auto; lia|]. apply is_stale_upd_other; auto.
  - destruct (settle_justified _ _ _ _ e3 _ P L J i f N A B C D) as [H|[H|(j & H1 & H2 & H3)]]; auto; right.
    + exists t. split; [apply edge_upd_other; auto|apply is_stale_upd_same; auto; lia].
    + exists j. split; [apply edge_upd_other; auto|apply is_stale_upd_other; auto].
Qed.
Lemma settle_keeps : forall ms ms2 t e e3 E W, prepared ms ms2 t e -> t < length ms -> keeps (t :: E) W ms -> In t E \/ W t = src e3 -> keeps E W (upd ms2 t e3).
Proof.
  intros ms ms2 t e e3 E W P L K T i f A N. pose proof (p_length _ _ _ _ P) as PL. destruct (Nat.eq_dec i t) as [->|Ni].
  - rewrite nth_error_upd_same in A by lia. inversion A; subst f. destruct T; [tauto|auto].
  - rewrite nth_error_upd_other in A by auto. assert (M : ~ In i (t :: E)) by (intros [->|F]; auto). destruct (p_other _ _ _ _ P i Ni) as [Q|(g & G1 & G2 & G3)].
    + rewrite Q in A. eauto.
    + rewrite G3 in A. inversion A; subst f. simpl. eauto.
Qed.
