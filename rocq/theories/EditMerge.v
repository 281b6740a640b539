(** Appending a block to its only predecessor. *)
From Coq Require Import List Arith Bool Lia Permutation.
From Verif Require Import ListUtil GraphSpec GraphProofs MirModel TermSpec WillReturnSpec SimSpec
  GraphModel WillReturnModel WillReturnCfg EditModel SimProofs EditSpec EditProofs.
Import ListNotations.

Section Merge.
Context {prim cnd : Type}.
Notation block := (block prim cnd).
Notation function := (function prim cnd).

(** All the targets of a body, and how often [t] is one. *)
Definition edges (fn : function) : list nat := concat (flow_graph fn).
Definition indegree (fn : function) (t : nat) : nat := count_occ Nat.eq_dec (edges fn) t.

Lemma edges_app : forall a b, edges (a ++ b) = edges a ++ edges b.
Proof. intros a b. unfold edges, flow_graph. rewrite map_app, concat_app. reflexivity. Qed.
Lemma edges_cons : forall blk fn, edges (blk :: fn) = successors (term blk) ++ edges fn.
Proof. reflexivity. Qed.

Lemma split_at : forall A (l : list A) i x, nth_error l i = Some x ->
  exists l1 l2, l = l1 ++ x :: l2 /\ length l1 = i.
Proof. intros A l i x H. apply nth_error_split, H. Qed.

Lemma upd_split : forall A (l1 l2 : list A) x y, upd (l1 ++ x :: l2) (length l1) y = l1 ++ y :: l2.
Proof. induction l1; intros; cbn; [reflexivity|]. f_equal. apply IHl1. Qed.

Lemma indegree_upd : forall fn b blk blk' t, nth_error fn b = Some blk ->
  indegree (upd fn b blk') t + count_occ Nat.eq_dec (successors (term blk)) t =
  indegree fn t + count_occ Nat.eq_dec (successors (term blk')) t.
Proof.
  intros fn b blk blk' t H. destruct (split_at _ _ _ _ H) as (l1 & l2 & -> & <-). rewrite upd_split.
  unfold indegree. rewrite !edges_app, !edges_cons, !count_occ_app. lia.
Qed.

Lemma edges_flows : forall fn t, In t (edges fn) <-> exists b, flows fn b t.
Proof.
  intros fn t. unfold edges. rewrite in_concat. split.
  - intros (ss & I & I'). destruct (In_nth_error _ _ I) as (b & E). exists b. apply flow_graph_edge. exists ss. auto.
  - intros (b & F). apply flow_graph_edge in F. destruct F as (ss & E & I). exists ss.
    split; [eapply nth_error_In; eauto|exact I].
Qed.

Lemma edge_positive : forall fn b t, flows fn b t -> 0 < indegree fn t.
Proof. intros fn b t F. apply count_occ_In. apply edges_flows. eauto. Qed.

(** One edge into [t] that comes from [p]: all flows come from [p]. *)
Lemma single_source : forall fn p blk t, nth_error fn p = Some blk -> In t (successors (term blk)) ->
  indegree fn t = 1 -> forall q, flows fn q t -> q = p.
Proof.
  intros fn p blk t N I E q (blkq & Nq & Iq).
  destruct (Nat.eq_dec q p) as [|NE]; [assumption|]. exfalso.
  assert (A : 0 < count_occ Nat.eq_dec (successors (term blk)) t) by (apply count_occ_In, I).
  pose proof (indegree_upd fn p blk (Block [] Return) t N) as U. cbn [term successors count_occ] in U.
  assert (B : 0 < indegree (upd fn p (Block [] Return)) t).
  { apply edge_positive with (b := q). exists blkq. split; [|exact Iq]. rewrite nth_error_upd_other; auto. }
  lia.
Qed.

(** [mergeable] is what the model looks for when the counts are right. *)
Lemma mergeable_count : forall fn p s, mergeable fn p s -> indegree fn s = 1.
Proof.
  intros fn p s ((blk & N & T) & _ & _ & H).
  pose proof (indegree_upd fn p blk (Block [] Return) s N) as U.
  assert (Z : indegree (upd fn p (Block [] Return)) s = 0).
  { unfold indegree. apply count_occ_not_In. intros I. apply edges_flows in I. destruct I as (q & (blkq & Nq & Iq)).
    destruct (Nat.eq_dec p q) as [->|NE].
    - rewrite nth_error_upd_same in Nq by (apply nth_error_Some; congruence). injection Nq as <-. destruct Iq.
    - rewrite nth_error_upd_other in Nq by exact NE. apply NE. symmetry. apply H. exists blkq. auto. }
  rewrite Z, T in U. cbn in U. destruct (Nat.eq_dec s s); [lia|contradiction].
Qed.

Definition counted (fn : function) (incoming : list nat) : Prop :=
  length incoming = length fn /\ forall t, t < length fn -> nth_error incoming t = Some (indegree fn t).

Lemma mergeable_successor_ok : forall fn p incoming, well_formed_body fn -> counted fn incoming -> p < length fn ->
  exists s, mergeable_successor fn p incoming = Val s /\
    forall t, s = Some t <-> mergeable fn p t.
Proof.
  intros fn p incoming WF (LI & CI) L. unfold mergeable_successor.
  destruct (in_range _ fn p L) as (blk & N). rewrite (rd_val _ _ _ _ N). cbn [bind].
  assert (NG : (forall b, term blk <> Goto b) -> forall t, @None nat = Some t <-> mergeable fn p t).
  { intros X t. split; [discriminate|]. intros ((blk' & N' & T) & _). exfalso. apply (X t).
    assert (blk' = blk) by congruence. congruence. }
  destruct (term blk) as [target| | | | | |] eqn:T;
    try (exists None; split; [reflexivity|apply NG; intros; discriminate]).
  clear NG.
  assert (MG : forall t, mergeable fn p t -> t = target).
  { intros t ((blk' & N' & T') & _). assert (blk' = blk) by congruence. congruence. }
  destruct (Nat.eqb_spec target entry) as [EE|NEe]; cbn [orb].
  { exists None. split; [reflexivity|]. intros t. split; [discriminate|]. intros M. exfalso.
    pose proof (MG t M). destruct M as (_ & A & _). congruence. }
  destruct (Nat.eqb_spec target p) as [EP|NEp].
  { exists None. split; [reflexivity|]. intros t. split; [discriminate|]. intros M. exfalso.
    pose proof (MG t M). destruct M as (_ & _ & A & _). congruence. }
  assert (LT : target < length fn).
  { apply (proj2 WF p target). exists blk. split; [exact N|]. rewrite T. left. reflexivity. }
  rewrite (rd_val _ _ _ _ (CI target LT)). cbn [bind].
  eexists. split; [reflexivity|]. intros t. destruct (Nat.eqb_spec (indegree fn target) 1) as [E1|N1].
  - split.
    + intros EQ. injection EQ as <-. split; [exists blk; auto|]. split; [exact NEe|]. split; [exact NEp|].
      apply (single_source fn p blk target N); [rewrite T; left; reflexivity|exact E1].
    + intros M. rewrite (MG t M). reflexivity.
  - split; [discriminate|]. intros M. exfalso. apply N1. rewrite <- (MG t M). eapply mergeable_count; eauto.
Qed.

(** ** One merge *)
Definition appended (a b : block) : block := Block (operations a ++ operations b) (term b).
Definition merged (fn : function) (p s : nat) (bp bs : block) : function :=
  upd (upd fn s (Block [] Return)) p (appended bp bs).

Section Step.
Variables (fn : function) (p s : nat) (bp bs : block).
Hypothesis WF : well_formed_body fn.
Hypothesis Np : nth_error fn p = Some bp.
Hypothesis Ns : nth_error fn s = Some bs.
Hypothesis T : term bp = Goto s.
Hypothesis NEe : s <> entry.
Hypothesis NEp : s <> p.
Hypothesis ONE : indegree fn s = 1.

Lemma merged_length : length (merged fn p s bp bs) = length fn.
Proof. unfold merged. rewrite !upd_length. reflexivity. Qed.

Lemma merged_nth : forall b, nth_error (merged fn p s bp bs) b =
  if b =? p then Some (appended bp bs) else if b =? s then Some (Block [] Return) else nth_error fn b.
Proof.
  intros b. unfold merged.
  assert (Lp : p < length fn) by (apply nth_error_Some; congruence).
  assert (Ls : s < length fn) by (apply nth_error_Some; congruence).
  destruct (Nat.eqb_spec b p) as [->|A].
  - apply nth_error_upd_same. rewrite upd_length. exact Lp.
  - rewrite nth_error_upd_other by congruence. destruct (Nat.eqb_spec b s) as [->|B].
    + apply nth_error_upd_same, Ls.
    + apply nth_error_upd_other. congruence.
Qed.

Lemma only_source : forall q, flows fn q s -> q = p.
Proof. apply (single_source fn p bp s Np); [rewrite T; left; reflexivity|exact ONE]. Qed.

Lemma merged_flows : forall b t, flows (merged fn p s bp bs) b t <->
  (b = p /\ flows fn s t) \/ (b <> p /\ b <> s /\ flows fn b t).
Proof.
  intros b t. unfold flows. rewrite merged_nth. destruct (Nat.eqb_spec b p) as [->|A].
  - split.
    + intros (blk & E & I). injection E as <-. left. split; [reflexivity|]. exists bs. auto.
    + intros [(_ & blk & E & I)|(X & _)]; [|congruence]. exists (appended bp bs). split; [reflexivity|].
      cbn. congruence.
  - destruct (Nat.eqb_spec b s) as [->|B].
    + split.
      * intros (blk & E & I). injection E as <-. destruct I.
      * intros [(X & _)|(_ & X & _)]; congruence.
    + split; [intros X; right; auto|]. intros [(X & _)|(_ & _ & X)]; [congruence|exact X].
Qed.

Lemma merged_avoids : forall b t, flows (merged fn p s bp bs) b t -> t <> s.
Proof.
  intros b t F ->. apply merged_flows in F. destruct F as [(-> & F)|(A & _ & F)].
  - apply only_source in F. congruence.
  - apply only_source in F. congruence.
Qed.

Lemma merged_well_formed : well_formed_body (merged fn p s bp bs).
Proof.
  split.
  - intros E. pose proof merged_length as L. rewrite E in L. destruct fn; [destruct p; discriminate Np|discriminate].
  - intros b t F. rewrite merged_length. apply merged_flows in F.
    destruct F as [(_ & F)|(_ & _ & F)]; eapply (proj2 WF); eauto.
Qed.

Lemma merged_indegree : forall t, indegree (merged fn p s bp bs) t = if t =? s then 0 else indegree fn t.
Proof.
  intros t. destruct (Nat.eqb_spec t s) as [->|NE].
  - unfold indegree. apply count_occ_not_In. intros I. apply edges_flows in I. destruct I as (b & F).
    apply (merged_avoids b s F). reflexivity.
  - unfold merged.
    assert (Np' : nth_error (upd fn s (Block [] Return)) p = Some bp) by (rewrite nth_error_upd_other; auto).
    pose proof (indegree_upd _ p bp (appended bp bs) t Np') as U1.
    pose proof (indegree_upd fn s bs (Block [] Return) t Ns) as U2.
    rewrite T in U1. cbn [appended term successors count_occ] in U1, U2.
    destruct (Nat.eq_dec s t); [congruence|]. lia.
Qed.

Lemma merged_reachable : forall b, reachable_block fn b ->
  (b <> s -> reachable_block (merged fn p s bp bs) b) /\ (b = s -> reachable_block (merged fn p s bp bs) p).
Proof.
  intros b H. induction H as [|b b' H (IH1 & IH2) F].
  - split; [intros _; constructor|congruence].
  - split.
    + intros NE. destruct (Nat.eq_dec b s) as [->|B].
      * apply (reachable_next _ p b' (IH2 eq_refl)). apply merged_flows. auto.
      * apply (reachable_next _ b b' (IH1 B)). apply merged_flows. right.
        split; [|auto]. intros ->. destruct F as (blk & N & I). assert (blk = bp) by congruence. subst blk.
        rewrite T in I. destruct I as [I|[]]. congruence.
    + intros ->. apply only_source in F. subst b. apply IH1. congruence.
Qed.

(** The block left behind leads nowhere. *)
Lemma merged_dead : (forall b, reachable_block fn b \/ forall t, ~ flows fn b t) ->
  forall b, reachable_block (merged fn p s bp bs) b \/ forall t, ~ flows (merged fn p s bp bs) b t.
Proof.
  intros H b. destruct (Nat.eq_dec b s) as [->|NE].
  - right. intros t F. apply merged_flows in F. destruct F as [(X & _)|(_ & X & _)]; congruence.
  - destruct (H b) as [R|D].
    + left. apply (proj1 (merged_reachable b R) NE).
    + right. intros t F. apply merged_flows in F. destruct F as [(-> & F)|(_ & _ & F)].
      * apply (D s). exists bp. split; [exact Np|]. rewrite T. left. reflexivity.
      * apply (D t F).
Qed.
End Step.
End Merge.

Lemma merged_same : forall m bodies f (fn : function (payload m) (cond m)) p s bp bs,
  well_formed_body fn ->
  nth_error fn p = Some bp -> nth_error fn s = Some bs -> term bp = Goto s -> s <> entry -> s <> p ->
  indegree fn s = 1 ->
  equivalent any_event m (with_body bodies f fn) (with_body bodies f (merged fn p s bp bs)).
Proof.
  intros m bodies f fn p s bp bs WF Np Ns T NEe NEp ONE.
  apply body_equivalent with (R := fun b b' => b = b' /\ b <> s /\ b < length fn).
  - repeat split; auto. apply reachable_range; [exact WF|constructor].
  - intros b b' (<- & NE & L). destruct (in_range _ fn b L) as (blk & N).
    assert (RN : forall c blkc, (c = s \/ c <> p) -> nth_error fn c = Some blkc ->
      renamed (fun x y => x = y /\ x <> s /\ x < length fn) (term blkc) (term blkc)).
    { intros c blkc CC Nc. apply renamed_refl. intros t I. split; [reflexivity|].
      assert (F : flows fn c t) by (exists blkc; auto).
      split; [|eapply (proj2 WF); eauto].
      intros ->. apply (only_source fn p s bp Np T ONE) in F. destruct CC; congruence. }
    destruct (Nat.eq_dec b p) as [->|NP].
    + assert (blk = bp) by congruence. subst blk.
      exists (operations bp ++ operations bs), (term bs), (term bs). split; [|split].
      * apply (ChainGoto m fn p bp s); auto. apply ChainBlock. exact Ns.
      * change (operations bp ++ operations bs) with (operations (appended bp bs)).
        change (term bs) with (term (appended bp bs)). apply ChainBlock.
        rewrite (merged_nth fn p s bp bs Np Ns), Nat.eqb_refl. reflexivity.
      * apply (RN s); auto.
    + exists (operations blk), (term blk), (term blk). split; [constructor; exact N|]. split.
      * constructor. rewrite (merged_nth fn p s bp bs Np Ns).
        destruct (Nat.eqb_spec b p); [contradiction|]. destruct (Nat.eqb_spec b s); [contradiction|]. exact N.
      * apply (RN b); auto.
Qed.

Section Loop.
Variable m : machine.
Variable bodies : fid -> option (function (payload m) (cond m)).
Variable f : fid.
Notation function := (function (payload m) (cond m)).
Notation same fn fn' := (equivalent any_event m (with_body bodies f fn) (with_body bodies f fn')).

(** The counts that are not zero. *)
Definition nonzero (incoming : list nat) : nat := length (filter (fun n => negb (n =? 0)) incoming).

Lemma nonzero_upd : forall incoming s n, nth_error incoming s = Some (S n) ->
  S (nonzero (upd incoming s 0)) = nonzero incoming.
Proof.
  induction incoming as [|x incoming IH]; intros [|s] n E; cbn in E; try discriminate.
  - injection E as ->. reflexivity.
  - unfold nonzero in *. cbn [upd filter]. destruct (negb (x =? 0)); cbn [length]; rewrite (IH s n E); reflexivity.
Qed.

Lemma merge_loop_ok : forall fuel (fn : function) incoming pending any,
  length pending + nonzero incoming < fuel ->
  well_formed_body fn -> counted fn incoming -> (forall p, In p pending -> p < length fn) ->
  (forall p s, mergeable fn p s -> In p pending) ->
  exists fn' any', merge_loop fuel fn incoming pending any = Val (fn', any') /\
    same fn fn' /\ well_formed_body fn' /\ length fn' = length fn /\ (forall p s, ~ mergeable fn' p s) /\
    ((forall b, reachable_block fn b \/ forall t, ~ flows fn b t) ->
     forall b, reachable_block fn' b \/ forall t, ~ flows fn' b t) /\
    (any = false -> any' = false -> fn' = fn).
Proof.
  induction fuel as [|fuel IH]; intros fn incoming pending any LT WF CI RG EX; [lia|].
  cbn [merge_loop]. destruct pending as [|p pending].
  - exists fn, any. split; [reflexivity|]. split; [apply equivalent_refl|]. split; [exact WF|].
    split; [reflexivity|]. split; [intros p s M; apply (EX p s M)|]. auto.
  - assert (Lp : p < length fn) by (apply RG; left; reflexivity).
    destruct (mergeable_successor_ok fn p incoming WF CI Lp) as (r & E & M). rewrite E. cbn [bind].
    destruct r as [s|].
    + assert (MG : mergeable fn p s) by (apply M; reflexivity).
      pose proof (mergeable_count fn p s MG) as ONE.
      destruct MG as ((bp & Np & T) & NEe & NEp & SRC).
      assert (Ls : s < length fn).
      { apply (proj2 WF p s). exists bp. split; [exact Np|]. rewrite T. left. reflexivity. }
      destruct (in_range _ fn s Ls) as (bs & Ns). rewrite (rd_val _ _ _ _ Ns). cbn [bind].
      rewrite wr_val by exact Ls. cbn [bind].
      rewrite (rd_val _ (upd fn s (Block [] Return)) p bp) by (rewrite nth_error_upd_other; auto). cbn [bind].
      rewrite wr_val by (rewrite upd_length; exact Lp). cbn [bind].
      destruct CI as (LI & CI).
      rewrite wr_val by (rewrite LI; exact Ls). cbn [bind].
      change (upd (upd fn s (Block [] Return)) p (Block (operations bp ++ operations bs) (term bs)))
        with (merged fn p s bp bs).
      pose proof (CI s Ls) as CS. rewrite ONE in CS.
      pose proof (nonzero_upd incoming s 0 CS) as NZ.
      destruct (IH (merged fn p s bp bs) (upd incoming s 0) (pending ++ [p]) true)
        as (fn' & any' & E' & SA & WF' & LE' & NM & DE & CH).
      * rewrite app_length. cbn [length] in *. lia.
      * eapply merged_well_formed; eauto.
      * split; [rewrite upd_length, merged_length; exact LI|].
        intros t L. rewrite merged_length in L.
        rewrite (merged_indegree fn p s bp bs Np Ns T NEe NEp ONE).
        destruct (Nat.eqb_spec t s) as [->|NE].
        -- apply nth_error_upd_same. rewrite LI. exact Ls.
        -- rewrite nth_error_upd_other by congruence. apply CI, L.
      * intros q I. rewrite merged_length. apply in_app_or in I.
        destruct I as [I|[<-|[]]]; [apply RG; right; exact I|exact Lp].
      * intros q t ((blk & N & Tq) & A & B & C). apply in_or_app.
        destruct (Nat.eq_dec q p) as [->|NP]; [right; left; reflexivity|left].
        rewrite (merged_nth fn p s bp bs Np Ns) in N. destruct (Nat.eqb_spec q p); [contradiction|].
        destruct (Nat.eqb_spec q s) as [->|NS]; [injection N as <-; discriminate|].
        assert (IQ : In q (p :: pending)).
        { apply (EX q t). split; [exists blk; auto|]. split; [exact A|]. split; [exact B|].
          assert (D1 : indegree (merged fn p s bp bs) t = 1).
          { apply (mergeable_count _ q). split; [|auto]. exists blk. split; [|exact Tq].
            rewrite (merged_nth fn p s bp bs Np Ns). destruct (Nat.eqb_spec q p); [contradiction|].
            destruct (Nat.eqb_spec q s); [contradiction|]. exact N. }
          rewrite (merged_indegree fn p s bp bs Np Ns T NEe NEp ONE) in D1.
          destruct (t =? s); [discriminate|].
          apply (single_source fn q blk t N); [rewrite Tq; left; reflexivity|exact D1]. }
        destruct IQ as [IQ|IQ]; [congruence|exact IQ].
      * exists fn', any'. split; [exact E'|]. split.
        { eapply equivalent_trans; [|exact SA].
          apply (merged_same m bodies f fn p s bp bs WF Np Ns T NEe NEp ONE). }
        split; [exact WF'|]. split; [rewrite LE'; apply merged_length|]. split; [exact NM|]. split.
        { intros H. apply DE. apply (merged_dead fn p s bp bs Np Ns T NEe NEp ONE H). }
        { intros _ X. exfalso.
          assert (ST : forall k g i pd, merge_loop k g i pd true = Val (fn', any') -> any' = true).
          { clear. induction k as [|k IHk]; intros g i pd H; cbn [merge_loop] in H; [discriminate|].
            destruct pd as [|q pd]; [injection H as _ H; auto|].
            destruct (mergeable_successor g q i) as [[t|]| |]; cbn [bind] in H; try discriminate;
              [|eapply IHk; eauto].
            destruct (rd g t) as [b1| |]; cbn [bind] in H; try discriminate.
            destruct (wr g t _) as [g1| |]; cbn [bind] in H; try discriminate.
            destruct (rd g1 q) as [b2| |]; cbn [bind] in H; try discriminate.
            destruct (wr g1 q _) as [g2| |]; cbn [bind] in H; try discriminate.
            destruct (wr i t 0) as [i2| |]; cbn [bind] in H; try discriminate. eapply IHk; eauto. }
          rewrite (ST _ _ _ _ E') in X. discriminate. }
    + destruct (IH fn incoming pending any) as (fn' & any' & R).
      * cbn [length] in LT. lia.
      * exact WF.
      * exact CI.
      * intros q I. apply RG. right. exact I.
      * intros q t MG. destruct (EX q t MG) as [<-|I]; [|exact I].
        exfalso. apply M in MG. discriminate.
      * exists fn', any'. exact R.
Qed.

Lemma candidates_ok : forall (fn : function) incoming l, well_formed_body fn -> counted fn incoming ->
  (forall p, In p l -> p < length fn) ->
  exists r, candidates fn incoming l = Val r /\ length r <= length l /\
    forall p, In p r <-> In p l /\ exists s, mergeable fn p s.
Proof.
  intros fn incoming l WF CI. induction l as [|p l IH]; intros RG; cbn [candidates].
  - exists []. split; [reflexivity|]. split; [auto|]. cbn. tauto.
  - destruct (mergeable_successor_ok fn p incoming WF CI) as (s & E & M); [apply RG; left; reflexivity|].
    rewrite E. cbn [bind]. destruct IH as (r & E' & L & IN); [intros q I; apply RG; right; exact I|].
    rewrite E'. cbn [bind]. eexists. split; [reflexivity|]. split.
    + destruct s; cbn [length]; lia.
    + intros q. destruct s as [s|]; cbn [In].
      * rewrite IN. split.
        -- intros [<-|(I & X)]; [|auto]. split; [auto|]. exists s. apply M. reflexivity.
        -- intros ([<-|I] & X); auto.
      * rewrite IN. split; [tauto|]. intros ([<-|I] & (t & X)); [|eauto].
        apply M in X. discriminate.
Qed.

Lemma count_targets_ok : forall targets incoming, (forall t, In t targets -> t < length incoming) ->
  exists r, count_targets targets incoming = Val r /\ length r = length incoming /\
    forall t n, nth_error incoming t = Some n -> nth_error r t = Some (n + count_occ Nat.eq_dec targets t).
Proof.
  induction targets as [|x targets IH]; intros incoming H; cbn [count_targets].
  - exists incoming. repeat split; auto. intros t n E. rewrite Nat.add_0_r. exact E.
  - assert (L : x < length incoming) by (apply H; left; reflexivity).
    destruct (in_range _ incoming x L) as (k & E). rewrite (rd_val _ _ _ _ E). cbn [bind].
    rewrite wr_val by exact L. cbn [bind].
    destruct (IH (upd incoming x (S k))) as (r & E' & LE & N).
    { intros t I. rewrite upd_length. apply H. right. exact I. }
    exists r. split; [exact E'|]. split; [rewrite LE; apply upd_length|].
    intros t n Et. cbn [count_occ]. destruct (Nat.eq_dec x t) as [->|NE].
    + assert (k = n) by congruence. subst k.
      rewrite (N t (S n)) by (apply nth_error_upd_same; exact L). f_equal. lia.
    + apply N. rewrite nth_error_upd_other by exact NE. exact Et.
Qed.

Lemma count_incoming_ok : forall (blks : list (block (payload m) (cond m))) incoming,
  (forall t, In t (edges blks) -> t < length incoming) ->
  exists r, count_incoming blks incoming = Val r /\ length r = length incoming /\
    forall t n, nth_error incoming t = Some n -> nth_error r t = Some (n + indegree blks t).
Proof.
  induction blks as [|blk blks IH]; intros incoming H; cbn [count_incoming].
  - exists incoming. repeat split; auto. intros t n E. unfold indegree. cbn. rewrite Nat.add_0_r. exact E.
  - destruct (count_targets_ok (successors (term blk)) incoming) as (i1 & E1 & L1 & N1).
    { intros t I. apply H. rewrite edges_cons. apply in_or_app. auto. }
    rewrite E1. cbn [bind].
    destruct (IH i1) as (r & E2 & L2 & N2).
    { intros t I. rewrite L1. apply H. rewrite edges_cons. apply in_or_app. auto. }
    exists r. split; [exact E2|]. split; [congruence|].
    intros t n E. rewrite (N2 t _ (N1 t n E)). unfold indegree. rewrite edges_cons, count_occ_app. f_equal. lia.
Qed.

Lemma filter_length_le : forall A (g : A -> bool) l, length (filter g l) <= length l.
Proof. intros A g l. induction l as [|a l IH]; cbn; [lia|]. destruct (g a); cbn; lia. Qed.

Theorem merge_ok : forall fn : function, well_formed_body fn ->
  exists fn', merge_blocks_into_predecessors fn = Val fn' /\ same fn fn' /\ well_formed_body fn' /\
    length fn' <= length fn /\
    ((forall b, b < length fn -> reachable_block fn b) ->
     (forall b, b < length fn' -> reachable_block fn' b) /\ forall p s, ~ mergeable fn' p s).
Proof.
  intros fn WF. unfold merge_blocks_into_predecessors.
  destruct (count_incoming_ok fn (repeat 0 (length fn))) as (incoming & EI & LI & NI).
  { intros t I. rewrite repeat_length. apply edges_flows in I. destruct I as (b & F). apply (proj2 WF b t F). }
  rewrite EI. cbn [bind]. rewrite repeat_length in LI.
  assert (CI : counted fn incoming).
  { split; [exact LI|]. intros t L. apply (NI t 0).
    rewrite (nth_error_nth' _ 0) by (rewrite repeat_length; exact L). rewrite nth_repeat_any. reflexivity. }
  destruct (candidates_ok fn incoming (seq 0 (length fn)) WF CI) as (pending & EP & LP & IP).
  { intros p I. apply in_seq in I. lia. }
  rewrite EP. cbn [bind]. rewrite seq_length in LP.
  destruct (merge_loop_ok (S (2 * length fn)) fn incoming pending false) as (fn1 & any & E & SA & WF1 & LE & NM & DE & SM).
  - pose proof (filter_length_le _ (fun n => negb (n =? 0)) incoming). unfold nonzero. lia.
  - exact WF.
  - exact CI.
  - intros p I. apply IP in I. destruct I as (I & _). apply in_seq in I. lia.
  - intros p s M. apply IP. split; [|eauto]. apply in_seq.
    destruct M as ((blk & N & _) & _). assert (p < length fn) by (apply nth_error_Some; congruence). lia.
  - rewrite E. cbn [bind]. destruct any.
    + destruct (remove_unreachable_blocks_ok fn1 WF1) as (fn' & order & E' & _). rewrite E'.
      destruct (removed_ok fn1 fn' WF1 E') as (o & RA & INC & IN & FI & WF' & RE).
      exists fn'. split; [reflexivity|]. split; [|split; [exact WF'|split]].
      * eapply equivalent_trans; [exact SA|]. eapply rearranged_same; eauto.
      * rewrite (proj1 RA), <- LE. rewrite <- (seq_length (length fn1) 0).
        apply NoDup_incl_length; [apply increasing_nodup, INC|]. intros b I. apply IN in I.
        apply in_seq. pose proof (reachable_range fn1 WF1 b I). lia.
      * intros ALL. split; [exact RE|]. intros p s ((blk' & N & T) & A & B & SRC).
        assert (Lp : p < length fn') by (apply nth_error_Some; congruence).
        assert (F : flows fn' p s) by (exists blk'; split; [exact N|]; rewrite T; left; reflexivity).
        destruct (rearranged_flows_to fn1 fn' o RA p s F) as (p0 & s0 & Ep & Es & F0).
        destruct (proj2 RA p p0 Ep) as (blk & blk1 & N0 & N1 & _ & TR).
        assert (blk1 = blk') by congruence. subst blk1. rewrite T in TR.
        pose proof (increasing_nodup _ INC) as ND.
        assert (DD : forall b, reachable_block fn b \/ forall t, ~ flows fn b t).
        { intros b. destruct (lt_dec b (length fn)) as [L|L]; [left; apply ALL, L|right].
          intros t (blk0 & Nb & _). apply L, nth_error_Some. congruence. }
        apply (NM p0 s0). split; [|split; [|split]].
        -- exists blk. split; [exact N0|]. destruct (term blk); cbn in TR; try contradiction. congruence.
        -- intros ->. apply A. apply (proj1 (NoDup_nth_error o) ND); [apply nth_error_Some; congruence|rewrite Es; symmetry; exact FI].
        -- intros ->. apply B. apply (proj1 (NoDup_nth_error o) ND); [apply nth_error_Some; congruence|congruence].
        -- intros q Fq. destruct (DE DD q) as [R|D].
           ++ apply IN in R. destruct (In_nth_error _ _ R) as (i & Ei).
              destruct (rearranged_flows_from fn1 fn' o RA i q s0 Ei Fq) as (j & Ej & Fj).
              assert (j = s) by (apply (proj1 (NoDup_nth_error o) ND); [apply nth_error_Some; congruence|congruence]).
              subst j. apply SRC in Fj. subst i. congruence.
           ++ exfalso. apply (D s0 Fq).
    + exists fn1. rewrite (SM eq_refl eq_refl) in *. split; [reflexivity|].
      split; [exact SA|]. split; [exact WF|]. split; [lia|]. auto.
Qed.
End Loop.

Lemma removal_keeps : forall m bodies f (fn : function (payload m) (cond m)), well_formed_body fn ->
  exists fn' order, remove_unreachable_blocks fn = Val fn' /\ rearranged fn order fn' /\
    increasing order /\ (forall b, In b order <-> reachable_block fn b) /\
    well_formed_body fn' /\ (forall b, b < length fn' -> reachable_block fn' b) /\
    equivalent any_event m (with_body bodies f fn) (with_body bodies f fn').
Proof.
  intros m bodies f fn WF. destruct (remove_unreachable_blocks_ok fn WF) as (fn' & _ & E & _).
  destruct (removed_ok fn fn' WF E) as (order & RA & INC & IN & FI & WF' & RE).
  exists fn', order. repeat (split; [assumption|]). eapply rearranged_same; eauto.
Qed.

Lemma reorder_keeps : forall m bodies f (fn : function (payload m) (cond m)), well_formed_body fn ->
  exists fn' order, reorder_blocks_in_reverse_postorder fn = Val fn' /\ rearranged fn order fn' /\
    NoDup order /\ (forall b, In b order <-> b < length fn) /\ nth_error order 0 = Some entry /\
    (forall i j a b, nth_error order i = Some a -> nth_error order j = Some b -> reachable_block fn b ->
     dominates fn a b -> i <= j) /\
    well_formed_body fn' /\
    equivalent any_event m (with_body bodies f fn) (with_body bodies f fn').
Proof.
  intros m bodies f fn WF. destruct (reorder_ok fn WF) as (fn' & order & E & RA & ND & IN & FI & DO).
  exists fn', order. repeat (split; [assumption|]).
  split; [eapply rearranged_well_formed; eauto|eapply rearranged_same; eauto].
Qed.
