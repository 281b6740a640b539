From Coq Require Import List Bool Arith Lia Permutation Sorted.
From Verif Require Import ListUtil GraphModel InternModel InternSpec InternKinds InternSim InternFind InternProofs InternCanon.
From Verif Require GraphSpec GraphProofs SccProofs TopoProofs.
Import ListNotations.

Local Arguments ty_eq_dec : simpl never.

Lemma get_worlds_eq : forall u v, worlds u = worlds v -> forall t, get u t = get v t.
Proof. intros u v E [i|w i]; simpl; [auto|rewrite E; auto]. Qed.
Lemma canon_worlds : forall u v, worlds u = worlds v -> canon u -> canon v.
Proof.
  intros u v E C. pose proof (get_worlds_eq _ _ E) as G.
  assert (B : below (get u) (get v)) by (intros t k H; rewrite <- G; auto). assert (B' : below (get v) (get u)) by (intros t k H; rewrite G; auto).
  constructor.
  - intros a b H. apply (c_red _ C). eapply sim_mono; eauto.
  - intros w i j k l H1 H2. eapply path1_mono; [exact B|]. eapply (c_conn _ C); rewrite G; eauto.
  - intros a b H1 H2. eapply (c_same _ C); eapply path1_mono; eauto.
Qed.

Section Call.
Variables (u0 : universe) (ks : list kind).
Let n := length ks.
Let D := described u0 ks.
Hypothesis I0 : inv u0.
Hypothesis TD : total D.
Hypothesis ND : forall t k, D t = Some k -> normal k.
Hypothesis PD : forall i k, nth_error ks i = Some k -> path1 D (Loc i) (Loc i) -> plain k.
Hypothesis DD : forall i j, path D (Loc i) (Loc j) -> path D (Loc j) (Loc i) -> sim D D (Loc i) (Loc j) -> i = j.
Definition folded : Prop := forall i t, path1 D (Loc i) (Loc i) -> path D (Loc i) t -> sim D D (Loc i) t -> t = Loc i.
Variable le : kind -> kind -> bool.

Lemma scc_cyclic : forall pre scc u r, ready u0 ks pre scc -> state u0 ks pre u r ->
  (forall i, scc <> [i]) \/ (exists i j, scc = [i] /\ In (Loc j) (kids (res r (kat ks i)))) -> forall i, In i scc -> path1 D (Loc i) (Loc i).
Proof.
  intros pre scc u r R ST [H|(i & j & -> & J)] x X.
  - assert (E : exists y, In y scc /\ y <> x).
    { pose proof (r_nodup _ _ _ _ R) as N. destruct scc as [|a [|b l]]; [destruct X|destruct (H a); auto|]. destruct (Nat.eq_dec a x) as [->|]; [|exists a; simpl; auto].
      exists b. split; [simpl; auto|]. inversion N; subst. intros ->. simpl in *; tauto. }
    destruct E as (y & Y & NE). destruct (path_front _ _ _ (r_conn _ _ _ _ R x y X Y)) as [E|(k & c & E & J & P)]; [congruence|].
    exists k, c. repeat split; auto. eapply path_trans; [exact P|]. apply (r_conn _ _ _ _ R); auto.
  - simpl in X. destruct X as [<-|[]]. unfold res in J. rewrite kids_map in J. apply in_map_iff in J. destruct J as (c & E & J).
    destruct (part_cases u0 ks TD pre [i] u r R ST i c (or_introl eq_refl) J) as [(l & A & B)|[(j' & t & l & -> & A & _ & B & _)|(j' & -> & A & B)]]; rewrite A in E; subst.
    + discriminate.
    + simpl in B. discriminate.
    + inversion E; subst. destruct B as [<-|[]]. exists (kat ks i), (Loc i). repeat split; auto; [|apply path_here].
      eapply scc_kat; eauto. simpl; auto.
Qed.

Lemma state_next : forall pre scc u r u' r', state u0 ks pre u r -> inv u' -> below (get u) (get u') -> length r' = length r ->
  (forall i, In i scc -> i < n) ->
  (forall i, In i scc -> exists t, nth_error r' i = Some (Some t) /\ sim D (get u') (Loc i) t) -> (forall i, ~ In i scc -> nth_error r' i = nth_error r i) ->
  (forall i, In i scc -> ~ In i pre) -> (forall t k, get u' t = Some k -> get u t = Some k \/ exists i, nth_error r' i = Some (Some t)) ->
  state u0 ks (scc ++ pre) u' r'.
Proof.
  intros pre scc u r u' r' ST I B L Rg N O Np Nw. constructor; auto.
  - intros t k H. apply B. eapply s_below; eauto.
  - rewrite L. eapply s_len; eauto.
  - intros i. rewrite in_app_iff. destruct (in_dec Nat.eq_dec i scc) as [J|J].
    + destruct (N i J) as (t & T & _). split; eauto.
    + rewrite O by auto. rewrite <- (s_done _ _ _ _ _ ST). tauto.
  - intros i t E. destruct (in_dec Nat.eq_dec i scc) as [J|J].
    + destruct (N i J) as (t' & T & S'). rewrite T in E. inversion E; subst. auto.
    + rewrite O in E by auto. eapply sim_mono; [| exact B|eapply s_sim; eauto]. intros ? ? X; exact X.
  - intros t k E. destruct (Nw t k E) as [H|H]; auto. destruct (s_new _ _ _ _ _ ST t k H) as [H'|(i & H')]; auto. right. exists i. rewrite O; auto.
    intros J. apply (Np i J). apply (s_done _ _ _ _ _ ST). eauto.
Qed.

Lemma place_component_ok : forall pre scc u r, ready u0 ks pre scc -> state u0 ks pre u r ->
  exists u' r', place_component le u ks r scc = Val (u', r') /\ state u0 ks (scc ++ pre) u' r' /\ below (get u) (get u') /\ (folded -> canon u -> canon u').
Proof.
  intros pre scc u r R ST. pose proof (s_inv _ _ _ _ _ ST) as I. unfold place_component. rewrite (members_ok u0 ks TD pre scc u r R ST). cbn [bind].
  assert (CYC : (forall i, In i scc -> path1 D (Loc i) (Loc i)) -> exists u' r', place_cycle le u (map (fun i => (i, res r (kat ks i))) scc) r = Val (u', r') /\ 
     state u0 ks (scc ++ pre) u' r' /\ below (get u) (get u') /\ (folded -> canon u -> canon u')).
  { intros CY. destruct (place_cycle_ok u0 ks I0 TD ND PD DD le pre scc u r R ST CY) as (u' & r' & E & (idx & w & m & ew & PI & W & F & I' & B & (Lr & Nr) & X)).
    exists u', r'. split; [exact E|]. split; [|split; [exact B|]].
    - apply (state_next pre scc u r u' r' ST I' B Lr).
      + intros i J. apply (r_range _ _ _ _ R); auto.
      + intros i J. rewrite Nr. destruct (local_index_in _ (mems ks r idx) i) as [p P]; [rewrite fst_mems; apply (idx_in scc idx PI); auto|].
        rewrite P. apply local_index_some in P. rewrite fst_mems in P.
        destruct (nth_error m p) as [e|] eqn:Em.
        * exists (Glob w e). split; auto. eapply (fits_sim u0 ks I0 TD pre scc u r R ST idx PI); eauto.
        * exfalso. destruct F as [F1 F2]. destruct (nth_error (lworld ks r idx) p) as [k|] eqn:Ek.
          -- destruct (F2 _ _ Ek) as (_ & e & Ee & _). congruence.
          -- apply nth_error_None in Ek. unfold lworld in Ek. rewrite map_length in Ek. assert (p < length idx) by (apply nth_error_Some; congruence). lia.
      + intros i J. rewrite Nr. replace (local_index i (mems ks r idx)) with (@None nat); auto. symmetry. apply local_index_none. rewrite fst_mems. rewrite (idx_in scc idx PI). auto.
      + intros i J. apply (r_range _ _ _ _ R); auto.
      + intros t k G. destruct X as [X|(EU & EW & Em & _)]; [rewrite (get_worlds_eq _ _ X) in G; auto|]. subst u'. rewrite get_new in G.
        destruct t as [i|w' p]; [discriminate|]. destruct (Nat.eqb_spec w' (length (worlds u))) as [->|]; [|auto]. right.
        destruct (nth_error (lworld ks r idx) p) as [k'|] eqn:Ek; [|discriminate]. assert (Lp : p < length (lworld ks r idx)) by (apply nth_error_Some; congruence).
        apply lworld_nth in Ek. destruct Ek as (i & Ep & _). exists i. rewrite Nr.
        destruct (local_index_in _ (mems ks r idx) i) as [q Q]; [rewrite fst_mems; eapply nth_error_In; eauto|].
        rewrite Q. apply local_index_some in Q. rewrite fst_mems in Q.
        assert (q = p). { eapply (proj1 (NoDup_nth_error idx)); [eapply (idx_nodup u0 ks pre scc R idx PI)|apply nth_error_Some; congruence|congruence]. }
        subst q m. rewrite nth_error_nth' with (d := 0) by (rewrite seq_length; auto). rewrite seq_nth by auto. simpl. rewrite EW. auto.
    - intros FD C. destruct X as [X|(EU & _ & _ & FW)]; [apply (canon_worlds u); auto|]. subst u'.
      eapply (canon_new u0 ks I0 TD ND PD FD pre scc u r idx R ST PI CY C FW). }
  destruct scc as [|i scc]; [destruct (r_some _ _ _ _ R); auto|]. destruct scc as [|j scc].
  - cbn [map]. destruct (recursive_worlds_if_no_local_refs (res r (kat ks i))) as [ws|] eqn:E.
    + assert (K : forall c, In c (kids (res r (kat ks i))) -> exists l, get u c = Some l).
      { intros c J. destruct (res_kids u0 ks TD pre [i] u r R ST i c (or_introl eq_refl) J) as [?|(j & -> & _)]; auto.
        unfold recursive_worlds_if_no_local_refs in E. destruct (worlds_of_some _ _ _ E) as [X _]. destruct (X _ J) as (? & ? & Y). discriminate. }
      assert (NL : forall c, In c (kids (res r (kat ks i))) -> is_local c = false) by (intros c J; destruct (K c J) as (l & L); destruct c; auto; discriminate).
      pose proof (r_range _ _ _ _ R i (or_introl eq_refl)) as [Li Ni].
      assert (Er : nth_error r i <> None) by (apply nth_error_Some; rewrite (s_len _ _ _ _ _ ST); auto).
      assert (FIN : forall u' t, inv u' -> below (get u) (get u') -> get u' t = Some (res r (kat ks i)) ->
        (forall t' k, get u' t' = Some k -> get u t' = Some k \/ t' = t) ->
        exists r', wr r i (Some t) = Val r' /\ state u0 ks ([i] ++ pre) u' r').
      { intros u' t I' B G Nw. exists (upd r i (Some t)). unfold wr. assert (Lt : i < length r) by (apply nth_error_Some; auto).
        destruct (Nat.ltb_spec i (length r)); [|lia]. split; auto.
        apply (state_next pre [i] u r u' _ ST I' B); [apply upd_length| | | | |].
        - intros ? [<-|[]]. auto.
        - intros ? [<-|[]]. exists t. split; [apply nth_error_upd_same; auto|]. eapply (single_sim u0 ks I0 TD pre [i] u r R ST); eauto.
        - intros j J. apply nth_error_upd_other. intros ->. apply J; simpl; auto.
        - intros ? [<-|[]]. auto.
        - intros t' k H'. destruct (Nw t' k H') as [X|X]; auto. subst t'. right. exists i. apply nth_error_upd_same; auto. }
      destruct (insert_nonrec_ok u _ ws I K E) as [(t & E1 & G)|(E1 & Z & Wk)]; rewrite E1; cbn [bind].
      * destruct (FIN u t I (fun _ _ H => H) G (fun _ _ H => or_introl H)) as (r' & E2 & S2). rewrite E2. cbn [bind]. exists u, r'. split; auto. split; auto. split; [intros ? ? H; exact H|]. auto.
      * pose proof (add_zero_inv u _ I (res_normal u0 ks ND pre [i] r R i (or_introl eq_refl)) K) as I'.
        assert (Nw : forall t' k, get (add_zero u (res r (kat ks i))) t' = Some k -> get u t' = Some k \/ t' = Glob 0 (zero_len u)).
        { intros t' k H. rewrite get_add_zero in H. destruct (ty_eq_dec t' (Glob 0 (zero_len u))); auto. }
        destruct (FIN _ _ I' (add_zero_below u _) (add_zero_new u _ I) Nw) as (r' & E2 & S2). rewrite E2. cbn [bind].
        exists (add_zero u (res r (kat ks i))), r'. split; auto. split; auto. split; [apply add_zero_below|]. intros _ C. apply canon_add_zero; auto.
    + apply CYC. eapply scc_cyclic; eauto. right. unfold recursive_worlds_if_no_local_refs in E. destruct (worlds_of_none _ _ E) as (j & J). eauto.
  - apply CYC. eapply scc_cyclic; eauto. left. intros ?. discriminate.
Qed.

Lemma place_components_ok : forall sccs pre u r, ordered u0 ks pre sccs -> state u0 ks pre u r ->
  exists u' r' pre', place_components le u ks r sccs = Val (u', r') /\ (forall i, i < n -> In i pre') /\ state u0 ks pre' u' r' /\ below (get u) (get u') /\ (folded -> canon u -> canon u').
Proof.
  induction sccs as [|scc sccs IH]; intros pre u r O ST; simpl in O; cbn [place_components].
  - exists u, r, pre. split; auto. split; auto. split; auto. split; [intros ? ? H; exact H|auto].
  - destruct O as [R O]. destruct (place_component_ok pre scc u r R ST) as (u1 & r1 & E & S1 & B1 & C1). rewrite E. cbn [bind].
    destruct (IH _ _ _ O S1) as (u2 & r2 & pre' & E2 & P2 & S2 & B2 & C2). exists u2, r2, pre'. split; auto. split; auto. split; auto. split; auto. intros t k H. auto.
Qed.

(** The graph of references. *)
Local Notation g := (kind_graph ks).

Lemma locals_in : forall ts j, In j (locals_of ts) <-> In (Loc j) ts.
Proof.
  intros ts j. unfold locals_of. rewrite in_flat_map. split.
  - intros ([i|w i] & J & K); simpl in K; [destruct K as [->|[]]; auto|destruct K].
  - intros J. exists (Loc j). simpl; auto.
Qed.
Lemma edge_iff : forall i j, GraphSpec.edge g i j <-> exists k, nth_error ks i = Some k /\ In (Loc j) (kids k).
Proof.
  intros i j. unfold GraphSpec.edge, kind_graph. split.
  - intros (ss & E & J). rewrite nth_error_map in E. destruct (nth_error ks i) as [k|]; [|discriminate]. simpl in E. inversion E; subst. exists k. split; auto. apply locals_in. auto.
  - intros (k & E & J). exists (locals_of (kids k)). split; [rewrite nth_error_map, E; auto|apply locals_in; auto].
Qed.
Lemma graph_len : length g = n.
Proof. unfold kind_graph. apply map_length. Qed.
Lemma graph_wf : GraphSpec.well_formed g.
Proof. intros i j E. apply edge_iff in E. destruct E as (k & E & J). rewrite graph_len. eapply local_lt; eauto. Qed.
Lemma reach_path : forall i j, GraphSpec.reach g i j -> path D (Loc i) (Loc j).
Proof.
  intros i j R. induction R as [|v w R IH E]; [apply path_here|]. apply edge_iff in E. destruct E as (k & E & J). eapply path_step; [exact IH|exact E|]. apply mentions_kids. auto.
Qed.
Lemma path_reach : forall i b, path D (Loc i) b -> forall j, b = Loc j -> GraphSpec.reach g i j.
Proof.
  intros i b P. induction P as [|b k c P IH E J]; intros j Ej.
  - inversion Ej; subst. apply GraphSpec.reach_here.
  - subst c. apply mentions_kids in J. destruct b as [x|w x].
    + eapply GraphSpec.reach_step; [apply IH; eauto|]. apply edge_iff. eauto.
    + destruct (i_total _ I0 _ _ _ E J) as (l & L). discriminate.
Qed.

Lemma ordered_from : forall L, NoDup L -> NoDup (concat L) -> (forall v, In v (concat L) <-> v < n) -> (forall c, In c L -> c <> []) ->
  (forall c x y, In c L -> In x c -> (GraphSpec.connected g x y <-> In y c)) ->
  (forall c d x y, In c L -> In d L -> In x c -> In y d -> GraphSpec.edge g x y -> c <> d -> GraphSpec.before (rev L) c d) ->
  forall B A pre, L = A ++ B -> (forall i, In i pre <-> In i (concat A)) -> ordered u0 ks pre B.
Proof.
  intros L NL NC R NE CN BF. induction B as [|c B IH]; intros A pre E P.
  - simpl. intros i H. apply P. rewrite app_nil_r in E. subst A. apply R. auto.
  - simpl. assert (Jc : In c L) by (rewrite E, in_app_iff; simpl; auto). split.
    + constructor.
      * rewrite E, concat_app in NC. simpl in NC. apply GraphProofs.NoDup_app_remove_l in NC. apply GraphProofs.NoDup_app_remove_r in NC. auto.
      * auto.
      * intros i J. assert (In i (concat L)) by (apply in_concat; eauto). split; [apply R; auto|].
        rewrite P. intros K. rewrite E, concat_app in NC. simpl in NC. clear - NC K J. induction (concat A) as [|a l IH]; [destruct K|].
        simpl in NC. inversion NC as [|? ? N1 N2]; subst. destruct K as [->|K]; [|auto]. apply N1. rewrite !in_app_iff. auto.
      * intros i k j J Ek K. assert (Eg : GraphSpec.edge g i j) by (apply edge_iff; eauto).
        assert (Lj : In j (concat L)) by (apply R; rewrite <- graph_len; eapply graph_wf; eauto). apply in_concat in Lj. destruct Lj as (d & Jd & Jj).
        destruct (list_eq_dec Nat.eq_dec c d) as [->|Ncd]; [auto|right]. apply P. apply in_concat. exists d. split; auto.
        destruct (BF c d i j Jc Jd J Jj Eg Ncd) as (p & q & Lpq & Ep & Eq).
        rewrite E, rev_app_distr in Ep, Eq. simpl in Ep, Eq. rewrite <- app_assoc in Ep, Eq. simpl in Ep, Eq.
        assert (NR : NoDup (rev B ++ c :: rev A)). { apply NoDup_rev in NL. rewrite E, rev_app_distr in NL. simpl in NL. rewrite <- app_assoc in NL. auto. }
        assert (Ep' : nth_error (rev B ++ c :: rev A) (length (rev B)) = Some c) by (rewrite nth_error_app2, Nat.sub_diag by lia; auto).
        assert (p = length (rev B)). { apply (proj1 (NoDup_nth_error _) NR); [apply nth_error_Some; congruence|congruence]. }
        subst p. rewrite nth_error_app2 in Eq by lia. replace (q - length (rev B)) with (Datatypes.S (q - length (rev B) - 1)) in Eq by lia. simpl in Eq.
        apply in_rev. eapply nth_error_In; eauto.
      * intros i j J K. apply reach_path. apply (CN c i j Jc J). auto.
      * intros i j J P1 P2. apply (CN c i j Jc J). split; eapply path_reach; eauto.
    + apply (IH (A ++ [c])); [rewrite <- app_assoc; auto|]. intros i. rewrite concat_app, !in_app_iff. simpl. rewrite app_nil_r, P. tauto.
Qed.

Lemma sccs_ok : forall order, iteration order -> n <> 0 -> exists sccs,
  (if length ks =? 1 then Val [[0]] else let* sccs := find_strongly_connected_components g in let* sorted := topological_sort_sccs order g sccs in Val (rev sorted)) = Val sccs /\
  ordered u0 ks [] sccs.
Proof.
  intros order HO Hn. destruct (Nat.eqb_spec (length ks) 1) as [E1|E1].
  - exists [[0]]. split; auto. fold n in E1. simpl. split.
    + constructor.
      * repeat constructor. simpl; tauto.
      * discriminate.
      * intros i [<-|[]]. fold n. split; [lia|auto].
      * intros i k j _ E J. left. assert (j < n) by (eapply local_lt; eauto). left. lia.
      * intros i j [<-|[]] [<-|[]]. apply path_here.
      * intros i j J P1 P2. destruct (path_front _ _ _ P2) as [E|(k & c & E & _)]; [congruence|].
        assert (j < n) by (apply nth_error_Some; unfold D in E; simpl in E; congruence).
        left. lia.
    + fold n. intros i H. left. lia.
  - destruct (TopoProofs.scc_topological_ok order g HO graph_wf) as (sccs & sorted & F & S1 & P & B). rewrite F. cbn [bind]. rewrite S1. cbn [bind]. exists (rev sorted). split; auto.
    destruct (SccProofs.scc_ok g graph_wf) as (sccs' & F' & NC & R & NE & CN & _). rewrite F in F'. inversion F'; subst sccs'.
    assert (PR : Permutation sccs (rev sorted)) by (eapply Permutation_trans; [exact P|apply Permutation_rev]).
    assert (PC : Permutation (concat sccs) (concat (rev sorted))).
    { clear - PR. induction PR; simpl; auto; [apply Permutation_app_head; auto|rewrite !app_assoc; apply Permutation_app_tail; apply Permutation_app_comm|eapply Permutation_trans; eauto]. }
    assert (JN : forall c, In c (rev sorted) <-> In c sccs) by (intros c; split; apply Permutation_in; [apply Permutation_sym|]; auto).
    assert (NCR : NoDup (concat (rev sorted))) by (eapply Permutation_NoDup; eauto).
    assert (NER : forall c, In c (rev sorted) -> c <> []) by (intros c J; apply NE; apply JN; auto).
    apply (ordered_from (rev sorted)) with (A := []); auto.
    + clear - NCR NER. induction (rev sorted) as [|c l IH]; constructor.
      * intros J. simpl in NCR. destruct c as [|x c]; [apply (NER []); simpl; auto|]. simpl in NCR. inversion NCR as [|? ? N1 N2]; subst. apply N1. rewrite in_app_iff. right.
        apply in_concat. exists (x :: c). simpl; auto.
      * apply IH; [simpl in NCR; eapply GraphProofs.NoDup_app_remove_l; eauto|]. intros d J. apply NER. simpl; auto.
    + intros v. rewrite <- graph_len, <- R. split; apply Permutation_in; [apply Permutation_sym|]; auto.
    + intros c x y J. apply CN. apply JN. auto.
    + intros c d x y J1 J2. rewrite rev_involutive. apply B; apply JN; auto.
    + intros i. simpl. tauto.
Qed.
End Call.
