(** Proofs about the check of type declarations: the verdict. *)
From Coq Require Import List Bool Arith Lia Relations Permutation.
From Verif Require Import ListUtil GraphModel GraphSpec GraphProofs SccProofs TopoProofs TypeDeclModel TypeDeclSpec TypeDeclProofs.
Import ListNotations.

(** ** Components and cycles of any graph *)
Definition cyclic (g : graph) (i : nat) : Prop := clos_trans nat (edge g) i i.

Lemma reach_clos : forall g i j, reach g i j <-> clos_refl_trans nat (edge g) i j.
Proof.
  intros g i j. split.
  - induction 1; [apply rt_refl|]. eapply rt_trans; [eauto|]. apply rt_step. auto.
  - intros H. apply clos_rt_rtn1 in H. induction H; [constructor|]. econstructor; eauto.
Qed.
Lemma clos_rt_t : forall (R : nat -> nat -> Prop) i j, clos_refl_trans nat R i j -> i = j \/ clos_trans nat R i j.
Proof.
  induction 1 as [x y H|x|x y z H1 [->|I1] H2 [->|I2]]; auto; [right; constructor; auto|].
  right. eapply t_trans; eauto.
Qed.
Lemma clos_t_rt : forall (R : nat -> nat -> Prop) i j, clos_trans nat R i j -> clos_refl_trans nat R i j.
Proof. induction 1; [apply rt_step; auto|eapply rt_trans; eauto]. Qed.
Lemma clos_t_first : forall (R : nat -> nat -> Prop) i j, clos_trans nat R i j -> exists k, R i k /\ clos_refl_trans nat R k j.
Proof.
  induction 1 as [x y H|x y z H1 (k & A & B) H2 _]; [exists y; split; auto; apply rt_refl|].
  exists k. split; auto. eapply rt_trans; [eauto|]. apply clos_t_rt. auto.
Qed.

Lemma component_cyclic : forall g x more, NoDup (x :: more) ->
  (forall u v, In u (x :: more) -> (connected g u v <-> In v (x :: more))) ->
  forall ss, nth_error g x = Some ss ->
  forall i, In i (x :: more) -> (negb (length more =? 0) || has x ss = true <-> cyclic g i).
Proof.
  intros g x more N C ss HS i Hi. destruct more as [|y more].
  - simpl. destruct Hi as [<-|[]]. rewrite has_in. split.
    + intros H. constructor. exists ss. auto.
    + intros H. apply clos_t_first in H. destruct H as (k & (ss' & E & K) & R). rewrite HS in E. injection E as <-.
      assert (X : In k [x]).
      { apply (C x k); simpl; auto. split; [apply reach_edge; exists ss; auto|apply reach_clos; auto]. }
      destruct X as [<-|[]]. auto.
  - simpl. split; auto. intros _.
    assert (X : exists j, In j (x :: y :: more) /\ j <> i).
    { destruct (Nat.eq_dec x i) as [<-|n]; [|exists x; simpl; auto]. exists y. split; [simpl; auto|].
      intros ->. inversion N; subst. simpl in *. tauto. }
    destruct X as (j & Hj & n). destruct (proj2 (C i j Hi) Hj) as (A & B). apply reach_clos in A, B.
    apply clos_rt_t in A, B. destruct A as [->|A]; [contradiction|]. destruct B as [->|B]; [contradiction|]. eapply t_trans; eauto.
Qed.

Lemma nodup_concat : forall A (l : list (list A)) c, NoDup (concat l) -> In c l -> NoDup c.
Proof.
  induction l as [|d l IH]; intros c N H; [destruct H|]. destruct H as [<-|H]; simpl in N.
  - apply NoDup_app_remove_r in N. auto.
  - apply NoDup_app_remove_l in N. auto.
Qed.

Lemma first_cycle_ok : forall g, well_formed g -> forall sccs,
  (forall c, In c sccs -> c <> [] /\ NoDup c /\ (forall u, In u c -> u < length g) /\ forall u v, In u c -> (connected g u v <-> In v c)) ->
  exists r, first_cycle g sccs = Val r /\
    match r with Some x => cyclic g x /\ In x (concat sccs) | None => forall x, In x (concat sccs) -> ~ cyclic g x end.
Proof.
  intros g W. induction sccs as [|c sccs IH]; intros HC; simpl.
  - exists None. split; auto.
  - destruct (HC c (or_introl eq_refl)) as (NE & N & L & C). destruct c as [|x more]; [contradiction|].
    destruct (in_range _ g x) as (ss & E); [apply L; simpl; auto|]. rewrite (rd_val _ _ _ _ E). cbn [bind].
    pose proof (component_cyclic g x more N C ss E) as Q.
    destruct (negb (length more =? 0) || has x ss) eqn:B.
    + exists (Some x). split; auto. split; [apply Q; simpl; auto|]. simpl. auto.
    + destruct IH as (r & -> & I); [intros d Hd; apply HC; simpl; auto|]. exists r. split; auto. destruct r as [y|].
      * destruct I as (I1 & I2). split; auto. rewrite in_app_iff. auto.
      * intros y Hy. apply (in_app_or (x :: more)) in Hy. destruct Hy as [Hy|Hy]; auto.
        intros X. apply (Q y Hy) in X. congruence.
Qed.

Lemma is_recursive_ok : forall g c, c <> [] -> NoDup c -> (forall u, In u c -> u < length g) ->
  (forall u v, In u c -> (connected g u v <-> In v c)) ->
  exists b, is_recursive g c = Val b /\ forall i, In i c -> (b = true <-> cyclic g i).
Proof.
  intros g c NE N L C. destruct c as [|x more]; [contradiction|].
  destruct (in_range _ g x) as (ss & E); [apply L; simpl; auto|].
  pose proof (component_cyclic g x more N C ss E) as Q. unfold is_recursive. cbn [length].
  destruct (1 <? S (length more)) eqn:B.
  - exists true. split; auto. intros i Hi. rewrite <- (Q i Hi). apply Nat.ltb_lt in B.
    destruct (Nat.eqb_spec (length more) 0); [lia|]. simpl. tauto.
  - apply Nat.ltb_ge in B. cbn [rd nth_error bind]. rewrite (rd_val _ _ _ _ E). cbn [bind].
    exists (has x ss). split; auto. intros i Hi. rewrite <- (Q i Hi).
    destruct (Nat.eqb_spec (length more) 0); [simpl; tauto|lia].
Qed.

Lemma position_ok : forall x l, In x l -> exists p, position x l = Val p /\ nth_error l p = Some x.
Proof.
  induction l as [|y l IH]; intros H; [destruct H|]. simpl. destruct (Nat.eqb_spec y x) as [->|n].
  - exists 0. auto.
  - destruct H as [->|H]; [contradiction|]. destruct (IH H) as (p & -> & E). exists (S p). auto.
Qed.
Lemma traverse_ok : forall (A B : Type) (f : A -> gres B) (Q : A -> B -> Prop) l,
  (forall x, In x l -> exists y, f x = Val y /\ Q x y) -> exists ys, traverse f l = Val ys /\ Forall2 Q l ys.
Proof.
  induction l as [|x l IH]; intros H; simpl; [exists []; auto|].
  destruct (H x (or_introl eq_refl)) as (y & -> & Qy). cbn [bind].
  destruct IH as (ys & -> & F); [intros; apply H; simpl; auto|]. exists (y :: ys). auto.
Qed.
Lemma forall2_nth : forall (A B : Type) (Q : A -> B -> Prop) l l', Forall2 Q l l' ->
  length l = length l' /\ forall i y, nth_error l' i = Some y -> exists x, nth_error l i = Some x /\ Q x y.
Proof.
  induction 1 as [|x y l l' H F (E & IH)]; split; auto.
  - intros [|i] y H; discriminate.
  - simpl. auto.
  - intros [|i] z Hz; simpl in Hz; [injection Hz as <-; exists x; auto|]. apply IH. auto.
Qed.
Lemma forall2_in : forall (A B : Type) (Q : A -> B -> Prop) l l', Forall2 Q l l' ->
  (forall y, In y l' -> exists x, In x l /\ Q x y) /\ (forall x, In x l -> exists y, In y l' /\ Q x y).
Proof.
  induction 1 as [|x y l l' H F (IH1 & IH2)]; split.
  - intros y [].
  - intros x [].
  - intros z [<-|Hz]; [exists x; simpl; auto|]. destruct (IH1 z Hz) as (w & ? & ?). exists w. simpl. auto.
  - intros z [<-|Hz]; [exists y; simpl; auto|]. destruct (IH2 z Hz) as (w & ? & ?). exists w. simpl. auto.
Qed.

(** ** Regularity *)
Lemma all_params_ok : forall args params, length args = length params ->
  (all_params args params = true <-> args = map (fun p => PPath [p]) params).
Proof.
  induction args as [|a args IH]; intros [|p params] E; simpl in *; try discriminate; [tauto|].
  injection E as E. specialize (IH params E). destruct a as [| | | |path| | | | | |]; try (split; discriminate).
  destruct path as [|n [|m path]]; try (split; discriminate).
  rewrite andb_true_iff, Nat.eqb_eq, IH. split; [intros (-> & ->); auto|intros [= -> ->]; auto].
Qed.
Lemma is_regular_ok : forall current target args,
  is_regular current target args = true <-> length target = length current /\ args = map (fun p => PPath [p]) current.
Proof.
  intros current target args. unfold is_regular. rewrite !andb_true_iff, !Nat.eqb_eq. split.
  - intros ((A & B) & C). split; auto. apply all_params_ok; auto.
  - intros (A & ->). rewrite map_length. split; auto. apply all_params_ok; auto. rewrite map_length. auto.
Qed.

Lemma first_some : forall (A : Type) (check : A -> option nat) l name, first check l = Some name -> exists x, In x l /\ check x = Some name.
Proof.
  induction l as [|x l IH]; intros name H; simpl in H; [discriminate|]. destruct (check x) as [n|] eqn:E.
  - injection H as <-. exists x. simpl. auto.
  - destruct (IH _ H) as (y & ? & ?). exists y. simpl. auto.
Qed.
Lemma first_none : forall (A : Type) (check : A -> option nat) l, first check l = None -> forall x, In x l -> check x = None.
Proof.
  induction l as [|y l IH]; intros H x Hx; [destruct Hx|]. simpl in H. destruct (check y) as [n|] eqn:E; [discriminate|].
  destruct Hx as [<-|Hx]; auto.
Qed.

Section Check.
Variable D : list decl.

Definition bad_application (scc current : list nat) (t : ptype) (j : nat) : Prop :=
  exists e path args, nth_error D j = Some e /\ applies path args t /\ refers D path j /\ In j scc /\ d_params e <> [] /\
    ~ (length (d_params e) = length current /\ args = map (fun p => PPath [p]) current).

Lemma irregular_here_some : forall scc current path args name, irregular_here D scc current path args = Some name ->
  exists j e, nth_error D j = Some e /\ d_name e = name /\ refers D path j /\ In j scc /\ d_params e <> [] /\
    ~ (length (d_params e) = length current /\ args = map (fun p => PPath [p]) current).
Proof.
  intros scc current path args name H. unfold irregular_here in H. destruct path as [|n [|m path]]; try discriminate.
  destruct (ty_names D n) as [j|] eqn:E; [|discriminate]. destruct (has j scc) eqn:HJ; [|discriminate]. apply names_refers in E.
  pose proof E as (e & E1 & E2 & _). rewrite E1 in H. injection E2 as ->.
  destruct (negb (length (d_params e) =? 0) && negb (is_regular current (d_params e) args)) eqn:B; [|discriminate].
  injection H as <-. apply andb_true_iff in B. destruct B as (B1 & B2). apply negb_true_iff in B1, B2.
  exists j, e. split; auto. split; auto. split; auto. split; [apply has_in; auto|]. split.
  - intros X. rewrite X in B1. discriminate.
  - intros X. apply is_regular_ok in X. congruence.
Qed.
Lemma irregular_here_none : forall scc current path args, irregular_here D scc current path args = None ->
  forall j e, nth_error D j = Some e -> refers D path j -> In j scc -> d_params e <> [] ->
    length (d_params e) = length current /\ args = map (fun p => PPath [p]) current.
Proof.
  intros scc current path args H j e N R Hj P. pose proof R as (e' & N' & -> & _). rewrite N in N'. injection N' as <-.
  unfold irregular_here in H. rewrite (proj2 (names_refers D (d_name e) j) R) in H. rewrite (proj2 (has_in j scc) Hj), N in H.
  destruct (is_regular current (d_params e) args) eqn:B; [apply is_regular_ok; auto|].
  destruct (d_params e); [contradiction|]. discriminate H.
Qed.

Lemma irregular_some : forall scc current t name, irregular D scc current t = Some name ->
  exists j e, bad_application scc current t j /\ nth_error D j = Some e /\ d_name e = name.
Proof.
  intros scc current. unfold bad_application.
  induction t as [| | | |path|path args F|alts F|ts F|fs F|t IH|args ret F IH] using ptype_deep; intros name H; try discriminate H; cbn [irregular] in H.
  - destruct (irregular_here D scc current path args) as [n|] eqn:E.
    + injection H as ->. apply irregular_here_some in E. destruct E as (j & e & N & R). exists j, e. split; [|tauto].
      exists e, path, args. split; auto. split; [constructor|tauto].
    + apply first_some in H. destruct H as (a & Ha & H). rewrite Forall_forall in F.
      destruct (F a Ha name H) as (j & e & (e' & p & args' & N & A & R) & Q). exists j, e. split; auto.
      exists e', p, args'. split; auto. split; auto. eapply ap_arg; eauto.
  - apply first_some in H. destruct H as ((c & a) & Ha & H). rewrite Forall_forall in F.
    destruct (F (c, a) Ha name H) as (j & e & (e' & p & args' & N & A & R) & Q). exists j, e. split; auto.
    exists e', p, args'. split; auto. split; auto. eapply ap_alternative; eauto.
  - apply first_some in H. destruct H as (a & Ha & H). rewrite Forall_forall in F.
    destruct (F a Ha name H) as (j & e & (e' & p & args' & N & A & R) & Q). exists j, e. split; auto.
    exists e', p, args'. split; auto. split; auto. eapply ap_element; eauto.
  - apply first_some in H. destruct H as ((c & a) & Ha & H). rewrite Forall_forall in F.
    destruct (F (c, a) Ha name H) as (j & e & (e' & p & args' & N & A & R) & Q). exists j, e. split; auto.
    exists e', p, args'. split; auto. split; auto. eapply ap_field; eauto.
  - destruct (IH name H) as (j & e & (e' & p & args' & N & A & R) & Q). exists j, e. split; auto.
    exists e', p, args'. split; auto. split; auto. constructor; auto.
  - destruct (first (fun arg => irregular D scc current arg) args) as [n|] eqn:E.
    + injection H as ->. apply first_some in E. destruct E as (a & Ha & H). rewrite Forall_forall in F.
      destruct (F a Ha name H) as (j & e & (e' & p & args' & N & A & R) & Q). exists j, e. split; auto.
      exists e', p, args'. split; auto. split; auto. eapply ap_fun_arg; eauto.
    + destruct (IH name H) as (j & e & (e' & p & args' & N & A & R) & Q). exists j, e. split; auto.
      exists e', p, args'. split; auto. split; auto. apply ap_fun_ret; auto.
Qed.
Lemma irregular_none : forall scc current t, irregular D scc current t = None -> forall j, ~ bad_application scc current t j.
Proof.
  intros scc current t H j (e & path & args & N & A & R & Hj & P & B). apply B. clear B.
  revert H. induction A as [|path' args' a Ia A IHA|alts c p Ia A IHA|ts t' Ia A IHA|fs f t' Ia A IHA|t' A IHA|args' ret a Ia A IHA|args' ret A IHA]; intros H; cbn [irregular] in H.
  - destruct (irregular_here D scc current path args) eqn:E; [discriminate|]. eapply irregular_here_none; eauto.
  - destruct (irregular_here D scc current path' args') eqn:E; [discriminate|]. apply IHA. exact (first_none _ _ _ H _ Ia).
  - apply IHA. exact (first_none _ _ _ H _ Ia).
  - apply IHA. exact (first_none _ _ _ H _ Ia).
  - apply IHA. exact (first_none _ _ _ H _ Ia).
  - auto.
  - apply IHA. destruct (first (fun arg => irregular D scc current arg) args') eqn:E; [discriminate|]. exact (first_none _ _ _ E _ Ia).
  - apply IHA. destruct (first (fun arg => irregular D scc current arg) args') eqn:E; [discriminate|]. auto.
Qed.

Lemma any_irregular_ok : forall scc group, (forall i, In i group -> i < length D) ->
  exists r, any_irregular D scc group = Val r /\
    match r with
    | Some name => exists i d t j e, In i group /\ nth_error D i = Some d /\ In t (written d) /\
                     bad_application scc (d_params d) t j /\ nth_error D j = Some e /\ d_name e = name
    | None => forall i d t j, In i group -> nth_error D i = Some d -> In t (written d) -> ~ bad_application scc (d_params d) t j
    end.
Proof.
  intros scc. induction group as [|x group IH]; intros L; simpl.
  - exists None. split; auto.
  - destruct (in_range _ D x) as (d & E); [apply L; simpl; auto|]. rewrite (rd_val _ _ _ _ E). cbn [bind].
    destruct (irregular_decl D scc d) as [name|] eqn:B.
    + exists (Some name). split; auto. unfold irregular_decl in B. apply first_some in B. destruct B as (t & Ht & B).
      apply irregular_some in B. destruct B as (j & e & B & N & M). exists x, d, t, j, e. split; auto.
    + destruct IH as (r & -> & I); [intros; apply L; simpl; auto|]. exists r. split; auto. destruct r as [name|].
      * destruct I as (i & d' & t & j & e & Hi & I). exists i, d', t, j, e. split; auto.
      * intros i d' t j [<-|Hi] N Ht; [|eapply I; eauto]. rewrite E in N. injection N as <-.
        apply irregular_none. unfold irregular_decl in B. eapply first_none in B; eauto.
Qed.

(** ** The graph of the declarations *)
Variable order : list nat -> list nat.
Hypothesis HO : forall l, Permutation l (order l).

Lemma order_in : forall l x, In x (order l) <-> In x l.
Proof. intros l x. split; apply Permutation_in; [apply Permutation_sym|]; apply HO. Qed.

Notation g := (dep_graph order D).
Notation infos := (map (decl_info D) D).

Lemma edge_uses : forall i j, edge g i j <-> uses D i j.
Proof.
  intros i j. unfold edge, uses, dep_graph. split.
  - intros (ss & E & H). rewrite nth_error_map in E. destruct (nth_error D i) as [d|] eqn:N; [|discriminate].
    cbn in E. injection E as <-. apply (proj1 (order_in _ _)) in H. apply decl_info_ok in H. destruct H as (t & u & H & M).
    exists d, t, u. auto.
  - intros (d & t & u & N & H & M). exists (order (refs (decl_info D d))). rewrite nth_error_map, N. split; auto.
    apply order_in. apply decl_info_ok. eauto.
Qed.
Lemma mention_lt : forall u t j, mention D u t j -> j < length D.
Proof. induction 1; auto; eapply refers_lt; eauto. Qed.
Lemma uses_lt : forall i j, uses D i j -> i < length D /\ j < length D.
Proof.
  intros i j (d & t & u & N & _ & M). split; [apply nth_error_Some; congruence|]. eapply mention_lt; eauto.
Qed.
Lemma dep_length : length g = length D.
Proof. apply map_length. Qed.
Lemma dep_well_formed : well_formed g.
Proof. intros u v H. apply edge_uses in H. apply uses_lt in H. rewrite dep_length. tauto. Qed.

Lemma clos_ext : forall (R R' : nat -> nat -> Prop), (forall i j, R i j -> R' i j) -> forall i j, clos_refl_trans nat R i j -> clos_refl_trans nat R' i j.
Proof. intros R R' H i j. induction 1; [apply rt_step; auto|apply rt_refl|eapply rt_trans; eauto]. Qed.
Lemma clos_t_ext : forall (R R' : nat -> nat -> Prop), (forall i j, R i j -> R' i j) -> forall i j, clos_trans nat R i j -> clos_trans nat R' i j.
Proof. intros R R' H i j. induction 1; [apply t_step; auto|eapply t_trans; eauto]. Qed.

Lemma reach_uses : forall i j, reach g i j <-> clos_refl_trans nat (uses D) i j.
Proof.
  intros i j. rewrite reach_clos. split; apply clos_ext; intros; apply edge_uses; auto.
Qed.
Lemma connected_group : forall i j, connected g i j <-> same_group D i j.
Proof. intros i j. unfold connected, same_group. rewrite !reach_uses. tauto. Qed.
Lemma cyclic_recursive : forall i, cyclic g i <-> recursive D i.
Proof. intros i. split; apply clos_t_ext; intros; apply edge_uses; auto. Qed.
Lemma directly_uses : forall i j, uses_directly D i j -> uses D i j.
Proof. intros i j (d & t & N & H & M). exists d, t, false. auto. Qed.

(** ** One group *)
Section Group.
Variable scc : list nat.
Hypothesis NE : scc <> [].
Hypothesis ND : NoDup scc.
Hypothesis IN : forall i, In i scc -> i < length D.
Hypothesis GR : forall u v, In u scc -> (same_group D u v <-> In v scc).

Lemma unguarded_ok : exists ug, unguarded_graph order infos scc = Val ug /\ length ug = length scc /\
  forall p q, edge ug p q <-> exists i j, nth_error scc p = Some i /\ nth_error scc q = Some j /\ uses_directly D i j.
Proof.
  unfold unguarded_graph.
  destruct (traverse_ok _ _ (fun index =>
    let* info := rd infos index in
    let* deps := traverse (fun dep => position dep scc) (filter (fun dep => has dep scc) (order (unguarded_refs info))) in
    Val (order deps)) (fun i ps => forall q, In q ps <-> exists j, nth_error scc q = Some j /\ uses_directly D i j) scc) as (ug & E & F).
  - intros i Hi. destruct (in_range _ D i) as (d & N); [auto|].
    assert (N' : nth_error infos i = Some (decl_info D d)) by (rewrite nth_error_map, N; auto).
    rewrite (rd_val _ _ _ _ N'). cbn [bind].
    destruct (traverse_ok _ _ (fun dep => position dep scc) (fun j p => nth_error scc p = Some j)
      (filter (fun dep => has dep scc) (order (unguarded_refs (decl_info D d))))) as (deps & E & F).
    { intros j Hj. apply filter_In in Hj. apply position_ok. apply has_in. tauto. }
    rewrite E. cbn [bind]. exists (order deps). split; auto. intros q. rewrite order_in.
    apply forall2_in in F. destruct F as (F1 & F2). split.
    + intros H. destruct (F1 q H) as (j & Hj & Hq). exists j. split; auto. apply filter_In in Hj. destruct Hj as (Hj & _).
      apply (proj1 (order_in _ _)) in Hj. apply decl_info_ok in Hj. destruct Hj as (t & Ht & M). exists d, t. auto.
    + intros (j & Hq & (d' & t & Nd & Ht & M)). rewrite N in Nd. injection Nd as <-.
      destruct (F2 j) as (q' & Hq' & E').
      { apply filter_In. split; [|apply has_in; eapply nth_error_In; eauto]. apply order_in. apply decl_info_ok. eauto. }
      rewrite (nodup_nth _ _ _ _ _ ND Hq E'). auto.
  - exists ug. split; auto. apply forall2_nth in F. destruct F as (L & F). split; auto. intros p q. split.
    + intros (ss & Hp & Hq). destruct (F p ss Hp) as (i & Hi & Q). apply Q in Hq. destruct Hq as (j & ? & ?). exists i, j. auto.
    + intros (i & j & Hi & Hj & U). destruct (in_range _ ug p) as (ss & Hp); [rewrite <- L; eapply range_of; eauto|].
      exists ss. split; auto. destruct (F p ss Hp) as (i' & Hi' & Q). rewrite Hi in Hi'. injection Hi' as <-. apply Q. eauto.
Qed.

Section Ug.
Variable ug : graph.
Hypothesis UG : forall p q, edge ug p q <-> exists i j, nth_error scc p = Some i /\ nth_error scc q = Some j /\ uses_directly D i j.

Lemma ug_cycle_direct : forall p q, clos_trans nat (edge ug) p q ->
  exists i j, nth_error scc p = Some i /\ nth_error scc q = Some j /\ clos_trans nat (uses_directly D) i j.
Proof.
  induction 1 as [p q H|p q r H1 (i & j & A & B & C) H2 (i' & j' & A' & B' & C')].
  - apply UG in H. destruct H as (i & j & A & B & C). exists i, j. split; auto. split; auto. constructor; auto.
  - rewrite B in A'. injection A' as <-. exists i, j'. split; auto. split; auto. eapply t_trans; eauto.
Qed.
Lemma direct_ug : forall i j, clos_trans nat (uses_directly D) i j -> In i scc -> In j scc ->
  exists p q, nth_error scc p = Some i /\ nth_error scc q = Some j /\ clos_trans nat (edge ug) p q.
Proof.
  intros i j H. apply clos_trans_t1n in H. induction H as [i j H|i k j H T IH]; intros Hi Hj.
  - apply In_nth_error in Hi, Hj. destruct Hi as (p & Hp), Hj as (q & Hq). exists p, q. split; auto. split; auto.
    constructor. apply UG. eauto.
  - assert (Hk : In k scc).
    { apply (GR i k Hi). split; [apply rt_step, directly_uses; auto|]. eapply rt_trans.
      - eapply clos_ext; [apply directly_uses|]. apply clos_t_rt. apply clos_t1n_trans. eauto.
      - apply (GR i j Hi). auto. }
    destruct (IH Hk Hj) as (p & q & Hp & Hq & C). apply In_nth_error in Hi. destruct Hi as (o & Ho).
    exists o, q. split; auto. split; auto. eapply t_trans; [constructor|eauto]. apply UG. eauto.
Qed.
End Ug.

Lemma disjoint_ok : forall s t, disjoint s t = true <-> forall x, In x s -> ~ In x t.
Proof.
  intros s t. unfold disjoint. rewrite negb_true_iff. split.
  - intros H x Hs Ht. assert (X : existsb (fun x => has x t) s = true) by (apply existsb_exists; exists x; split; auto; apply has_in; auto). congruence.
  - intros H. destruct (existsb (fun x => has x t) s) eqn:E; auto. apply existsb_exists in E. destruct E as (x & Hx & E).
    apply has_in in E. exfalso. eapply H; eauto.
Qed.

Lemma any_terminating_ok : forall group, (forall i, In i group -> i < length D) ->
  exists b, any_terminating infos scc group = Val b /\
    (b = true <-> exists j alts c p, In j group /\ sum_of D j alts /\ In (c, p) alts /\ forall u k, mention D u p k -> ~ In k scc).
Proof.
  induction group as [|x group IH]; intros L; simpl.
  - exists false. split; auto. split; [discriminate|]. intros (? & ? & ? & ? & [] & _).
  - destruct (in_range _ D x) as (d & E); [apply L; simpl; auto|].
    assert (N' : nth_error infos x = Some (decl_info D d)) by (rewrite nth_error_map, E; auto).
    rewrite (rd_val _ _ _ _ N'). cbn [bind].
    destruct (existsb (fun refs => disjoint refs scc) (variant_payload_refs (decl_info D d))) eqn:B.
    + exists true. split; auto. split; auto. intros _. apply existsb_exists in B. destruct B as (s & Hs & Ds).
      apply decl_info_ok in Hs. destruct Hs as (t & alts & c & p & Ht & O & HI & ->). exists x, alts, c, p. split; [simpl; auto|].
      split; [exists d, t; auto|]. split; auto. intros u k M. rewrite disjoint_ok in Ds. apply Ds. apply payload_refs. eauto.
    + destruct IH as (b & -> & I); [intros; apply L; simpl; auto|]. exists b. split; auto. rewrite I. split.
      * intros (j & alts & c & p & Hj & R). exists j, alts, c, p. split; auto.
      * intros (j & alts & c & p & [<-|Hj] & (d' & t & Nd & Ht & O) & HI & M); [|exists j, alts, c, p; split; auto; split; auto; exists d', t; auto].
        exfalso. rewrite E in Nd. injection Nd as <-.
        assert (X : existsb (fun refs => disjoint refs scc) (variant_payload_refs (decl_info D d)) = true).
        { apply existsb_exists. exists (refs (collect_from_type D p true no_info)). split.
          - apply decl_info_ok. exists t, alts, c, p. auto.
          - apply disjoint_ok. intros k Hk. apply payload_refs in Hk. destruct Hk as (u & Hk). eapply M; eauto. }
        congruence.
Qed.

Lemma group_ending : forall i, In i scc ->
  ((exists j alts c p, In j scc /\ sum_of D j alts /\ In (c, p) alts /\ forall u k, mention D u p k -> ~ In k scc) <-> ending_alternative D i).
Proof.
  intros i Hi. split; intros (j & alts & c & p & Hj & S1 & HI & M); exists j, alts, c, p.
  - split; [apply GR; auto|]. split; auto. split; auto. intros u k Hk G. apply (M u k Hk). apply (GR i k Hi). auto.
  - split; [apply (GR i j Hi); auto|]. split; auto. split; auto. intros u k Hk G. apply (M u k Hk). apply (GR i k Hi). auto.
Qed.

(** The verdict on one group. *)
Definition group_verdict (v : verdict) : Prop :=
  match v with
  | Accepted =>
      forall i, In i scc -> ~ direct_cycle D i /\ ending_alternative D i /\ forall j, ~ irregular_use D i j
  | ProductCycleWithoutSum name => exists i d, In i scc /\ nth_error D i = Some d /\ d_name d = name /\ direct_cycle D i
  | SumCycleWithoutTerminatingVariant name =>
      exists i d, In i scc /\ nth_error D i = Some d /\ d_name d = name /\ ~ ending_alternative D i /\
                  forall j, In j scc -> ~ direct_cycle D j
  | NonRegularGenericShape name =>
      exists i j e, In i scc /\ nth_error D j = Some e /\ d_name e = name /\ irregular_use D i j /\ ending_alternative D i /\
                    forall j, In j scc -> ~ direct_cycle D j
  end.

Lemma validate_ok : exists v, validate_type_cycle order D infos scc = Val v /\ group_verdict v.
Proof.
  destruct unguarded_ok as (ug & E & L & U). unfold validate_type_cycle. rewrite E. cbn [bind].
  assert (W : well_formed ug).
  { intros p q H. apply U in H. destruct H as (i & j & _ & H & _). rewrite L. eapply range_of; eauto. }
  destruct (scc_ok ug W) as (sccs & E2 & N & R & NEs & CC & _). rewrite E2. cbn [bind].
  destruct (first_cycle_ok ug W sccs) as (r & E3 & V).
  { intros c Hc. split; auto. split; [eapply nodup_concat; eauto|]. split; [|intros; apply CC; auto].
    intros u Hu. apply R. apply in_concat. eauto. }
  rewrite E3. cbn [bind]. destruct r as [p|].
  - destruct V as (V & _). destruct (ug_cycle_direct ug U p p V) as (i & j & A & B & C). rewrite A in B. injection B as <-.
    rewrite (rd_val _ _ _ _ A). cbn [bind]. destruct (in_range _ D i) as (d & Nd); [apply IN; eapply nth_error_In; eauto|].
    rewrite (rd_val _ _ _ _ Nd). cbn [bind]. exists (ProductCycleWithoutSum (d_name d)). split; auto.
    exists i, d. split; [eapply nth_error_In; eauto|]. auto.
  - assert (ND2 : forall j, In j scc -> ~ direct_cycle D j).
    { intros j Hj C. destruct (direct_ug ug U j j C Hj Hj) as (p & q & A & B & T). rewrite (nodup_nth _ _ _ _ _ ND A B) in T.
      apply (V q); auto. apply R. rewrite L. eapply range_of; eauto. }
    destruct (any_terminating_ok scc IN) as (b & E4 & B). rewrite E4. cbn [bind].
    destruct scc as [|x rest] eqn:ES; [contradiction|]. destruct b; cbn [negb].
    + destruct (any_irregular_ok (x :: rest) (x :: rest) IN) as (r & E5 & I). rewrite E5. cbn [bind].
      assert (EA : forall i, In i (x :: rest) -> ending_alternative D i).
      { intros i Hi. rewrite <- ES in *. apply group_ending; auto. apply B. auto. }
      destruct r as [name|].
      * eexists; split; [reflexivity|]. destruct I as (i & d & t & j & e & Hi & Nd & Ht & BA & Ne & M).
        unfold group_verdict. rewrite ES. exists i, j, e. split; auto. split; auto. split; auto. split; [|auto].
        destruct BA as (e' & path & args & Ne' & A & Rf & Hj & P & X). rewrite Ne in Ne'. injection Ne' as <-.
        exists d, e, t, path, args. split; auto. split; auto. split; auto. split; auto. split; auto. split; auto.
        apply (GR i j); auto.
      * eexists; split; [reflexivity|]. unfold group_verdict. rewrite ES. intros i Hi. split; auto. split; auto.
        intros j (d & e & t & path & args & Nd & Ne & Ht & A & Rf & G & P & X).
        apply (I i d t j Hi Nd Ht). exists e, path, args. split; auto. split; auto. split; auto. split; auto.
        apply (GR i j); auto.
    + cbn [rd nth_error bind]. destruct (in_range _ D x) as (d & Nd); [apply IN; simpl; auto|]. rewrite (rd_val _ _ _ _ Nd). cbn [bind].
      eexists; split; [reflexivity|]. unfold group_verdict. rewrite ES. exists x, d. split; [simpl; auto|]. split; auto. split; auto. split; auto.
      intros X. rewrite <- ES in *. apply group_ending in X; [|rewrite ES; simpl; auto]. apply B in X. discriminate.
Qed.
End Group.
End Check.
