(** Proofs about the check of type declarations: the whole module, the order of lowering, and values. *)
From Coq Require Import List Bool Arith Lia Relations Permutation.
From Verif Require Import ListUtil GraphModel GraphSpec GraphProofs SccProofs TopoProofs TypeDeclModel TypeDeclSpec TypeDeclProofs TypeDeclCheck.
Import ListNotations.

(** ** All groups *)
Section All.
Variable D : list decl.
Variable order : list nat -> list nat.
Hypothesis HO : forall l, Permutation l (order l).

(** A list of nodes that is a component of the graph of the declarations. *)
Definition component (c : list nat) : Prop :=
  c <> [] /\ NoDup c /\ (forall i, In i c -> i < length D) /\ forall u v, In u c -> (same_group D u v <-> In v c).

Lemma components : exists sccs, find_strongly_connected_components (dep_graph order D) = Val sccs /\
  NoDup (concat sccs) /\ (forall i, In i (concat sccs) <-> i < length D) /\ forall c, In c sccs -> component c.
Proof.
  destruct (scc_ok (dep_graph order D) (dep_well_formed D order HO)) as (sccs & E & N & R & NE & C & _). rewrite dep_length in R.
  exists sccs. split; auto. split; auto. split; auto. intros c Hc. split; auto. split; [eapply nodup_concat; eauto|].
  split; [intros i Hi; apply R; apply in_concat; eauto|]. intros u v Hu. rewrite <- (connected_group D order HO). apply C; auto.
Qed.
Lemma component_recursive : forall c, component c ->
  exists b, is_recursive (dep_graph order D) c = Val b /\ forall i, In i c -> (b = true <-> recursive D i).
Proof.
  intros c (NE & N & L & C). destruct (is_recursive_ok (dep_graph order D) c) as (b & E & B); auto.
  - intros u Hu. rewrite dep_length. auto.
  - intros u v Hu. rewrite (connected_group D order HO). auto.
  - exists b. split; auto. intros i Hi. rewrite (B i Hi). apply cyclic_recursive. auto.
Qed.

Lemma recursive_dec : forall i, recursive D i \/ ~ recursive D i.
Proof.
  intros i. destruct components as (sccs & _ & _ & R & C). destruct (lt_dec i (length D)) as [l|n].
  - apply R in l. apply in_concat in l. destruct l as (c & Hc & Hi). destruct (component_recursive c (C c Hc)) as (b & _ & B).
    specialize (B i Hi). destruct b; [left; apply B; auto|right; intros X; apply B in X; discriminate].
  - right. intros X. apply clos_t_first in X. destruct X as (k & U & _). apply uses_lt in U. lia.
Qed.

Lemma validate_all_ok : forall l, (forall c, In c l -> component c) ->
  exists v, validate_all order D (map (decl_info D) D) (dep_graph order D) l = Val v /\
    match v with
    | Accepted => forall c i, In c l -> In i c -> recursive D i -> group_verdict D c Accepted
    | _ => exists c, In c l /\ group_verdict D c v /\ forall i, In i c -> recursive D i
    end.
Proof.
  induction l as [|c l IH]; intros HC; cbn [validate_all].
  - exists Accepted. split; auto. intros c i [].
  - destruct (component_recursive c) as (b & E & B); [apply HC; simpl; auto|]. rewrite E. cbn [bind].
    destruct IH as (v & EV & V); [intros; apply HC; simpl; auto|].
    destruct b.
    + destruct (HC c (or_introl eq_refl)) as (NE & N & L & C).
      destruct (validate_ok D order HO c NE N L C) as (w & EW & W). rewrite EW. cbn [bind]. destruct w.
      * rewrite EV. exists v. split; auto. destruct v.
        -- intros c' i [<-|Hc] Hi R; auto. apply (V c' i); auto.
        -- destruct V as (c' & ? & ?). exists c'. simpl. auto.
        -- destruct V as (c' & ? & ?). exists c'. simpl. auto.
        -- destruct V as (c' & ? & ?). exists c'. simpl. auto.
      * eexists; split; [reflexivity|]. exists c. split; [simpl; auto|]. split; auto. intros i Hi. apply B; auto.
      * eexists; split; [reflexivity|]. exists c. split; [simpl; auto|]. split; auto. intros i Hi. apply B; auto.
      * eexists; split; [reflexivity|]. exists c. split; [simpl; auto|]. split; auto. intros i Hi. apply B; auto.
    + rewrite EV. exists v. split; auto. destruct v.
      * intros c' i [<-|Hc] Hi R; [apply B in R; auto; discriminate|]. apply (V c' i); auto.
      * destruct V as (c' & ? & ?). exists c'. simpl. auto.
      * destruct V as (c' & ? & ?). exists c'. simpl. auto.
      * destruct V as (c' & ? & ?). exists c'. simpl. auto.
Qed.

Lemma irregular_recursive : forall i j, irregular_use D i j -> recursive D i.
Proof.
  intros i j (d & e & t & path & args & N & _ & Ht & A & R & (G1 & G2) & _).
  assert (M : exists u, mention D u t j).
  { clear Ht. induction A; try (destruct IHA as (u & M)).
    - exists false. apply m_head. auto.
    - exists u. eapply m_arg; eauto.
    - exists true. eapply m_alternative; eauto.
    - exists u. eapply m_element; eauto.
    - exists u. eapply m_field; eauto.
    - exists u. apply m_inner; auto.
    - exists u. eapply m_fun_arg; eauto.
    - exists u. apply m_fun_ret; auto. }
  destruct M as (u & M). assert (U : uses D i j) by (exists d, t, u; auto).
  unfold recursive. apply clos_rt_t in G2. destruct G2 as [->|G2]; [constructor; auto|].
  eapply t_trans; [constructor; eauto|auto].
Qed.
Lemma direct_recursive : forall i, direct_cycle D i -> recursive D i.
Proof. intros i H. eapply clos_t_ext; [apply directly_uses|exact H]. Qed.

Lemma check_ok : exists v, check_declarations order D = Val v /\
  match v with
  | Accepted =>
      (forall i, ~ direct_cycle D i) /\
      (forall i, recursive D i -> ending_alternative D i) /\
      (forall i j, ~ irregular_use D i j)
  | ProductCycleWithoutSum name => exists i d, nth_error D i = Some d /\ d_name d = name /\ direct_cycle D i
  | SumCycleWithoutTerminatingVariant name =>
      exists i d, nth_error D i = Some d /\ d_name d = name /\ recursive D i /\ ~ ending_alternative D i /\
                  forall j, same_group D i j -> ~ direct_cycle D j
  | NonRegularGenericShape name =>
      exists i j e, nth_error D j = Some e /\ d_name e = name /\ irregular_use D i j /\ ending_alternative D i /\
                    forall j, same_group D i j -> ~ direct_cycle D j
  end.
Proof.
  unfold check_declarations. destruct components as (sccs & E & N & R & C). rewrite E. cbn [bind].
  destruct (validate_all_ok sccs C) as (v & EV & V). exists v. split; auto.
  destruct v.
  - assert (G : forall i, recursive D i -> ~ direct_cycle D i /\ ending_alternative D i /\ forall j, ~ irregular_use D i j).
    { intros i RI. assert (l : i < length D) by (apply clos_t_first in RI; destruct RI as (k & U & _); apply uses_lt in U; tauto).
      apply R in l. apply in_concat in l. destruct l as (c & Hc & Hi). apply (V c i Hc Hi RI). auto. }
    split; [|split].
    + intros i H. apply (proj1 (G i (direct_recursive i H))). auto.
    + intros i H. apply G. auto.
    + intros i j H. apply (proj2 (proj2 (G i (irregular_recursive i j H))) j). auto.
  - destruct V as (c & Hc & (i & d & Hi & Nd & Nm & DC) & _). exists i, d. auto.
  - destruct V as (c & Hc & (i & d & Hi & Nd & Nm & EA & DC) & RC). exists i, d. split; auto. split; auto. split; auto. split; auto.
    intros j Hj. apply DC. apply (C c Hc) in Hj; auto.
  - destruct V as (c & Hc & (i & j & e & Hi & Ne & Nm & I & EA & DC) & RC). exists i, j, e. split; auto. split; auto. split; auto. split; auto.
    intros k Hk. apply DC. apply (C c Hc) in Hk; auto.
Qed.

(** ** The order of lowering *)
Lemma nth_before_rev : forall (A : Type) (l : list A) a b, before l a b -> before (rev l) b a.
Proof. intros. apply before_rev. auto. Qed.

Lemma lowering_ok : exists l, lowering_order order D = Val l /\
  NoDup (concat (map fst l)) /\ (forall i, In i (concat (map fst l)) <-> i < length D) /\
  (forall c b i, In (c, b) l -> In i c -> (b = true <-> recursive D i) /\ forall j, In j c <-> same_group D i j) /\
  (forall i j, uses D i j -> same_group D i j \/
     exists m n c d, m < n /\ nth_error (map fst l) m = Some c /\ nth_error (map fst l) n = Some d /\ In j c /\ In i d).
Proof.
  destruct (scc_topological_ok order (dep_graph order D) HO (dep_well_formed D order HO)) as (sccs & sorted & E & ES & P & B).
  destruct components as (sccs' & E' & N & R & C). rewrite E in E'. injection E' as <-.
  unfold lowering_order. rewrite E. cbn [bind]. rewrite ES. cbn [bind].
  destruct (traverse_ok _ _ (fun scc => let* r := is_recursive (dep_graph order D) scc in Val (scc, r))
    (fun c (e : list nat * bool) => fst e = c /\ forall i, In i c -> (snd e = true <-> recursive D i)) (rev sorted)) as (l & EL & F).
  { intros c Hc. apply in_rev in Hc. apply (Permutation_in _ (Permutation_sym P)) in Hc.
    destruct (component_recursive c (C c Hc)) as (b & Eb & Hb). rewrite Eb. cbn [bind]. exists (c, b). auto. }
  exists l. split; auto.
  assert (M : map fst l = rev sorted).
  { clear - F. induction F as [|c e l' l H F IH]; auto. simpl. destruct H as (-> & _). congruence. }
  assert (PC : Permutation (concat sccs) (concat (rev sorted))).
  { assert (P2 : Permutation sccs (rev sorted)) by (eapply Permutation_trans; [exact P|apply Permutation_rev]).
    clear - P2. induction P2; simpl; auto.
    - apply Permutation_app_head. auto.
    - rewrite !app_assoc. apply Permutation_app_tail. apply Permutation_app_comm.
    - eapply Permutation_trans; eauto. }
  rewrite M. split; [eapply Permutation_NoDup; eauto|]. split.
  { intros i. rewrite <- R. split; apply Permutation_in; [apply Permutation_sym|]; auto. }
  assert (IC : forall c, In c (rev sorted) -> In c sccs).
  { intros c Hc. apply in_rev in Hc. apply (Permutation_in _ (Permutation_sym P)) in Hc. auto. }
  split.
  - intros c b i Hc Hi. assert (Hc' : In c (rev sorted)) by (rewrite <- M; apply in_map_iff; exists (c, b); auto).
    split.
    + apply forall2_in in F. destruct F as (F1 & _). destruct (F1 (c, b) Hc) as (c' & _ & <- & H). apply H. auto.
    + intros j. symmetry. apply (C c (IC c Hc')). auto.
  - intros i j U. pose proof (uses_lt _ _ _ U) as (Li & Lj). apply R in Li, Lj. apply in_concat in Li, Lj.
    destruct Li as (d & Hd & Hi), Lj as (c & Hc & Hj). destruct (list_eq_dec Nat.eq_dec d c) as [->|n].
    + left. apply (C c Hc); auto.
    + right. assert (X : before sorted d c) by (apply (B d c i j); auto; apply edge_uses; auto).
      apply before_rev in X. destruct X as (a & b & ? & ? & ?). exists a, b, c, d. auto.
Qed.
End All.

(** ** Descent along names outside of sums ends *)
Lemma finite_acyclic : forall n (R : nat -> nat -> Prop), (forall i j, R i j -> i < n) -> (forall i, ~ clos_trans nat R i i) ->
  well_founded (fun j i => R i j).
Proof.
  intros n R L NC.
  assert (X : forall m l x, NoDup l -> (forall y, In y l -> y < n /\ clos_trans nat R y x) -> length l + m = n -> Acc (fun j i => R i j) x).
  { induction m as [|m IH]; intros l x ND H E; constructor; intros y Hy.
    - exfalso. assert (I : In x l).
      { assert (J : incl (seq 0 n) l).
        { apply NoDup_length_incl; auto; [rewrite seq_length; lia|]. intros z Hz. apply in_seq. destruct (H z Hz). lia. }
        apply J. apply in_seq. specialize (L x y Hy). lia. }
      apply (NC x). apply H. auto.
    - apply (IH (x :: l)).
      + constructor; auto. intros I. apply (NC x). apply H. auto.
      + intros z [<-|Hz]; [split; [eauto|constructor; auto]|]. destruct (H z Hz). split; auto. eapply t_trans; [eauto|constructor; auto].
      + simpl. lia. }
  intros x. apply (X n [] x); [constructor|intros y []|auto].
Qed.

Lemma directly_wf : forall D, (forall i, ~ direct_cycle D i) -> well_founded (fun j i => uses_directly D i j).
Proof.
  intros D H. apply (finite_acyclic (length D)); auto. intros i j U. apply directly_uses in U. apply uses_lt in U. tauto.
Qed.

(** ** Values *)
Section ValueInd.
Variable D : list decl.
Variable P : value -> ptype -> Prop.
Hypotheses (HU : P (VTuple []) PUnit) (HR : P VOpaque PResolved)
  (HO : forall path, (forall i, ~ refers D path i) -> P VOpaque (PPath path))
  (HD : forall path i d v, refers D path i -> nth_error D i = Some d -> value_of D v (d_type d) -> P v (d_type d) -> P v (PPath path))
  (HV : forall alts c p v, In (c, p) alts -> value_of D v p -> P v p -> P (VAlternative c v) (PVariant alts))
  (HT : forall ts vs, Forall2 P vs ts -> P (VTuple vs) (PTuple ts))
  (HC : forall fs vs, Forall2 P vs (map snd fs) -> P (VTuple vs) (PRecord fs))
  (HY : forall t vs, P (VArray vs) (PArray t))
  (HF : forall args ret, P VOpaque (PFunction args ret)).
Fixpoint value_deep (v : value) (t : ptype) (H : value_of D v t) {struct H} : P v t :=
  let go := fix go (vs : list value) (ts : list ptype) (F : Forall2 (value_of D) vs ts) {struct F} : Forall2 P vs ts :=
    match F in Forall2 _ vs ts return Forall2 P vs ts with
    | Forall2_nil _ => Forall2_nil _
    | Forall2_cons v t H F => Forall2_cons v t (value_deep v t H) (go _ _ F)
    end in
  match H in value_of _ v t return P v t with
  | v_unit _ => HU
  | v_resolved _ => HR
  | v_other _ path N => HO path N
  | v_declared _ path i d v R N H => HD path i d v R N H (value_deep v _ H)
  | v_alternative _ alts c p v J H => HV alts c p v J H (value_deep v p H)
  | v_tuple _ ts vs F => HT ts vs (go _ _ F)
  | v_record _ fs vs F => HC fs vs (go _ _ F)
  | v_array _ t vs _ => HY t vs
  | v_function _ args ret => HF args ret
  end.
End ValueInd.

Lemma plain_decl : forall D i d, plain D -> nth_error D i = Some d -> d_params d = [] /\ written d = [d_type d] /\ plain_type (d_type d).
Proof.
  intros D i d (_ & F) N. rewrite Forall_forall in F. apply nth_error_In in N. destruct (F d N) as (A & B & C).
  split; auto. split; auto. unfold written. rewrite B. auto.
Qed.

Lemma forall2_right : forall (A B : Type) (Q : A -> B -> Prop) l l' y, Forall2 Q l l' -> In y l' -> exists x, Q x y.
Proof. intros A B Q l l' y F H. apply forall2_in in F. destruct F as (F & _). destruct (F y H) as (x & _ & X). eauto. Qed.

(** A set of declarations each of which names one of the set directly has no values. *)
Lemma direct_no_value : forall D (C : nat -> Prop), plain D ->
  (forall i, C i -> exists j, C j /\ uses_directly D i j) ->
  forall v t, value_of D v t -> plain_type t -> forall i, C i -> ~ mention D false t i.
Proof.
  intros D C PL HC v t H. induction H as [| |path N|path i d v R N H IH|alts c p v J H IH|ts vs F|fs vs F|t vs|args ret] using value_deep; intros PT k Ck M.
  - inversion M.
  - inversion M.
  - inversion M; subst. eapply N; eauto.
  - inversion M as [? ? R' | | | | | | | |]; subst. pose proof (refers_fun _ _ _ _ R R') as <-. destruct (HC i Ck) as (j & Cj & (d' & t & Nd & Ht & Mj)).
    rewrite N in Nd. injection Nd as <-. destruct (plain_decl D i d PL N) as (_ & W & PD). rewrite W in Ht. destruct Ht as [<-|[]].
    apply (IH PD j Cj Mj).
  - inversion M.
  - inversion M as [| | | |? t u ? It Mt | | | |]; subst. inversion PT as [| | | |? PF |]; subst. rewrite Forall_forall in PF.
    destruct (forall2_right _ _ _ _ _ t F It) as (x & X). apply (X (PF t It) k Ck Mt).
  - inversion M as [| | | | |? f t u ? It Mt | | |]; subst. inversion PT as [| | | | |? PF]; subst. rewrite Forall_forall in PF.
    destruct (forall2_right _ _ _ _ _ t F) as (x & X); [apply in_map_iff; exists (f, t); auto|]. apply (X (PF (f, t) It) k Ck Mt).
  - inversion PT.
  - inversion PT.
Qed.

(** A set of declarations each of which names one of the set, and all alternatives of all sums of
    which name one of the set, has no values. *)
Lemma sums_no_value : forall D (C : nat -> Prop), plain D -> flat D ->
  (forall i, C i -> exists j, C j /\ uses D i j) ->
  (forall i alts c p, C i -> sum_of D i alts -> In (c, p) alts -> exists u j, C j /\ mention D u p j) ->
  forall v t, value_of D v t -> plain_type t ->
    (forall alts c p, outer_sum alts t -> In (c, p) alts ->
       (exists u j, C j /\ mention D u p j) /\ forall inner, ~ outer_sum inner p) ->
    forall i u, C i -> ~ mention D u t i.
Proof.
  intros D C PL FL HC HS v t H. induction H as [| |path N|path i d v R N H IH|alts c p v J H IH|ts vs F|fs vs F|t vs|args ret] using value_deep; intros PT Q k u Ck M.
  - inversion M.
  - inversion M.
  - inversion M; subst. eapply N; eauto.
  - inversion M as [? ? R' | | | | | | | |]; subst. pose proof (refers_fun _ _ _ _ R R') as <-. destruct (HC i Ck) as (j & Cj & (d' & t & u' & Nd & Ht & Mj)).
    rewrite N in Nd. injection Nd as <-. destruct (plain_decl D i d PL N) as (_ & W & PD). rewrite W in Ht. destruct Ht as [<-|[]].
    apply (IH PD) with (i := j) (u := u'); auto. intros alts c p O HI.
    assert (SO : sum_of D i alts) by (exists d, (d_type d); rewrite W; simpl; auto).
    split; [exact (HS i alts c p Ck SO HI)|]. intros inner. exact (FL i alts c p inner SO HI).
  - destruct (Q alts c p (os_here alts) J) as ((u' & j & Cj & Mj) & NO). inversion PT as [| | |? _ PF | |]; subst. rewrite Forall_forall in PF.
    apply (IH (PF (c, p) J)) with (i := j) (u := u'); auto. intros inner c' p' O. destruct (NO inner O).
  - inversion M as [| | | |? t u' ? It Mt | | | |]; subst. inversion PT as [| | | |? PF |]; subst. rewrite Forall_forall in PF.
    destruct (forall2_right _ _ _ _ _ t F It) as (x & X). apply (X (PF t It)) with (i := k) (u := u); auto.
    intros alts c p O. apply Q. eapply os_element; eauto.
  - inversion M as [| | | | |? f t u' ? It Mt | | |]; subst. inversion PT as [| | | | |? PF]; subst. rewrite Forall_forall in PF.
    destruct (forall2_right _ _ _ _ _ t F) as (x & X); [apply in_map_iff; exists (f, t); auto|]. apply (X (PF (f, t) It)) with (i := k) (u := u); auto.
    intros alts c p O. apply Q. eapply os_field; eauto.
  - inversion PT.
  - inversion PT.
Qed.

Lemma direct_cycle_no_value : forall D i, plain D -> direct_cycle D i -> ~ inhabited D i.
Proof.
  intros D i PL DC (d & v & N & V).
  assert (HC : forall k, direct_cycle D k -> exists j, direct_cycle D j /\ uses_directly D k j).
  { intros k H. pose proof H as H0. apply clos_t_first in H0. destruct H0 as (j & U & R). exists j. split; auto.
    unfold direct_cycle. apply clos_rt_t in R. destruct R as [->|R]; [constructor; auto|]. eapply t_trans; [eauto|]. constructor. auto. }
  destruct (HC i DC) as (j & DJ & (d' & t & Nd & Ht & M)). rewrite N in Nd. injection Nd as <-.
  destruct (plain_decl D i d PL N) as (_ & W & PD). rewrite W in Ht. destruct Ht as [<-|[]].
  eapply direct_no_value; eauto.
Qed.

Lemma mention_dec : forall D (C : nat -> bool) t, (exists u k, mention D u t k /\ C k = true) \/ (forall u k, mention D u t k -> C k = false).
Proof.
  intros D C t. destruct (existsb C (refs (collect_from_type D t true no_info))) eqn:E.
  - left. apply existsb_exists in E. destruct E as (k & Hk & Ck). apply payload_refs in Hk. destruct Hk as (u & M). eauto.
  - right. intros u k M. destruct (C k) eqn:CK; auto. assert (X : existsb C (refs (collect_from_type D t true no_info)) = true).
    { apply existsb_exists. exists k. split; auto. apply payload_refs. eauto. } congruence.
Qed.

Lemma group_bool : forall D i, i < length D -> exists c : nat -> bool, forall j, c j = true <-> same_group D i j.
Proof.
  intros D i L. destruct (components D (fun l => l) (fun l => Permutation_refl l)) as (sccs & _ & _ & R & C). apply R in L. apply in_concat in L.
  destruct L as (c & Hc & Hi). exists (fun j => has j c). intros j. rewrite has_in. symmetry. apply (C c Hc). auto.
Qed.

Lemma no_ending_no_value : forall D i, plain D -> flat D -> recursive D i -> ~ ending_alternative D i -> forall j, same_group D i j -> ~ inhabited D j.
Proof.
  intros D i PL FL RC NE j G (d & v & N & V).
  assert (L : i < length D) by (apply clos_t_first in RC; destruct RC as (k & U & _); apply uses_lt in U; tauto).
  destruct (group_bool D i L) as (c & HC).
  assert (TR : forall k, same_group D i k -> exists m, same_group D i m /\ uses D k m).
  { intros k (A & B). apply clos_rt_t in B. destruct B as [<-|B].
    - apply clos_t_first in RC. destruct RC as (m & U & R). exists m. split; auto. split; auto. apply rt_step; auto.
    - apply clos_t_first in B. destruct B as (m & U & R). exists m. split; auto. split; auto. eapply rt_trans; [eauto|apply rt_step; auto]. }
  assert (SU : forall k alts t p, same_group D i k -> sum_of D k alts -> In (t, p) alts -> exists u m, same_group D i m /\ mention D u p m).
  { intros k alts t p Gk SO HI. destruct (mention_dec D c p) as [(u & m & M & Cm)|Q].
    - exists u, m. split; auto. apply HC. auto.
    - exfalso. apply NE. exists k, alts, t, p. split; auto. split; auto. split; auto. intros u m M X. apply HC in X. rewrite (Q u m M) in X. discriminate. }
  destruct (TR j G) as (m & Gm & (d' & t & u & Nd & Ht & M)). rewrite N in Nd. injection Nd as <-.
  destruct (plain_decl D j d PL N) as (_ & W & PD). rewrite W in Ht. destruct Ht as [<-|[]].
  eapply (sums_no_value D (same_group D i) PL FL TR SU v (d_type d) V PD); eauto.
  intros alts t p O HI. assert (SO : sum_of D j alts) by (exists d, (d_type d); rewrite W; simpl; auto).
  split; [exact (SU j alts t p G SO HI)|]. intros inner. exact (FL j alts t p inner SO HI).
Qed.

(** ** Accepted declarations with values *)
Lemma refers_dec : forall D path, (exists i, refers D path i) \/ forall i, ~ refers D path i.
Proof.
  intros D path. destruct path as [|n [|m path]]; try (right; intros i (d & _ & E & _); discriminate).
  destruct (ty_names D n) as [i|] eqn:E.
  - left. exists i. apply names_refers. auto.
  - right. intros i R. apply names_refers in R. congruence.
Qed.

Section PlainInd.
Variable P : ptype -> Prop.
Hypotheses (HU : P PUnit) (HR : P PResolved) (HP : forall path, P (PPath path))
  (HV : forall alts, alts <> [] -> Forall (fun a => plain_type (snd a) /\ P (snd a)) alts -> P (PVariant alts))
  (HT : forall ts, Forall P ts -> P (PTuple ts))
  (HC : forall fs, Forall (fun f => P (snd f)) fs -> P (PRecord fs)).
Lemma plain_deep : forall t, plain_type t -> P t.
Proof.
  induction t as [| | | |path|path args F|alts F|ts F|fs F|t IH|args ret F IH] using ptype_deep; intros H; try (inversion H; fail); auto.
  - inversion H as [| | |? NE G| |]; subst. apply HV; auto. rewrite Forall_forall in *. intros a Ha. split; auto.
  - inversion H as [| | | |? G|]; subst. apply HT. rewrite Forall_forall in *. auto.
  - inversion H as [| | | | |? G]; subst. apply HC. rewrite Forall_forall in *. auto.
Qed.
End PlainInd.

Lemma path_value : forall D path, (forall k, refers D path k -> inhabited D k) -> exists v, value_of D v (PPath path).
Proof.
  intros D path H. destruct (refers_dec D path) as [(i & R)|N].
  - destruct (H i R) as (d & v & E & V). exists v. eapply v_declared; eauto.
  - exists VOpaque. apply v_other. auto.
Qed.
Lemma tuple_value : forall D ts, (forall t, In t ts -> exists v, value_of D v t) -> exists vs, Forall2 (value_of D) vs ts.
Proof.
  induction ts as [|t ts IH]; intros H; [exists []; auto|]. destruct (H t) as (v & V); [simpl; auto|].
  destruct IH as (vs & F); [intros; apply H; simpl; auto|]. exists (v :: vs). auto.
Qed.

Lemma all_value : forall D t, plain_type t -> (forall u k, mention D u t k -> inhabited D k) -> exists v, value_of D v t.
Proof.
  intros D t PT. pattern t. apply plain_deep; auto; clear t PT.
  - intros _. exists (VTuple []). constructor.
  - intros _. exists VOpaque. constructor.
  - intros path H. apply path_value. intros k R. apply (H false). constructor. auto.
  - intros alts NE F H. destruct alts as [|(c, p) alts]; [contradiction|]. apply Forall_inv in F. destruct F as (_ & F). cbn [snd] in F.
    destruct F as (v & V); [intros u k M; apply (H true); eapply m_alternative; [left; reflexivity|eauto]|].
    exists (VAlternative c v). eapply v_alternative; [left; reflexivity|auto].
  - intros ts F H. rewrite Forall_forall in F. destruct (tuple_value D ts) as (vs & V); [|exists (VTuple vs); constructor; auto].
    intros t Ht. apply F; auto. intros u k M. apply (H u). eapply m_element; eauto.
  - intros fs F H. rewrite Forall_forall in F. destruct (tuple_value D (map snd fs)) as (vs & V); [|exists (VTuple vs); constructor; auto].
    intros t Ht. apply in_map_iff in Ht. destruct Ht as ((f & t') & <- & Hf). apply (F (f, t')); auto. intros u k M. apply (H u). eapply m_field; eauto.
Qed.

Lemma choice_value : forall D t, plain_type t -> (forall k, mention D false t k -> inhabited D k) ->
  (forall alts, outer_sum alts t -> exists c p, In (c, p) alts /\ forall u k, mention D u p k -> inhabited D k) ->
  exists v, value_of D v t.
Proof.
  intros D t PT. pattern t. apply plain_deep; auto; clear t PT.
  - intros _ _. exists (VTuple []). constructor.
  - intros _ _. exists VOpaque. constructor.
  - intros path H _. apply path_value. intros k R. apply H. constructor. auto.
  - intros alts NE F _ H. destruct (H alts (os_here alts)) as (c & p & HI & M). rewrite Forall_forall in F.
    destruct (F (c, p) HI) as (PP & _). destruct (all_value D p PP M) as (v & V). exists (VAlternative c v). eapply v_alternative; eauto.
  - intros ts F H HS. rewrite Forall_forall in F. destruct (tuple_value D ts) as (vs & V); [|exists (VTuple vs); constructor; auto].
    intros t Ht. apply F; auto.
    + intros k M. apply H. eapply m_element; eauto.
    + intros alts O. apply HS. eapply os_element; eauto.
  - intros fs F H HS. rewrite Forall_forall in F. destruct (tuple_value D (map snd fs)) as (vs & V); [|exists (VTuple vs); constructor; auto].
    intros t Ht. apply in_map_iff in Ht. destruct Ht as ((f & t') & <- & Hf). apply (F (f, t')); auto; cbn [snd].
    + intros k M. apply H. eapply m_field; eauto.
    + intros alts O. apply HS. eapply os_field; eauto.
Qed.

(** Steps that go down: to another group, or directly. *)
Definition down (D : list decl) (i j : nat) : Prop := uses D i j /\ (~ same_group D i j \/ uses_directly D i j).

Lemma down_uses : forall D i j, down D i j -> uses D i j.
Proof. intros D i j (H & _). auto. Qed.
Lemma down_cycle : forall D i, clos_trans nat (down D) i i -> direct_cycle D i.
Proof.
  intros D i H.
  assert (X : forall a b, clos_trans_1n nat (down D) a b -> clos_refl_trans nat (uses D) b i -> clos_refl_trans nat (uses D) i a -> clos_trans nat (uses_directly D) a b).
  { intros a b T. induction T as [a b (U & HD)|a k b (U & HD) T IH]; intros B A.
    - constructor. destruct HD as [NG|HD]; auto. exfalso. apply NG. split; [apply rt_step; auto|eapply rt_trans; eauto].
    - assert (K : clos_refl_trans nat (uses D) k i).
      { eapply rt_trans; [|exact B]. eapply clos_ext; [apply down_uses|]. apply clos_t_rt. apply clos_t1n_trans. auto. }
      eapply t_trans; [constructor|apply IH; auto; eapply rt_trans; [eauto|apply rt_step; auto]].
      destruct HD as [NG|HD]; auto. exfalso. apply NG. split; [apply rt_step; auto|eapply rt_trans; eauto]. }
  apply X; [apply clos_trans_t1n; auto|apply rt_refl|apply rt_refl].
Qed.

Lemma accepted_value : forall D, plain D -> (forall i, ~ direct_cycle D i) ->
  (forall i alts, recursive D i -> sum_of D i alts -> exists c p, In (c, p) alts /\ leaves D i p) ->
  forall i, i < length D -> inhabited D i.
Proof.
  intros D PL ND HS.
  assert (W : well_founded (fun j i => down D i j)).
  { apply (finite_acyclic (length D)); [intros i j (U & _); apply uses_lt in U; tauto|]. intros i H. apply down_cycle in H. apply (ND i H). }
  intros i. induction i as [i IH] using (well_founded_induction W). intros L.
  destruct (in_range _ D i L) as (d & N). destruct (plain_decl D i d PL N) as (_ & Wd & PD).
  destruct (choice_value D (d_type d) PD) as (v & V); [..|exists d, v; auto].
  - intros k M. assert (U : uses_directly D i k) by (exists d, (d_type d); rewrite Wd; simpl; auto).
    apply IH; [split; auto; apply directly_uses; auto|]. eapply mention_lt; eauto.
  - intros alts O. assert (SO : sum_of D i alts) by (exists d, (d_type d); rewrite Wd; simpl; auto).
    assert (MU : forall c p u k, In (c, p) alts -> mention D u p k -> uses D i k).
    { intros c p u k HI M. assert (X : exists u', mention D u' (d_type d) k).
      { clear - O HI M. induction O; try (destruct IHO as (u' & X)).
        - exists true. eapply m_alternative; eauto.
        - exists u'. eapply m_arg; eauto.
        - exists u'. eapply m_element; eauto.
        - exists u'. eapply m_field; eauto.
        - exists u'. apply m_inner; auto.
        - exists u'. eapply m_fun_arg; eauto.
        - exists u'. apply m_fun_ret; auto. }
      destruct X as (u' & X). exists d, (d_type d), u'. rewrite Wd. simpl. auto. }
    assert (NG : exists c p, In (c, p) alts /\ forall u k, mention D u p k -> ~ same_group D i k).
    { destruct (recursive_dec D (fun l => l) (fun l => Permutation_refl l) i) as [R|NR]; [exact (HS i alts R SO)|].
      assert (NE : exists c p, In (c, p) alts).
      { clear - O PD. induction O.
        - inversion PD; subst. destruct alts as [|(c, p) ?]; [contradiction|]. exists c, p. simpl. auto.
        - inversion PD.
        - inversion PD; subst. rewrite Forall_forall in *. auto.
        - inversion PD; subst. rewrite Forall_forall in *. match goal with H : In (f, t) fs |- _ => apply IHO; apply (H0 _ H) || apply (H1 _ H) end.
        - inversion PD.
        - inversion PD.
        - inversion PD. }
      destruct NE as (c & p & HI). exists c, p. split; auto. intros u k M (_ & G). apply NR. unfold recursive.
      pose proof (MU c p u k HI M) as U. apply clos_rt_t in G. destruct G as [->|G]; [constructor; auto|]. eapply t_trans; [constructor; eauto|auto]. }
    destruct NG as (c & p & HI & NG). exists c, p. split; auto. intros u k M. apply IH; [|eapply mention_lt; eauto].
    split; [eapply MU; eauto|]. left. eapply NG; eauto.
Qed.

(** One sum per group is enough. *)
Lemma single_sum_value : forall D, plain D -> (forall i, ~ direct_cycle D i) -> (forall i, recursive D i -> ending_alternative D i) ->
  (forall i j alts alts', recursive D i -> same_group D i j -> sum_of D i alts -> sum_of D j alts' -> alts = alts') ->
  forall i, i < length D -> inhabited D i.
Proof.
  intros D PL ND EA ONE. apply accepted_value; auto. intros i alts R SO.
  destruct (EA i R) as (j & alts' & c & p & G & SO' & HI & LV). rewrite (ONE i j alts alts' R G SO SO'). eauto.
Qed.

(** Types without values, by a set closed under what a value must contain. *)
Lemma bad_no_value : forall D (bad : ptype -> Prop),
  (forall t, bad t ->
     match t with
     | PPath path => exists i d, refers D path i /\ nth_error D i = Some d /\ bad (d_type d)
     | PVariant alts => forall c p, In (c, p) alts -> bad p
     | PTuple ts => exists e, In e ts /\ bad e
     | PRecord fs => exists f e, In (f, e) fs /\ bad e
     | _ => False
     end) -> forall v t, value_of D v t -> ~ bad t.
Proof.
  intros D bad H v t V. induction V as [| |path N|path i d v R N V IH|alts c p v J V IH|ts vs F|fs vs F|t vs|args ret] using value_deep; intros B; apply H in B; auto.
  - destruct B as (i & d & R & _). eapply N; eauto.
  - destruct B as (j & e & R' & N' & B). rewrite (refers_fun _ _ _ _ R R') in N. rewrite N in N'. injection N' as <-. auto.
  - apply IH. eapply B; eauto.
  - destruct B as (e & Ie & B). destruct (forall2_right _ _ _ _ _ e F Ie) as (x & X). auto.
  - destruct B as (f & e & Ie & B). destruct (forall2_right _ _ _ _ _ e F) as (x & X); [apply in_map_iff; exists (f, e); auto|]. auto.
Qed.

(** The path of the [i]-th declaration, for concrete lists of declarations. *)
Lemma refers_name : forall D name i, ty_names D name = Some i -> refers D [name] i.
Proof. intros. apply names_refers. auto. Qed.
