From Coq Require Import List Bool Arith Lia Permutation.
From Verif Require Import ListUtil GraphModel InternModel InternSpec InternKinds InternSim InternFind InternProofs InternMain BuilderModel BuilderSpec BuilderAlike.
Import ListNotations.

Section Ind.
Variable P : rtype -> Prop.
Hypothesis HS : forall t, P (RStored t).
Hypothesis HA : forall i, P (RAlias i).
Hypothesis HT : forall n, P (RTag n).
Hypothesis HN : forall c parts, (forall r, In r parts -> P r) -> P (RNode c parts).
Hypothesis HM : forall a args, (forall r, In r args -> P r) -> P (RAtom a args).
Hypothesis HL : forall l, P (RLeaf l).
Fixpoint rtype_ind' (r : rtype) : P r :=
  let all := fix all (l : list rtype) : forall r, In r l -> P r :=
    match l with
    | [] => fun r J => False_ind _ J
    | x :: l => fun r J => match J with or_introl E => eq_ind x P (rtype_ind' x) r E | or_intror J => all l r J end
    end in
  match r with
  | RStored t => HS t
  | RAlias i => HA i
  | RTag n => HT n
  | RNode c parts => HN c parts (all parts)
  | RAtom a args => HM a args (all args)
  | RLeaf l => HL l
  end.
End Ind.

Lemma local_free : forall ts v, (forall t, In t ts -> exists w i, t = Glob w i) -> exists ws, worlds_of v ts = Some ws.
Proof. intros ts v H. destruct (worlds_of v ts) as [ws|] eqn:E; [eauto|]. apply worlds_of_none in E. destruct E as (i & J). destruct (H _ J) as (w & j & X). discriminate. Qed.

Lemma kids_plug : forall c ts t, arity_ok c (length ts) -> In t (kids (plug c ts)) -> In t ts.
Proof.
  intros c ts t A J. destruct c; simpl in *; auto.
  - apply in_map_iff in J. destruct J as ([x y] & <- & J). eapply in_combine_r; eauto.
  - apply in_map_iff in J. destruct J as ([x y] & <- & J). eapply in_combine_r; eauto.
  - apply in_app_iff in J. destruct J as [J|[<-|[]]]; [|apply nth_In; lia]. apply in_map_iff in J. destruct J as ([x y] & <- & J). eapply in_combine_r; eauto.
Qed.
Lemma kids_atom : forall a ts, kids (plug_atom a ts) = ts.
Proof. intros [] ts; auto. Qed.
Lemma named_plug : forall c ts, arity_ok c (length ts) -> distinct_names c = true -> well_named (plug c ts).
Proof. intros [names| |names|muts effs] ts A D; simpl in *; auto; rewrite combine_fst by auto; apply unique_nodup; auto. Qed.

Definition place (r : rtype) : Prop := match r with RNode _ _ | RTag _ => True | _ => False end.

Section Store.
Variable le : kind -> kind -> bool.
Variable order : list nat -> list nat.
Hypothesis HO : iteration order.

Lemma store_flat : forall u kinds k, inv u -> well_named k -> (forall c, In c (kids k) -> exists m, get u c = Some m) ->
  exists t u', store_type le order k (u, kinds) = Done (t, (u', kinds)) /\ inv u' /\ below (get u) (get u') /\ get u' t = Some (normalize k).
Proof.
  intros u kinds k I W K. unfold store_type, insert_types. simpl forallb. pose proof (proj2 (validate_ok k) W) as V. rewrite V. simpl andb. cbn [negb map].
  assert (K' : forall c, In c (kids (normalize k)) -> exists m, get u c = Some m).
  { intros c J. apply K. eapply Permutation_in; [apply Permutation_sym, kids_normalize|exact J]. }
  destruct (local_free (kids (normalize k)) 0) as (ws & E).
  { intros t J. destruct (K' t J) as (m & M). eapply get_glob; eauto. }
  assert (U : unwrap_all [recursive_worlds_if_no_local_refs (normalize k)] = Some [ws]) by (unfold recursive_worlds_if_no_local_refs; rewrite E; reflexivity).
  rewrite U. cbn [combine].
  destruct (flat_ok [(normalize k, ws)] u I) as (u' & ts & X & I' & B & F & _).
  { intros k' ws' [Y|[]]. inversion Y; subst. split; [exact E|]. split; [apply normalize_normal; auto|auto]. }
  rewrite X. inversion F as [|? t ? ts' G F']; subst. inversion F'; subst. exists t, u'. auto.
Qed.

Variable n : nat.
Inductive rel (reps : list (option rtype)) (u : universe) : rtype -> ty -> Prop :=
| rel_stored : forall t k, get u t = Some k -> rel reps u (RStored t) t
| rel_alias : forall i, i < n -> rel reps u (RAlias i) (Loc i)
| rel_place : forall r j, nth_error reps j = Some (Some r) -> place r -> rel reps u r (Loc j)
| rel_atom : forall a args ts t, Forall2 (rel reps u) args ts -> get u t = Some (plug_atom a ts) -> rel reps u (RAtom a args) t
| rel_leaf : forall l t, get u t = Some (leaf_kind l) -> rel reps u (RLeaf l) t.
Definition ext (reps reps' : list (option rtype)) : Prop := forall j r, nth_error reps j = Some (Some r) -> nth_error reps' j = Some (Some r).
Lemma ext_refl : forall reps, ext reps reps.
Proof. intros reps j r H. exact H. Qed.
Lemma ext_trans : forall a b c, ext a b -> ext b c -> ext a c.
Proof. intros a b c H K j r E. apply K, H. exact E. Qed.
Lemma below_refl : forall d, below d d.
Proof. intros d t k H. exact H. Qed.
Lemma below_trans : forall a b c, below a b -> below b c -> below a c.
Proof. intros a b c H K j r E. apply K, H. exact E. Qed.

Lemma rel_mono : forall reps reps' u u', ext reps reps' -> below (get u) (get u') -> forall r t, rel reps u r t -> rel reps' u' r t.
Proof.
  intros reps reps' u u' X B r. induction r as [t0|i|name|c parts IH|a args IH|l] using rtype_ind'; intros t H; inversion H; subst;
    try (eapply rel_stored; eapply B; eassumption); try (apply rel_alias; assumption); try (apply rel_place; [apply X|]; assumption).
  - eapply rel_atom; [|eapply B; eassumption]. eapply Forall2_imp; [|eassumption]. intros p q J _ K. apply IH; auto.
  - apply rel_leaf. apply B. assumption.
Qed.
Lemma rels_mono : forall reps reps' u u', ext reps reps' -> below (get u) (get u') -> forall r t, Forall2 (rel reps u) r t -> Forall2 (rel reps' u') r t.
Proof. intros. eapply Forall2_imp; [|eassumption]. intros. eapply rel_mono; eauto. Qed.

Definition kind_ok (reps : list (option rtype)) (u : universe) (r : rtype) (k : kind) : Prop :=
  match r with
  | RNode c parts => distinct_names c = true /\ exists ts, Forall2 (rel reps u) parts ts /\ k = plug c ts
  | RTag name => exists t, get u t = Some (KNative unit_bare []) /\ k = KVariant [(name, t)]
  | _ => False
  end.
Lemma kind_ok_mono : forall reps reps' u u', ext reps reps' -> below (get u) (get u') -> forall r k, kind_ok reps u r k -> kind_ok reps' u' r k.
Proof.
  intros reps reps' u u' X B [] k; simpl; auto.
  - intros (t & G & E). exists t. split; auto.
  - intros [D (ts & F & E)]. split; auto. exists ts. split; auto. eapply rels_mono; eauto.
Qed.

Variable u0 : universe.
Record Inv (reps : list (option rtype)) (s : progress) : Prop := {
  v_inv : inv (fst s);
  v_below : below (get u0) (get (fst s));
  v_len : length reps = length (snd s);
  v_roots : n <= length reps;
  v_kind : forall j r, nth_error reps j = Some (Some r) -> proper u0 n r /\ exists k, nth_error (snd s) j = Some k /\ kind_ok reps (fst s) r k;
  v_rest : forall j, n <= j -> nth_error reps j <> Some None }.

Definition filled (reps : list (option rtype)) : list rtype := flat_map (fun o => match o with Some r => [r] | None => [] end) reps.
Lemma filled_upd : forall reps i r, nth_error reps i = Some None -> Permutation (filled (upd reps i (Some r))) (r :: filled reps).
Proof.
  induction reps as [|o reps IH]; intros [|i] r H; simpl in *; try discriminate.
  - inversion H; subst. simpl. auto.
  - destruct o as [x|]; simpl; auto. eapply Permutation_trans; [apply perm_skip; apply IH; auto|]. apply perm_swap.
Qed.
Lemma filled_app : forall a b, filled (a ++ b) = filled a ++ filled b.
Proof. intros. apply flat_map_app. Qed.

Lemma Inv_grow : forall reps u u' kinds, Inv reps (u, kinds) -> inv u' -> below (get u) (get u') -> Inv reps (u', kinds).
Proof.
  intros reps u u' kinds V I B. constructor; simpl; auto.
  - eapply below_trans; [apply (v_below _ _ V)|exact B].
  - apply (v_len _ _ V).
  - apply (v_roots _ _ V).
  - intros j r E. destruct (v_kind _ _ V j r E) as (P & k & X & K). split; auto. exists k. split; auto. eapply kind_ok_mono; [apply ext_refl|exact B|exact K].
  - apply (v_rest _ _ V).
Qed.
Lemma Inv_set : forall reps u kinds i r k, Inv reps (u, kinds) -> nth_error reps i = Some None -> proper u0 n r ->
  kind_ok reps u r k -> Inv (upd reps i (Some r)) (u, upd kinds i k) /\ ext reps (upd reps i (Some r)).
Proof.
  intros reps u kinds i r k V E P K. assert (Li : i < length reps) by (apply nth_error_Some; congruence).
  assert (X : ext reps (upd reps i (Some r))).
  { intros j q F. rewrite nth_error_upd_other; auto. intros <-. congruence. }
  split; auto. constructor; simpl.
  - apply (v_inv _ _ V).
  - apply (v_below _ _ V).
  - rewrite !upd_length. apply (v_len _ _ V).
  - rewrite upd_length. apply (v_roots _ _ V).
  - intros j q F. destruct (Nat.eq_dec i j) as [<-|D].
    + rewrite nth_error_upd_same in F by auto. inversion F; subst q. split; auto. exists k.
      split; [apply nth_error_upd_same; rewrite <- (v_len _ _ V : length reps = length kinds); auto|]. eapply kind_ok_mono; [exact X|apply below_refl|exact K].
    + rewrite nth_error_upd_other in F by auto. destruct (v_kind _ _ V j q F) as (P' & k' & Y & K'). split; auto. exists k'. split; [rewrite nth_error_upd_other; auto|].
      eapply kind_ok_mono; [exact X|apply below_refl|exact K'].
  - intros j Lj F. destruct (Nat.eq_dec i j) as [<-|D].
    + rewrite nth_error_upd_same in F by auto. discriminate.
    + rewrite nth_error_upd_other in F by auto. eapply (v_rest _ _ V); eauto.
Qed.
Lemma Inv_push : forall reps u kinds r k, Inv reps (u, kinds) -> proper u0 n r ->
  kind_ok reps u r k -> Inv (reps ++ [Some r]) (u, kinds ++ [k]) /\ ext reps (reps ++ [Some r]) /\ nth_error (reps ++ [Some r]) (length kinds) = Some (Some r).
Proof.
  intros reps u kinds r k V P K. pose proof (v_len _ _ V) as L. simpl in L.
  assert (X : ext reps (reps ++ [Some r])).
  { intros j q F. rewrite nth_error_app1; auto. apply nth_error_Some. congruence. }
  assert (Z : nth_error (reps ++ [Some r]) (length kinds) = Some (Some r)) by (rewrite nth_error_app2, L, Nat.sub_diag by lia; auto).
  split; auto. constructor; simpl.
  - apply (v_inv _ _ V).
  - apply (v_below _ _ V).
  - rewrite !app_length. simpl. lia.
  - rewrite app_length. pose proof (v_roots _ _ V). lia.
  - intros j q F. destruct (Nat.lt_ge_cases j (length reps)) as [Lj|Lj].
    + rewrite nth_error_app1 in F by auto. destruct (v_kind _ _ V j q F) as (P' & k' & Y & K'). simpl in Y. split; auto. exists k'.
      split; [rewrite nth_error_app1; [auto|lia]|]. eapply kind_ok_mono; [exact X|apply below_refl|exact K'].
    + assert (j = length kinds). { assert (j < length (reps ++ [Some r])) by (apply nth_error_Some; congruence). rewrite app_length in H. simpl in H. lia. }
      subst j. assert (q = r) by congruence. subst q. split; auto. exists k. split; [rewrite nth_error_app2, Nat.sub_diag by lia; auto|].
      eapply kind_ok_mono; [exact X|apply below_refl|exact K].
  - intros j Lj F. destruct (Nat.lt_ge_cases j (length reps)) as [Lk|Lk].
    + rewrite nth_error_app1 in F by auto. eapply (v_rest _ _ V); eauto.
    + rewrite nth_error_app2 in F by auto. destruct (j - length reps) as [|[|]]; discriminate.
Qed.

Lemma inline_all : forall l s,
  (fix desugar_all (l : list rtype) (s : progress) {struct l} : outcome (list ty * progress) :=
    match l with
    | [] => Done ([], s)
    | r :: l => andthen (desugar_type le order r None s) (fun p => andthen (desugar_all l (snd p)) (fun q => Done (fst p :: fst q, snd q)))
    end) l s = desugar_all le order l s.
Proof. induction l as [|r l IH]; intros s; simpl; auto. Qed.
Lemma desugar_node : forall c parts slot s, desugar_type le order (RNode c parts) slot s =
  if distinct_names c then andthen (desugar_all le order parts s) (fun p => store_kind (plug c (fst p)) slot (snd p)) else Rejected.
Proof. intros. simpl. rewrite inline_all. auto. Qed.
Lemma desugar_atom : forall a args slot s, desugar_type le order (RAtom a args) slot s =
  andthen (desugar_all le order args s) (fun p => store_type le order (plug_atom a (fst p)) (snd p)).
Proof. intros. simpl. rewrite inline_all. auto. Qed.

(** * Types that mention nothing of the group *)
Lemma apart_ok : forall reps r, apart r -> proper u0 n r -> forall slot u kinds, inv u -> below (get u0) (get u) ->
  exists t u', desugar_type le order r slot (u, kinds) = Done (t, (u', kinds)) /\ inv u' /\ below (get u) (get u') /\ rel reps u' r t /\ exists k, get u' t = Some k.
Proof.
  intros reps r. induction r as [t0|i|name|c parts IH|a args IH|l] using rtype_ind'; intros A P slot u kinds I B; inversion A; subst; inversion P; subst.
  - exists t0, u. split; [reflexivity|]. split; auto. split; [apply below_refl|]. split; eauto using rel_stored.
  - rewrite desugar_atom.
    assert (X : forall l, (forall r, In r l -> In r args) -> forall u, inv u -> below (get u0) (get u) ->
      exists ts u', desugar_all le order l (u, kinds) = Done (ts, (u', kinds)) /\ inv u' /\ below (get u) (get u') /\ Forall2 (rel reps u') l ts /\ forall t, In t ts -> exists k, get u' t = Some k).
    { induction l as [|r l IHl]; intros Hl v Iv Bv.
      - exists [], v. split; [reflexivity|]. split; auto. split; [apply below_refl|]. split; [constructor|intros t []].
      - destruct (IH r (Hl r (or_introl eq_refl))) with (slot := @None nat) (u := v) (kinds := kinds) as (t & v1 & E1 & I1 & B1 & R1 & k1 & G1); auto.
        { apply H0. apply Hl. simpl. auto. } { apply H1. apply Hl. simpl. auto. }
        destruct (IHl (fun r J => Hl r (or_intror J)) v1 I1 (below_trans _ _ _ Bv B1)) as (ts & v2 & E2 & I2 & B2 & R2 & G2).
        exists (t :: ts), v2. cbn [desugar_all]. rewrite E1. cbn [andthen fst snd]. rewrite E2. cbn [andthen fst snd]. split; [reflexivity|]. split; auto.
        split; [eapply below_trans; eauto|]. split; [constructor; [eapply rel_mono; [apply ext_refl|exact B2|exact R1]|exact R2]|].
        intros t' [<-|J]; eauto. }
    destruct (X args (fun r J => J) u I B) as (ts & u1 & E1 & I1 & B1 & R1 & G1). rewrite E1. cbn [andthen fst snd].
    destruct (store_flat u1 kinds (plug_atom a ts) I1) as (t & u2 & E2 & I2 & B2 & G2).
    { destruct a; simpl; auto. } { intros c J. rewrite kids_atom in J. auto. }
    exists t, u2. split; auto. split; auto. split; [eapply below_trans; eauto|].
    assert (Z : normalize (plug_atom a ts) = plug_atom a ts) by (destruct a; auto). rewrite Z in G2.
    split; [|eauto]. eapply rel_atom; [|exact G2]. eapply rels_mono; [apply ext_refl|exact B2|exact R1].
  - destruct (store_flat u kinds (leaf_kind l) I) as (t & u2 & E2 & I2 & B2 & G2).
    { destruct l; simpl; auto. } { intros c J. destruct l; destruct J. }
    exists t, u2. split; [exact E2|]. split; auto. split; auto. assert (Z : normalize (leaf_kind l) = leaf_kind l) by (destruct l; auto). rewrite Z in G2. split; eauto using rel_leaf.
Qed.
Lemma apart_places : forall r, apart r -> places r = [] /\ ~ duplicates r.
Proof.
  induction r as [t0|i|name|c parts IH|a args IH|l] using rtype_ind'; intros A; inversion A; subst; simpl.
  - split; auto. intros D. inversion D.
  - split.
    + clear A. induction args as [|x l IHl]; simpl; auto. rewrite (proj1 (IH x (or_introl eq_refl) (H0 x (or_introl eq_refl)))). simpl. apply IHl; intros; [apply IH|apply H0]; simpl; auto.
    + intros D. inversion D; subst. apply (proj2 (IH r H2 (H0 r H2))). auto.
  - split; auto. intros D. inversion D.
Qed.

(** * Lowering *)
Definition outcome_ok (r : rtype) (slot : option nat) (reps : list (option rtype)) (s : progress) : Prop :=
  (duplicates r /\ desugar_type le order r slot s = Rejected) \/
  (~ duplicates r /\ exists t s' reps', desugar_type le order r slot s = Done (t, s') /\ Inv reps' s' /\ ext reps reps' /\ below (get (fst s)) (get (fst s')) /\
    rel reps' (fst s') r t /\ (forall j, j < n -> slot <> Some j -> nth_error reps' j = nth_error reps j) /\
    (forall i, slot = Some i -> nth_error reps' i = Some (Some r) /\ t = Loc i) /\ Permutation (filled reps') (places r ++ filled reps)).

Definition outcomes_ok (l : list rtype) (reps : list (option rtype)) (s : progress) : Prop :=
  ((exists r, In r l /\ duplicates r) /\ desugar_all le order l s = Rejected) \/
  ((forall r, In r l -> ~ duplicates r) /\ exists ts s' reps', desugar_all le order l s = Done (ts, s') /\ Inv reps' s' /\ ext reps reps' /\ below (get (fst s)) (get (fst s')) /\
    Forall2 (rel reps' (fst s')) l ts /\ (forall j, j < n -> nth_error reps' j = nth_error reps j) /\
    Permutation (filled reps') (flat_map places l ++ filled reps)).

Lemma all_ok : forall l, (forall r, In r l -> forall reps s, Inv reps s -> outcome_ok r None reps s) -> forall reps s, Inv reps s -> outcomes_ok l reps s.
Proof.
  induction l as [|r l IH]; intros H reps s V.
  - right. split; [intros r []|]. exists [], s, reps. split; [reflexivity|]. split; auto. split; [apply ext_refl|]. split; [apply below_refl|]. split; [constructor|]. split; auto.
  - destruct (H r (or_introl eq_refl) reps s V) as [[D E]|[D (t & s1 & reps1 & E & V1 & X1 & B1 & R1 & K1 & _ & P1)]].
    + left. split; [exists r; simpl; auto|]. cbn [desugar_all]. rewrite E. auto.
    + destruct (IH (fun r J => H r (or_intror J)) reps1 s1 V1) as [[(r' & J & D') E']|[D' (ts & s2 & reps2 & E2 & V2 & X2 & B2 & R2 & K2 & P2)]].
      * left. split; [exists r'; simpl; auto|]. cbn [desugar_all]. rewrite E. cbn [andthen fst snd]. rewrite E'. auto.
      * right. split; [intros r' [<-|J]; auto|]. exists (t :: ts), s2, reps2. cbn [desugar_all]. rewrite E. cbn [andthen fst snd]. rewrite E2. cbn [andthen fst snd].
        split; [reflexivity|]. split; auto. split; [eapply ext_trans; eauto|]. split; [eapply below_trans; eauto|].
        split; [constructor; auto; eapply rel_mono; [exact X2|exact B2|exact R1]|]. split; [intros j Lj; rewrite K2, K1 by (auto; discriminate); auto|].
        simpl. eapply Permutation_trans; [exact P2|]. rewrite <- app_assoc. eapply Permutation_trans; [apply Permutation_app_head; exact P1|].
        rewrite !app_assoc. apply Permutation_app_tail. apply Permutation_app_comm.
Qed.

Lemma desugar_ok : forall r, tidy r -> proper u0 n r -> forall slot reps s, Inv reps s -> (forall i, slot = Some i -> nth_error reps i = Some None /\ exists c parts, r = RNode c parts) ->
  outcome_ok r slot reps s.
Proof.
  assert (AP : forall r, apart r -> proper u0 n r -> forall slot reps s, Inv reps s -> (forall i, slot = Some i -> nth_error reps i = Some None /\ exists c parts, r = RNode c parts) ->
    outcome_ok r slot reps s).
  { intros r A P slot reps [u kinds] V SL. destruct (apart_places r A) as [PL D]. right. split; auto.
    destruct (apart_ok reps r A P slot u kinds (v_inv _ _ V) (v_below _ _ V)) as (t & u' & E & I & B & R & _).
    exists t, (u', kinds), reps. split; auto. split; [eapply Inv_grow; eauto|]. split; [apply ext_refl|]. split; auto. split; auto. split; auto. split.
    - intros i J. destruct (SL i J) as (_ & c & parts & ->). inversion A.
    - rewrite PL. auto. }
  intros r. induction r as [t0|i|name|c parts IH|a args IH|l] using rtype_ind'; intros T P slot reps s V SL.
  - inversion T; subst. apply AP; auto.
  - right. split; [intros D; inversion D|]. exists (Loc i), s, reps. split; [reflexivity|]. split; auto. split; [apply ext_refl|]. split; [apply below_refl|].
    split; [apply rel_alias; inversion P; auto|]. split; auto. split; auto. intros j J. destruct (SL j J) as (_ & c & parts & X). discriminate.
  - right. split; [intros D; inversion D|]. destruct s as [u kinds].
    destruct (store_flat u kinds (KNative unit_bare []) (v_inv _ _ V) I) as (t & u1 & E1 & I1 & B1 & G1); [intros c []|].
    pose proof (Inv_grow _ _ _ _ V I1 B1) as V1. destruct (Inv_push reps u1 kinds (RTag name) (KVariant [(name, t)]) V1 P) as (V2 & X2 & Z2).
    { exists t. split; auto. }
    exists (Loc (length kinds)), (u1, kinds ++ [KVariant [(name, t)]]), (reps ++ [Some (RTag name)]). cbn [desugar_type]. rewrite E1. cbn [andthen fst snd store_kind].
    split; [reflexivity|]. split; auto. split; auto. split; auto. split; [apply rel_place; simpl; auto|]. split; [|split].
    + intros j Lj _. apply nth_error_app1. pose proof (v_roots _ _ V). lia.
    + intros j J. destruct (SL j J) as (_ & c & parts & X). discriminate.
    + rewrite filled_app. simpl. apply Permutation_sym, Permutation_cons_append.
  - inversion T; subst; [|match goal with H : apart _ |- _ => inversion H end]. inversion P; subst.
    unfold outcome_ok. rewrite desugar_node. destruct (distinct_names c) eqn:DN.
    + destruct (all_ok parts) with (reps := reps) (s := s) as [[(r' & J & D') E]|[D (ts & [u1 kinds1] & reps1 & E & V1 & X1 & B1 & R1 & K1 & P1)]]; auto.
      { intros r J reps' s' V'. apply IH; auto. discriminate. }
      * left. split; [eapply du_part; eauto|]. rewrite E. auto.
      * right. assert (ND : ~ duplicates (RNode c parts)).
        { intros X. inversion X as [? ? names Y Z|? ? r' J D'|]; subst; [|eapply D; eauto]. destruct Y as [-> | ->]; simpl in DN; apply unique_nodup in DN; auto. }
        split; auto. rewrite E. cbn [andthen fst snd]. simpl fst in *.
        assert (K : kind_ok reps1 u1 (RNode c parts) (plug c ts)) by (split; eauto).
        destruct slot as [i|].
        -- destruct (SL i eq_refl) as [Ei _]. pose proof (v_len _ _ V1) as L1. simpl in L1.
           assert (E1 : nth_error reps1 i = Some None).
           { destruct (Nat.lt_ge_cases i n) as [Li|Li]; [rewrite K1; auto|]. destruct (v_rest _ _ V i Li Ei). }
           assert (Li : i < length reps1) by (apply nth_error_Some; congruence).
           destruct (Inv_set reps1 u1 kinds1 i _ _ V1 E1 P K) as [V2 X2].
           unfold store_kind. rewrite (proj2 (Nat.ltb_lt i (length kinds1))) by lia.
           eexists _, _, _. split; [reflexivity|]. split; [exact V2|]. split; [eapply ext_trans; eauto|]. split; [exact B1|].
           split; [apply rel_place; [rewrite nth_error_upd_same; auto|exact I]|]. split; [|split].
           ++ intros j Lj D'. rewrite nth_error_upd_other by congruence. apply K1. auto.
           ++ intros j J. inversion J; subst j. split; auto. rewrite nth_error_upd_same; auto.
           ++ eapply Permutation_trans; [apply filled_upd; auto|]. simpl. apply perm_skip. exact P1.
        -- destruct (Inv_push reps1 u1 kinds1 _ _ V1 P K) as (V2 & X2 & Z2). cbn [store_kind].
           eexists _, _, _. split; [reflexivity|]. split; [exact V2|]. split; [eapply ext_trans; eauto|]. split; [exact B1|].
           split; [apply rel_place; [exact Z2|exact I]|]. split; [|split].
           ++ intros j Lj _. rewrite nth_error_app1; auto. pose proof (v_roots _ _ V1). lia.
           ++ discriminate.
           ++ rewrite filled_app. simpl. eapply Permutation_trans; [apply Permutation_sym, Permutation_cons_append|]. apply perm_skip. exact P1.
    + left. split; auto. destruct c as [names| |names|]; simpl in DN; try discriminate;
        (apply du_here with (names := names); [auto|intros X; apply unique_nodup in X; congruence]).
  - inversion T; subst. apply AP; auto.
  - inversion T; subst. apply AP; auto.
Qed.
End Store.
