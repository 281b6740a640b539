(** Recursion between source functions is checked. *)
From Coq Require Import List Arith Bool Lia.
From Verif Require Import GraphModel GraphSpec GraphProofs SccProofs GuardModel MirModel TermSpec TermProofs.
Import ListNotations.

Lemma walk_reach : forall g l x y, walk (edge g) (x :: l ++ [y]) ->
  reach g x y /\ forall z, In z l -> reach g x z /\ reach g z y.
Proof.
  intros g l. induction l as [|a l IH]; intros x y W.
  - cbn [app walk] in W. destruct W as [E _]. split; [|intros z []].
    econstructor; [constructor|exact E].
  - cbn [app] in W. destruct W as [E W]. destruct (IH a y W) as [R H].
    assert (X : reach g x a) by (econstructor; [constructor|exact E]).
    split; [eapply reach_trans; eauto|].
    intros z [<-|I]; [auto|]. destruct (H z I). split; [eapply reach_trans; eauto|auto].
Qed.

Lemma walk_mono : forall A (e1 e2 : A -> A -> Prop) l,
  (forall a b, In a l -> In b l -> e1 a b -> e2 a b) -> walk e1 l -> walk e2 l.
Proof.
  intros A e1 e2 l. induction l as [|a [|b l] IH]; intros H W; auto; try exact I.
  destruct W as [E W]. split.
  - apply H; simpl; auto.
  - apply IH; auto. intros; apply H; simpl in *; auto.
Qed.

Lemma walk_next : forall A (e : A -> A -> Prop) l x y, walk e (l ++ [y]) -> In x l ->
  exists z, In z (l ++ [y]) /\ e x z.
Proof.
  intros A e l. induction l as [|a l IH]; intros x y W I; [destruct I|].
  destruct I as [->|I].
  - destruct l as [|b l]; cbn [app] in *; destruct W; eexists; split; eauto; simpl; auto.
  - assert (W' : walk e (l ++ [y])). { destruct l as [|b l]; [destruct I|destruct W; auto]. }
    destruct (IH x y W' I) as (z & J & E). exists z. split; [right; exact J|exact E].
Qed.

Lemma existsb_eqb : forall x l, existsb (Nat.eqb x) l = true <-> In x l.
Proof.
  intros x l. rewrite existsb_exists. split.
  - intros (y & I & E). apply Nat.eqb_eq in E. subst. exact I.
  - intros I. exists x. split; [exact I|apply Nat.eqb_refl].
Qed.

Lemma direct_recursion_checked : forall u, well_formed (dependencies u) ->
  (forall i j, i < length (dependencies u) -> j < length (dependencies u) ->
     edge (mentions u) i j -> edge (dependencies u) i j) ->
  exists checks, functions_with_check u = Val checks /\
  forall l, cycle (edge (mentions u)) l -> (forall i, In i l -> i < length (dependencies u)) ->
  forall i, In i l -> In i checks.
Proof.
  intros u WF SUB.
  destruct (scc_ok (dependencies u) WF) as (sccs & E & ND & AL & NE & CN & _).
  exists (flat_map (component_checks u) sccs). unfold functions_with_check. rewrite E. split; [reflexivity|].
  intros l CY LT i I.
  assert (IN : In i (concat sccs)) by (apply AL; auto).
  apply in_concat in IN. destruct IN as (scc & IS & II).
  apply in_flat_map. exists scc. split; [exact IS|].
  (* every element of the cycle is in the component *)
  destruct l as [|a q]; [destruct CY|].
  assert (W : walk (edge (dependencies u)) ((a :: q) ++ [a])).
  { apply (walk_mono _ (edge (mentions u))); [|exact CY]. intros x y X Y EX. apply SUB; auto; apply LT.
    - apply in_app_or in X. destruct X as [X|[<-|[]]]; [exact X|left; reflexivity].
    - apply in_app_or in Y. destruct Y as [Y|[<-|[]]]; [exact Y|left; reflexivity]. }
  destruct (walk_reach (dependencies u) q a a W) as [RA RQ].
  assert (CON : forall x, In x (a :: q) -> reach (dependencies u) a x /\ reach (dependencies u) x a).
  { intros x [<-|X]; [split; exact RA|]. apply RQ. exact X. }
  assert (ALL : forall x, In x (a :: q) -> In x scc).
  { intros x X. apply (CN scc i x IS II). destruct (CON i I), (CON x X).
    split; eapply reach_trans; eauto. }
  destruct (walk_next _ _ (a :: q) i a CY I) as (z & JZ & EZ).
  assert (ZQ : In z (a :: q)).
  { apply in_app_or in JZ. destruct JZ as [X|[<-|[]]]; [exact X|left; reflexivity]. }
  unfold component_checks.
  assert (REC : recursive_component (dependencies u) scc = true).
  { unfold recursive_component. apply orb_true_iff.
    destruct scc as [|s [|s2 scc]]; [destruct II| |left; reflexivity]. right.
    assert (ES : edge (dependencies u) i z) by (apply SUB; auto).
    destruct (ALL i I) as [<-|[]]. destruct (ALL z ZQ) as [<-|[]].
    destruct ES as (ss & N & J). rewrite (nth_error_nth _ _ [] N). apply existsb_eqb. exact J. }
  rewrite REC. apply filter_In. split; [exact II|].
  unfold references_any. apply existsb_exists. exists z. split; [|apply existsb_eqb; auto].
  destruct EZ as (ss & N & J). rewrite (nth_error_nth _ _ [] N). exact J.
Qed.

(** Only recursive functions get a check. *)
Lemma checked_are_recursive : forall u checks, well_formed (dependencies u) ->
  functions_with_check u = Val checks ->
  forall i, In i checks -> exists j, edge (mentions u) i j /\ connected (dependencies u) i j.
Proof.
  intros u checks WF E0 i I.
  destruct (scc_ok (dependencies u) WF) as (sccs & E & ND & AL & NE & CN & _).
  unfold functions_with_check in E0. rewrite E in E0. injection E0 as <-.
  apply in_flat_map in I. destruct I as (scc & IS & II). unfold component_checks in II.
  destruct (recursive_component (dependencies u) scc); [|destruct II].
  apply filter_In in II. destruct II as [II R]. unfold references_any in R.
  apply existsb_exists in R. destruct R as (j & J & X). apply existsb_eqb in X.
  exists j. split; [|apply (CN scc i j IS II); exact X].
  destruct (nth_error (mentions u) i) as [ss|] eqn:N.
  - rewrite (nth_error_nth _ _ [] N) in J. exists ss. auto.
  - rewrite nth_overflow in J by (apply nth_error_None; exact N). destruct J.
Qed.

(** A program whose calls all come from the functions mentioned by source
    functions is guarded. *)
Lemma walk_map : forall A B (e : A -> A -> Prop) (e' : B -> B -> Prop) (p : A -> B) l,
  (forall a b, In a l -> In b l -> e a b -> e' (p a) (p b)) -> walk e l -> walk e' (map p l).
Proof.
  intros A B e e' p l. induction l as [|a [|b l] IH]; intros H W; auto; try exact I.
  destruct W as [E W]. split.
  - apply H; simpl; auto.
  - apply IH; auto. intros; apply H; simpl in *; auto.
Qed.

Lemma direct_programs_guarded : forall m k u checks, well_formed (dependencies u) ->
  (forall i j, i < length (dependencies u) -> j < length (dependencies u) ->
     edge (mentions u) i j -> edge (dependencies u) i j) ->
  functions_with_check u = Val checks ->
  (forall i, In i checks -> checks_depth m (k, i)) ->
  (forall f h, calls m f h -> body m h <> None ->
     fst f = k /\ snd f < length (dependencies u) /\ edge (mentions u) (snd f) (snd h)) ->
  recursion_guarded m.
Proof.
  intros m k u checks WF SUB FC CD CM l CY.
  destruct (direct_recursion_checked u WF SUB) as (checks' & FC' & ALL).
  rewrite FC in FC'. injection FC' as <-.
  destruct l as [|a q]; [destruct CY|].
  assert (ELEM : forall x, In x (a :: q) -> exists y, In y ((a :: q) ++ [a]) /\ calls m x y).
  { intros x I. apply (walk_next _ _ (a :: q) x a CY I). }
  assert (SAME : forall y, In y ((a :: q) ++ [a]) -> In y (a :: q)).
  { intros y I. apply in_app_or in I. destruct I as [I|[<-|[]]]; [exact I|left; reflexivity]. }
  assert (HB : forall x, In x (a :: q) -> body m x <> None).
  { intros x I. destruct (ELEM x I) as (y & _ & fn & blk & o & g & b & B & _). congruence. }
  assert (INFO : forall x, In x (a :: q) -> fst x = k /\ snd x < length (dependencies u)).
  { intros x I. destruct (ELEM x I) as (y & J & C). destruct (CM x y C (HB y (SAME y J))) as (H1 & H2 & _). auto. }
  exists a. split; [left; reflexivity|].
  destruct (INFO a (or_introl eq_refl)) as [FA _]. destruct a as [ka ia]. cbn [fst] in FA. subst ka.
  apply CD. apply (ALL (map snd ((k, ia) :: q))).
  - cbn [map snd cycle].
    change ((ia :: map snd q) ++ [ia]) with (map snd ((k, ia) :: q) ++ map snd [(k, ia)]).
    rewrite <- map_app. apply (walk_map _ _ (calls m)); [|exact CY].
    intros x y X Y C. apply (CM x y C). apply HB, SAME, Y.
  - intros i I. apply in_map_iff in I. destruct I as (x & <- & X). apply INFO. exact X.
  - left. reflexivity.
Qed.

Lemma direct_programs_end : forall m k u checks, finite_program m ->
  (forall f fn, body m f = Some fn -> fuel_guarded fn) ->
  well_formed (dependencies u) ->
  (forall i j, i < length (dependencies u) -> j < length (dependencies u) ->
     edge (mentions u) i j -> edge (dependencies u) i j) ->
  functions_with_check u = Val checks ->
  (forall i, In i checks -> checks_depth m (k, i)) ->
  (forall f h, calls m f h -> body m h <> None ->
     fst f = k /\ snd f < length (dependencies u) /\ edge (mentions u) (snd f) (snd h)) ->
  forall fuel depth cells reqs g, exists n, forall n', n <= n' ->
    ~ In Unfinished (fst (run_history m n' reqs g (new_context (Some fuel) depth cells))).
Proof.
  intros m k u checks FP FG WF SUB FC CD CM. apply guarded_histories_end; auto.
  eapply direct_programs_guarded; eauto.
Qed.
