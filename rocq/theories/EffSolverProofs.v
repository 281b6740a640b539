(** Proofs about the effect solver. *)
From Coq Require Import NArith List Bool Arith Lia.
From Verif Require Import ListUtil EffModel EffSpec EffProofs EffSolverModel EffSolverSpec.
Import ListNotations.
Open Scope N_scope.

Local Opaque inline_vars.

(** ** Effect types *)
Lemma var_in : forall e, reachable e -> forall v, In v (eff_variables e) <-> mem e (Variable_ v).
Proof. intros e H v. destruct (vars_ok e (reachable_canonical e H)) as (_ & M & _). apply M. Qed.
Lemma union_mem : forall a b x, reachable a -> reachable b -> (mem (eff_union a b) x <-> mem a x \/ mem b x).
Proof. intros. apply union_ok; now apply reachable_canonical. Qed.
Lemma single_mem : forall v x, mem (eff_single_variable v) x <-> x = Variable_ v.
Proof. intros. apply single_variable_ok. Qed.
Lemma single_self : forall v, mem (eff_single_variable v) (Variable_ v).
Proof. intros. now apply single_mem. Qed.
Lemma prims_in : forall e p, In p (prims_iter (eff_primitives e)) <-> mem e (Primitive p).
Proof.
  intros e p. unfold prims_iter, mem, eff_contains. rewrite filter_In. split; [tauto|]. intros H. split; [|exact H].
  destruct p; cbn; tauto.
Qed.
Lemma primitives_reachable : forall e, reachable (primitives_of e).
Proof. intros. apply r_multiple_primitive. Qed.
Lemma primitives_mem : forall e x, mem (primitives_of e) x <-> exists p, x = Primitive p /\ mem e (Primitive p).
Proof.
  intros e x. unfold primitives_of, eff_multiple_primitive. pose proof (multiple_primitive_ok (prims_iter (eff_primitives e)) 0 pvalid_0) as [H1 H2].
  pose proof (inline_prims_ok _ H1) as [_ H]. rewrite H. split; intros (q & -> & Hq); exists q; (split; [reflexivity|]).
  - apply H2 in Hq. destruct Hq as [Hq|Hq]; [now apply prims_in|]. rewrite prims_contains_spec, N.bits_0 in Hq. discriminate.
  - apply H2. left. now apply prims_in.
Qed.
Lemma eff_eqb_eq : forall a b, reachable a -> reachable b -> (eff_eqb a b = true <-> a = b).
Proof.
  intros a b Ha Hb. unfold eff_eqb. pose proof (eff_ordering a b b Ha Hb Hb) as (H & _). destruct (eff_compare a b); intuition congruence.
Qed.
Lemma eff_ext : forall a b, reachable a -> reachable b -> (forall x, mem a x <-> mem b x) -> a = b.
Proof. intros. apply canonical_ext; try apply reachable_canonical; assumption. Qed.
Lemma single_var : forall e v, reachable e -> (eff_to_single_variable e = Some v <-> e = eff_single_variable v).
Proof.
  intros e v H. rewrite to_single_variable_ok by now apply reachable_canonical. split.
  - intros E. apply eff_ext; [exact H|constructor|]. intros x. rewrite E, single_mem. reflexivity.
  - intros -> x. apply single_mem.
Qed.
Lemma no_vars : forall e, reachable e -> (eff_has_variables e = false <-> concrete e).
Proof.
  intros e H. pose proof (has_variables_ok e (reachable_canonical e H)) as Q. unfold concrete. destruct (eff_has_variables e).
  - split; [discriminate|]. intros C. destruct Q as [Q _]. destruct (Q eq_refl) as (v & Hv). now destruct (C v).
  - split; [|reflexivity]. intros _ v Hv. enough (false = true) by discriminate. apply Q. eauto.
Qed.
Lemma vars_nil : forall e, reachable e -> (eff_variables e = [] <-> concrete e).
Proof.
  intros e H. unfold concrete. split.
  - intros E v Hv. apply var_in in Hv; [|exact H]. rewrite E in Hv. destruct Hv.
  - intros C. destruct (eff_variables e) as [|v l] eqn:E; [reflexivity|]. destruct (C v). apply var_in; [exact H|]. rewrite E. now left.
Qed.
Lemma empty_mem : forall e, reachable e -> (eff_is_empty e = true <-> forall x, ~ mem e x).
Proof. intros. now apply is_empty_ok, reachable_canonical. Qed.
Lemma subset_mem : forall a b, reachable a -> reachable b -> (eff_is_subset_of a b = true <-> concrete a /\ forall x, mem a x -> mem b x).
Proof. intros. now apply eff_subset_single. Qed.
Lemma single_prim_mem : forall p x, mem (eff_single (Primitive p)) x <-> x = Primitive p.
Proof. intros p x. apply (eff_constructors x (Primitive p) p 0 [] []). Qed.

(** ** Following variables *)
Lemma has_mono_mem : forall t e f p, has t e p -> (forall x, mem e x -> mem f x) -> has t f p.
Proof. intros t e f p H M. inversion H; subst; [apply has_itself; auto|eapply has_through; eauto]. Qed.
Lemma has_union : forall t a b p, reachable a -> reachable b -> (has t (eff_union a b) p <-> has t a p \/ has t b p).
Proof.
  intros t a b p Ha Hb. split.
  - intros H. inversion H as [e q M|e v x q M P Hx]; subst; apply union_mem in M; try assumption; destruct M; eauto using has_itself, has_through.
  - intros [H|H]; eapply has_mono_mem; eauto; intros x M; apply union_mem; auto.
Qed.
Lemma has_var : forall t v p, has t (eff_single_variable v) p <-> exists x, probe t v = Some x /\ has t x p.
Proof.
  intros t v p. split.
  - intros H. inversion H as [e q M|e w x q M P Hx]; subst; apply single_mem in M; [discriminate|]. injection M as ->. eauto.
  - intros (x & P & H). eapply has_through; eauto using single_self.
Qed.
Lemma has_leads : forall t e w v p, leads t e w -> find t w = find t v -> has t (eff_single_variable v) p -> has t e p.
Proof.
  intros t e w v p L E H. apply has_var in H as (x & P & H). unfold probe in P. rewrite <- E in P.
  induction L as [e w M|e u y w M Q L IH]; eapply has_through; eauto.
Qed.
Lemma has_same_root : forall t v w p, find t v = find t w -> (has t (eff_single_variable v) p <-> has t (eff_single_variable w) p).
Proof. intros t v w p E. rewrite !has_var. unfold probe. now rewrite E. Qed.
Lemma concrete_has : forall t e p, concrete e -> (has t e p <-> mem e (Primitive p)).
Proof. intros t e p C. split; [|apply has_itself]. intros H. inversion H; subst; [assumption|exfalso; eapply C; eauto]. Qed.
Lemma leads_mono_mem : forall t e f v, leads t e v -> (forall x, mem e x -> mem f x) -> leads t f v.
Proof. intros t e f v H M. inversion H; subst; [apply leads_itself; auto|eapply leads_through; eauto]. Qed.

(** ** Growing tables *)
Record extends (t t' : table) : Prop := {
  ext_len : len t <= len t';
  ext_find : forall a b, find t a = find t b -> find t' a = find t' b;
  ext_value : forall v x, probe t v = Some x -> exists x', probe t' v = Some x' /\ forall y, mem x y -> mem x' y
}.
Lemma extends_refl : forall t, extends t t.
Proof. intros t. constructor; [lia|auto|]. intros v x H. exists x. auto. Qed.
Lemma extends_trans : forall a b c, extends a b -> extends b c -> extends a c.
Proof.
  intros a b c H1 H2. constructor.
  - destruct H1, H2. lia.
  - intros x y E. apply (ext_find _ _ H2), (ext_find _ _ H1), E.
  - intros v x P. destruct (ext_value _ _ H1 v x P) as (y & P1 & M1). destruct (ext_value _ _ H2 v y P1) as (z & P2 & M2). exists z. auto.
Qed.
Lemma extends_has : forall t t', extends t t' -> forall e p, has t e p -> has t' e p.
Proof.
  intros t t' X e p H. induction H as [e p M|e v x p M P H IH]; [now apply has_itself|].
  destruct (ext_value _ _ X v x P) as (x' & P' & M'). eapply has_through; [exact M|exact P'|]. eapply has_mono_mem; eauto.
Qed.
Lemma extends_leads : forall t t', extends t t' -> forall e p, leads t e p -> leads t' e p.
Proof.
  intros t t' X e p H. induction H as [e p M|e v x p M P H IH]; [now apply leads_itself|].
  destruct (ext_value _ _ X v x P) as (x' & P' & M'). eapply leads_through; [exact M|exact P'|]. eapply leads_mono_mem; eauto.
Qed.
(** A variable met from [e], up to its root. *)
Definition meets (t : table) (e : efftype) (r : N) : Prop := exists w, leads t e w /\ find t w = find t r.
Lemma extends_meets : forall t t', extends t t' -> forall e r, meets t e r -> meets t' e r.
Proof. intros t t' X e r (w & L & E). exists w. split; [now apply (extends_leads t t')|now apply (ext_find _ _ X)]. Qed.
Lemma meets_has : forall t e r p, meets t e r -> has t (eff_single_variable r) p -> has t e p.
Proof. intros t e r p (w & L & E) H. eapply has_leads; eauto. Qed.

(** Effect types whose variables are in the table. *)
Definition inside (t : table) (e : efftype) : Prop := reachable e /\ forall v, mem e (Variable_ v) -> v < len t.
Lemma inside_mono : forall t t' e, len t <= len t' -> inside t e -> inside t' e.
Proof. intros t t' e H [R M]. split; [exact R|]. intros v Hv. specialize (M v Hv). lia. Qed.
Lemma inside_union : forall t a b, inside t a -> inside t b -> inside t (eff_union a b).
Proof. intros t a b [Ra Ma] [Rb Mb]. split; [now constructor|]. intros v Hv. apply union_mem in Hv as [Hv|Hv]; auto. Qed.
Lemma inside_single : forall t v, v < len t -> inside t (eff_single_variable v).
Proof. intros t v H. split; [constructor|]. intros w Hw. apply single_mem in Hw. congruence. Qed.
Lemma inside_concrete : forall t e, reachable e -> concrete e -> inside t e.
Proof. intros t e R C. split; [exact R|]. intros v Hv. now destruct (C v). Qed.
Lemma inside_value : forall t v x, sound_table t -> probe t v = Some x -> inside t x.
Proof. intros t v x W P. destruct (st_value t W _ _ P) as (_ & R & M). now split. Qed.

(** ** Table operations *)
Lemma update_same : forall (A : Type) (f : N -> A) k a, update f k a k = a.
Proof. intros. unfold update. now rewrite N.eqb_refl. Qed.
Lemma update_other : forall (A : Type) (f : N -> A) k a x, x <> k -> update f k a x = f x.
Proof. intros A f k a x H. unfold update. apply N.eqb_neq in H. now rewrite H. Qed.

Lemma unify_values_mem : forall a b x, (forall y, a = Some y -> reachable y) -> reachable b ->
  exists u, unify_values a (Some b) = Some u /\ reachable u /\ (mem u x <-> mem b x \/ exists y, a = Some y /\ mem y x).
Proof.
  intros [a|] b x Ha Hb; cbn [unify_values].
  - exists (eff_union a b). specialize (Ha a eq_refl). split; [reflexivity|]. split; [now constructor|]. rewrite union_mem by assumption.
    split; [intros [H|H]; eauto|intros [H|(y & E & H)]; [auto|injection E as <-; auto]].
  - exists b. split; [reflexivity|]. split; [exact Hb|]. split; [auto|]. intros [H|(y & E & _)]; [exact H|discriminate].
Qed.

Lemma ensure_ok : forall t v, sound_table t -> sound_table (ensure_var t v) /\ extends t (ensure_var t v) /\ v < len (ensure_var t v).
Proof.
  intros t v W. unfold ensure_var. destruct (N.leb_spec (len t) v) as [H|H].
  - split; [|split; [|cbn [len]; lia]].
    + constructor; cbn [len find value].
      * apply W.
      * intros w Hw. destruct (N.ltb_spec w (len t)) as [L|L]; [pose proof (st_in t W w L); lia|now rewrite (st_out t W)].
      * intros w Hw. apply (st_out t W). lia.
      * intros r x E. destruct (st_value t W r x E) as (H1 & H2 & H3). split; [lia|]. split; [exact H2|]. intros w Hw. specialize (H3 w Hw). lia.
    + constructor; cbn [len]; [lia|auto|]. intros w x P. exists x. auto.
  - split; [exact W|]. split; [apply extends_refl|exact H].
Qed.
Lemma ensure_fold : forall l t, sound_table t -> sound_table (fold_left ensure_var l t) /\ extends t (fold_left ensure_var l t) /\
  forall v, In v l -> v < len (fold_left ensure_var l t).
Proof.
  induction l as [|a l IH]; intros t W; cbn [fold_left]; [split; [exact W|split; [apply extends_refl|intros v []]]|].
  destruct (ensure_ok t a W) as (W1 & X1 & L1). destruct (IH _ W1) as (W2 & X2 & L2). split; [exact W2|]. split; [now apply (extends_trans _ _ _ X1)|].
  intros v [<-|H]; [|auto]. pose proof (ext_len _ _ X2). lia.
Qed.
Lemma ensure_effect_ok : forall t e, sound_table t -> reachable e -> sound_table (ensure_effect_vars t e) /\ extends t (ensure_effect_vars t e) /\ inside (ensure_effect_vars t e) e.
Proof.
  intros t e W R. destruct (ensure_fold (eff_variables e) t W) as (W1 & X1 & L1). split; [exact W1|]. split; [exact X1|].
  split; [exact R|]. intros v Hv. apply L1. now apply var_in.
Qed.

Lemma union_value_ok : forall t v x, sound_table t -> v < len t -> inside t x ->
  let t' := union_value t v (Some x) in
  sound_table t' /\ extends t t' /\ len t' = len t /\ (forall w, find t' w = find t w) /\
  (exists y, probe t' v = Some y /\ forall z, mem x z -> mem y z) /\
  (forall w, find t w <> find t v -> probe t' w = probe t w) /\
  (forall w y z, find t w = find t v -> probe t' w = Some y -> mem y z -> mem x z \/ exists y0, probe t w = Some y0 /\ mem y0 z).
Proof.
  intros t v x W Hv [Rx Mx] t'.
  assert (Va : forall y, value t (find t v) = Some y -> reachable y). { intros y E. apply (st_value t W) in E. tauto. }
  assert (U : exists u, unify_values (value t (find t v)) (Some x) = Some u /\ reachable u /\ forall z, mem u z <-> mem x z \/ exists y, value t (find t v) = Some y /\ mem y z).
  { destruct (unify_values_mem (value t (find t v)) x (Variable_ 0) Va Rx) as (u & E & Ru & _). exists u. split; [exact E|]. split; [exact Ru|].
    intros z. destruct (unify_values_mem (value t (find t v)) x z Va Rx) as (u' & E' & _ & H). rewrite E in E'. injection E' as <-. exact H. }
  destruct U as (u & Eu & Ru & Mu).
  assert (P : forall w, probe t' w = if find t w =? find t v then Some u else probe t w).
  { intros w. unfold probe, t', union_value. cbn [find value]. unfold update. destruct (N.eqb_spec (find t w) (find t v)); [exact Eu|reflexivity]. }
  split; [|split; [|split; [reflexivity|split; [reflexivity|split; [|split]]]]].
  - constructor; cbn [t' union_value len find value].
    + apply W.
    + apply W.
    + apply W.
    + intros r y E. unfold update in E. destruct (N.eqb_spec r (find t v)) as [->|N].
      * rewrite Eu in E. injection E as <-. split; [now apply (st_in t W)|]. split; [exact Ru|]. intros w Hw. apply Mu in Hw as [Hw|(y & E & Hw)]; [auto|].
        apply (st_value t W) in E. apply E. exact Hw.
      * now apply (st_value t W).
  - constructor; cbn [t' union_value len find]; [lia|auto|]. intros w y E. fold t'. rewrite P. destruct (N.eqb_spec (find t w) (find t v)) as [Ew|N].
    + exists u. split; [reflexivity|]. intros z Hz. apply Mu. right. exists y. unfold probe in E. rewrite Ew in E. auto.
    + exists y. auto.
  - exists u. rewrite P, N.eqb_refl. split; [reflexivity|]. intros z Hz. apply Mu. auto.
  - intros w Hw. rewrite P. apply N.eqb_neq in Hw. now rewrite Hw.
  - intros w y z E Py Hz. rewrite P, E, N.eqb_refl in Py. injection Py as <-. apply Mu in Hz. unfold probe. now rewrite E.
Qed.

Lemma new_key_ok : forall t x, sound_table t -> (forall y, x = Some y -> inside t y) ->
  let t' := snd (new_key t x) in
  sound_table t' /\ extends t t' /\ len t < len t' /\ (forall v, find t' v = find t v) /\ probe t' (len t) = x /\ forall v, v <> len t -> probe t' v = probe t v \/ len t < v.
Proof.
  intros t x W Hx t'. assert (F : find t (len t) = len t) by (apply (st_out t W); lia).
  assert (P : forall v, v < len t -> probe t' v = probe t v).
  { intros v Hv. unfold probe, t', new_key. cbn [snd find value]. apply update_other. pose proof (st_in t W v Hv). lia. }
  assert (Q : forall v y, probe t v = Some y -> v < len t).
  { intros v y E. destruct (N.ltb_spec v (len t)) as [H|H]; [exact H|]. unfold probe in E. rewrite (st_out t W v H) in E. now apply (st_value t W) in E. }
  split; [|split; [|split; [cbn; lia|split; [reflexivity|split]]]].
  - constructor; cbn [t' new_key snd len find value].
    + apply W.
    + intros v Hv. destruct (N.ltb_spec v (len t)) as [H|H]; [pose proof (st_in t W v H); lia|rewrite (st_out t W); lia].
    + intros v Hv. apply (st_out t W). lia.
    + intros r y E. unfold update in E. destruct (N.eqb_spec r (len t)) as [->|N].
      * destruct (Hx y E) as [R M]. split; [lia|]. split; [exact R|]. intros v Hv. specialize (M v Hv). lia.
      * destruct (st_value t W r y E) as (H1 & H2 & H3). split; [lia|]. split; [exact H2|]. intros v Hv. specialize (H3 v Hv). lia.
  - constructor; cbn [t' new_key snd len find]; [lia|auto|]. intros v y E. exists y. split; [|auto]. fold t'. rewrite P; [exact E|eauto].
  - unfold probe, t', new_key. cbn [snd find value]. rewrite F. apply update_same.
  - intros v Hv. destruct (N.ltb_spec v (len t)) as [H|H]; [left; auto|right; lia].
Qed.

Section Solver.
Variable pick : table -> N -> N -> bool.

Lemma union_ok' : forall t a b, sound_table t -> a < len t -> b < len t ->
  sound_table (union pick t a b) /\ extends t (union pick t a b) /\ find (union pick t a b) a = find (union pick t a b) b /\ len (union pick t a b) = len t.
Proof.
  intros t a b W Ha Hb. unfold union. destruct (N.eqb_spec (find t a) (find t b)) as [E|N]; [split; [exact W|split; [apply extends_refl|split; [exact E|reflexivity]]]|].
  set (nr := if pick t (find t a) (find t b) then find t a else find t b). set (old := if pick t (find t a) (find t b) then find t b else find t a).
  assert (Nr : find t nr = nr) by (unfold nr; destruct (pick t _ _); apply (st_idem t W)).
  assert (Lr : nr < len t) by (unfold nr; destruct (pick t _ _); now apply (st_in t W)).
  assert (Lo : old < len t) by (unfold old; destruct (pick t _ _); now apply (st_in t W)).
  assert (Ne : nr <> old) by (unfold nr, old; destruct (pick t _ _); congruence).
  assert (Hab : (find t a = nr /\ find t b = old) \/ (find t a = old /\ find t b = nr)) by (unfold nr, old; destruct (pick t _ _); auto).
  set (x := unify_values (value t (find t a)) (value t (find t b))).
  assert (Hx : forall y, x = Some y -> inside t y /\ forall z, mem y z <-> (exists u, value t (find t a) = Some u /\ mem u z) \/ (exists u, value t (find t b) = Some u /\ mem u z)).
  { intros y E. unfold x in E. destruct (value t (find t a)) as [u|] eqn:E1, (value t (find t b)) as [w|] eqn:E2; cbn [unify_values] in E; try discriminate; injection E as <-.
    - destruct (st_value t W _ _ E1) as (_ & R1 & M1). destruct (st_value t W _ _ E2) as (_ & R2 & M2).
      split; [apply inside_union; now split|]. intros z. rewrite union_mem by assumption. split; [intros [H|H]; eauto|intros [(q & Q & H)|(q & Q & H)]; injection Q as <-; auto].
    - destruct (st_value t W _ _ E1) as (_ & R1 & M1). split; [now split|]. intros z. split; [eauto|]. intros [(q & Q & H)|(q & Q & H)]; [now injection Q as <-|discriminate].
    - destruct (st_value t W _ _ E2) as (_ & R2 & M2). split; [now split|]. intros z. split; [eauto|]. intros [(q & Q & H)|(q & Q & H)]; [discriminate|now injection Q as <-]. }
  assert (Hn : x = None -> value t (find t a) = None /\ value t (find t b) = None).
  { unfold x. destruct (value t (find t a)), (value t (find t b)); cbn; intros; try discriminate; auto. }
  split; [|split; [|split; [|reflexivity]]].
  - constructor; cbn [len find value].
    + intros v. destruct (N.eqb_spec (find t v) old) as [E|E].
      * rewrite Nr. destruct (N.eqb_spec nr old); congruence.
      * rewrite (st_idem t W). apply N.eqb_neq in E. now rewrite E.
    + intros v Hv. destruct (find t v =? old); [exact Lr|now apply (st_in t W)].
    + intros v Hv. rewrite (st_out t W v Hv). destruct (N.eqb_spec v old); [lia|reflexivity].
    + intros r y E. unfold update in E. destruct (N.eqb_spec r nr) as [->|].
      * destruct (Hx y E) as [[R M] _]. auto.
      * now apply (st_value t W).
  - constructor; cbn [len find]; [lia|intros p q E; now rewrite E|].
    intros v y E. unfold probe in *. cbn [find value].
    assert (G : find t v = find t a \/ find t v = find t b -> exists x', x = Some x' /\ forall z, mem y z -> mem x' z).
    { intros [Q|Q]; rewrite Q in E; destruct x as [x'|] eqn:Ex.
      - exists x'. split; [reflexivity|]. intros z Hz. apply (Hx x' eq_refl). eauto.
      - destruct (Hn eq_refl). congruence.
      - exists x'. split; [reflexivity|]. intros z Hz. apply (Hx x' eq_refl). eauto.
      - destruct (Hn eq_refl). congruence. }
    destruct (N.eqb_spec (find t v) old) as [E1|E1].
    + rewrite update_same. apply G. destruct Hab as [[Q1 Q2]|[Q1 Q2]]; rewrite Q1, Q2; auto.
    + unfold update. destruct (N.eqb_spec (find t v) nr) as [E2|E2].
      * apply G. destruct Hab as [[Q1 Q2]|[Q1 Q2]]; rewrite Q1, Q2; auto.
      * exists y. auto.
  - cbn [find]. destruct Hab as [[Q1 Q2]|[Q1 Q2]]; rewrite Q1, Q2, N.eqb_refl; destruct (N.eqb_spec nr old); congruence.
Qed.

Lemma bind_vars_ok : forall vars t upper, sound_table t -> inside t upper -> (forall v, In v vars -> v < len t) ->
  sound_table (bind_vars t vars upper) /\ extends t (bind_vars t vars upper) /\ len (bind_vars t vars upper) = len t.
Proof.
  induction vars as [|v vars IH]; intros t upper W U V; unfold bind_vars; cbn [fold_left]; [split; [exact W|split; [apply extends_refl|reflexivity]]|].
  destruct (union_value_ok t v upper W (V v (or_introl eq_refl)) U) as (W1 & X1 & L1 & _).
  destruct (IH (union_value t v (Some upper)) upper W1) as (W2 & X2 & L2).
  { now apply (inside_mono t); [rewrite L1; lia|]. }
  { intros w Hw. rewrite L1. apply V. now right. }
  fold (bind_vars (union_value t v (Some upper)) vars upper). split; [exact W2|]. split; [now apply (extends_trans _ _ _ X1)|congruence].
Qed.
End Solver.
