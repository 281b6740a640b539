(** The lemmas behind C26. *)
From Coq Require Import NArith List Bool Arith Lia.
From Verif Require Import ListUtil EffModel EffSpec EffProofs EffSolverModel EffSolverSpec EffSolverProofs EffSolverNorm EffSolverOps EffSolverRun.
Import ListNotations.
Open Scope N_scope.

Local Opaque inline_vars.

Lemma ensure_same : forall l t, find (fold_left ensure_var l t) = find t /\ value (fold_left ensure_var l t) = value t.
Proof.
  induction l as [|v l IH]; intros t; cbn [fold_left]; [auto|]. destruct (IH (ensure_var t v)) as [-> ->]. unfold ensure_var. destruct (len t <=? v); auto.
Qed.
Lemma ensure_probe : forall s a b v, probe (ensure_effect_vars (ensure_effect_vars (tbl s) a) b) v = probe (tbl s) v.
Proof.
  intros s a b v. unfold probe, ensure_effect_vars. destruct (ensure_same (eff_variables b) (fold_left ensure_var (eff_variables a) (tbl s))) as [-> ->].
  destruct (ensure_same (eff_variables a) (tbl s)) as [-> ->]. reflexivity.
Qed.

Lemma single_vars : forall v, eff_variables (eff_single_variable v) = [v].
Proof.
  intros v. destruct (vars_ok (eff_single_variable v) (proj1 (single_variable_ok v))) as (Sd & M & _).
  assert (Q : forall x, In x (eff_variables (eff_single_variable v)) <-> x = v) by (intros x; rewrite M, single_mem; split; congruence).
  destruct (eff_variables (eff_single_variable v)) as [|a l]; [destruct (proj2 (Q v) eq_refl)|].
  assert (a = v) by (apply Q; now left). subst a. destruct l as [|b l]; [reflexivity|]. assert (b = v) by (apply Q; right; now left). subst b.
  apply sorted_cons in Sd as [_ Sd]. specialize (Sd v (or_introl eq_refl)). lia.
Qed.
Lemma bound_normal : forall t v x n, sound_table t -> v < len t -> probe t v = Some x -> normalize t (eff_single_variable v) = SOk n -> forall y, mem n y -> comes t x y.
Proof.
  intros t v x n W V P E y Hy. unfold probe in P. destruct (st_value t W _ _ P) as (_ & Rx & Mx). unfold normalize, norm_effect in E.
  assert (Hh : eff_has_variables (eff_single_variable v) = true). { apply has_variables_ok; [apply single_variable_ok|]. exists v. apply single_self. }
  assert (He : eff_is_empty (eff_single_variable v) = false). { destruct (eff_is_empty (eff_single_variable v)) eqn:Q; [|reflexivity]. destruct (proj1 (empty_mem _ (r_single_variable v)) Q _ (single_self v)). }
  rewrite Hh, He, single_vars in E. cbn [orb negb norm_vars] in E. destruct (N.to_nat (len t)) as [|k] eqn:Ek; [lia|]. cbn [norm_var subst_get existsb] in E. rewrite P in E.
  assert (Vo : visit_ok t (norm_var k t [find t v]) [find t v]).
  { refine (walk t W (fun fuel => norm_var fuel t) norm_effect (fun _ e => e) (norm_effect_ok t) _ _ k [find t v] _ _ _).
    - intros r e R. split; [exact R|]. auto.
    - intros [|fuel] visiting c w; cbn [norm_var]; destruct (subst_get c (find t w)); try reflexivity; destruct (existsb _ _); try reflexivity.
      destruct (value t (find t w)) as [z|]; reflexivity.
    - constructor; [intros []|constructor].
    - intros z [<-|[]]. now apply (st_in t W).
    - cbn [length]. lia. }
  destruct (norm_effect_ok t _ _ Vo x [] (conj Rx Mx)) as (e & c & Ee & _ & [Re Se] & _).
  { split; [constructor|]. split; [constructor|]. intros ? ? ? ? []. }
  rewrite Ee in E. assert (En : eff_union (primitives_of (eff_single_variable v)) e = n) by congruence. rewrite <- En in Hy. apply union_mem in Hy; [|apply primitives_reachable|exact Re]. destruct Hy as [Hy|Hy]; [|auto].
  apply primitives_mem in Hy as (p & _ & Hp). apply single_mem in Hp. discriminate.
Qed.

Section Solver.
Variable pick : table -> N -> N -> bool.

Lemma split_at : forall pre o post s1 s, history pick pre s1 -> history pick (pre ++ o :: post) s ->
  good s1 /\ Forall reachable (op_effects o) /\ proper post /\ exists s2, run_op pick s1 o = SOk s2 /\ run pick post s2 = SOk s.
Proof.
  intros pre o post s1 s H1 H. destruct (history_app pick pre (o :: post) s H) as (s1' & H1' & E & P). destruct H1 as [P1 E1]. destruct H1' as [P1' E1'].
  rewrite E1 in E1'. injection E1' as <-. inversion P as [|? ? F P']; subst. split; [apply (history_good pick pre); now split|]. split; [exact F|]. split; [exact P'|].
  cbn [run] in E. destruct (run_op pick s1 o) as [s2| | |]; cbn [sbind] in E; try discriminate. eauto.
Qed.
Lemma two : forall a b, Forall reachable [a; b] -> reachable a /\ reachable b.
Proof. intros a b H. inversion H as [|? ? Ra F]; subst. inversion F; subst. auto. Qed.

Lemma monotone : forall pre post s1 s, history pick pre s1 -> history pick (pre ++ post) s -> forall e p, has (tbl s1) e p -> has (tbl s) e p.
Proof.
  intros pre post s1 s H1 H e p. destruct (history_app pick pre post s H) as (s1' & [_ E1'] & E & P). destruct H1 as [P1 E1]. rewrite E1 in E1'. injection E1' as <-.
  pose proof (run_ok pick post s1 (history_good pick pre s1 (conj P1 E1)) P) as Q. rewrite E in Q. apply extends_has. apply Q.
Qed.

(** What the rest of a history keeps. *)
Lemma later : forall post s2 s, good s2 -> proper post -> run pick post s2 = SOk s ->
  sound_table (tbl s) /\ extends (tbl s2) (tbl s) /\ (In Expand post -> forall u y, owes s2 u y -> delivered (tbl s) u y).
Proof.
  intros post s2 s G P E. pose proof (run_ok pick post s2 G P) as Q. rewrite E in Q. destruct Q as (G' & X & _ & K). split; [apply G'|]. auto.
Qed.

Lemma concrete_lower : forall pre post l u s1 s, history pick pre s1 -> history pick (pre ++ Include l u :: post) s -> In Expand post -> concrete l ->
  below (tbl s) l u.
Proof.
  intros pre post l u s1 s H1 H X C. destruct (split_at _ _ _ _ _ H1 H) as (G & F & P & s2 & E2 & E). apply two in F as [Rl Ru].
  pose proof (add_ok s1 l u G Rl Ru) as Q. cbn [run_op] in E2. rewrite E2 in Q. destruct Q as [S2 K].
  destruct (later post s2 s (step_good _ _ S2) P E) as (_ & _ & D). apply delivered_has. intros y Hy. apply (D X). now apply K.
Qed.

(** An inclusion whose two sides normalize to a type with a primitive effect and to a variable waits for the expansion. *)
Lemma try_push : forall s l u lo up v p, normalize (tbl s) l = SOk lo -> normalize (tbl s) u = SOk up -> reachable lo -> up = eff_single_variable v -> mem lo (Primitive p) ->
  try_add_rest s l u true = SOk (true, add_push s (lo, v)).
Proof.
  intros s l u lo up v p El Eu Rl Ev Hp. unfold try_add_rest. rewrite El, Eu. cbn [sbind]. assert (Ru : reachable up) by (rewrite Ev; constructor).
  assert (Np : ~ mem up (Primitive p)). { rewrite Ev, single_mem. discriminate. }
  destruct (holds lo up) eqn:Eh; [destruct Np; now apply (holds_sound lo up)|].
  assert (Nl : eff_to_single_variable lo = None). { destruct (eff_to_single_variable lo) as [w|] eqn:E; [|reflexivity]. apply single_var in E; [|exact Rl]. rewrite E in Hp. apply single_mem in Hp. discriminate. }
  assert (Su : eff_to_single_variable up = Some v) by (apply single_var; assumption).
  assert (Vu : eff_variables up <> []). { intros Q. apply vars_nil in Q; [|exact Ru]. apply (Q v). rewrite Ev. apply single_self. }
  rewrite Su, Nl. destruct (eff_variables lo), (eff_variables up); try congruence; reflexivity.
Qed.
Lemma unbound_normal : forall t w, sound_table t -> w < len t -> probe t w = None -> normalize t (eff_single_variable w) = SOk (eff_single_variable (find t w)).
Proof.
  intros t w W V P. destruct (normalize_ok t W (eff_single_variable w) (inside_single t w V)) as (n & E & (R & Hp & Hv & Hu)). rewrite E. f_equal.
  apply eff_ext; [exact R|constructor|]. intros [p|q]; rewrite single_mem.
  - split; [|discriminate]. intros H. apply Hp, has_var in H as (x & Q & _). congruence.
  - split.
    + intros H. destruct (Hv q H) as (_ & Fq & a & L & Ea). inversion L as [? ? M|? ? x ? M Q]; subst; apply single_mem in M; injection M as ->; congruence.
    + intros H. injection H as ->. apply Hu; [apply leads_itself, single_self|exact P].
Qed.

Lemma variable_upper : forall pre post l w s1 s, history pick pre s1 -> history pick (pre ++ Include l (eff_single_variable w) :: post) s -> In Expand post ->
  probe (tbl s1) w = None ->
  (exists p, mem l (Primitive p)) \/ (exists c x p, l = eff_single_variable c /\ probe (tbl s1) c = Some x /\ mem x (Primitive p)) ->
  (forall p, has (tbl s1) l p -> has (tbl s) (eff_single_variable w) p) /\
  (forall v, leads (tbl s1) l v -> probe (tbl s1) v = None -> below (tbl s) (eff_single_variable v) (eff_single_variable w)).
Proof.
  intros pre post l w s1 s H1 H X Pw Hl. destruct (split_at _ _ _ _ _ H1 H) as (G & F & P & s2 & E2 & E). apply two in F as [Rl Ru]. cbn [run_op] in E2. unfold add_inclusion in E2.
  destruct (ensure_two s1 l (eff_single_variable w) G Rl Ru) as (St & Il & Iu).
  pose proof (fun v => ensure_probe s1 l (eff_single_variable w) v) as Pe.
  set (sa := with_table s1 (ensure_effect_vars (ensure_effect_vars (tbl s1) l) (eff_single_variable w))) in *. change (ensure_effect_vars _ _) with (tbl sa) in Pe.
  pose proof (step_good _ _ St) as Ga. pose proof Ga as (Wa & _). pose proof (step_ext _ _ St) as Xa.
  assert (Vw : w < len (tbl sa)) by (apply Iu, single_self).
  destruct (normalize_ok (tbl sa) Wa l Il) as (lo & El & Xl). pose proof (unbound_normal (tbl sa) w Wa Vw ltac:(now rewrite Pe)) as Eu.
  assert (Hp : exists p, has (tbl s1) l p).
  { destruct Hl as [(p & Hp)|(c & x & p & -> & Q & Hp)]; exists p; [now apply has_itself|]. apply has_var. exists x. split; [exact Q|now apply has_itself]. }
  destruct Hp as (p & Hp). assert (Mp : mem lo (Primitive p)). { apply Xl. now apply (extends_has (tbl s1)). }
  assert (Et : try_add sa l (eff_single_variable w) true = SOk (true, add_push sa (lo, find (tbl sa) w))).
  { assert (R : try_add_rest sa l (eff_single_variable w) true = SOk (true, add_push sa (lo, find (tbl sa) w))).
    { apply (try_push sa l (eff_single_variable w) lo _ (find (tbl sa) w) p El Eu); [apply Xl|reflexivity|exact Mp]. }
    unfold try_add. destruct (eff_to_single_variable l) as [c|] eqn:Ec; [|exact R]. apply single_var in Ec; [|exact Rl].
    destruct Hl as [(q & Hq)|(c' & x & q & Ec' & Q & Hq)]; [rewrite Ec in Hq; apply single_mem in Hq; discriminate|].
    assert (c' = c). { assert (mem l (Variable_ c')) as K by (rewrite Ec'; apply single_self). rewrite Ec in K. apply single_mem in K. congruence. } subst c'.
    rewrite <- Pe in Q. unfold probe in Q. rewrite Q. destruct (eff_is_only_vars x) eqn:Eo; [|exact R].
    assert (Rx : reachable x) by (apply (st_value _ Wa) in Q; apply Q). unfold eff_is_only_vars in Eo. exfalso. exact (proj1 (prims_empty x (reachable_canonical x Rx)) Eo q Hq). }
  rewrite Et in E2. cbn [sbind] in E2. injection E2 as <-. set (s2 := add_push sa (lo, find (tbl sa) w)) in *.
  assert (S2 : step sa s2). { apply step_push; [exact Ga|]. intros d [<-|[]]. cbn [fst snd]. split; [apply (exact_inside (tbl sa) l lo Xl)|now apply (st_in _ Wa)]. }
  destruct (later post s2 s (step_good _ _ S2) P E) as (_ & Xs & D).
  assert (K : forall y, mem lo y -> delivered (tbl s) (eff_single_variable w) y).
  { intros y Hy. apply (D X). left. right. exists (lo, find (tbl sa) w). split; [apply in_or_app; right; now left|]. split; [exact Hy|].
    exists w. split; [apply leads_itself, single_self|]. cbn [snd tbl s2 add_push]. symmetry. apply (st_idem _ Wa). }
  split.
  - intros q Hq. apply (K (Primitive q)). apply Xl. now apply (extends_has (tbl s1)).
  - intros v L Pv q Hq. assert (Mv : mem lo (Variable_ (find (tbl sa) v))). { apply Xl; [now apply (extends_leads (tbl s1))|now rewrite Pe]. }
    specialize (K _ Mv). cbn [delivered] in K. apply (meets_has _ _ _ q K). apply (has_same_root (tbl s) v (find (tbl sa) v) q); [|exact Hq].
    apply (ext_find _ _ Xs). cbn [tbl s2 add_push]. symmetry. apply (st_idem _ Wa).
Qed.

(** An unbound variable below [u] takes the value of [u]; what is later put below the variable flows to [u]. *)
Lemma variable_lower : forall pre post v u s1 s, history pick pre s1 -> history pick (pre ++ Include (eff_single_variable v) u :: post) s ->
  probe (tbl s1) v = None ->
  exists s2, run_op pick s1 (Include (eff_single_variable v) u) = SOk s2 /\
    below (tbl s2) (eff_single_variable v) u /\ (below (tbl s2) u (eff_single_variable v)) /\
    match probe (tbl s2) v with Some x => forall y, mem x y -> delivered (tbl s2) u y | None => True end.
Proof.
  intros pre post v u s1 s H1 H Pv. destruct (split_at _ _ _ _ _ H1 H) as (G & F & P & s2 & E2 & E). apply two in F as [Rl Ru]. exists s2. split; [exact E2|]. cbn [run_op] in E2. unfold add_inclusion in E2.
  destruct (ensure_two s1 (eff_single_variable v) u G Rl Ru) as (St & Il & Iu).
  pose proof (fun w => ensure_probe s1 (eff_single_variable v) u w) as Pe.
  set (sa := with_table s1 (ensure_effect_vars (ensure_effect_vars (tbl s1) (eff_single_variable v)) u)) in *. change (ensure_effect_vars _ _) with (tbl sa) in Pe.
  pose proof (step_good _ _ St) as Ga. pose proof Ga as (Wa & _). assert (Vv : v < len (tbl sa)) by (apply Il, single_self).
  destruct (normalize_ok (tbl sa) Wa u Iu) as (up & Eu & Xu). pose proof (exact_inside (tbl sa) u up Xu) as Ju.
  unfold try_add in E2. assert (Es : eff_to_single_variable (eff_single_variable v) = Some v) by (apply single_var; [constructor|reflexivity]). rewrite Es in E2.
  assert (Pa : value (tbl sa) (find (tbl sa) v) = None) by (change (probe (tbl sa) v = None); now rewrite Pe). rewrite Pa, Eu in E2. cbn [sbind] in E2.
  destruct (eff_is_empty up || eff_eqb (eff_single_variable (find (tbl sa) v)) up) eqn:Eb; cbn [sbind] in E2.
  - injection E2 as <-. split; [intros p Hp; apply has_var in Hp as (x & Q & _); unfold probe in Q; congruence|]. split; [|unfold probe; now rewrite Pa].
    intros p Hp. apply Xu in Hp. apply orb_true_iff in Eb as [Eb|Eb]; [now apply (empty_mem up (proj1 Ju)) with (x := Primitive p) in Eb|].
    apply eff_eqb_eq in Eb; [|constructor|apply Ju]. rewrite <- Eb in Hp. apply single_mem in Hp. discriminate.
  - assert (E3 : with_table sa (union_value (tbl sa) (find (tbl sa) v) (Some up)) = s2) by congruence. clear E2. subst s2.
    assert (Vr : find (tbl sa) v < len (tbl sa)) by now apply (st_in _ Wa).
    destruct (union_value_ok (tbl sa) (find (tbl sa) v) up Wa Vr Ju) as (W1 & X1 & _ & F1 & (y & Py & My) & O1 & U1).
    set (t1 := union_value (tbl sa) (find (tbl sa) v) (Some up)) in *. change (tbl (with_table sa t1)) with t1.
    assert (Pr : probe t1 v = Some y). { rewrite <- Py. unfold probe. rewrite !F1, (st_idem _ Wa). reflexivity. }
    assert (D : forall z, mem y z -> delivered t1 u z).
    { intros z Hz. apply (delivered_mono (tbl sa)); [exact X1|]. apply (exact_delivered _ _ _ Xu).
      destruct (U1 v y z) as [K|(y0 & Q & _)]; [now rewrite (st_idem _ Wa)|exact Pr|exact Hz|exact K|]. unfold probe in Q. congruence. }
    split; [|split].
    + intros p Hp. apply has_var in Hp as (x & Q & Hx). rewrite Pr in Q. injection Q as <-. exact (delivered_has t1 u y D p Hx).
    + assert (Hp : forall p, has (tbl sa) u p -> has t1 (eff_single_variable v) p).
      { intros p Hp. apply has_var. exists y. split; [exact Pr|]. apply has_itself, My, Xu, Hp. }
      (* follow a derivation in the new table *)
      assert (K : forall e p, has t1 e p -> (forall z, mem e z -> delivered (tbl sa) u z) -> has t1 (eff_single_variable v) p).
      { intros e p He. induction He as [e p M|e w x p M Q He IH]; intros De; [apply Hp; exact (De _ M)|].
        pose proof (De _ M) as Dw. cbn [delivered] in Dw.
        destruct (N.eq_dec (find (tbl sa) w) (find (tbl sa) v)) as [Ew|Nw].
        - apply has_var. exists x. split; [|exact He]. rewrite <- Q. unfold probe. rewrite !F1. now rewrite Ew.
        - assert (Q0 : probe (tbl sa) w = Some x). { rewrite <- (O1 w); [exact Q|]. now rewrite (st_idem _ Wa). }
          apply IH. intros z Hz. apply (delivered_through (tbl sa) u w x z Wa Dw Q0 Hz). }
      intros p Hu. apply (K u p Hu). intros [q|q] Hz; cbn [delivered]; [now apply has_itself|]. exists q. split; [now apply leads_itself|reflexivity].
    + rewrite Pr. exact D.
Qed.
Lemma flow : forall pre mid post v u l s1 s2 s3 s, history pick pre s1 -> probe (tbl s1) v = None ->
  history pick (pre ++ [Include (eff_single_variable v) u]) s2 ->
  history pick (pre ++ [Include (eff_single_variable v) u] ++ mid) s3 -> probe (tbl s3) v = probe (tbl s2) v -> probe (tbl s2) v <> None ->
  history pick (pre ++ [Include (eff_single_variable v) u] ++ mid ++ Include l (eff_single_variable v) :: post) s -> In Expand post -> concrete l ->
  below (tbl s) l u.
Proof.
  intros pre mid post v u l s1 s2 s3 s H1 Pv H2 H3 Ep Np H X C.
  destruct (variable_lower pre [] v u s1 s2 H1 H2 Pv) as (s2' & E2 & _ & _ & D).
  destruct (split_at _ _ _ _ _ H1 H2) as (_ & _ & _ & s2'' & E2' & Er). cbn [run] in Er. injection Er as <-. rewrite E2' in E2. injection E2 as ->.
  assert (X23 : extends (tbl s2') (tbl s3)).
  { rewrite app_assoc in H3. destruct (history_app pick _ _ _ H3) as (s2b & [_ E2b] & Em & Pm). destruct (H2) as [P2 E2c]. rewrite E2c in E2b. injection E2b as <-.
    pose proof (run_ok pick mid s2' (history_good pick _ _ H2) Pm) as Q. rewrite Em in Q. apply Q. }
  destruct (probe (tbl s2') v) as [x|] eqn:Px; [|now destruct Np].
  rewrite !app_assoc in H. rewrite app_assoc in H3. destruct (split_at _ _ _ _ _ H3 H) as (G3 & F & P & s4 & E4 & E). apply two in F as [Rl Rv].
  cbn [run_op] in E4. unfold add_inclusion in E4. destruct (ensure_two s3 l (eff_single_variable v) G3 Rl Rv) as (St & Il & Iv).
  pose proof (fun w => ensure_probe s3 l (eff_single_variable v) w) as Pe.
  set (sa := with_table s3 (ensure_effect_vars (ensure_effect_vars (tbl s3) l) (eff_single_variable v))) in *. change (ensure_effect_vars _ _) with (tbl sa) in Pe.
  pose proof (try_add_ok sa l (eff_single_variable v) true (step_good _ _ St) Il Iv) as Q. pose proof (step_good _ _ St) as Ga. pose proof Ga as (Wa & _).
  assert (Dv : forall y, mem x y -> delivered (tbl sa) u y). { intros y Hy. apply (delivered_mono (tbl s3)); [exact (step_ext _ _ St)|]. apply (delivered_mono (tbl s2')); auto. }
  assert (Pa : probe (tbl sa) v = Some x) by (rewrite Pe; congruence).
  (* promises on the variable are promises on its value, so on [u] *)
  destruct (normalize_ok (tbl sa) Wa (eff_single_variable v) Iv) as (up & Eu & Xu).
  assert (Vv : v < len (tbl sa)) by (apply Iv, single_self).
  assert (Du : forall z, mem up z -> delivered (tbl sa) u z).
  { intros z Hz. pose proof (bound_normal (tbl sa) v x up Wa Vv Pa Eu z Hz) as Dz. apply (delivered_chain (tbl sa) u x z Dv).
    destruct z as [p|q]; cbn [comes delivered] in *; [exact Dz|apply Dz]. }
  unfold try_add in E4. rewrite (concrete_not_single l Rl C) in E4. unfold try_add_rest in E4. rewrite (normalize_concrete _ l Rl C), Eu in E4. cbn [sbind] in E4.
  assert (Ru : reachable up) by apply Xu. pose proof (proj2 (vars_nil l Rl) C) as Vl.
  assert (K : forall y, mem l y -> owes s4 u y).
  { intros y Hy. destruct (holds l up) eqn:Eh.
    - cbn [sbind] in E4. injection E4 as <-. left. left. apply Du. now apply (holds_sound l up).
    - rewrite Vl in E4. destruct (eff_variables up) as [|w ws] eqn:Eup; [discriminate|].
      destruct (eff_to_single_variable up) as [q|] eqn:Eq; cbn [sbind] in E4; injection E4 as <-.
      + apply single_var in Eq; [|exact Ru]. left. right. exists (l, q). split; [apply in_or_app; right; now left|]. split; [exact Hy|]. apply (Du (Variable_ q)). rewrite Eq. apply single_self.
      + right. exists (l, up). split; [apply in_or_app; right; now left|]. split; [exact C|]. split; [exact Hy|]. exact Du. }
  assert (G4 : good s4). { pose proof (add_ok s3 l (eff_single_variable v) G3 Rl Rv) as Q4. unfold add_inclusion in Q4. fold sa in Q4.
    unfold try_add in Q4. rewrite (concrete_not_single l Rl C) in Q4. unfold try_add_rest in Q4. rewrite (normalize_concrete _ l Rl C), Eu in Q4. cbn [sbind] in Q4.
    rewrite E4 in Q4. apply (step_good _ _ (proj1 Q4)). }
  destruct (later post s4 s G4 P E) as (_ & _ & Dl). apply delivered_has. intros y Hy. apply (Dl X). now apply K.
Qed.

Lemma delivered_below : forall t t' a b, extends t t' -> (forall y, mem a y -> delivered t b y) -> below t' a b.
Proof. intros t t' a b X H. apply delivered_has. intros y Hy. apply (delivered_mono t); auto. Qed.

Lemma equality : forall pre post a b s1 s, history pick pre s1 -> history pick (pre ++ Same a b :: post) s ->
  (forall v, a = eff_single_variable v -> below (tbl s) b a) /\ (forall v, b = eff_single_variable v -> below (tbl s) a b) /\
  (concrete a -> concrete b -> a = b).
Proof.
  intros pre post a b s1 s H1 H. destruct (split_at _ _ _ _ _ H1 H) as (G & F & P & s2 & E2 & E). apply two in F as [Ra Rb]. cbn [run_op] in E2.
  pose proof (same_ok pick s1 a b G Ra Rb) as Q. rewrite E2 in Q. destruct Q as (St & K1 & K2 & K3). destruct (later post s2 s (step_good _ _ St) P E) as (_ & X & _).
  split; [intros v Ev; apply (delivered_below (tbl s2)); [exact X|eauto]|]. split; [intros v Ev; apply (delivered_below (tbl s2)); [exact X|eauto]|].
  intros Ca Cb. apply eff_ext; auto.
Qed.

Lemma sequence : forall pre post deps s1 s, history pick pre s1 -> history pick (pre ++ Dependent deps :: post) s ->
  (forall p, has (tbl (snd (make_dependent s1 deps))) (fst (make_dependent s1 deps)) p <-> exists d, In d deps /\ has (tbl (snd (make_dependent s1 deps))) d p) /\
  forall d, In d deps -> below (tbl s) d (fst (make_dependent s1 deps)).
Proof.
  intros pre post deps s1 s H1 H. destruct (split_at _ _ _ _ _ H1 H) as (G & F & P & s2 & E2 & E). cbn [run_op op_effects] in *.
  destruct (forallb (known s1) deps) eqn:Ek; [|discriminate]. injection E2 as <-.
  assert (I : Forall (inside (tbl s1)) deps). { rewrite forallb_forall in Ek. rewrite Forall_forall in *. intros d Hd. apply known_inside; auto. }
  destruct (dependent_ok s1 deps G I) as (St & _ & Hx & Hd). destruct (later post _ s (step_good _ _ St) P E) as (_ & X & _).
  split; [exact Hx|]. intros d Hi. apply (delivered_below (tbl (snd (make_dependent s1 deps)))); [exact X|]. intros y. now apply Hd.
Qed.

Lemma body : forall pre post e v s1 s, history pick pre s1 -> history pick (pre ++ Unify e (eff_single_variable v) :: post) s ->
  fst (unify_effects pick s1 e (eff_single_variable v)) = e /\ below (tbl s) e (eff_single_variable v).
Proof.
  intros pre post e v s1 s H1 H. destruct (split_at _ _ _ _ _ H1 H) as (G & F & P & s2 & E2 & E). apply two in F as [Ra Rb]. cbn [run_op] in E2. injection E2 as <-.
  destruct (unify_effects_ok pick s1 e (eff_single_variable v) G Ra Rb) as (St & K). destruct (K v eq_refl) as [K1 K2]. split; [exact K1|].
  destruct (later post _ s (step_good _ _ St) P E) as (_ & X & _). apply (delivered_below _ _ _ _ X K2).
Qed.

Lemma callable : forall pre post e s1 s, history pick pre s1 -> history pick (pre ++ Generalize e :: post) s -> In Expand post ->
  match fst (generalize pick s1 e) with
  | Some u => (exists v, u = eff_single_variable v) /\ below (tbl s) e u
  | None => forall p, ~ mem e (Primitive p)
  end.
Proof.
  intros pre post e s1 s H1 H Hx. destruct (split_at _ _ _ _ _ H1 H) as (G & F & P & s2 & E2 & E). cbn [run_op op_effects] in *.
  inversion F as [|? ? Re _]; subst. destruct (known s1 e) eqn:Ek; [|discriminate]. injection E2 as <-. apply known_inside in Ek; [|exact Re].
  destruct (generalize_ok pick s1 e G Ek) as (St & K). destruct (fst (generalize pick s1 e)) as [u|]; [|exact K]. destruct K as (V & _ & K). split; [exact V|].
  destruct (later post _ s (step_good _ _ St) P E) as (_ & X & D). apply delivered_has. intros y Hy. apply (D Hx). now apply K.
Qed.

Lemma argument : forall pre post e s1 s, history pick pre s1 -> history pick (pre ++ UnifyArg e :: post) s ->
  forall v w, mem e (Variable_ v) -> mem e (Variable_ w) -> below (tbl s) (eff_single_variable v) (eff_single_variable w).
Proof.
  intros pre post e s1 s H1 H v w Hv Hw. destruct (split_at _ _ _ _ _ H1 H) as (G & F & P & s2 & E2 & E). cbn [run_op op_effects] in *.
  inversion F as [|? ? Re _]; subst. injection E2 as <-. destruct (unify_arg_ok pick s1 e G Re) as (St & K). destruct (later post _ s (step_good _ _ St) P E) as (_ & X & _).
  intros p. apply has_same_root. apply (ext_find _ _ X). now apply K.
Qed.

Lemma checked : forall ops s l u, history pick ops s -> reachable l -> concrete l -> reachable u ->
  (forall v, mem u (Variable_ v) -> v < len (tbl s) /\ exists x, probe (tbl s) v = Some x /\ concrete x) ->
  (below (tbl s) l u -> run_op pick s (Include l u) = SOk s) /\ (~ below (tbl s) l u -> run_op pick s (Include l u) = SErr).
Proof.
  intros ops s l u H Rl Cl Ru Hu. pose proof (history_good pick ops s H) as (W & G).
  assert (Iu : inside (tbl s) u) by (split; [exact Ru|intros v Hv; now apply Hu]).
  assert (Es : with_table s (ensure_effect_vars (ensure_effect_vars (tbl s) l) u) = s).
  { assert (N : forall e, inside (tbl s) e -> ensure_effect_vars (tbl s) e = tbl s).
    { intros e [Re Ie]. unfold ensure_effect_vars. assert (L : forall v, In v (eff_variables e) -> v < len (tbl s)) by (intros v Hv; apply Ie; now apply var_in).
      induction (eff_variables e) as [|a vs IH]; cbn [fold_left]; [reflexivity|]. unfold ensure_var at 2. destruct (N.leb_spec (len (tbl s)) a) as [Q|Q]; [specialize (L a (or_introl eq_refl)); lia|].
      apply IH. intros v Hv. apply L. now right. }
    rewrite (N l (inside_concrete _ l Rl Cl)), (N u Iu). destruct s. reflexivity. }
  destruct (normalize_ok (tbl s) W u Iu) as (up & Eu & Xu). assert (Cu : concrete up) by (apply (normalize_plain (tbl s) W u up Iu); [|exact Eu]; intros v Hv; now apply Hu).
  assert (Rup : reachable up) by apply Xu.
  assert (R : run_op pick s (Include l u) = if holds l up then SOk s else SErr).
  { cbn [run_op]. unfold add_inclusion. rewrite Es. unfold try_add. rewrite (concrete_not_single l Rl Cl). unfold try_add_rest. rewrite (normalize_concrete _ l Rl Cl), Eu. cbn [sbind].
    destruct (holds l up); cbn [sbind]; [reflexivity|]. apply vars_nil in Cl, Cu; try assumption. now rewrite Cl, Cu. }
  assert (B : below (tbl s) l u <-> forall y, mem l y -> mem up y).
  { split.
    - intros Q [p|v] Hy; [apply Xu, Q; now apply has_itself|now destruct (Cl v)].
    - intros Q p Hp. apply Xu, Q. now apply (concrete_has (tbl s) l p Cl). }
  rewrite R. split.
  - intros Q. rewrite B in Q. unfold holds. replace (eff_is_subset_of l up) with true; [now rewrite orb_true_r|]. symmetry. apply subset_mem; auto.
  - intros Q. destruct (holds l up) eqn:Eh; [|reflexivity]. destruct Q. apply B. now apply holds_sound.
Qed.

Lemma no_fuel : forall ops, proper ops -> run pick ops empty_solver <> SFuel.
Proof. intros ops P E. pose proof (run_ok pick ops empty_solver empty_good P) as Q. now rewrite E in Q. Qed.
Lemma reported : forall ops s e, history pick ops s -> reachable e -> (forall v, mem e (Variable_ v) -> v < len (tbl s)) ->
  exists n c, substitute (tbl s) e [] = Some (n, c) /\ (forall p, mem n (Primitive p) <-> has (tbl s) e p) /\
    forall v, leads (tbl s) e v -> probe (tbl s) v = None -> mem n (Variable_ (find (tbl s) v)).
Proof.
  intros ops s e H R I. pose proof (history_good pick ops s H) as (W & _). destruct (substitute_ok (tbl s) W e (conj R I)) as (n & c & E & X & _). exists n, c. split; [exact E|]. split; apply X.
Qed.
Lemma reported_list : forall ops s es, history pick ops s -> Forall (fun e => reachable e /\ forall v, mem e (Variable_ v) -> v < len (tbl s)) es ->
  exists ns, substitute_list (tbl s) es [] = Some ns /\ Forall2 (fun e n => forall p, mem n (Primitive p) -> has (tbl s) e p) es ns /\
    forall rank, (forall r x v, value (tbl s) r = Some x -> mem x (Variable_ v) -> find (tbl s) v = r \/ (rank (find (tbl s) v) < rank r)%nat) ->
    Forall2 (fun e n => forall p, mem n (Primitive p) <-> has (tbl s) e p) es ns.
Proof.
  intros ops s es H F. pose proof (history_good pick ops s H) as (W & _). destruct (substitute_list_any (tbl s) W es [] F (empty_cache (tbl s))) as (ns & E & K).
  exists ns. split; [exact E|]. split; [exact K|]. intros rank Hr. destruct (substitute_list_full (tbl s) W rank Hr es [] F (empty_cache (tbl s))) as (ns' & E' & K'); [intros ? ? []|]. congruence.
Qed.
End Solver.
