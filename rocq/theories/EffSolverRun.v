(** Histories of the effect solver. *)
From Coq Require Import NArith List Bool Arith Lia.
From Verif Require Import ListUtil EffModel EffSpec EffProofs EffSolverModel EffSolverSpec EffSolverProofs EffSolverNorm EffSolverOps.
Import ListNotations.
Open Scope N_scope.

Local Opaque inline_vars.

Lemma empty_good : good empty_solver.
Proof.
  split; [|split; [intros d []|intros i []]]. constructor; cbn; try lia; try discriminate; auto.
Qed.
Lemma known_inside : forall s e, reachable e -> (known s e = true <-> inside (tbl s) e).
Proof.
  intros s e R. unfold known. rewrite forallb_forall. split.
  - intros H. split; [exact R|]. intros v Hv. apply N.ltb_lt, H. now apply var_in.
  - intros [_ H] v Hv. apply N.ltb_lt, H. now apply var_in.
Qed.

(** ** Union of the effects of the parts of an expression *)
Lemma fold_union : forall t es e, inside t e -> Forall (inside t) es ->
  inside t (fold_left eff_union es e) /\ forall y, mem (fold_left eff_union es e) y <-> exists d, In d (e :: es) /\ mem d y.
Proof.
  intros t es. induction es as [|d es IH]; intros e I F; cbn [fold_left].
  - split; [exact I|]. intros y. split; [intros H; exists e; split; [now left|exact H]|intros (x & [<-|[]] & H); exact H].
  - inversion F as [|d' es' Id Fe]; subst. destruct (IH (eff_union e d) (inside_union t e d I Id) Fe) as [I1 M1]. split; [exact I1|]. intros y. rewrite M1. split.
    + intros (x & [<-|Hx] & H).
      * apply union_mem in H; [|apply I|apply Id]. destruct H as [H|H]; [exists e|exists d]; (split; [cbn [In]; auto|exact H]).
      * exists x. split; [cbn [In]; auto|exact H].
    + intros (x & [<-|[<-|Hx]] & H).
      * exists (eff_union e d). split; [now left|]. apply union_mem; [apply I|apply Id|now left].
      * exists (eff_union e d). split; [now left|]. apply union_mem; [apply I|apply Id|now right].
      * exists x. split; [now right|exact H].
Qed.
Lemma dependent_ok : forall s deps, good s -> Forall (inside (tbl s)) deps ->
  let r := make_dependent s deps in
  step s (snd r) /\ inside (tbl (snd r)) (fst r) /\
  (forall p, has (tbl (snd r)) (fst r) p <-> exists d, In d deps /\ has (tbl (snd r)) d p) /\
  (forall d y, In d deps -> mem d y -> delivered (tbl (snd r)) (fst r) y).
Proof.
  intros s deps G F r. subst r. unfold make_dependent. pose proof G as (W & _).
  assert (Self : forall t e y, mem e y -> delivered t e y). { intros t e [p|q] H; [now apply has_itself|]. exists q. split; [now apply leads_itself|reflexivity]. }
  destruct deps as [|e [|e2 es]].
  - cbn [fst snd]. split; [now apply step_refl|]. split; [apply inside_concrete; [constructor|intros v; apply empty_ok]|]. split; [|intros d y []].
    intros p. split; [|intros (d & [] & _)]. intros H. inversion H as [? ? M|? ? ? ? M]; subst; now apply empty_ok in M.
  - cbn [fst snd]. inversion F as [|? ? I _]; subst. split; [now apply step_refl|]. split; [exact I|]. split.
    + intros p. split; [intros H; exists e; split; [now left|exact H]|intros (d & [<-|[]] & H); exact H].
    + intros d y [<-|[]] H. auto.
  - set (effects := fold_left eff_union (e2 :: es) e). inversion F as [|? ? I Fe]; subst. destruct (fold_union (tbl s) (e2 :: es) e I Fe) as [Ie Me]. fold effects in Ie, Me.
    assert (H0 : forall t p, has t effects p <-> exists d, In d (e :: e2 :: es) /\ has t d p).
    { intros t p. split.
      - intros H. inversion H as [f q M|f v x q M Q Hx]; subst; apply Me in M as (d & Hd & M); exists d; (split; [exact Hd|]); [now apply has_itself|eapply has_through; eauto].
      - intros (d & Hd & H). apply (has_mono_mem t d); [exact H|]. intros y Hy. apply Me. eauto. }
    destruct (negb (eff_has_variables effects) || match eff_to_single_variable effects with Some _ => true | None => false end).
    + cbn [fst snd]. split; [now apply step_refl|]. split; [exact Ie|]. split; [apply H0|]. intros d y Hd Hy. apply Self, Me. eauto.
    + destruct (new_key_ok (tbl s) (Some effects) W) as (W1 & X1 & L1 & F1 & P1 & _). { intros y E. injection E as <-. exact Ie. }
      cbn [new_key fst snd]. cbn [new_key snd] in W1, X1, L1, F1, P1. set (t1 := Table _ _ _) in *. split; [now apply step_table|]. cbn [tbl with_table].
      split; [apply inside_single; lia|]. split.
      * intros p. rewrite has_var, <- H0. split; [intros (x & Q & H); rewrite P1 in Q; injection Q as <-; exact H|eauto].
      * intros d y Hd Hy. apply (delivered_through t1 _ (len (tbl s)) effects y W1); [|exact P1|apply Me; eauto].
        exists (len (tbl s)). split; [apply leads_itself, single_self|reflexivity].
Qed.

Section Solver.
Variable pick : table -> N -> N -> bool.

Lemma unify_effects_ok : forall s e1 e2, good s -> reachable e1 -> reachable e2 ->
  step s (snd (unify_effects pick s e1 e2)) /\
  (forall v, e2 = eff_single_variable v -> fst (unify_effects pick s e1 e2) = e1 /\
     forall y, mem e1 y -> delivered (tbl (snd (unify_effects pick s e1 e2))) e2 y).
Proof.
  intros s e1 e2 G R1 R2. unfold unify_effects. destruct (ensure_two s e1 e2 G R1 R2) as (St & I1 & I2). cbn [tbl with_table] in I1, I2.
  pose proof (step_good _ _ St) as (W & _). cbn [tbl with_table] in W.
  set (t := ensure_effect_vars (ensure_effect_vars (tbl s) e1) e2) in *. assert (X0 : extends (tbl s) t) by apply (step_ext _ _ St).
  destruct (eff_to_single_variable e1) as [v1|] eqn:E1, (eff_to_single_variable e2) as [v2|] eqn:E2; cbn [fst snd].
  - apply single_var in E1, E2; try assumption. assert (V1 : v1 < len t) by (apply I1; rewrite E1; apply single_self). assert (V2 : v2 < len t) by (apply I2; rewrite E2; apply single_self).
    destruct (union_ok' pick t v1 v2 W V1 V2) as (W1 & X1 & F1 & _). split; [apply step_table; [exact G|exact W1|now apply (extends_trans _ t)]|].
    intros v Ev. split; [reflexivity|]. intros y Hy. cbn [tbl with_table]. rewrite E1 in Hy. apply single_mem in Hy. subst y. cbn [delivered]. exists v2.
    split; [apply leads_itself; rewrite E2; apply single_self|now symmetry].
  - apply single_var in E1; try assumption. assert (V1 : v1 < len t) by (apply I1; rewrite E1; apply single_self).
    destruct (union_value_ok t v1 e2 W V1 I2) as (W1 & X1 & _). split; [apply step_table; [exact G|exact W1|now apply (extends_trans _ t)]|].
    intros v Ev. apply (single_var e2 v R2) in Ev. congruence.
  - apply single_var in E2; try assumption. assert (V2 : v2 < len t) by (apply I2; rewrite E2; apply single_self).
    destruct (union_value_ok t v2 e1 W V2 I1) as (W1 & X1 & _ & _ & (x & P & M) & _). split; [apply step_table; [exact G|exact W1|now apply (extends_trans _ t)]|].
    intros v Ev. split; [reflexivity|]. intros y Hy. cbn [tbl with_table]. apply (delivered_through _ e2 v2 x y W1); [|exact P|auto].
    exists v2. split; [apply leads_itself; rewrite E2; apply single_self|reflexivity].
  - split; [exact St|]. intros v Ev. apply (single_var e2 v R2) in Ev. congruence.
Qed.

Lemma union_with_ok : forall vars t first, sound_table t -> first < len t ->
  sound_table (union_with pick t first vars) /\ extends t (union_with pick t first vars) /\
  forall v, In v vars -> find (union_with pick t first vars) v = find (union_with pick t first vars) first.
Proof.
  induction vars as [|v vars IH]; intros t first W F; cbn [union_with]; [split; [exact W|split; [apply extends_refl|intros v []]]|].
  destruct (ensure_ok t v W) as (W1 & X1 & L1). pose proof (ext_len _ _ X1) as Q1.
  destruct (union_ok' pick (ensure_var t v) first v W1 ltac:(lia) L1) as (W2 & X2 & F2 & L2). 
  destruct (IH (union pick (ensure_var t v) first v) first W2 ltac:(lia)) as (W3 & X3 & F3).
  split; [exact W3|]. split; [apply (extends_trans _ _ _ X1), (extends_trans _ _ _ X2), X3|]. intros w [<-|Hw]; [|auto]. apply (ext_find _ _ X3). now symmetry.
Qed.
Lemma unify_arg_ok : forall s e, good s -> reachable e -> step s (unify_arg_effects pick s e) /\
  forall v w, mem e (Variable_ v) -> mem e (Variable_ w) -> find (tbl (unify_arg_effects pick s e)) v = find (tbl (unify_arg_effects pick s e)) w.
Proof.
  intros s e G R. pose proof G as (W & _). unfold unify_arg_effects. destruct (eff_variables e) as [|v0 vars] eqn:E.
  - split; [now apply step_refl|]. intros v w Hv. apply var_in in Hv; [|exact R]. rewrite E in Hv. destruct Hv.
  - destruct (ensure_ok (tbl s) v0 W) as (W1 & X1 & L1). destruct (union_with_ok vars _ v0 W1 L1) as (W2 & X2 & F2).
    split; [apply step_table; [exact G|exact W2|now apply (extends_trans _ _ _ X1)]|]. cbn [tbl with_table].
    assert (H : forall v, mem e (Variable_ v) -> find (union_with pick (ensure_var (tbl s) v0) v0 vars) v = find (union_with pick (ensure_var (tbl s) v0) v0 vars) v0).
    { intros v Hv. apply var_in in Hv; [|exact R]. rewrite E in Hv. destruct Hv as [<-|Hv]; [reflexivity|auto]. }
    intros v w Hv Hw. rewrite (H v Hv), (H w Hw). reflexivity.
Qed.

Lemma fold_union_vars : forall vars t v, sound_table t -> v < len t -> (forall w, In w vars -> w < len t) ->
  let t' := fold_left (fun t x => union pick t v x) vars t in
  sound_table t' /\ extends t t' /\ len t' = len t /\ forall w, In w vars -> find t' w = find t' v.
Proof.
  induction vars as [|w vars IH]; intros t v W V H; cbn [fold_left]; [split; [exact W|split; [apply extends_refl|split; [reflexivity|intros w []]]]|].
  destruct (union_ok' pick t v w W V (H w (or_introl eq_refl))) as (W1 & X1 & F1 & L1).
  destruct (IH (union pick t v w) v W1 ltac:(lia)) as (W2 & X2 & L2 & F2). { intros z Hz. rewrite L1. apply H. now right. }
  split; [exact W2|]. split; [now apply (extends_trans _ _ _ X1)|]. split; [congruence|]. intros z [<-|Hz]; [|auto]. apply (ext_find _ _ X2). now symmetry.
Qed.
Lemma generalize_ok : forall s e, good s -> inside (tbl s) e ->
  let r := generalize pick s e in
  step s (snd r) /\
  match fst r with
  | Some u => (exists v, u = eff_single_variable v) /\ inside (tbl (snd r)) u /\ forall y, mem e y -> owes (snd r) u y
  | None => forall p, ~ mem e (Primitive p)
  end.
Proof.
  intros s e G I r. subst r. unfold generalize. pose proof G as (W & _). destruct (prims_iter (eff_primitives e)) as [|p ps] eqn:E.
  - cbn [fst snd]. split; [now apply step_refl|]. intros p Hp. apply prims_in in Hp. rewrite E in Hp. destruct Hp.
  - cbn [new_key fst snd]. destruct (new_key_ok (tbl s) None W) as (W1 & X1 & L1 & F1 & P1 & _); [discriminate|]. cbn [new_key snd] in W1, X1, L1, F1, P1.
    set (t1 := Table _ _ _) in *.
    destruct (fold_union_vars (eff_variables e) t1 (len (tbl s)) W1 L1) as (W2 & X2 & L2 & F2). { intros w Hw. apply var_in in Hw; [|apply I]. apply I in Hw. lia. }
    set (t2 := fold_left (fun t x => union pick t (len (tbl s)) x) (eff_variables e) t1) in *.
    assert (X : extends (tbl s) t2) by now apply (extends_trans _ t1).
    assert (St : step s (Solver t2 (pending s ++ map (fun p0 => (eff_single (Primitive p0), len (tbl s))) (p :: ps)) (deferred s))).
    { apply (step_trans _ (with_table s t2)); [now apply step_table|].
      pose proof (step_push (with_table s t2) (map (fun p0 => (eff_single (Primitive p0), len (tbl s))) (p :: ps)) (step_good _ _ (step_table s t2 G W2 X))) as Q. apply Q.
      intros d Hd. apply in_map_iff in Hd as (q & <- & _). cbn [fst snd tbl with_table]. split; [|lia]. apply inside_concrete; [constructor|]. intros v Hv. apply single_prim_mem in Hv. discriminate. }
    split; [exact St|]. split; [eauto|]. split; [apply inside_single; cbn [tbl]; lia|]. intros y Hy. left. destruct y as [q|w].
    + right. exists (eff_single (Primitive q), len (tbl s)). cbn [pending tbl fst snd]. split; [|split].
      * apply in_or_app. right. apply (in_map (fun p0 => (eff_single (Primitive p0), len (tbl s)))). rewrite <- E. now apply prims_in.
      * now apply single_prim_mem.
      * exists (len (tbl s)). split; [apply leads_itself, single_self|reflexivity].
    + left. cbn [delivered tbl]. exists (len (tbl s)). split; [apply leads_itself, single_self|]. symmetry. apply F2. apply var_in; [apply I|exact Hy].
Qed.

Lemma same_ok : forall s a b, good s -> reachable a -> reachable b ->
  match unify_same pick s a b with
  | SOk s' => step s s' /\
      (forall v, a = eff_single_variable v -> forall y, mem b y -> delivered (tbl s') a y) /\
      (forall v, b = eff_single_variable v -> forall y, mem a y -> delivered (tbl s') b y) /\
      (concrete a -> concrete b -> forall y, mem a y <-> mem b y)
  | SErr => True
  | _ => False
  end.
Proof.
  intros s a b G Ra Rb. unfold unify_same. destruct (ensure_two s a b G Ra Rb) as (St & Ia & Ib). pose proof (step_good _ _ St) as G1. pose proof G1 as (W & _).
  set (s1 := with_table s (ensure_effect_vars (ensure_effect_vars (tbl s) a) b)) in *.
  destruct (eff_to_single_variable a) as [va|] eqn:Ea, (eff_to_single_variable b) as [vb|] eqn:Eb.
  - apply single_var in Ea, Eb; try assumption. assert (Va : va < len (tbl s1)) by (apply Ia; rewrite Ea; apply single_self). assert (Vb : vb < len (tbl s1)) by (apply Ib; rewrite Eb; apply single_self).
    destruct (union_ok' pick (tbl s1) va vb W Va Vb) as (W1 & X1 & F1 & _). split; [apply (step_trans _ s1 _ St); now apply step_table|]. cbn [tbl with_table].
    split; [|split].
    + intros _ _ y Hy. rewrite Eb in Hy. apply single_mem in Hy. subst y. exists va. split; [apply leads_itself; rewrite Ea; apply single_self|exact F1].
    + intros _ _ y Hy. rewrite Ea in Hy. apply single_mem in Hy. subst y. exists vb. split; [apply leads_itself; rewrite Eb; apply single_self|now symmetry].
    + intros C. destruct (C va). rewrite Ea. apply single_self.
  - apply single_var in Ea; try assumption. assert (Va : va < len (tbl s1)) by (apply Ia; rewrite Ea; apply single_self).
    destruct (union_value_ok (tbl s1) va b W Va Ib) as (W1 & X1 & _ & _ & (x & P & M) & _). split; [apply (step_trans _ s1 _ St); now apply step_table|]. cbn [tbl with_table].
    split; [|split].
    + intros _ _ y Hy. apply (delivered_through _ a va x y W1); [|exact P|auto]. exists va. split; [apply leads_itself; rewrite Ea; apply single_self|reflexivity].
    + intros v Ev. apply (single_var b v Rb) in Ev. congruence.
    + intros C. destruct (C va). rewrite Ea. apply single_self.
  - apply single_var in Eb; try assumption. assert (Vb : vb < len (tbl s1)) by (apply Ib; rewrite Eb; apply single_self).
    destruct (union_value_ok (tbl s1) vb a W Vb Ia) as (W1 & X1 & _ & _ & (x & P & M) & _). split; [apply (step_trans _ s1 _ St); now apply step_table|]. cbn [tbl with_table].
    split; [|split].
    + intros v Ev. apply (single_var a v Ra) in Ev. congruence.
    + intros _ _ y Hy. apply (delivered_through _ b vb x y W1); [|exact P|auto]. exists vb. split; [apply leads_itself; rewrite Eb; apply single_self|reflexivity].
    + intros _ C. destruct (C vb). rewrite Eb. apply single_self.
  - assert (Sub : forall s0 x y s', good s0 -> reachable x -> reachable y -> concrete x -> concrete y -> add_inclusion s0 x y = SOk s' -> forall z, mem x z -> mem y z).
    { intros s0 x y s' G0 Rx Ry Cx Cy E z Hz. unfold add_inclusion, try_add in E. rewrite (concrete_not_single x Rx Cx) in E. unfold try_add_rest in E.
      rewrite (normalize_concrete _ x Rx Cx), (normalize_concrete _ y Ry Cy) in E. cbn [sbind] in E. destruct (holds x y) eqn:Eh; [now apply (holds_sound x y)|].
      apply vars_nil in Cx, Cy; try assumption. rewrite Cx, Cy in E. discriminate. }
    pose proof (add_ok s1 a b G1 Ra Rb) as Q. destruct (add_inclusion s1 a b) as [s2| | |] eqn:E2; cbn [sbind]; try exact Q. destruct Q as [S2 _].
    pose proof (add_ok s2 b a (step_good _ _ S2) Rb Ra) as Q. destruct (add_inclusion s2 b a) as [s3| | |] eqn:E3; try exact Q. destruct Q as [S3 _].
    split; [apply (step_trans _ s1 _ St), (step_trans _ s2 _ S2), S3|]. split; [|split].
    + intros v Ev. apply (single_var a v Ra) in Ev. congruence.
    + intros v Ev. apply (single_var b v Rb) in Ev. congruence.
    + intros Ca Cb y. split; [exact (Sub s1 a b s2 G1 Ra Rb Ca Cb E2 y)|exact (Sub s2 b a s3 (step_good _ _ S2) Rb Ra Cb Ca E3 y)].
Qed.

(** ** One operation, then any number *)
Lemma run_op_ok : forall s o, good s -> Forall reachable (op_effects o) ->
  match run_op pick s o with
  | SOk s' => good s' /\ extends (tbl s) (tbl s') /\ (forall u y, owes s u y -> owes s' u y) /\ (o = Expand -> forall u y, owes s u y -> delivered (tbl s') u y)
  | SErr => True
  | SPanic => exists e, In e (op_effects o) /\ ~ inside (tbl s) e
  | SFuel => False
  end.
Proof.
  intros s o G F.
  assert (Easy : forall s', step s s' -> o <> Expand -> good s' /\ extends (tbl s) (tbl s') /\ (forall u y, owes s u y -> owes s' u y) /\ (o = Expand -> forall u y, owes s u y -> delivered (tbl s') u y)).
  { intros s' St N. split; [exact (step_good _ _ St)|]. split; [exact (step_ext _ _ St)|]. split; [intros u y; now apply owes_step|]. intros E. now destruct (N E). }
  destruct o as [|deps|a b|e|e|a b|a b|]; cbn [run_op op_effects] in *.
  - apply Easy; [|discriminate]. unfold fresh_var. destruct G as (W & G'). destruct (new_key_ok (tbl s) None W) as (W1 & X1 & _); [discriminate|]. cbn [new_key snd] in *. now apply step_table.
  - destruct (forallb (known s) deps) eqn:E.
    + apply Easy; [|discriminate]. apply dependent_ok; [exact G|]. rewrite forallb_forall in E. rewrite Forall_forall in *. intros d Hd. apply known_inside; auto.
    + assert (N : ~ (forall e, In e deps -> known s e = true)) by (rewrite <- forallb_forall; congruence).
      clear Easy. induction deps as [|d deps IH]; [destruct N; intros e []|]. inversion F as [|? ? Rd Fd]; subst. destruct (known s d) eqn:Ed.
      * cbn [forallb] in E. rewrite Ed in E. destruct IH as (x & Hx & Nx); [exact Fd|exact E| |exists x; split; [now right|exact Nx]].
        intros H. apply N. intros x [<-|Hx]; auto.
      * exists d. split; [now left|]. rewrite <- known_inside by exact Rd. congruence.
  - apply Easy; [|discriminate]. inversion F as [|? ? R1 F']; subst. inversion F' as [|? ? R2 _]; subst. now apply unify_effects_ok.
  - apply Easy; [|discriminate]. inversion F as [|? ? R1 F']; subst. now apply unify_arg_ok.
  - inversion F as [|? ? R1 F']; subst. destruct (known s e) eqn:E.
    + apply Easy; [|discriminate]. apply known_inside in E; [|exact R1]. now apply generalize_ok.
    + exists e. split; [now left|]. rewrite <- known_inside by exact R1. congruence.
  - inversion F as [|? ? R1 F']; subst. inversion F' as [|? ? R2 _]; subst. pose proof (same_ok s a b G R1 R2) as Q. destruct (unify_same pick s a b) as [s'| | |]; try exact Q; [|destruct Q].
    apply Easy; [apply Q|discriminate].
  - inversion F as [|? ? R1 F']; subst. inversion F' as [|? ? R2 _]; subst. pose proof (add_ok s a b G R1 R2) as Q. destruct (add_inclusion s a b) as [s'| | |]; try exact Q; [|destruct Q].
    apply Easy; [apply Q|discriminate].
  - clear Easy. pose proof (expand_ok s G) as Q. destruct (expand_pending s) as [s'| | |]; try exact Q; [|destruct Q]. destruct Q as (G' & X & _ & _ & K). split; [exact G'|]. split; [exact X|]. split; [|auto].
    intros u y H. left. left. auto.
Qed.
Lemma run_ok : forall ops s, good s -> proper ops ->
  match run pick ops s with
  | SOk s' => good s' /\ extends (tbl s) (tbl s') /\ (forall u y, owes s u y -> owes s' u y) /\ (In Expand ops -> forall u y, owes s u y -> delivered (tbl s') u y)
  | SErr => True
  | SPanic => True
  | SFuel => False
  end.
Proof.
  induction ops as [|o ops IH]; intros s G P; cbn [run].
  - split; [exact G|]. split; [apply extends_refl|]. split; [auto|intros []].
  - inversion P as [|? ? F P']; subst. pose proof (run_op_ok s o G F) as Q. destruct (run_op pick s o) as [s1| | |]; cbn [sbind]; try exact Q; [|exact Logic.I].
    destruct Q as (G1 & X1 & O1 & E1). specialize (IH s1 G1 P'). destruct (run pick ops s1) as [s2| | |]; try exact IH. destruct IH as (G2 & X2 & O2 & E2).
    split; [exact G2|]. split; [now apply (extends_trans _ _ _ X1)|]. split; [auto|]. intros [->|H] u y Hy.
    + apply (delivered_mono (tbl s1)); [exact X2|]. now apply E1.
    + apply E2; auto.
Qed.
Lemma run_app : forall a b s, run pick (a ++ b) s = sbind (run pick a s) (run pick b).
Proof.
  induction a as [|o a IH]; intros b s; cbn [app run]; [reflexivity|]. destruct (run_op pick s o); cbn [sbind]; auto.
Qed.
Lemma history_good : forall ops s, history pick ops s -> good s.
Proof. intros ops s [P E]. pose proof (run_ok ops empty_solver empty_good P) as Q. rewrite E in Q. apply Q. Qed.
Lemma history_app : forall a b s, history pick (a ++ b) s -> exists s1, history pick a s1 /\ run pick b s1 = SOk s /\ proper b.
Proof.
  intros a b s [P E]. rewrite run_app in E. apply Forall_app in P as [Pa Pb]. destruct (run pick a empty_solver) as [s1| | |] eqn:Ea; cbn [sbind] in E; try discriminate.
  exists s1. split; [now split|]. now split.
Qed.
End Solver.
