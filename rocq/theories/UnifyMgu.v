(** Unification finds a most general solution when there is one, and always ends. *)
From Coq Require Import List Bool Arith Lia.
From Verif Require Import UnifyModel UnifySpec UnifyBasics UnifyState UnifyProofs.
Import ListNotations.

Section Mgu.
Variable first_is_root : state -> nat -> nat -> bool.
Notation unify := (unify first_is_root).
Notation at_least := (at_least first_is_root).
Notation do_step := (do_step first_is_root).
Notation solve := (solve first_is_root).

Section Solution.
Variable tv : nat -> ty.
Variable mv : nat -> mut_ty.

Definition solved (x : step) : Prop :=
  match x with
  | Check b | Assert b => b = true
  | Muts c t => apply_mut mv c = apply_mut mv t
  | Types c e => apply tv mv c = apply tv mv e
  end.

Lemma map_eq_combine {A B} (f g : A -> B) l r : map f l = map g r -> length l = length r /\ Forall (fun p => f (fst p) = g (snd p)) (combine l r).
Proof.
  revert r. induction l as [|x l IH]; intros [|y r]; cbn; try discriminate; [split; constructor|]. intros [= E1 E2]. destruct (IH _ E2) as [H1 H2]. split; [now rewrite H1|now constructor].
Qed.
Lemma flat_map_pair {A B} (P : B -> Prop) (f g : A -> B) l : Forall (fun x => P (f x) /\ P (g x)) l -> Forall P (flat_map (fun x => [f x; g x]) l).
Proof. induction 1 as [|x l [H1 H2] Hl IH]; cbn; repeat constructor; auto. Qed.

Lemma member_refl c : member_can_satisfy c c = true.
Proof. now destruct c as [[]|]. Qed.

Lemma steps_complete c e : leaf c = false -> leaf e = false -> apply tv mv c = apply tv mv e -> Forall solved (steps c e).
Proof.
  intros Lc Le E. destruct c, e; try discriminate; cbn [apply] in E; try discriminate E; cbn [steps].
  - injection E as -> E. destruct (map_eq_combine _ _ _ _ E) as [El Ef]. constructor; [cbn; apply Nat.eqb_refl|]. now apply Forall_map.
  - injection E as E. destruct (map_eq_combine _ _ _ _ E) as [El Ef]. constructor; [cbn; unfold same_length; now apply Nat.eqb_eq|]. apply flat_map_pair. eapply Forall_impl; [|exact Ef]. cbn. intros x [= Ex Et]. split; [now apply Nat.eqb_eq|exact Et].
  - injection E as E. destruct (map_eq_combine _ _ _ _ E) as [El Ef]. constructor; [cbn; unfold same_length; now apply Nat.eqb_eq|]. now apply Forall_map.
  - injection E as E. destruct (map_eq_combine _ _ _ _ E) as [El Ef]. apply flat_map_pair. eapply Forall_impl; [|exact Ef]. cbn. intros x [= Ex Et]. split; [now apply Nat.eqb_eq|exact Et].
  - injection E as E E2. destruct (map_eq_combine _ _ _ _ E) as [El Ef]. constructor; [cbn; unfold same_length; now apply Nat.eqb_eq|]. apply Forall_app. split; [|now repeat constructor].
    apply flat_map_pair. eapply Forall_impl; [|exact Ef]. cbn. intros x [= Ex Et]. split; congruence.
  - injection E as E E2 E3 E4. subst. destruct (map_eq_combine _ _ _ _ E) as [El Ef]. constructor; [cbn; unfold same_length; rewrite !member_refl, andb_true_r; now apply Nat.eqb_eq|]. apply Forall_app. split; [|now repeat constructor].
    apply flat_map_pair. eapply Forall_impl; [|exact Ef]. cbn. intros x [= Ex Et]. split; congruence.
  - injection E as -> E. destruct (map_eq_combine _ _ _ _ E) as [El Ef]. constructor; [cbn; apply Nat.eqb_refl|]. constructor; [cbn; unfold same_length; now apply Nat.eqb_eq|]. now apply Forall_map.
Qed.

Definition succeeds (s : state) (x : outcome) : Prop := x = NoFuel \/ exists s', x = Unified s' /\ solution tv mv s'.

Lemma at_least_complete m c t s : wf s -> solution tv mv s -> apply_mut mv c = apply_mut mv t -> succeeds s (at_least m c t s).
Proof.
  intros Hw Hs E. rewrite <- (solution_M tv mv s c Hs), <- (solution_M tv mv s t Hs) in E. right. unfold UnifyModel.at_least. rewrite !normalize_mut_ok by exact Hw.
  destruct Hs as [H1 H2].
  destruct (apply_mut (M s) c) as [a|a], (apply_mut (M s) t) as [b|b]; cbn in E.
  - destruct (Nat.eqb a b); [eexists; split; [reflexivity|now split]|]. destruct (first_is_root s a b); eexists; (split; [reflexivity|]; split; [exact H1|]; constructor; [cbn; congruence|exact H2]).
  - destruct m; [destruct b|]; eexists; (split; [reflexivity|]; split; [exact H1|]; first [exact H2|constructor; [cbn; congruence|exact H2]]).
  - destruct m; [destruct a|]; eexists; (split; [reflexivity|]; split; [exact H1|]; first [exact H2|constructor; [cbn; congruence|exact H2]]).
  - injection E as ->. destruct m; [destruct b; cbn|rewrite eqb_reflx]; eexists; (split; [reflexivity|now split]).
Qed.

Lemma each_complete N go l : (forall x s, In x l -> inv N s -> solution tv mv s -> succeeds s (go x s)) -> (forall x s s', In x l -> inv N s -> go x s = Unified s' -> inv N s') ->
  forall s, inv N s -> solution tv mv s -> succeeds s (@each step go l s).
Proof.
  induction l as [|x l IH]; intros Hgo Hinv s Hi Hs; cbn; [right; now exists s|].
  destruct (Hgo x s (or_introl eq_refl) Hi Hs) as [-> |(s1 & E & Hs1)]; [now left|]. rewrite E.
  apply (IH (fun y s Hy => Hgo y s (or_intror Hy)) (fun y s s' Hy => Hinv y s s' (or_intror Hy)) s1); [|exact Hs1]. now apply (Hinv x s s1 (or_introl eq_refl)).
Qed.

Lemma unify_variable_complete v t s : solution tv mv s -> leaf t = false -> tv v = apply tv mv t -> succeeds s (unify_variable v t s).
Proof.
  intros Hs Hl E. unfold unify_variable. destruct (occurs v t) eqn:Eo.
  - exfalso. apply (size_occurs_lt tv mv) in Eo; [|intros ->; discriminate]. rewrite <- E in Eo. lia.
  - right. eexists. split; [reflexivity|]. split; [|apply Hs]. constructor; [exact E|apply Hs].
Qed.

Lemma steps_below N c e a b : below N c -> below N e -> In (Types a b) (steps c e) -> below N a /\ below N b.
Proof.
  intros Bc Be Hx. split; intros w Hw; assert (Ho := steps_occurs _ _ _ _ w Hx); rewrite Hw, ?orb_true_r in Ho; specialize (Ho eq_refl); apply orb_true_iff in Ho; destruct Ho; auto.
Qed.

Lemma do_step_inv N f m c e x s s' : below N c -> below N e -> In x (steps c e) -> inv N s -> do_step f m x s = Unified s' -> inv N s' /\ ext s s'.
Proof.
  intros Bc Be Hx Hi1 Hd. destruct x as [b|b|a b|a b]; cbn in Hd.
  - destruct b; [|discriminate]. injection Hd as <-. split; [exact Hi1|apply ext_refl].
  - destruct b; [|discriminate]. injection Hd as <-. split; [exact Hi1|apply ext_refl].
  - destruct (at_least_ok _ _ _ _ _ _ (proj1 Hi1) Hd) as (W & X & T & _). split; [|exact X]. split; [exact W|]. unfold bounded. rewrite T. apply Hi1.
  - destruct (steps_below N c e a b Bc Be Hx). now apply (unify_inv first_is_root N f m a b s s').
Qed.

Lemma unify_complete N f : forall m c e s, inv N s -> below N c -> below N e -> solution tv mv s -> apply tv mv c = apply tv mv e -> succeeds s (unify f m c e s).
Proof.
  induction f as [f IHf] using (well_founded_induction lt_wf). intros m c e s Hi Hc He Hs E.
  pose proof (res_below N s c (proj2 Hi) Hc) as Bc. pose proof (res_below N s e (proj2 Hi) He) as Be.
  rewrite <- (solution_res tv mv s c Hs), <- (solution_res tv mv s e Hs) in E.
  destruct (unify_cases first_is_root f m c e s (proj1 Hi)) as [Hn|[[_ Hn]|(g & -> & Hg)]]; [rewrite Hn; now left|rewrite Hn; right; now exists s|].
  revert Hg. generalize (unify (S g) m c e s). intros out Hg.
  inversion Hg as [X Er|X Er|X Er|a b Ea Eb Hab Er|a b Ea Eb Hab Er|v Ev El Er|v Ev El Er|L1 L2 Er].
  - right; now exists s.
  - right; now exists s.
  - right; now exists s.
  - right. eexists. split; [reflexivity|]. rewrite Ea, Eb in E. cbn in E. split; [|apply Hs]. constructor; [now symmetry|apply Hs].
  - right. eexists. split; [reflexivity|]. rewrite Ea, Eb in E. cbn in E. split; [|apply Hs]. constructor; [exact E|apply Hs].
  - rewrite Ev in E. cbn in E. now apply unify_variable_complete.
  - rewrite Ev in E. cbn in E. now apply unify_variable_complete.
  - pose proof (steps_complete _ _ L1 L2 E) as Hst. rewrite Forall_forall in Hst. apply (each_complete N); auto.
    + intros x s1 Hx Hi1 Hs1. specialize (Hst x Hx). destruct x as [b|b|a b|a b]; cbn in Hst |- *.
      * rewrite Hst. right; now exists s1.
      * rewrite Hst. right; now exists s1.
      * apply at_least_complete; auto. apply Hi1.
      * destruct (steps_below N _ _ a b Bc Be Hx). apply (IHf g); auto.
    + intros x s1 s2 Hx Hi1 Hd. now apply (do_step_inv N g m _ _ x s1 s2 Bc Be Hx Hi1).
Qed.
End Solution.

(** Termination. *)
Lemma wf_types_nodup l : wf_types l -> NoDup (map fst l).
Proof.
  induction 1 as [|v u l Hw IH Hv _ _]; cbn; constructor; [|exact IH]. intros Hin. apply in_map_iff in Hin. destruct Hin as ([w x] & Ew & Hin). cbn in Ew. subst. now apply in_binding in Hin.
Qed.
Lemma inv_length N s : inv N s -> length (types s) <= N.
Proof.
  intros [[Hw _] Hb]. rewrite <- (map_length fst), <- (seq_length N 0). apply NoDup_incl_length; [now apply wf_types_nodup|].
  intros v Hv. apply in_map_iff in Hv. destruct Hv as (p & <- & Hp). unfold bounded in Hb. rewrite Forall_forall in Hb. apply in_seq. destruct (Hb p Hp). lia.
Qed.

Lemma size_res_free s t : (forall v, occurs v t = true -> binding v (types s) = None) -> size (res s t) = size t.
Proof.
  intros H. unfold res. rewrite <- (apply_id t) at 2. apply size_ext. intros v Hv. now rewrite R_unbound by now apply H.
Qed.
Lemma size_res_types s s' t : types s' = types s -> size (res s' t) = size (res s t).
Proof.
  intros E. unfold res. apply size_ext. intros v _. unfold R. rewrite E. apply size_ext. reflexivity.
Qed.

Definition ends (go : nat -> outcome) : Prop := exists n r, r <> NoFuel /\ forall f, n <= f -> go f = r.
Lemma ends_const r : r <> NoFuel -> ends (fun _ => r).
Proof. intros H. exists 0, r. now split. Qed.
Lemma ends_step (go : nat -> outcome) n : ends go -> (forall f, n <= f -> True) -> ends go.
Proof. auto. Qed.

Lemma unify_ends N : forall k z m c e s, inv N s -> below N c -> below N e -> N - length (types s) <= k -> size (res s c) + size (res s e) <= z -> ends (fun f => unify f m c e s).
Proof.
  induction k as [k IHk] using (well_founded_induction lt_wf). induction z as [z IHz] using (well_founded_induction lt_wf). intros m c e s Hi Hc He Hk Hz.
  destruct (resolves_ok s c (proj1 Hi)) as [n1 H1]. destruct (resolves_ok s e (proj1 Hi)) as [n2 H2].
  pose proof (res_below N s c (proj2 Hi) Hc) as Bc. pose proof (res_below N s e (proj2 Hi) He) as Be.
  assert (K : forall r, r <> NoFuel -> (forall f, n1 + n2 <= f -> unify (S f) m c e s = r) -> ends (fun f => unify f m c e s)).
  { intros r Hr Hf. exists (S (n1 + n2)), r. split; [exact Hr|]. intros [|f] Hle; [lia|]. apply Hf. lia. }
  assert (U : forall f, n1 + n2 <= f -> unify (S f) m c e s =
     if ty_eqb c e then Unified s else if ty_eqb (res s c) (res s e) then Unified s else
     match res s c, res s e with
     | TNever, _ | _, TNever => Unified s
     | TVar a, TVar b => if first_is_root s a b then Unified (bind_type s b (TVar a)) else Unified (bind_type s a (TVar b))
     | TVar v, t | t, TVar v => unify_variable v t s
     | _, _ => each (do_step f m) (steps (res s c) (res s e)) s
     end).
  { intros f Hf. cbn [UnifyModel.unify]. rewrite H1, H2 by lia. destruct (ty_eqb c e); [reflexivity|]. destruct (ty_eqb (res s c) (res s e)); [reflexivity|]. destruct (res s c), (res s e); reflexivity. }
  destruct (ty_eqb c e); [now apply (K (Unified s))|]. destruct (ty_eqb (res s c) (res s e)); [now apply (K (Unified s))|].
  destruct (leaf (res s c)) eqn:Lc.
  { destruct (res s c) as [a| | | | | | | |]; try discriminate Lc; [|apply (K (Unified s)); [discriminate|exact U]].
    assert (Hv : forall t, unify_variable a t s <> NoFuel) by (intros t; unfold unify_variable; now destruct (occurs a t)).
    destruct (res s e) as [b| | | | | | | |]; (eapply K; [|exact U]); try apply Hv; try discriminate. destruct (first_is_root s a b); discriminate. }
  destruct (leaf (res s e)) eqn:Le.
  { assert (Hv : forall b t, unify_variable b t s <> NoFuel) by (intros b t; unfold unify_variable; now destruct (occurs b t)).
    destruct (res s e) as [b| | | | | | | |]; try discriminate Le; destruct (res s c); try discriminate Lc; (eapply K; [|exact U]); try apply Hv; discriminate. }
  assert (Hends : ends (fun f => each (do_step f m) (steps (res s c) (res s e)) s)).
  { assert (G : forall l, incl l (steps (res s c) (res s e)) -> forall s1, inv N s1 -> ext s s1 -> ends (fun f => each (do_step f m) l s1)).
    { induction l as [|x l IHl]; intros Hl s1 Hi1 He1; [now apply (ends_const (Unified s1))|].
      assert (Hx : In x (steps (res s c) (res s e))) by (apply Hl; now left).
      assert (Hd : ends (fun f => do_step f m x s1)).
      { destruct x as [b|b|a b|a b]; cbn.
        - apply ends_const. now destruct b.
        - apply ends_const. now destruct b.
        - apply ends_const. destruct (at_least_outcome first_is_root m a b s1) as [-> |[s2 ->]]; discriminate.
        - destruct (steps_below N _ _ a b Bc Be Hx) as [Ba Bb].
          destruct (proj1 He1) as [d Hd]. destruct d as [|p d].
          + cbn in Hd. apply (IHz (size a + size b)); auto.
            * pose proof (steps_size _ _ a b Lc Le Hx). lia.
            * now rewrite Hd.
            * rewrite !(size_res_types s s1) by exact Hd.
              rewrite !size_res_free; [lia| |]; intros v Hv; assert (Ho := steps_occurs _ _ _ _ v Hx); rewrite Hv, ?orb_true_r in Ho; specialize (Ho eq_refl); apply orb_true_iff in Ho; destruct Ho as [Ho|Ho]; now apply (res_free s _ v (proj1 Hi)) in Ho.
          + assert (length (types s1) = S (length d + length (types s))) by (rewrite Hd; cbn; now rewrite app_length).
            pose proof (inv_length N s1 Hi1). apply (IHk (N - length (types s1)) ltac:(lia) (size (res s1 a) + size (res s1 b))); auto. }
      destruct Hd as (n & r & Hr & Hf). destruct r as [s2| | | |]; try (exists n; eexists; split; [|intros f Hle; cbn; rewrite Hf by exact Hle; reflexivity]; discriminate); [|contradiction].
      destruct (do_step_inv N n m _ _ x s1 s2 Bc Be Hx Hi1 (Hf n (Nat.le_refl n))) as [Hi2 He2].
      destruct (IHl (fun y Hy => Hl y (or_intror Hy)) s2 Hi2 (ext_trans s s1 s2 He1 He2)) as (n' & r & Hr' & Hf').
      exists (n + n'), r. split; [exact Hr'|]. intros f Hle. cbn. rewrite Hf by lia. apply Hf'. lia. }
    apply (G _ (incl_refl _) s Hi (ext_refl s)). }
  destruct Hends as (n & r & Hr & Hf). exists (S (n + n1 + n2)), r. split; [exact Hr|]. intros [|f] Hle; [lia|]. rewrite U by lia. rewrite <- (Hf f) by lia.
  destruct (res s c); try discriminate Lc; destruct (res s e); try discriminate Le; reflexivity.
Qed.

(** The equalities of a program. *)
Definition below_constraint (N : nat) (x : constraint) : Prop := below N (fst (snd x)) /\ below N (snd (snd x)).

Lemma solve_ends N l : Forall (below_constraint N) l -> forall s, inv N s -> ends (fun f => solve f l s).
Proof.
  unfold UnifyModel.solve. induction 1 as [|[m [c e]] l [Hc He] Hl IH]; intros s Hi; cbn; [apply (ends_const (Unified s)); discriminate|]. cbn in Hc, He.
  destruct (unify_ends N _ _ m c e s Hi Hc He (Nat.le_refl _) (Nat.le_refl _)) as (n & r & Hr & Hf).
  destruct r as [s1| | | |]; try (exists n; eexists; split; [|intros f Hle; rewrite Hf by exact Hle; reflexivity]; discriminate); [|contradiction].
  destruct (unify_inv first_is_root N n m c e s s1 Hi Hc He (Hf n (Nat.le_refl n))) as [Hi1 _].
  destruct (IH s1 Hi1) as (n' & r & Hr' & Hf'). exists (n + n'), r. split; [exact Hr'|]. intros f Hle. rewrite Hf by lia. apply Hf'. lia.
Qed.
Lemma solve_inv N f l : Forall (below_constraint N) l -> forall s s', inv N s -> solve f l s = Unified s' -> inv N s' /\ ext s s'.
Proof.
  unfold UnifyModel.solve. induction 1 as [|[m [c e]] l [Hc He] Hl IH]; intros s s' Hi; cbn; [intros [= <-]; split; [exact Hi|apply ext_refl]|]. cbn in Hc, He.
  destruct (unify f m c e s) as [s1| | | |] eqn:E; try discriminate. intros H. destruct (unify_inv first_is_root N f m c e s s1 Hi Hc He E) as [Hi1 He1].
  destruct (IH s1 s' Hi1 H) as [Hi' He']. split; [exact Hi'|now apply (ext_trans s s1)].
Qed.
Lemma solve_complete tv mv N f l : Forall (below_constraint N) l -> Forall (fun x => apply tv mv (fst (snd x)) = apply tv mv (snd (snd x))) l ->
  forall s, inv N s -> solution tv mv s -> succeeds tv mv s (solve f l s).
Proof.
  unfold UnifyModel.solve. intros Hb. induction Hb as [|[m [c e]] l [Hc He] Hl IH]; intros Hs s Hi Hsol; cbn; [right; now exists s|]. cbn in Hc, He. inversion Hs as [|? ? H1 H2]; subst. cbn in H1.
  destruct (unify_complete tv mv N f m c e s Hi Hc He Hsol H1) as [-> |(s1 & E & Hs1)]; [now left|]. rewrite E.
  destruct (unify_inv first_is_root N f m c e s s1 Hi Hc He E) as [Hi1 _]. exact (IH H2 s1 Hi1 Hs1).
Qed.

(** Every finite list of constraints has a bound. *)
Fixpoint top (t : ty) : nat :=
  match t with
  | TVar v => S v
  | TNever => 0
  | TNative _ l | TTuple l | TNamed _ l => list_sum (map top l)
  | TVariant l | TRecord l => list_sum (map (fun p => top (snd p)) l)
  | TFunction l r | TSubscript l r _ _ => list_sum (map (fun p => top (snd p)) l) + top r
  end.
Lemma below_top t : below (top t) t.
Proof.
  unfold below. induction t using ty_ind'; cbn; intros w Ho.
  - apply Nat.eqb_eq in Ho. lia.
  - discriminate.
  - apply existsb_exists in Ho. destruct Ho as (x & Hx & Ho). rewrite Forall_forall in H. specialize (H x Hx w Ho). pose proof (list_sum_in top _ _ Hx). cbn in *. lia.
  - apply existsb_exists in Ho. destruct Ho as (x & Hx & Ho). rewrite Forall_forall in H. specialize (H x Hx w Ho). pose proof (list_sum_in (fun p => top (snd p)) _ _ Hx). cbn in *. lia.
  - apply existsb_exists in Ho. destruct Ho as (x & Hx & Ho). rewrite Forall_forall in H. specialize (H x Hx w Ho). pose proof (list_sum_in top _ _ Hx). cbn in *. lia.
  - apply existsb_exists in Ho. destruct Ho as (x & Hx & Ho). rewrite Forall_forall in H. specialize (H x Hx w Ho). pose proof (list_sum_in (fun p => top (snd p)) _ _ Hx). cbn in *. lia.
  - apply orb_true_iff in Ho. destruct Ho as [Ho|Ho]; [|specialize (IHt w Ho); lia]. apply existsb_exists in Ho. destruct Ho as (x & Hx & Ho). rewrite Forall_forall in H. specialize (H x Hx w Ho). pose proof (list_sum_in (fun p => top (snd p)) _ _ Hx). cbn in *. lia.
  - apply orb_true_iff in Ho. destruct Ho as [Ho|Ho]; [|specialize (IHt w Ho); lia]. apply existsb_exists in Ho. destruct Ho as (x & Hx & Ho). rewrite Forall_forall in H. specialize (H x Hx w Ho). pose proof (list_sum_in (fun p => top (snd p)) _ _ Hx). cbn in *. lia.
  - apply existsb_exists in Ho. destruct Ho as (x & Hx & Ho). rewrite Forall_forall in H. specialize (H x Hx w Ho). pose proof (list_sum_in top _ _ Hx). cbn in *. lia.
Qed.
Lemma bound_exists (l : list constraint) : exists N, Forall (below_constraint N) l.
Proof.
  induction l as [|[m [c e]] l [N IH]]; [exists 0; constructor|]. exists (N + top c + top e). constructor.
  - split; intros v Hv; cbn in Hv; apply below_top in Hv; lia.
  - eapply Forall_impl; [|exact IH]. intros x [H1 H2]. split; intros v Hv; [specialize (H1 v Hv)|specialize (H2 v Hv)]; lia.
Qed.
Lemma inv_empty N : inv N empty.
Proof. split; [split; constructor|constructor]. Qed.

Lemma program_ends l : ends (fun f => solve f l empty).
Proof. destruct (bound_exists l) as [N H]. apply (solve_ends N l H empty (inv_empty N)). Qed.
Lemma program_most_general tv mv l : Forall (fun x => apply tv mv (fst (snd x)) = apply tv mv (snd (snd x))) l ->
  exists n s, (forall f, n <= f -> solve f l empty = Unified s) /\ forall t t', resolves s t t' -> apply tv mv t' = apply tv mv t.
Proof.
  intros H. destruct (bound_exists l) as [N Hb]. destruct (solve_ends N l Hb empty (inv_empty N)) as (n & r & Hr & Hf).
  assert (Hse : solution tv mv empty) by (split; constructor).
  destruct (solve_complete tv mv N n l Hb H empty (inv_empty N) Hse) as [E|(s & E & Hs)]; rewrite Hf in E by lia; [contradiction|]. subst r.
  exists n, s. split; [exact Hf|]. intros t t' Ht. destruct (solve_inv N n l Hb empty s (inv_empty N) (Hf n (Nat.le_refl n))) as [Hi _].
  apply (resolves_only s t t' (proj1 Hi)) in Ht. subst. now apply solution_res.
Qed.
End Mgu.
