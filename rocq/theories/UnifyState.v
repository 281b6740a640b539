(** The tables, and what the compiler's substitution gives. *)
From Coq Require Import List Bool Arith Lia.
From Verif Require Import UnifyModel UnifySpec UnifyBasics.
Import ListNotations.

Definition one {A} (var : nat -> A) (v : nat) (a : A) (w : nat) : A := if Nat.eqb v w then a else var w.

(** Values contain no variable bound before. *)
Inductive wf_types : list (nat * ty) -> Prop :=
| wt_nil : wf_types []
| wt_cons : forall v u l, wf_types l -> binding v l = None -> occurs v u = false -> (forall w, occurs w u = true -> binding w l = None) -> wf_types ((v, u) :: l).
Definition occurs_mut (v : nat) (m : mut_ty) : Prop := m = MVar v.
Inductive wf_muts : list (nat * mut_ty) -> Prop :=
| wm_nil : wf_muts []
| wm_cons : forall v u l, wf_muts l -> binding v l = None -> u <> MVar v -> (forall w, u = MVar w -> binding w l = None) -> wf_muts ((v, u) :: l).
Definition wf (s : state) : Prop := wf_types (types s) /\ wf_muts (muts s).

(** What a variable stands for. *)
Fixpoint tval (l : list (nat * ty)) (w : nat) : ty :=
  match l with [] => TVar w | (v, u) :: l => apply (one TVar v u) MVar (tval l w) end.
Fixpoint mval (l : list (nat * mut_ty)) (w : nat) : mut_ty :=
  match l with [] => MVar w | (v, u) :: l => apply_mut (one MVar v u) (mval l w) end.
Definition M (s : state) : nat -> mut_ty := mval (muts s).
Definition R (s : state) (w : nat) : ty := apply TVar (M s) (tval (types s) w).
Definition res (s : state) (t : ty) : ty := apply (R s) (M s) t.

Lemma binding_app {A} v (a b : list (nat * A)) : binding v (a ++ b) = match binding v a with Some x => Some x | None => binding v b end.
Proof. induction a as [|[w x] a IH]; cbn; [reflexivity|]. destruct (Nat.eqb w v); [reflexivity|exact IH]. Qed.
Lemma binding_in {A} v (l : list (nat * A)) x : binding v l = Some x -> In (v, x) l.
Proof. induction l as [|[w y] l IH]; cbn; [discriminate|]. destruct (Nat.eqb_spec w v); [intros [= ->]; subst; now left|intros H; right; now apply IH]. Qed.
Lemma in_binding {A} v (l : list (nat * A)) x : In (v, x) l -> binding v l <> None.
Proof. induction l as [|[w y] l IH]; cbn; [easy|]. intros [[= -> ->]|H]; [rewrite Nat.eqb_refl; discriminate|]. destruct (Nat.eqb w v); [discriminate|now apply IH]. Qed.

Lemma tval_unbound l w : binding w l = None -> tval l w = TVar w.
Proof.
  induction l as [|[v u] l IH]; cbn; [reflexivity|]. destruct (Nat.eqb_spec v w); [discriminate|].
  intros H. rewrite IH by exact H. cbn. unfold one. destruct (Nat.eqb_spec v w); [contradiction|reflexivity].
Qed.
Lemma mval_unbound l w : binding w l = None -> mval l w = MVar w.
Proof.
  induction l as [|[v u] l IH]; cbn; [reflexivity|]. destruct (Nat.eqb_spec v w); [discriminate|].
  intros H. rewrite IH by exact H. cbn. unfold one. destruct (Nat.eqb_spec v w); [contradiction|reflexivity].
Qed.

Lemma apply_id_on tv t : (forall v, occurs v t = true -> tv v = TVar v) -> apply tv MVar t = t.
Proof. intros H. rewrite <- (apply_id t) at 2. now apply apply_ext. Qed.

Lemma tval_bound l w u : wf_types l -> binding w l = Some u -> tval l w = apply (tval l) MVar u.
Proof.
  intros Hw. revert w u. induction Hw as [|v x l Hw IH Hv Ho Hx]; intros w u; cbn; [discriminate|].
  destruct (Nat.eqb_spec v w) as [->|Hn].
  - intros [= ->]. rewrite tval_unbound by exact Hv. cbn. unfold one at 1. rewrite Nat.eqb_refl. symmetry. apply apply_id_on.
    intros y Hy. rewrite tval_unbound by now apply Hx. cbn. unfold one. destruct (Nat.eqb_spec w y); [subst; congruence|reflexivity].
  - intros H. rewrite (IH _ _ H). rewrite apply_apply. reflexivity.
Qed.
Lemma mval_bound l w u : wf_muts l -> binding w l = Some u -> mval l w = apply_mut (mval l) u.
Proof.
  intros Hw. revert w u. induction Hw as [|v x l Hw IH Hv Ho Hx]; intros w u; cbn; [discriminate|].
  destruct (Nat.eqb_spec v w) as [->|Hn].
  - intros [= ->]. rewrite mval_unbound by exact Hv. cbn. unfold one at 1. rewrite Nat.eqb_refl. destruct u as [y|b]; [|reflexivity]. cbn.
    rewrite mval_unbound by now apply Hx. cbn. unfold one. destruct (Nat.eqb_spec w y); [subst; congruence|reflexivity].
  - intros H. rewrite (IH _ _ H). destruct u; reflexivity.
Qed.

(** Bindings are equations. *)
Lemma R_unbound s w : binding w (types s) = None -> R s w = TVar w.
Proof. intros H. unfold R. now rewrite tval_unbound. Qed.
Lemma M_unbound s w : binding w (muts s) = None -> M s w = MVar w.
Proof. apply mval_unbound. Qed.
Lemma R_bound s w u : wf s -> binding w (types s) = Some u -> R s w = res s u.
Proof. intros [H _] Hb. unfold R, res. rewrite (tval_bound _ _ _ H Hb), apply_apply. now apply apply_ext. Qed.
Lemma M_bound s w u : wf s -> binding w (muts s) = Some u -> M s w = apply_mut (M s) u.
Proof. intros [_ H]. now apply mval_bound. Qed.

(** What is left are unbound variables. *)
Lemma tval_free l w x : wf_types l -> occurs x (tval l w) = true -> binding x l = None.
Proof.
  intros H. revert w x. induction H as [|v u l Hw IH Hv Ho Hu]; intros w x; cbn; [easy|]. intros Hx.
  apply occurs_apply in Hx. destruct Hx as (y & Hy & Hx). unfold one in Hx. destruct (Nat.eqb_spec v y) as [->|Hn].
  - destruct (Nat.eqb_spec y x); [subst; congruence|]. now apply Hu.
  - cbn in Hx. apply Nat.eqb_eq in Hx. subst y. destruct (Nat.eqb_spec v x); [contradiction|]. now apply IH in Hy.
Qed.
Lemma R_free s w x : wf s -> occurs x (R s w) = true -> binding x (types s) = None.
Proof.
  intros [H _] Hx. unfold R in Hx. apply occurs_apply in Hx. destruct Hx as (y & Hy & Hx). cbn in Hx. apply Nat.eqb_eq in Hx. subst. now apply tval_free in Hy.
Qed.
Lemma res_free s t x : wf s -> occurs x (res s t) = true -> binding x (types s) = None.
Proof. intros H Hx. apply occurs_apply in Hx. destruct Hx as (y & Hy & Hx). now apply R_free in Hx. Qed.
Lemma mval_free l w x : wf_muts l -> mval l w = MVar x -> binding x l = None.
Proof.
  intros H. revert w x. induction H as [|v u l Hw IH Hv Ho Hu]; intros w x; cbn; [reflexivity|]. intros Hx.
  destruct (mval l w) as [y|b] eqn:E; cbn in Hx; [|discriminate]. unfold one in Hx. destruct (Nat.eqb_spec v y) as [->|Hn].
  - destruct (Nat.eqb_spec y x); [subst; congruence|]. now apply Hu.
  - injection Hx as ->. destruct (Nat.eqb_spec v x); [contradiction|]. now apply IH in E.
Qed.
Lemma apply_mut_free s m x : wf s -> apply_mut (M s) m = MVar x -> binding x (muts s) = None.
Proof. intros [_ H]. destruct m as [v|b]; cbn; [now apply mval_free|discriminate]. Qed.

(** Every solution factors through the resolution. *)
Lemma solution_tval tv mv l w : Forall (fun p => tv (fst p) = apply tv mv (snd p)) l -> apply tv mv (tval l w) = tv w.
Proof.
  induction 1 as [|[v u] l Hv Hl IH]; cbn; [reflexivity|]. cbn in Hv. rewrite apply_apply. rewrite <- IH. apply apply_ext; [|reflexivity].
  intros y _. unfold one. destruct (Nat.eqb_spec v y); [subst; now rewrite Hv|reflexivity].
Qed.
Lemma solution_mval mv l w : Forall (fun p => mv (fst p) = apply_mut mv (snd p)) l -> apply_mut mv (mval l w) = mv w.
Proof.
  induction 1 as [|[v u] l Hv Hl IH]; cbn; [reflexivity|]. cbn in Hv. rewrite apply_mut_apply. rewrite <- IH. destruct (mval l w) as [y|]; [|reflexivity]. cbn.
  unfold one. destruct (Nat.eqb_spec v y); [subst; now rewrite Hv|reflexivity].
Qed.
Lemma solution_M tv mv s m : solution tv mv s -> apply_mut mv (apply_mut (M s) m) = apply_mut mv m.
Proof. intros [_ H]. destruct m as [v|]; [|reflexivity]. cbn. now apply solution_mval. Qed.
Lemma solution_res tv mv s t : solution tv mv s -> apply tv mv (res s t) = apply tv mv t.
Proof.
  intros H. unfold res. rewrite apply_apply. apply apply_ext.
  - intros v _. unfold R. rewrite apply_apply. transitivity (apply tv mv (tval (types s) v)).
    + apply apply_ext; [reflexivity|]. intros w. now apply (solution_M tv mv s (MVar w)).
    + apply solution_tval, H.
  - intros w. now apply (solution_M tv mv s (MVar w)).
Qed.

(** The resolution is a solution. *)
Lemma wf_types_in l v u : wf_types l -> In (v, u) l -> binding v l = Some u.
Proof.
  induction 1 as [|w x l Hw IH Hv Ho Hu]; cbn; [easy|]. intros [[= -> ->]|H]; [now rewrite Nat.eqb_refl|].
  destruct (Nat.eqb_spec w v); [subst|now apply IH]. exfalso. apply IH in H. congruence.
Qed.
Lemma wf_muts_in l v u : wf_muts l -> In (v, u) l -> binding v l = Some u.
Proof.
  induction 1 as [|w x l Hw IH Hv Ho Hu]; cbn; [easy|]. intros [[= -> ->]|H]; [now rewrite Nat.eqb_refl|].
  destruct (Nat.eqb_spec w v); [subst|now apply IH]. exfalso. apply IH in H. congruence.
Qed.
Lemma solution_self s : wf s -> solution (R s) (M s) s.
Proof.
  intros H. split; apply Forall_forall; intros [v u] Hin; cbn.
  - apply R_bound; [exact H|]. now apply wf_types_in; [apply H|].
  - apply M_bound; [exact H|]. now apply wf_muts_in; [apply H|].
Qed.

(** Following mutability variables. *)
Lemma follow_mut_val n l b : follow_mut n l (MVal b) = MVal b.
Proof. now destruct n. Qed.
Lemma wf_muts_split a v u b : wf_muts (a ++ (v, u) :: b) -> wf_muts b /\ binding v b = None /\ u <> MVar v /\ (forall w, u = MVar w -> binding w b = None).
Proof. induction a as [|x a IH]; cbn; intros H; inversion H; subst; [auto|now apply IH]. Qed.
Lemma wf_types_split a v u b : wf_types (a ++ (v, u) :: b) -> wf_types b /\ binding v b = None /\ occurs v u = false /\ (forall w, occurs w u = true -> binding w b = None).
Proof. induction a as [|x a IH]; cbn; intros H; inversion H; subst; [auto|now apply IH]. Qed.

Lemma follow_mut_new l : wf_muts l -> forall new old, l = new ++ old -> forall n w, length new <= n -> binding w old = None -> follow_mut n l (MVar w) = mval l w.
Proof.
  intros Hw new. induction new as [|[v u] new IH] using rev_ind; intros old E n w Hn Hb.
  - cbn in E. subst old. destruct n; cbn; now rewrite ?Hb, mval_unbound.
  - rewrite app_length in Hn; cbn in Hn. rewrite <- app_assoc in E; cbn in E.
    assert (Hs := Hw). rewrite E in Hs. apply wf_muts_split in Hs. destruct Hs as (Hwo & Hv & Hu & Ho).
    destruct n as [|n]; [lia|]. destruct (Nat.eq_dec v w) as [->|Hne].
    + destruct (binding w l) as [x|] eqn:Hx; [|cbn; rewrite Hx; symmetry; now apply mval_unbound].
      assert (x = u) as ->. { assert (Hi : In (w, u) l) by (rewrite E, in_app_iff; right; now left). apply wf_muts_in in Hi; [congruence|exact Hw]. }
      cbn. rewrite Hx, (mval_bound _ _ _ Hw Hx). destruct u as [y|b]; [|now rewrite follow_mut_val]. cbn. apply (IH ((w, MVar y) :: old)); [exact E|lia|].
      cbn. destruct (Nat.eqb_spec w y); [congruence|]. now apply Ho.
    + apply (IH ((v, u) :: old)); [exact E|lia|]. cbn. destruct (Nat.eqb_spec v w); [contradiction|exact Hb].
Qed.
Lemma normalize_mut_ok s m : wf s -> normalize_mut s m = apply_mut (M s) m.
Proof.
  intros [_ H]. unfold normalize_mut. destruct m as [w|b]; [|apply follow_mut_val]. cbn. apply (follow_mut_new _ H (muts s) []); [now rewrite app_nil_r|lia|reflexivity].
Qed.

(** The compiler's substitution, when it has an answer. *)
Lemma all_map {A B} (f : A -> option B) l r : all (map f l) = Some r -> Forall2 (fun x y => f x = Some y) l r.
Proof.
  revert r. induction l as [|x l IH]; cbn; intros r; [intros [= <-]; constructor|].
  destruct (f x) eqn:E; [|discriminate]. destruct (all (map f l)) eqn:E2; [|discriminate]. intros [= <-]. constructor; [exact E|now apply IH].
Qed.
Lemma all_map_eq {A B} (f : A -> option B) (g : A -> B) l r : (forall x y, f x = Some y -> y = g x) -> all (map f l) = Some r -> r = map g l.
Proof. intros Hf H. apply all_map in H. induction H; cbn; [reflexivity|]. f_equal; [now apply Hf|exact IHForall2]. Qed.

Lemma normalize_ok f : forall s t r, wf s -> normalize f s t = Some r -> r = res s t.
Proof.
  induction f as [|f IH]; intros s t r Hw H; [discriminate|].
  assert (IH' : forall x y, normalize f s x = Some y -> y = res s x) by (intros; now apply IH).
  assert (IHp : forall (x : nat * ty) y, under (fst x) (normalize f s (snd x)) = Some y -> y = (fst x, res s (snd x))).
  { intros [a x] y; cbn. destruct (normalize f s x) eqn:E; [|discriminate]. intros [= <-]. now rewrite (IH' _ _ E). }
  assert (IHm : forall (x : mut_ty * ty) y, under (normalize_mut s (fst x)) (normalize f s (snd x)) = Some y -> y = (apply_mut (M s) (fst x), res s (snd x))).
  { intros [a x] y; cbn. destruct (normalize f s x) eqn:E; [|discriminate]. intros [= <-]. now rewrite (IH' _ _ E), normalize_mut_ok. }
  destruct t; cbn in H |- *.
  - destruct (binding v (types s)) as [u|] eqn:E; [rewrite (IH' _ _ H); symmetry; now apply R_bound|]. injection H as <-. symmetry. now apply R_unbound.
  - now injection H as <-.
  - destruct (all _) eqn:E; [|discriminate]. injection H as <-. cbn. f_equal. now apply (all_map_eq _ (res s)) in E.
  - destruct (all _) eqn:E; [|discriminate]. injection H as <-. cbn. f_equal. now apply (all_map_eq _ _ _ _ IHp) in E.
  - destruct (all _) eqn:E; [|discriminate]. injection H as <-. cbn. f_equal. now apply (all_map_eq _ (res s)) in E.
  - destruct (all _) eqn:E; [|discriminate]. injection H as <-. cbn. f_equal. now apply (all_map_eq _ _ _ _ IHp) in E.
  - destruct (all _) eqn:E; [|discriminate]. destruct (normalize f s t) eqn:E2; [|discriminate]. injection H as <-. cbn. f_equal; [now apply (all_map_eq _ _ _ _ IHm) in E|now apply IH'].
  - destruct (all _) eqn:E; [|discriminate]. destruct (normalize f s t) eqn:E2; [|discriminate]. injection H as <-. cbn. f_equal; [now apply (all_map_eq _ _ _ _ IHm) in E|now apply IH'].
  - destruct (all _) eqn:E; [|discriminate]. injection H as <-. cbn. f_equal. now apply (all_map_eq _ (res s)) in E.
Qed.

(** It always has one, given enough fuel. *)
Lemma all_settles {A B} (f : nat -> A -> option B) (g : A -> B) l : Forall (fun x => exists n, forall m, n <= m -> f m x = Some (g x)) l ->
  exists n, forall m, n <= m -> all (map (f m) l) = Some (map g l).
Proof.
  induction 1 as [|x l [n1 Hx] Hl [n2 IH]]; [exists 0; reflexivity|]. exists (n1 + n2). intros m Hm. cbn. rewrite Hx, IH by lia. reflexivity.
Qed.

Lemma settles_of_vars s t : wf s -> (forall v, occurs v t = true -> resolves s (TVar v) (R s v)) -> resolves s t (res s t).
Proof.
  intros Hw. induction t using ty_ind'; cbn; intros Hv.
  - apply Hv, Nat.eqb_refl.
  - exists 1. intros [|m] Hm; [lia|reflexivity].
  - destruct (all_settles (fun m => normalize m s) (res s) l) as [n Hn].
    { apply Forall_forall. intros x Hx. rewrite Forall_forall in H. apply H; [exact Hx|]. intros v Hvx. apply Hv, existsb_exists. now exists x. }
    exists (S n). intros [|m] Hm; [lia|]. cbn. rewrite Hn by lia. reflexivity.
  - destruct (all_settles (fun m (p : nat * ty) => under (fst p) (normalize m s (snd p))) (fun p => (fst p, res s (snd p))) l) as [n Hn].
    { apply Forall_forall. intros x Hx. rewrite Forall_forall in H. destruct (H _ Hx) as [n Hn]; [intros v Hvx; apply Hv, existsb_exists; now exists x|].
      exists n. intros m Hm. now rewrite Hn. }
    exists (S n). intros [|m] Hm; [lia|]. cbn. rewrite Hn by lia. reflexivity.
  - destruct (all_settles (fun m => normalize m s) (res s) l) as [n Hn].
    { apply Forall_forall. intros x Hx. rewrite Forall_forall in H. apply H; [exact Hx|]. intros v Hvx. apply Hv, existsb_exists. now exists x. }
    exists (S n). intros [|m] Hm; [lia|]. cbn. rewrite Hn by lia. reflexivity.
  - destruct (all_settles (fun m (p : nat * ty) => under (fst p) (normalize m s (snd p))) (fun p => (fst p, res s (snd p))) l) as [n Hn].
    { apply Forall_forall. intros x Hx. rewrite Forall_forall in H. destruct (H _ Hx) as [n Hn]; [intros v Hvx; apply Hv, existsb_exists; now exists x|].
      exists n. intros m Hm. now rewrite Hn. }
    exists (S n). intros [|m] Hm; [lia|]. cbn. rewrite Hn by lia. reflexivity.
  - destruct (all_settles (fun m (p : mut_ty * ty) => under (normalize_mut s (fst p)) (normalize m s (snd p))) (fun p => (apply_mut (M s) (fst p), res s (snd p))) l) as [n Hn].
    { apply Forall_forall. intros x Hx. rewrite Forall_forall in H. destruct (H _ Hx) as [n Hn]; [intros v Hvx; apply Hv, orb_true_iff; left; apply existsb_exists; now exists x|].
      exists n. intros m Hm. now rewrite Hn, normalize_mut_ok. }
    destruct IHt as [n2 Hn2]; [intros v Hvx; apply Hv; now rewrite Hvx, orb_true_r|].
    exists (S (n + n2)). intros [|m] Hm; [lia|]. cbn. rewrite Hn, Hn2 by lia. reflexivity.
  - destruct (all_settles (fun m (p : mut_ty * ty) => under (normalize_mut s (fst p)) (normalize m s (snd p))) (fun p => (apply_mut (M s) (fst p), res s (snd p))) l) as [n Hn].
    { apply Forall_forall. intros x Hx. rewrite Forall_forall in H. destruct (H _ Hx) as [n Hn]; [intros v Hvx; apply Hv, orb_true_iff; left; apply existsb_exists; now exists x|].
      exists n. intros m Hm. now rewrite Hn, normalize_mut_ok. }
    destruct IHt as [n2 Hn2]; [intros v Hvx; apply Hv; now rewrite Hvx, orb_true_r|].
    exists (S (n + n2)). intros [|m] Hm; [lia|]. cbn. rewrite Hn, Hn2 by lia. reflexivity.
  - destruct (all_settles (fun m => normalize m s) (res s) l) as [n0 Hn].
    { apply Forall_forall. intros x Hx. rewrite Forall_forall in H. apply H; [exact Hx|]. intros v Hvx. apply Hv, existsb_exists. now exists x. }
    exists (S n0). intros [|m] Hm; [lia|]. cbn. rewrite Hn by lia. reflexivity.
Qed.

Lemma resolves_new s : wf s -> forall new old, types s = new ++ old -> forall w, binding w old = None -> resolves s (TVar w) (R s w).
Proof.
  intros Hw new. induction new as [|[v u] new IH] using rev_ind; intros old E w Hb.
  - cbn in E. rewrite <- E in Hb. rewrite R_unbound by exact Hb. exists 1. intros [|m] Hm; [lia|]. cbn. now rewrite Hb.
  - rewrite <- app_assoc in E; cbn in E. assert (Hs := proj1 Hw). rewrite E in Hs. apply wf_types_split in Hs. destruct Hs as (Hwo & Hv & Hu & Ho).
    destruct (Nat.eq_dec v w) as [->|Hne].
    + assert (Hx : binding w (types s) = Some u). { apply wf_types_in; [apply Hw|]. rewrite E, in_app_iff. right. now left. }
      assert (Hr : resolves s u (res s u)).
      { apply settles_of_vars; [exact Hw|]. intros y Hy. apply (IH ((w, u) :: old)); [exact E|]. cbn. destruct (Nat.eqb_spec w y); [congruence|]. now apply Ho. }
      destruct Hr as [n Hn]. exists (S n). intros [|m] Hm; [lia|]. cbn. rewrite Hx, Hn by lia. f_equal. symmetry. now apply R_bound.
    + apply (IH ((v, u) :: old)); [exact E|]. cbn. destruct (Nat.eqb_spec v w); [contradiction|exact Hb].
Qed.
Lemma resolves_ok s t : wf s -> resolves s t (res s t).
Proof. intros H. apply settles_of_vars; [exact H|]. intros v _. apply (resolves_new s H (types s) []); [now rewrite app_nil_r|reflexivity]. Qed.
Lemma resolves_only s t r : wf s -> resolves s t r -> r = res s t.
Proof. intros H [n Hn]. eapply normalize_ok; [exact H|]. now apply (Hn n). Qed.

(** More bindings. *)
Definition ext (s s' : state) : Prop := (exists a, types s' = a ++ types s) /\ (exists b, muts s' = b ++ muts s).
Lemma ext_refl s : ext s s.
Proof. split; now exists []. Qed.
Lemma ext_trans s1 s2 s3 : ext s1 s2 -> ext s2 s3 -> ext s1 s3.
Proof. intros [[a Ha] [b Hb]] [[c Hc] [d Hd]]. split; [exists (c ++ a)|exists (d ++ b)]; now rewrite <- app_assoc, <- ?Ha, <- ?Hb. Qed.
Lemma ext_solution tv mv s s' : ext s s' -> solution tv mv s' -> solution tv mv s.
Proof. intros [[a Ha] [b Hb]] [H1 H2]. rewrite Ha in H1. rewrite Hb in H2. apply Forall_app in H1, H2. now split. Qed.
Lemma ext_res s s' t : wf s' -> ext s s' -> apply (R s') (M s') (res s t) = res s' t.
Proof. intros Hw He. apply solution_res. eapply ext_solution; [exact He|]. now apply solution_self. Qed.
Lemma ext_mut s s' m : wf s' -> ext s s' -> apply_mut (M s') (apply_mut (M s) m) = apply_mut (M s') m.
Proof. intros Hw He. apply (solution_M (R s')). eapply ext_solution; [exact He|]. now apply solution_self. Qed.
