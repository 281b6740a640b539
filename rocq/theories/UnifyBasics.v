(** Types, substitutions and equality. *)
From Coq Require Import List Bool Arith Lia.
From Verif Require Import UnifyModel UnifySpec.
Import ListNotations.

Section Ind.
Variable P : ty -> Prop.
Hypothesis Hvar : forall v, P (TVar v).
Hypothesis Hnever : P TNever.
Hypothesis Hnative : forall b l, Forall P l -> P (TNative b l).
Hypothesis Hvariant : forall l, Forall (fun p => P (snd p)) l -> P (TVariant l).
Hypothesis Htuple : forall l, Forall P l -> P (TTuple l).
Hypothesis Hrecord : forall l, Forall (fun p => P (snd p)) l -> P (TRecord l).
Hypothesis Hfunction : forall l r, Forall (fun p => P (snd p)) l -> P r -> P (TFunction l r).
Hypothesis Hsubscript : forall l r c d, Forall (fun p => P (snd p)) l -> P r -> P (TSubscript l r c d).
Hypothesis Hnamed : forall n l, Forall P l -> P (TNamed n l).
Fixpoint ty_ind' (t : ty) : P t :=
  let many := fix many (l : list ty) : Forall P l :=
    match l with [] => Forall_nil _ | x :: l => Forall_cons _ (ty_ind' x) (many l) end in
  match t with
  | TVar v => Hvar v
  | TNever => Hnever
  | TNative b l => Hnative b l (many l)
  | TVariant l => Hvariant l ((fix go (l : list (nat * ty)) : Forall (fun p => P (snd p)) l :=
      match l with [] => Forall_nil _ | x :: l => Forall_cons x (ty_ind' (snd x)) (go l) end) l)
  | TTuple l => Htuple l (many l)
  | TRecord l => Hrecord l ((fix go (l : list (nat * ty)) : Forall (fun p => P (snd p)) l :=
      match l with [] => Forall_nil _ | x :: l => Forall_cons x (ty_ind' (snd x)) (go l) end) l)
  | TFunction l r => Hfunction l r ((fix go (l : list (mut_ty * ty)) : Forall (fun p => P (snd p)) l :=
      match l with [] => Forall_nil _ | x :: l => Forall_cons x (ty_ind' (snd x)) (go l) end) l) (ty_ind' r)
  | TSubscript l r c d => Hsubscript l r c d ((fix go (l : list (mut_ty * ty)) : Forall (fun p => P (snd p)) l :=
      match l with [] => Forall_nil _ | x :: l => Forall_cons x (ty_ind' (snd x)) (go l) end) l) (ty_ind' r)
  | TNamed n l => Hnamed n l (many l)
  end.
End Ind.

(** Equality. *)
Lemma forall2b_eq {A} (f : A -> A -> bool) (l : list A) : Forall (fun x => forall y, f x y = true <-> x = y) l ->
  forall r, forall2b f l r = true <-> l = r.
Proof.
  induction 1 as [|x l Hx Hl IH]; intros [|y r]; cbn; try (split; [discriminate|discriminate]); [split; reflexivity|].
  rewrite andb_true_iff, Hx, IH. split; [intros [-> ->]; reflexivity|intros E; now inversion E].
Qed.
Lemma mut_eqb_eq a b : mut_eqb a b = true <-> a = b.
Proof.
  destruct a, b; cbn; try (split; [discriminate|discriminate]).
  - rewrite Nat.eqb_eq. split; congruence.
  - rewrite Bool.eqb_true_iff. split; congruence.
Qed.
Lemma member_eqb_eq a b : member_eqb a b = true <-> a = b.
Proof. destruct a as [[]|], b as [[]|]; cbn; split; congruence. Qed.
Lemma ty_eqb_eq a : forall b, ty_eqb a b = true <-> a = b.
Proof.
  induction a using ty_ind'; intros bb; destruct bb; cbn; try (split; [discriminate|discriminate]); try (split; reflexivity).
  - rewrite Nat.eqb_eq. split; congruence.
  - rewrite andb_true_iff, Nat.eqb_eq, (forall2b_eq ty_eqb l H). split; [intros [-> ->]; reflexivity|intros E; now inversion E].
  - rewrite forall2b_eq; [split; congruence|]. eapply Forall_impl; [|exact H]. intros [x u] Hu [y w]; cbn in *.
    rewrite andb_true_iff, Nat.eqb_eq, Hu. split; [intros [-> ->]; reflexivity|intros E; now inversion E].
  - rewrite (forall2b_eq ty_eqb l H). split; congruence.
  - rewrite forall2b_eq; [split; congruence|]. eapply Forall_impl; [|exact H]. intros [x u] Hu [y w]; cbn in *.
    rewrite andb_true_iff, Nat.eqb_eq, Hu. split; [intros [-> ->]; reflexivity|intros E; now inversion E].
  - rewrite andb_true_iff, IHa, forall2b_eq; [split; [intros [-> ->]; reflexivity|intros E; now inversion E]|].
    eapply Forall_impl; [|exact H]. intros [x u] Hu [y w]; cbn in *.
    rewrite andb_true_iff, mut_eqb_eq, Hu. split; [intros [-> ->]; reflexivity|intros E; now inversion E].
  - rewrite !andb_true_iff, IHa, !member_eqb_eq, forall2b_eq; [split; [intros [[[-> ->] ->] ->]; reflexivity|intros E; now inversion E]|].
    eapply Forall_impl; [|exact H]. intros [x u] Hu [y w]; cbn in *.
    rewrite andb_true_iff, mut_eqb_eq, Hu. split; [intros [-> ->]; reflexivity|intros E; now inversion E].
  - rewrite andb_true_iff, Nat.eqb_eq, (forall2b_eq ty_eqb l H). split; [intros [-> ->]; reflexivity|intros E; now inversion E].
Qed.

(** Variables that occur. *)
Lemma existsb_snd {A} v (l : list (A * ty)) : existsb (fun p => occurs v (snd p)) l = true <-> exists a t, In (a, t) l /\ occurs v t = true.
Proof. rewrite existsb_exists. split; [intros [[a t] H]; now exists a, t|intros (a & t & H); now exists (a, t)]. Qed.

Lemma map_ext_Forall {A B} (f g : A -> B) l : Forall (fun x => f x = g x) l -> map f l = map g l.
Proof. induction 1; cbn; congruence. Qed.

(** Two substitutions alike on the variables that occur. *)
Lemma apply_ext tv1 tv2 mv1 mv2 t : (forall v, occurs v t = true -> tv1 v = tv2 v) -> (forall v, mv1 v = mv2 v) -> apply tv1 mv1 t = apply tv2 mv2 t.
Proof.
  intros H Hm. assert (Hmm : forall m, apply_mut mv1 m = apply_mut mv2 m) by (intros [v|b]; cbn; [apply Hm|reflexivity]).
  induction t using ty_ind'; cbn in *.
  - apply H. apply Nat.eqb_refl.
  - reflexivity.
  - f_equal. apply map_ext_Forall, Forall_forall. intros x Hx. rewrite Forall_forall in H0. apply H0; [exact Hx|].
    intros v Hv. apply H, existsb_exists. now exists x.
  - f_equal. apply map_ext_Forall, Forall_forall. intros [a x] Hx. rewrite Forall_forall in H0. cbn. f_equal. apply (H0 (a, x)); [exact Hx|].
    intros v Hv. apply H, existsb_exists. now exists (a, x).
  - f_equal. apply map_ext_Forall, Forall_forall. intros x Hx. rewrite Forall_forall in H0. apply H0; [exact Hx|].
    intros v Hv. apply H, existsb_exists. now exists x.
  - f_equal. apply map_ext_Forall, Forall_forall. intros [a x] Hx. rewrite Forall_forall in H0. cbn. f_equal. apply (H0 (a, x)); [exact Hx|].
    intros v Hv. apply H, existsb_exists. now exists (a, x).
  - f_equal; [|apply IHt; intros v Hv; apply H; now rewrite Hv, orb_true_r].
    apply map_ext_Forall, Forall_forall. intros [a x] Hx. rewrite Forall_forall in H0. cbn. f_equal; [apply Hmm|]. apply (H0 (a, x)); [exact Hx|].
    intros v Hv. apply H, orb_true_iff. left. apply existsb_exists. now exists (a, x).
  - f_equal; [|apply IHt; intros v Hv; apply H; now rewrite Hv, orb_true_r].
    apply map_ext_Forall, Forall_forall. intros [a x] Hx. rewrite Forall_forall in H0. cbn. f_equal; [apply Hmm|]. apply (H0 (a, x)); [exact Hx|].
    intros v Hv. apply H, orb_true_iff. left. apply existsb_exists. now exists (a, x).
  - f_equal. apply map_ext_Forall, Forall_forall. intros x Hx. rewrite Forall_forall in H0. apply H0; [exact Hx|].
    intros v Hv. apply H, existsb_exists. now exists x.
Qed.

Lemma apply_mut_apply m1 m2 m : apply_mut m2 (apply_mut m1 m) = apply_mut (fun v => apply_mut m2 (m1 v)) m.
Proof. now destruct m. Qed.

(** One substitution after another. *)
Lemma apply_apply t1 m1 t2 m2 t : apply t2 m2 (apply t1 m1 t) = apply (fun v => apply t2 m2 (t1 v)) (fun v => apply_mut m2 (m1 v)) t.
Proof.
  induction t using ty_ind'; cbn; try reflexivity; rewrite ?map_map, ?IHt; f_equal;
    (apply map_ext_Forall; eapply Forall_impl; [|exact H]; cbn; intros; [try exact H0; now rewrite ?H0, ?apply_mut_apply]).
Qed.

Lemma apply_mut_id m : apply_mut MVar m = m.
Proof. now destruct m. Qed.
Lemma map_id_Forall {A} (f : A -> A) l : Forall (fun x => f x = x) l -> map f l = l.
Proof. induction 1; cbn; congruence. Qed.
Lemma apply_id t : apply TVar MVar t = t.
Proof.
  induction t using ty_ind'; cbn; try reflexivity; rewrite ?IHt; f_equal;
    (apply map_id_Forall; eapply Forall_impl; [|exact H]; cbn; intros; try exact H0; match goal with x : (_ * _)%type |- _ => destruct x; cbn in *; now rewrite ?H0, ?apply_mut_id end).
Qed.

Lemma occurs_apply tv mv w t : occurs w (apply tv mv t) = true -> exists x, occurs x t = true /\ occurs w (tv x) = true.
Proof.
  induction t using ty_ind'; cbn; intros Ho.
  - exists v. rewrite Nat.eqb_refl. now split.
  - discriminate.
  - apply existsb_exists in Ho. destruct Ho as (y & Hy & Ho). apply in_map_iff in Hy. destruct Hy as (x & <- & Hx).
    rewrite Forall_forall in H. destruct (H _ Hx Ho) as (z & Hz & Hw). exists z. split; [|exact Hw]. apply existsb_exists. now exists x.
  - apply existsb_exists in Ho. destruct Ho as (y & Hy & Ho). apply in_map_iff in Hy. destruct Hy as (x & <- & Hx).
    rewrite Forall_forall in H. destruct (H _ Hx Ho) as (z & Hz & Hw). exists z. split; [|exact Hw]. apply existsb_exists. now exists x.
  - apply existsb_exists in Ho. destruct Ho as (y & Hy & Ho). apply in_map_iff in Hy. destruct Hy as (x & <- & Hx).
    rewrite Forall_forall in H. destruct (H _ Hx Ho) as (z & Hz & Hw). exists z. split; [|exact Hw]. apply existsb_exists. now exists x.
  - apply existsb_exists in Ho. destruct Ho as (y & Hy & Ho). apply in_map_iff in Hy. destruct Hy as (x & <- & Hx).
    rewrite Forall_forall in H. destruct (H _ Hx Ho) as (z & Hz & Hw). exists z. split; [|exact Hw]. apply existsb_exists. now exists x.
  - apply orb_true_iff in Ho. destruct Ho as [Ho|Ho]; [|destruct (IHt Ho) as (z & Hz & Hw); exists z; now rewrite Hz, orb_true_r].
    apply existsb_exists in Ho. destruct Ho as (y & Hy & Ho). apply in_map_iff in Hy. destruct Hy as (x & <- & Hx).
    rewrite Forall_forall in H. destruct (H _ Hx Ho) as (z & Hz & Hw). exists z. split; [|exact Hw]. apply orb_true_iff. left. apply existsb_exists. now exists x.
  - apply orb_true_iff in Ho. destruct Ho as [Ho|Ho]; [|destruct (IHt Ho) as (z & Hz & Hw); exists z; now rewrite Hz, orb_true_r].
    apply existsb_exists in Ho. destruct Ho as (y & Hy & Ho). apply in_map_iff in Hy. destruct Hy as (x & <- & Hx).
    rewrite Forall_forall in H. destruct (H _ Hx Ho) as (z & Hz & Hw). exists z. split; [|exact Hw]. apply orb_true_iff. left. apply existsb_exists. now exists x.
  - apply existsb_exists in Ho. destruct Ho as (y & Hy & Ho). apply in_map_iff in Hy. destruct Hy as (x & <- & Hx).
    rewrite Forall_forall in H. destruct (H _ Hx Ho) as (z & Hz & Hw). exists z. split; [|exact Hw]. apply existsb_exists. now exists x.
Qed.

(** Sizes. *)
Fixpoint size (t : ty) : nat :=
  S match t with
    | TVar _ | TNever => 0
    | TNative _ l | TTuple l | TNamed _ l => list_sum (map size l)
    | TVariant l | TRecord l => list_sum (map (fun p => size (snd p)) l)
    | TFunction l r | TSubscript l r _ _ => list_sum (map (fun p => size (snd p)) l) + size r
    end.
Lemma list_sum_in {A} (f : A -> nat) x l : In x l -> f x <= list_sum (map f l).
Proof. unfold list_sum. induction l as [|y l IH]; cbn; [easy|]. intros [-> |H]; [lia|]. specialize (IH H). cbn in IH. lia. Qed.
Lemma size_pos t : 1 <= size t.
Proof. destruct t; cbn; lia. Qed.

Lemma size_ext tv1 mv1 tv2 mv2 t : (forall v, occurs v t = true -> size (tv1 v) = size (tv2 v)) -> size (apply tv1 mv1 t) = size (apply tv2 mv2 t).
Proof.
  induction t using ty_ind'; cbn; intros Hs; rewrite ?map_map; cbn.
  - apply Hs, Nat.eqb_refl.
  - reflexivity.
  - do 2 f_equal. apply map_ext_Forall, Forall_forall. intros x Hx. rewrite Forall_forall in H. apply H; [exact Hx|]. intros v Hv. apply Hs, existsb_exists. now exists x.
  - do 2 f_equal. apply map_ext_Forall, Forall_forall. intros x Hx. rewrite Forall_forall in H. apply H; [exact Hx|]. intros v Hv. apply Hs, existsb_exists. now exists x.
  - do 2 f_equal. apply map_ext_Forall, Forall_forall. intros x Hx. rewrite Forall_forall in H. apply H; [exact Hx|]. intros v Hv. apply Hs, existsb_exists. now exists x.
  - do 2 f_equal. apply map_ext_Forall, Forall_forall. intros x Hx. rewrite Forall_forall in H. apply H; [exact Hx|]. intros v Hv. apply Hs, existsb_exists. now exists x.
  - f_equal. f_equal; [|apply IHt; intros v Hv; apply Hs; now rewrite Hv, orb_true_r]. f_equal. apply map_ext_Forall, Forall_forall. intros x Hx.
    rewrite Forall_forall in H. apply H; [exact Hx|]. intros v Hv. apply Hs, orb_true_iff. left. apply existsb_exists. now exists x.
  - f_equal. f_equal; [|apply IHt; intros v Hv; apply Hs; now rewrite Hv, orb_true_r]. f_equal. apply map_ext_Forall, Forall_forall. intros x Hx.
    rewrite Forall_forall in H. apply H; [exact Hx|]. intros v Hv. apply Hs, orb_true_iff. left. apply existsb_exists. now exists x.
  - do 2 f_equal. apply map_ext_Forall, Forall_forall. intros x Hx. rewrite Forall_forall in H. apply H; [exact Hx|]. intros v Hv. apply Hs, existsb_exists. now exists x.
Qed.

Lemma size_occurs tv mv v t : occurs v t = true -> size (tv v) <= size (apply tv mv t).
Proof.
  induction t using ty_ind'; cbn; intros Ho; rewrite ?map_map; cbn.
  - apply Nat.eqb_eq in Ho. subst. reflexivity.
  - discriminate.
  - apply existsb_exists in Ho. destruct Ho as (x & Hx & Ho). rewrite Forall_forall in H. specialize (H _ Hx Ho). pose proof (list_sum_in (fun x => size (apply tv mv x)) _ _ Hx). cbn in *. lia.
  - apply existsb_exists in Ho. destruct Ho as (x & Hx & Ho). rewrite Forall_forall in H. specialize (H _ Hx Ho). pose proof (list_sum_in (fun x => size (apply tv mv (snd x))) _ _ Hx). cbn in *. lia.
  - apply existsb_exists in Ho. destruct Ho as (x & Hx & Ho). rewrite Forall_forall in H. specialize (H _ Hx Ho). pose proof (list_sum_in (fun x => size (apply tv mv x)) _ _ Hx). cbn in *. lia.
  - apply existsb_exists in Ho. destruct Ho as (x & Hx & Ho). rewrite Forall_forall in H. specialize (H _ Hx Ho). pose proof (list_sum_in (fun x => size (apply tv mv (snd x))) _ _ Hx). cbn in *. lia.
  - apply orb_true_iff in Ho. destruct Ho as [Ho|Ho]; [|specialize (IHt Ho); lia].
    apply existsb_exists in Ho. destruct Ho as (x & Hx & Ho). rewrite Forall_forall in H. specialize (H _ Hx Ho). pose proof (list_sum_in (fun x => size (apply tv mv (snd x))) _ _ Hx). cbn in *. lia.
  - apply orb_true_iff in Ho. destruct Ho as [Ho|Ho]; [|specialize (IHt Ho); lia].
    apply existsb_exists in Ho. destruct Ho as (x & Hx & Ho). rewrite Forall_forall in H. specialize (H _ Hx Ho). pose proof (list_sum_in (fun x => size (apply tv mv (snd x))) _ _ Hx). cbn in *. lia.
  - apply existsb_exists in Ho. destruct Ho as (x & Hx & Ho). rewrite Forall_forall in H. specialize (H _ Hx Ho). pose proof (list_sum_in (fun x => size (apply tv mv x)) _ _ Hx). cbn in *. lia.
Qed.

(** A variable that occurs below the top is smaller. *)
Lemma size_occurs_lt tv mv v t : occurs v t = true -> t <> TVar v -> size (tv v) < size (apply tv mv t).
Proof.
  intros Ho Hn. destruct t; cbn in *; rewrite ?map_map; cbn.
  - apply Nat.eqb_eq in Ho. congruence.
  - discriminate.
  - apply existsb_exists in Ho. destruct Ho as (x & Hx & Ho). apply (size_occurs tv mv) in Ho. pose proof (list_sum_in (fun x => size (apply tv mv x)) _ _ Hx). cbn in *. lia.
  - apply existsb_exists in Ho. destruct Ho as (x & Hx & Ho). apply (size_occurs tv mv) in Ho. pose proof (list_sum_in (fun x => size (apply tv mv (snd x))) _ _ Hx). cbn in *. lia.
  - apply existsb_exists in Ho. destruct Ho as (x & Hx & Ho). apply (size_occurs tv mv) in Ho. pose proof (list_sum_in (fun x => size (apply tv mv x)) _ _ Hx). cbn in *. lia.
  - apply existsb_exists in Ho. destruct Ho as (x & Hx & Ho). apply (size_occurs tv mv) in Ho. pose proof (list_sum_in (fun x => size (apply tv mv (snd x))) _ _ Hx). cbn in *. lia.
  - apply orb_true_iff in Ho. destruct Ho as [Ho|Ho]; [|apply (size_occurs tv mv) in Ho; lia].
    apply existsb_exists in Ho. destruct Ho as (x & Hx & Ho). apply (size_occurs tv mv) in Ho. pose proof (list_sum_in (fun x => size (apply tv mv (snd x))) _ _ Hx). cbn in *. lia.
  - apply orb_true_iff in Ho. destruct Ho as [Ho|Ho]; [|apply (size_occurs tv mv) in Ho; lia].
    apply existsb_exists in Ho. destruct Ho as (x & Hx & Ho). apply (size_occurs tv mv) in Ho. pose proof (list_sum_in (fun x => size (apply tv mv (snd x))) _ _ Hx). cbn in *. lia.
  - apply existsb_exists in Ho. destruct Ho as (x & Hx & Ho). apply (size_occurs tv mv) in Ho. pose proof (list_sum_in (fun x => size (apply tv mv x)) _ _ Hx). cbn in *. lia.
Qed.
