(** What unification accepts agrees. *)
From Coq Require Import List Bool Arith Lia.
From Verif Require Import UnifyModel UnifySpec UnifyBasics UnifyState UnifyProofs.
Import ListNotations.

Lemma Forall2_map_left {A B C D} (P : A -> B -> Prop) (Q : C -> D -> Prop) f g l r :
  Forall (fun x => forall y, P x y -> Q (f x) (g y)) l -> Forall2 P l r -> Forall2 Q (map f l) (map g r).
Proof. intros H H2. induction H2; cbn; [constructor|]. inversion H; subst. constructor; auto. Qed.
Lemma Forall2_map_right {A B C D} (P : A -> B -> Prop) (Q : C -> D -> Prop) f g l r :
  Forall (fun y => forall x, P x y -> Q (f x) (g y)) r -> Forall2 P l r -> Forall2 Q (map f l) (map g r).
Proof. intros H H2. induction H2; cbn; [constructor|]. inversion H; subst. constructor; auto. Qed.

Lemma agrees_refl m t : agrees m t t.
Proof.
  assert (L1 : forall l, Forall (fun t => agrees m t t) l -> Forall2 (agrees m) l l) by (induction 1; constructor; auto).
  assert (L2 : forall l : list (nat * ty), Forall (fun p => agrees m (snd p) (snd p)) l -> Forall2 (fun c e => fst c = fst e /\ agrees m (snd c) (snd e)) l l) by (induction 1; constructor; auto).
  assert (L3 : forall l : list (mut_ty * ty), Forall (fun p => agrees m (snd p) (snd p)) l -> Forall2 (fun c e => fits m (fst e) (fst c) /\ agrees m (snd e) (snd c)) l l).
  { induction 1; constructor; auto. split; [now left|assumption]. }
  induction t using ty_ind'.
  - apply ag_var.
  - apply ag_never_left.
  - apply ag_native. auto.
  - apply ag_variant. auto.
  - apply ag_tuple. auto.
  - apply ag_record. auto.
  - apply ag_function; auto.
  - apply ag_subscript; auto; right; now left.
  - apply ag_named. auto.
Qed.

Lemma fits_apply m mv a b : fits m a b -> fits m (apply_mut mv a) (apply_mut mv b).
Proof. intros [->|[-> [->| ->]]]; [now left|right; split; [reflexivity|now left]|right; split; [reflexivity|now right]]. Qed.

Lemma agrees_apply m tv mv c : forall e, (agrees m c e -> agrees m (apply tv mv c) (apply tv mv e)) /\ (agrees m e c -> agrees m (apply tv mv e) (apply tv mv c)).
Proof.
  induction c using ty_ind'; intros e'; split; intros Ha; inversion Ha; subst; cbn; try (constructor; fail); try (apply agrees_refl).
  - constructor. eapply Forall2_map_left; [|eassumption]. eapply Forall_impl; [|exact H]. cbn. intros x0 Hx0 y0. now apply Hx0.
  - constructor. eapply Forall2_map_right; [|eassumption]. eapply Forall_impl; [|exact H]. cbn. intros x0 Hx0 y0. now apply Hx0.
  - constructor. eapply Forall2_map_left; [|eassumption]. eapply Forall_impl; [|exact H]. cbn. intros x0 Hx0 y0 [Hf Hy]. split; [exact Hf|now apply Hx0].
  - constructor. eapply Forall2_map_right; [|eassumption]. eapply Forall_impl; [|exact H]. cbn. intros x0 Hx0 y0 [Hf Hy]. split; [exact Hf|now apply Hx0].
  - constructor. eapply Forall2_map_left; [|eassumption]. eapply Forall_impl; [|exact H]. cbn. intros x0 Hx0 y0. now apply Hx0.
  - constructor. eapply Forall2_map_right; [|eassumption]. eapply Forall_impl; [|exact H]. cbn. intros x0 Hx0 y0. now apply Hx0.
  - constructor. eapply Forall2_map_left; [|eassumption]. eapply Forall_impl; [|exact H]. cbn. intros x0 Hx0 y0 [Hf Hy]. split; [exact Hf|now apply Hx0].
  - constructor. eapply Forall2_map_right; [|eassumption]. eapply Forall_impl; [|exact H]. cbn. intros x0 Hx0 y0 [Hf Hy]. split; [exact Hf|now apply Hx0].
  - constructor; [|now apply IHc]. eapply Forall2_map_left; [|eassumption]. eapply Forall_impl; [|exact H]. cbn. intros x0 Hx0 y0 [Hf Hy]. split; [now apply fits_apply|now apply Hx0].
  - constructor; [|now apply IHc]. eapply Forall2_map_right; [|eassumption]. eapply Forall_impl; [|exact H]. cbn. intros x0 Hx0 y0 [Hf Hy]. split; [now apply fits_apply|now apply Hx0].
  - constructor; auto; [|now apply IHc]. eapply Forall2_map_left; [|eassumption]. eapply Forall_impl; [|exact H]. cbn. intros x0 Hx0 y0 [Hf Hy]. split; [now apply fits_apply|now apply Hx0].
  - constructor; auto; [|now apply IHc]. eapply Forall2_map_right; [|eassumption]. eapply Forall_impl; [|exact H]. cbn. intros x0 Hx0 y0 [Hf Hy]. split; [now apply fits_apply|now apply Hx0].
  - constructor. eapply Forall2_map_left; [|eassumption]. eapply Forall_impl; [|exact H]. cbn. intros x0 Hx0 y0. now apply Hx0.
  - constructor. eapply Forall2_map_right; [|eassumption]. eapply Forall_impl; [|exact H]. cbn. intros x0 Hx0 y0. now apply Hx0.
Qed.

(** Without never and subscripts, what agrees exactly is equal. *)
Lemma fits_same a b : fits SameType a b -> a = b.
Proof. intros [H|[H _]]; [exact H|discriminate]. Qed.
Lemma Forall2_eq_left {A} (P : A -> A -> Prop) l r : Forall (fun x => forall y, P x y -> In y r -> x = y) l -> Forall2 P l r -> l = r.
Proof.
  intros H H2. induction H2; [reflexivity|]. inversion H as [|? ? H3 H4]; subst. f_equal; [apply H3; [assumption|now left]|].
  apply IHForall2. eapply Forall_impl; [|exact H4]. cbn. intros z Hz w Hp Hw. apply Hz; [exact Hp|now right].
Qed.
Lemma agrees_equal c : forall e, ordinary c -> ordinary e -> (agrees SameType c e -> c = e) /\ (agrees SameType e c -> e = c).
Proof.
  assert (K : forall (A : Type) (l r : list (A * ty)) (P : A -> A -> Prop), (forall a b, P a b -> a = b) ->
    Forall (fun p => forall e, ordinary (snd p) -> ordinary e -> (agrees SameType (snd p) e -> snd p = e) /\ (agrees SameType e (snd p) -> e = snd p)) l ->
    Forall (fun p => ordinary (snd p)) l -> Forall (fun p => ordinary (snd p)) r ->
    (Forall2 (fun c e => P (fst c) (fst e) /\ agrees SameType (snd c) (snd e)) l r -> l = r) /\ (Forall2 (fun e c => P (fst e) (fst c) /\ agrees SameType (snd e) (snd c)) r l -> r = l) /\
    (Forall2 (fun c e => P (fst e) (fst c) /\ agrees SameType (snd e) (snd c)) l r -> l = r) /\ (Forall2 (fun e c => P (fst c) (fst e) /\ agrees SameType (snd c) (snd e)) r l -> r = l)).
  { intros A l r P HP. revert r. induction l as [|[a t] l IH]; intros [|[b u] r] Hl Ol Or; (repeat split; intros H2; inversion H2; subst; try reflexivity);
      inversion Hl as [|? ? G3 G4]; inversion Ol as [|? ? G5 G6]; inversion Or as [|? ? G7 G8]; subst; cbn in *;
      match goal with H : _ /\ agrees _ _ _ |- _ => destruct H as [Hp Ha] end; apply HP in Hp; subst; destruct (IH _ G4 G6 G8) as (I1 & I2 & I3 & I4); destruct (G3 u G5 G7) as [J1 J2].
    - f_equal; [f_equal; now apply J1|now apply I1].
    - f_equal; [f_equal; now apply J2|now apply I2].
    - f_equal; [f_equal; symmetry; now apply J2|now apply I3].
    - f_equal; [f_equal; symmetry; now apply J1|now apply I4]. }
  assert (L : forall l r : list ty, Forall (fun p => forall e, ordinary p -> ordinary e -> (agrees SameType p e -> p = e) /\ (agrees SameType e p -> e = p)) l ->
    Forall ordinary l -> Forall ordinary r -> (Forall2 (agrees SameType) l r -> l = r) /\ (Forall2 (agrees SameType) r l -> r = l)).
  { intros l r. revert r. induction l as [|t l IH]; intros [|u r] Hl Ol Or; (split; intros H2; inversion H2; subst; try reflexivity);
      inversion Hl as [|? ? G3 G4]; inversion Ol as [|? ? G5 G6]; inversion Or as [|? ? G7 G8]; subst; cbn in *;
      destruct (IH _ G4 G6 G8) as (I1 & I2); destruct (G3 u G5 G7) as [J1 J2].
    - f_equal; [now apply J1|now apply I1].
    - f_equal; [now apply J2|now apply I2]. }
  assert (E0 : forall a b : nat, a = b -> a = b) by auto.
  assert (E1 : forall a b, fits SameType a b -> a = b) by apply fits_same.
  induction c using ty_ind'; intros e' Hc He; split; intros Ha; inversion Ha; subst; inversion Hc; inversion He; subst; try reflexivity;
    match goal with
    | H : Forall _ ?l, F : Forall2 _ ?l ?r |- _ =>
      first [destruct (L l r H ltac:(assumption) ltac:(assumption)) as [K1 K2]; f_equal; exact (K1 F)
      |destruct (K _ l r eq E0 H ltac:(assumption) ltac:(assumption)) as (K1 & K2 & K3 & K4); f_equal; exact (K1 F)
      |destruct (K _ l r _ E1 H ltac:(assumption) ltac:(assumption)) as (K1 & K2 & K3 & K4); f_equal; [exact (K3 F)|now apply IHc]]
    | H : Forall _ ?l, F : Forall2 _ ?r ?l |- _ =>
      first [destruct (L l r H ltac:(assumption) ltac:(assumption)) as [K1 K2]; f_equal; exact (K2 F)
      |destruct (K _ l r eq E0 H ltac:(assumption) ltac:(assumption)) as (K1 & K2 & K3 & K4); f_equal; exact (K2 F)
      |destruct (K _ l r _ E1 H ltac:(assumption) ltac:(assumption)) as (K1 & K2 & K3 & K4); f_equal; [exact (K4 F)|now apply IHc]]
    end.
Qed.

Section Formed.
Variable native_arity def_arity : nat -> nat.
Variable shapes : list nat -> Prop.
Hypothesis Hprefix : prefix_free shapes.
Notation formed := (formed native_arity def_arity shapes).
Notation formed_state := (formed_state native_arity def_arity shapes).

Lemma Forall_map_iff {A B} (f : A -> B) (P : B -> Prop) l : Forall P (map f l) <-> Forall (fun x => P (f x)) l.
Proof. apply Forall_map. Qed.

Lemma formed_apply tv mv t : (forall v, formed (tv v)) -> formed t -> formed (apply tv mv t).
Proof.
  intros Hv. induction t using ty_ind'; intros Hf; inversion Hf; subst; cbn; auto.
  - constructor; [now rewrite map_length|]. apply Forall_map. rewrite Forall_forall in *. auto.
  - constructor. apply Forall_map. rewrite Forall_forall in *. cbn. auto.
  - constructor. apply Forall_map. rewrite Forall_forall in *. auto.
  - constructor; [rewrite map_map; cbn; assumption|]. apply Forall_map. rewrite Forall_forall in *. cbn. auto.
  - constructor; auto. apply Forall_map. rewrite Forall_forall in *. cbn. auto.
  - constructor; auto. apply Forall_map. rewrite Forall_forall in *. cbn. auto.
  - constructor; [now rewrite map_length|]. apply Forall_map. rewrite Forall_forall in *. auto.
Qed.
Lemma tval_formed l w : Forall (fun p => formed (snd p)) l -> formed (tval l w).
Proof.
  induction 1 as [|[v u] l Hu Hl IH]; cbn; [constructor|]. apply formed_apply; [|exact IH]. intros x. unfold one. destruct (Nat.eqb v x); [exact Hu|constructor].
Qed.
Lemma res_formed s t : formed_state s -> formed t -> formed (res s t).
Proof. intros Hs Ht. apply formed_apply; [|exact Ht]. intros v. unfold R. apply formed_apply; [constructor|]. now apply tval_formed. Qed.

Lemma steps_formed c e a b : formed c -> formed e -> In (Types a b) (steps c e) -> formed a /\ formed b.
Proof.
  intros Hc He Hin.
  assert (P1 : forall l r, Forall formed l -> Forall formed r -> In (Types a b) (map (fun p : ty * ty => Types (fst p) (snd p)) (combine l r)) -> formed a /\ formed b).
  { intros l r Hl Hr Hi. rewrite Forall_forall in Hl, Hr. apply in_map_iff in Hi. destruct Hi as ([x y] & [= <- <-] & Hi). split; [apply in_combine_l in Hi; auto|apply in_combine_r in Hi; auto]. }
  assert (P2 : forall (l r : list (nat * ty)), Forall (fun p => formed (snd p)) l -> Forall (fun p => formed (snd p)) r -> In (Types a b) (flat_map (fun p : (nat * ty) * (nat * ty) => [Check (Nat.eqb (fst (fst p)) (fst (snd p))); Types (snd (fst p)) (snd (snd p))]) (combine l r)) -> formed a /\ formed b).
  { intros l r Hl Hr Hi. rewrite Forall_forall in Hl, Hr. apply in_flat_map in Hi. destruct Hi as ([x y] & Hi & Hj). cbn in Hj. destruct Hj as [Hj|[Hj|[]]]; [discriminate|]. injection Hj as <- <-.
    split; [apply in_combine_l in Hi; now apply Hl|apply in_combine_r in Hi; now apply Hr]. }
  assert (P3 : forall (l r : list (mut_ty * ty)), Forall (fun p => formed (snd p)) l -> Forall (fun p => formed (snd p)) r -> In (Types a b) (flat_map (fun p : (mut_ty * ty) * (mut_ty * ty) => [Muts (fst (snd p)) (fst (fst p)); Types (snd (snd p)) (snd (fst p))]) (combine l r)) -> formed a /\ formed b).
  { intros l r Hl Hr Hi. rewrite Forall_forall in Hl, Hr. apply in_flat_map in Hi. destruct Hi as ([x y] & Hi & Hj). cbn in Hj. destruct Hj as [Hj|[Hj|[]]]; [discriminate|]. injection Hj as <- <-.
    split; [apply in_combine_r in Hi; now apply Hr|apply in_combine_l in Hi; now apply Hl]. }
  destruct c, e; cbn [steps] in Hin; try (destruct Hin as [Hin|[]]; discriminate); inversion Hc; inversion He; subst.
  - destruct Hin as [Hin|Hin]; [discriminate|]. eapply P1; [| |exact Hin]; assumption.
  - destruct Hin as [Hin|Hin]; [discriminate|]. eapply P2; [| |exact Hin]; assumption.
  - destruct Hin as [Hin|Hin]; [discriminate|]. eapply P1; [| |exact Hin]; assumption.
  - eapply P2; [| |exact Hin]; assumption.
  - destruct Hin as [Hin|Hin]; [discriminate|]. apply in_app_iff in Hin. destruct Hin as [Hin|[Hin|[]]]; [eapply P3; [| |exact Hin]; assumption|]. injection Hin as -> ->. now split.
  - destruct Hin as [Hin|Hin]; [discriminate|]. apply in_app_iff in Hin. destruct Hin as [Hin|[Hin|[]]]; [eapply P3; [| |exact Hin]; assumption|]. injection Hin as -> ->. now split.
  - destruct Hin as [Hin|[Hin|Hin]]; [discriminate|discriminate|]. eapply P1; [| |exact Hin]; assumption.
Qed.

(** The assertion on the number of parameters holds when it is reached. *)
Lemma steps_assert c e : formed c -> formed e -> (forall b, In (Assert b) (steps c e) -> b = true) \/ exists l, steps c e = Check false :: l.
Proof.
  intros Hc He.
  assert (P1 : forall b l r, ~ In (Assert b) (map (fun p : ty * ty => Types (fst p) (snd p)) (combine l r))).
  { intros b l r Hi. apply in_map_iff in Hi. destruct Hi as (x & Hi & _). discriminate. }
  assert (P2 : forall b (l r : list (nat * ty)), ~ In (Assert b) (flat_map (fun p : (nat * ty) * (nat * ty) => [Check (Nat.eqb (fst (fst p)) (fst (snd p))); Types (snd (fst p)) (snd (snd p))]) (combine l r))).
  { intros b l r Hi. apply in_flat_map in Hi. destruct Hi as (x & _ & [Hi|[Hi|[]]]); discriminate. }
  assert (P3 : forall b (l r : list (mut_ty * ty)), ~ In (Assert b) (flat_map (fun p : (mut_ty * ty) * (mut_ty * ty) => [Muts (fst (snd p)) (fst (fst p)); Types (snd (snd p)) (snd (fst p))]) (combine l r))).
  { intros b l r Hi. apply in_flat_map in Hi. destruct Hi as (x & _ & [Hi|[Hi|[]]]); discriminate. }
  destruct c, e; cbn [steps]; try (right; now eexists); try (left; intros b Hin; exfalso; destruct Hin as [Hin|Hin]; [discriminate|]; first [eapply P1; exact Hin|eapply P2; exact Hin]).
  - left. intros b Hin. exfalso. eapply P2; exact Hin.
  - left. intros b Hin. exfalso. destruct Hin as [Hin|Hin]; [discriminate|]. apply in_app_iff in Hin. destruct Hin as [Hin|[Hin|[]]]; [eapply P3; exact Hin|discriminate].
  - left. intros b Hin. exfalso. destruct Hin as [Hin|Hin]; [discriminate|]. apply in_app_iff in Hin. destruct Hin as [Hin|[Hin|[]]]; [eapply P3; exact Hin|discriminate].
  - destruct (Nat.eqb_spec def def0) as [->|]; [|right; now eexists]. left. intros b Hin. destruct Hin as [Hin|[Hin|Hin]]; [discriminate| |exfalso; eapply P1; exact Hin]. injection Hin as <-. inversion Hc; inversion He; subst.
    unfold same_length. apply Nat.eqb_eq. congruence.
Qed.

(** What a step asks for. *)
Definition holds (m : mode) (tv : nat -> ty) (mv : nat -> mut_ty) (x : step) : Prop :=
  match x with
  | Check b | Assert b => b = true
  | Muts c t => fits m (apply_mut mv c) (apply_mut mv t)
  | Types c e => agrees m (apply tv mv c) (apply tv mv e)
  end.

Lemma Forall_combine {A B} (P : A * B -> Prop) l r : length l = length r -> Forall P (combine l r) -> Forall2 (fun x y => P (x, y)) l r.
Proof. revert r. induction l as [|x l IH]; intros [|y r]; cbn; try discriminate; [constructor|]. intros [= E] H. inversion H; subst. constructor; auto. Qed.
Lemma Forall2_weaken {A B} (P Q : A -> B -> Prop) l r : (forall x y, P x y -> Q x y) -> Forall2 P l r -> Forall2 Q l r.
Proof. intros H H2. induction H2; constructor; auto. Qed.
Lemma Forall2_maps {A B C D} (f : A -> C) (g : B -> D) (P : C -> D -> Prop) l r : Forall2 (fun x y => P (f x) (g y)) l r -> Forall2 P (map f l) (map g r).
Proof. intros H. induction H; cbn; constructor; auto. Qed.
Lemma Forall_flat_map_pair {A B} (P : B -> Prop) (f g : A -> B) l : Forall P (flat_map (fun x => [f x; g x]) l) -> Forall (fun x => P (f x) /\ P (g x)) l.
Proof. induction l as [|x l IH]; cbn; intros H; [constructor|]. inversion H as [|? ? H1 H2]; subst. inversion H2; subst. constructor; auto. Qed.

Lemma prefix_names (l r : list (nat * ty)) : Forall (fun p => fst (fst p) = fst (snd p)) (combine l r) ->
  (exists k, map fst r = map fst l ++ k) \/ (exists k, map fst l = map fst r ++ k).
Proof.
  revert r. induction l as [|[a t] l IH]; intros [|[b u] r]; cbn; intros H; try (left; now eexists).
  - right. now eexists.
  - inversion H as [|? ? H1 H2]; subst. cbn in H1. subst. destruct (IH _ H2) as [[k ->]|[k ->]]; [left; now exists k|right; now exists k].
Qed.
Lemma shapes_length (l r : list (nat * ty)) : shapes (map fst l) -> shapes (map fst r) -> Forall (fun p => fst (fst p) = fst (snd p)) (combine l r) -> length l = length r.
Proof.
  intros Hl Hr H. rewrite <- (map_length fst l), <- (map_length fst r). destruct (prefix_names _ _ H) as [[k E]|[k E]].
  - rewrite E in Hr. rewrite E, (Hprefix _ _ Hl Hr), app_nil_r. reflexivity.
  - rewrite E in Hl. rewrite E, (Hprefix _ _ Hr Hl), app_nil_r. reflexivity.
Qed.

Lemma member_offers c e : member_can_satisfy c e = true -> offers c e.
Proof. unfold offers. destruct c as [[]|], e as [[]|]; cbn; intros H; try discriminate; auto. Qed.

Lemma steps_sound m tv mv c e : leaf c = false -> leaf e = false -> formed c -> formed e -> Forall (holds m tv mv) (steps c e) -> agrees m (apply tv mv c) (apply tv mv e).
Proof.
  intros Lc Le Fc Fe H.
  assert (P1 : forall l r, length l = length r -> Forall (holds m tv mv) (map (fun p : ty * ty => Types (fst p) (snd p)) (combine l r)) -> Forall2 (agrees m) (map (apply tv mv) l) (map (apply tv mv) r)).
  { intros l r El Hl. apply Forall_map, Forall_combine in Hl; [|exact El]. now apply Forall2_maps. }
  assert (P2 : forall (l r : list (nat * ty)), length l = length r -> Forall (holds m tv mv) (flat_map (fun p : (nat * ty) * (nat * ty) => [Check (Nat.eqb (fst (fst p)) (fst (snd p))); Types (snd (fst p)) (snd (snd p))]) (combine l r)) ->
    Forall2 (fun c e => fst c = fst e /\ agrees m (snd c) (snd e)) (map (fun p => (fst p, apply tv mv (snd p))) l) (map (fun p => (fst p, apply tv mv (snd p))) r)).
  { intros l r El Hl. apply Forall_flat_map_pair, Forall_combine in Hl; [|exact El]. apply Forall2_maps. eapply Forall2_weaken; [|exact Hl]. cbn. intros x y [Hx Hy]. apply Nat.eqb_eq in Hx. now split. }
  assert (P3 : forall (l r : list (mut_ty * ty)), length l = length r -> Forall (holds m tv mv) (flat_map (fun p : (mut_ty * ty) * (mut_ty * ty) => [Muts (fst (snd p)) (fst (fst p)); Types (snd (snd p)) (snd (fst p))]) (combine l r)) ->
    Forall2 (fun c e => fits m (fst e) (fst c) /\ agrees m (snd e) (snd c)) (map (fun p => (apply_mut mv (fst p), apply tv mv (snd p))) l) (map (fun p => (apply_mut mv (fst p), apply tv mv (snd p))) r)).
  { intros l r El Hl. apply Forall_flat_map_pair, Forall_combine in Hl; [|exact El]. apply Forall2_maps. eapply Forall2_weaken; [|exact Hl]. cbn. intros x y [Hx Hy]. now split. }
  destruct c, e; try discriminate; cbn [steps] in H; try (inversion H as [|? ? Hf]; discriminate Hf); cbn [apply].
  - inversion H as [|? ? H1 H2]; subst. cbn in H1. apply Nat.eqb_eq in H1. subst. inversion Fc; inversion Fe; subst. constructor. apply P1; [congruence|exact H2].
  - inversion H as [|? ? H1 H2]; subst. cbn in H1. apply Nat.eqb_eq in H1. constructor. now apply P2.
  - inversion H as [|? ? H1 H2]; subst. cbn in H1. apply Nat.eqb_eq in H1. constructor. now apply P1.
  - constructor. inversion Fc; inversion Fe; subst. apply P2; [|exact H]. apply shapes_length; auto.
    apply Forall_flat_map_pair in H. eapply Forall_impl; [|exact H]. cbn. intros x [Hx _]. now apply Nat.eqb_eq in Hx.
  - inversion H as [|? ? H1 H2]; subst. cbn in H1. apply Nat.eqb_eq in H1. apply Forall_app in H2. destruct H2 as [H2 H3]. inversion H3; subst. constructor; [now apply P3|assumption].
  - inversion H as [|? ? H1 H2]; subst. cbn in H1. apply andb_true_iff in H1. destruct H1 as [H1 H4]. apply andb_true_iff in H4. destruct H4 as [H4 H5]. apply Nat.eqb_eq in H1.
    apply Forall_app in H2. destruct H2 as [H2 H3]. inversion H3; subst. constructor; [now apply P3|assumption|now apply member_offers|now apply member_offers].
  - inversion H as [|? ? H1 H2]; subst. cbn in H1. apply Nat.eqb_eq in H1. subst. inversion H2 as [|? ? H3 H4]; subst. cbn in H3. apply Nat.eqb_eq in H3. constructor. now apply P1.
Qed.

(** States and their types. *)
Definition good (s : state) : Prop := wf s /\ formed_state s.

Lemma holds_ext m s s' x : wf s -> wf s' -> ext s s' -> holds m (R s) (M s) x -> holds m (R s') (M s') x.
Proof.
  intros Hw Hw' He. destruct x as [b|b|c t|c e]; cbn; auto.
  - intros H. rewrite <- (ext_mut s s' c), <- (ext_mut s s' t) by auto. now apply fits_apply.
  - intros H. fold (res s' c) (res s' e). rewrite <- (ext_res s s' c), <- (ext_res s s' e) by auto. now apply agrees_apply.
Qed.

Variable first_is_root : state -> nat -> nat -> bool.
Notation unify := (unify first_is_root).

Definition fine (m : mode) (s : state) (x : outcome) (P : state -> Prop) : Prop :=
  match x with
  | Unified s' => good s' /\ ext s s' /\ P s'
  | Panics => False
  | _ => True
  end.

Lemma each_fine m go l : (forall x s, In x l -> good s -> fine m s (go x s) (fun s' => holds m (R s') (M s') x)) ->
  forall s, good s -> fine m s (each go l s) (fun s' => Forall (holds m (R s') (M s')) l).
Proof.
  induction l as [|x l IH]; intros Hgo s Hs; cbn; [split; [exact Hs|split; [apply ext_refl|constructor]]|].
  pose proof (Hgo x s (or_introl eq_refl) Hs) as Hx.
  destruct (go x s) as [s1| | | |] eqn:E; try exact I; [|exact Hx]. destruct Hx as (Hg1 & He1 & Hh1).
  pose proof (IH (fun y s Hy => Hgo y s (or_intror Hy)) s1 Hg1) as Hl.
  destruct (each go l s1) as [s2| | | |]; try exact Hl. destruct Hl as (Hg2 & He2 & Hh2). split; [exact Hg2|]. split; [now apply (ext_trans s s1)|]. constructor; [|exact Hh2]. now apply (holds_ext m s1 s2); [apply Hg1|apply Hg2| |].
Qed.

Lemma unify_variable_fine m v t s c : good s -> res s c = TVar v -> formed (res s t) ->
  fine m s (unify_variable v (res s t) s) (fun s' => res s' c = res s' t).
Proof.
  intros [Hw Hf] Hc Ht. unfold unify_variable. destruct (occurs v (res s t)) eqn:Eo; [exact I|]. cbn.
  assert (Hv : occurs v (res s c) = true) by (rewrite Hc; cbn; apply Nat.eqb_refl).
  assert (W : wf (bind_type s v (res s t))). { apply wf_bind_type; auto; [now apply res_free in Hv|]. intros w Hx. now apply res_free in Hx. }
  split; [split; [exact W|constructor; [exact Ht|exact Hf]]|]. split; [apply ext_bind_type|].
  rewrite <- (ext_res s _ c W), <- (ext_res s _ t W) by apply ext_bind_type. rewrite Hc. cbn [apply]. rewrite R_bind by exact W. reflexivity.
Qed.

Lemma unify_fine f : forall m c e s, good s -> formed c -> formed e -> fine m s (unify f m c e s) (fun s' => agrees m (res s' c) (res s' e)).
Proof.
  induction f as [f IHf] using (well_founded_induction lt_wf). intros m c e s Hs Hc He.
  assert (Hk : forall s', good s' -> ext s s' -> agrees m (res s c) (res s e) -> agrees m (res s' c) (res s' e)).
  { intros s' Hg Hx Ha. rewrite <- (ext_res s s' c), <- (ext_res s s' e) by (auto; apply Hg). now apply agrees_apply. }
  pose proof (res_formed s c (proj2 Hs) Hc) as Fc. pose proof (res_formed s e (proj2 Hs) He) as Fe.
  destruct (unify_cases first_is_root f m c e s (proj1 Hs)) as [Hn|[[-> Hn]|(g & -> & Hg)]]; [rewrite Hn; exact I|rewrite Hn; split; [exact Hs|split; [apply ext_refl|apply agrees_refl]]|].
  revert Hg. generalize (unify (S g) m c e s). intros out Hg. inversion Hg as [E Er|E Er|E Er|a b Ea Eb Hab Er|a b Ea Eb Hab Er|v Ev El Er|v Ev El Er|L1 L2 Er].
  - split; [exact Hs|split; [apply ext_refl|]]. rewrite E. constructor.
  - split; [exact Hs|split; [apply ext_refl|]]. rewrite E. constructor.
  - split; [exact Hs|split; [apply ext_refl|]]. rewrite E. apply agrees_refl.
  - pose proof (unify_variable_fine m b c s e Hs Eb Fc) as H. rewrite Ea in H. unfold unify_variable in H. cbn in H. destruct (Nat.eqb_spec a b) as [|Hne]; [contradiction|]. cbn in H |- *.
    destruct H as (H1 & H2 & H3). split; [exact H1|]. split; [exact H2|]. rewrite H3. apply agrees_refl.
  - pose proof (unify_variable_fine m a e s c Hs Ea Fe) as H. rewrite Eb in H. unfold unify_variable in H. cbn in H. destruct (Nat.eqb_spec b a) as [|Hne]; [congruence|]. cbn in H |- *.
    destruct H as (H1 & H2 & H3). split; [exact H1|]. split; [exact H2|]. rewrite H3. apply agrees_refl.
  - pose proof (unify_variable_fine m v e s c Hs Ev Fe) as H. destruct (unify_variable v (res s e) s); try exact H. destruct H as (H1 & H2 & H3). split; [exact H1|]. split; [exact H2|]. rewrite H3. apply agrees_refl.
  - pose proof (unify_variable_fine m v c s e Hs Ev Fc) as H. destruct (unify_variable v (res s c) s); try exact H. destruct H as (H1 & H2 & H3). split; [exact H1|]. split; [exact H2|]. rewrite H3. apply agrees_refl.
  - destruct (steps_assert _ _ Fc Fe) as [Has|[l El]]; [|rewrite El; exact I].
    assert (H : fine m s (each (do_step first_is_root g m) (steps (res s c) (res s e)) s) (fun s' => Forall (holds m (R s') (M s')) (steps (res s c) (res s e)))).
    { apply each_fine; [|exact Hs]. intros x s1 Hx Hs1. destruct x as [b|b|a b|a b]; cbn [do_step].
      - destruct b; [|exact I]. split; [exact Hs1|]. split; [apply ext_refl|reflexivity].
      - rewrite (Has b Hx). split; [exact Hs1|]. split; [apply ext_refl|reflexivity].
      - destruct (at_least_outcome first_is_root m a b s1) as [H|[s2 H]]; rewrite H; [exact I|]. destruct (at_least_ok _ _ _ _ _ _ (proj1 Hs1) H) as (W & X & T & F).
        split; [split; [exact W|unfold UnifySpec.formed_state; rewrite T; apply Hs1]|]. split; [exact X|exact F].
      - destruct (steps_formed _ _ _ _ Fc Fe Hx) as [Fa Fb]. apply (IHf g); auto. }
    destruct (each (do_step first_is_root g m) (steps (res s c) (res s e)) s) as [s'| | | |]; try exact H. destruct H as (H1 & H2 & H3). split; [exact H1|]. split; [exact H2|].
    rewrite <- (ext_res s s' c), <- (ext_res s s' e) by (auto; apply H1). now apply steps_sound.
Qed.

(** A program's equalities. *)
Definition formed_constraint (x : constraint) : Prop := formed (fst (snd x)) /\ formed (snd (snd x)).
Lemma solve_fine f l : Forall formed_constraint l -> forall s, good s ->
  match solve first_is_root f l s with
  | Unified s' => good s' /\ ext s s' /\ Forall (fun x => agrees (fst x) (res s' (fst (snd x))) (res s' (snd (snd x)))) l
  | Panics => False
  | _ => True
  end.
Proof.
  unfold solve. induction 1 as [|[m [c e]] l [Hc He] Hl IH]; intros s Hs; cbn; [split; [exact Hs|split; [apply ext_refl|constructor]]|]. cbn in Hc, He.
  pose proof (unify_fine f m c e s Hs Hc He) as H. destruct (unify f m c e s) as [s1| | | |]; try exact H. destruct H as (H1 & H2 & H3).
  specialize (IH s1 H1). match type of IH with match ?x with _ => _ end => destruct x as [s2| | | |] end; try exact IH. destruct IH as (I1 & I2 & I3). split; [exact I1|]. split; [now apply (ext_trans s s1)|]. constructor; [|exact I3].
  cbn [fst snd]. rewrite <- (ext_res s1 s2 c), <- (ext_res s1 s2 e) by (auto; apply I1). now apply agrees_apply.
Qed.
Lemma good_empty : good empty.
Proof. split; [split; constructor|constructor]. Qed.
End Formed.
