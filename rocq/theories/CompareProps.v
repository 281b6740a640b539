(** C73: comparison operators, minimum, maximum and clamp follow the order of the values. *)
From Coq Require Import List ZArith Bool Lia.
From Flocq Require Import Core IEEE754.BinarySingleNaN.
From Verif Require Import Utf8Model FloatModel FloatSpec CompareModel CompareSpec CompareProofs.
Import ListNotations.
Open Scope Z_scope.

(** The operators say what the order says, for every type whose [cmp] tells an order. *)
Theorem C73_operators : forall (T : Type) (P : T -> Prop) upto cmp, ranking P upto -> tells P upto cmp ->
  forall a b, P a -> P b ->
  (lt cmp a b = true <-> ~ upto b a) /\ (le cmp a b = true <-> upto a b) /\
  (gt cmp a b = true <-> ~ upto a b) /\ (ge cmp a b = true <-> upto b a).
Proof. intros T P upto cmp R C. exact (operators P upto cmp R C). Qed.
Print Assumptions C73_operators.

(** The operators fit together: each is the negation of its opposite and the mirror of another, and
    they chain. *)
Theorem C73_operators_agree : forall (T : Type) (P : T -> Prop) upto cmp, ranking P upto -> tells P upto cmp ->
  forall a b c, P a -> P b -> P c ->
  lt cmp a b = negb (ge cmp a b) /\ gt cmp a b = negb (le cmp a b) /\
  lt cmp a b = gt cmp b a /\ le cmp a b = ge cmp b a /\ lt cmp a a = false /\ le cmp a a = true /\
  (le cmp a b = true -> le cmp b c = true -> le cmp a c = true) /\
  (lt cmp a b = true -> le cmp b c = true -> lt cmp a c = true) /\
  (le cmp a b = true -> lt cmp b c = true -> lt cmp a c = true).
Proof.
  intros T P upto cmp R C a b c A B D. pose proof (operators P upto cmp R C) as O. destruct R as [total chain].
  assert (X : forall x y : bool, (x = true <-> y = true) -> x = y) by (intros [] [] H; intuition).
  assert (U : upto a a) by (destruct (total a a A A); assumption).
  destruct (O a b A B) as (L1 & L2 & L3 & L4), (O b a B A) as (M1 & M2 & M3 & M4),
    (O a a A A) as (N1 & N2 & _), (O b c B D) as (K1 & K2 & _), (O a c A D) as (J1 & J2 & _).
  repeat split.
  - unfold lt, ge. destruct (cmp a b); reflexivity.
  - unfold gt, le. destruct (cmp a b); reflexivity.
  - apply X. rewrite L1, M3. reflexivity.
  - apply X. rewrite L2, M4. reflexivity.
  - destruct (lt cmp a a); [destruct (proj1 N1 eq_refl U)|reflexivity].
  - apply N2. exact U.
  - rewrite L2, K2, J2. apply chain; assumption.
  - rewrite L1, K2, J1. intros N H G. apply N. apply (chain b c a); assumption.
  - rewrite L2, K1, J1. intros H N G. apply N. apply (chain c a b); assumption.
Qed.
Print Assumptions C73_operators_agree.

(** The minimum is one of the two values and comes before both; the maximum after both. *)
Theorem C73_min_max : forall (T : Type) (P : T -> Prop) upto cmp, ranking P upto -> tells P upto cmp ->
  forall a b, P a -> P b ->
  (upto (min cmp a b) a /\ upto (min cmp a b) b /\ (min cmp a b = a \/ min cmp a b = b)) /\
  (upto a (max cmp a b) /\ upto b (max cmp a b) /\ (max cmp a b = a \/ max cmp a b = b)).
Proof.
  intros T P upto cmp R C a b A B.
  destruct (min_ok P upto cmp R C a b A B) as (? & ? & ? & _), (max_ok P upto cmp R C a b A B) as (? & ? & ? & _).
  tauto.
Qed.
Print Assumptions C73_min_max.

(** When only equal values stand together, the minimum and the maximum are the two values. *)
Theorem C73_pair : forall (T : Type) (P : T -> Prop) upto cmp, ranking P upto -> tells P upto cmp -> tight P upto ->
  forall a b, P a -> P b ->
  (min cmp a b = a /\ max cmp a b = b) \/ (min cmp a b = b /\ max cmp a b = a).
Proof.
  intros T P upto cmp R C S a b A B.
  destruct (min_ok P upto cmp R C a b A B) as (m1 & m2 & m3 & m4), (max_ok P upto cmp R C a b A B) as (x1 & x2 & x3 & x4).
  pose proof (S a b A B) as E.
  destruct m3 as [M|M], x3 as [X|X]; rewrite M, X in *; auto; assert (a = b) by auto; subst; auto.
Qed.
Print Assumptions C73_pair.

(** That is false in general: of two different values that stand together, both give the second, and
    the first is lost. *)
Theorem C73_pair_refuted : ~ (forall (T : Type) (P : T -> Prop) upto cmp, ranking P upto -> tells P upto cmp ->
  forall a b, P a -> P b ->
  (min cmp a b = a /\ max cmp a b = b) \/ (min cmp a b = b /\ max cmp a b = a)).
Proof.
  intros H.
  specialize (H (Z * Z)%type (fun _ => True) (fun a b => fst a <= fst b) (fun a b => compare_int (fst a) (fst b))).
  destruct H with (a := (1, 10)) (b := (1, 20)) as [[M X]|[M X]]; try exact I; try discriminate.
  - split; intros; lia.
  - intros a b _ _. apply int_told; exact I.
Qed.
Print Assumptions C73_pair_refuted.

(** A clamp fails exactly when its bounds are in the wrong order; otherwise it gives the value when it
    lies within the bounds, and else the bound that was passed. *)
Theorem C73_clamp : forall (T : Type) (P : T -> Prop) upto cmp, ranking P upto -> tells P upto cmp ->
  forall v lo hi, P v -> P lo -> P hi ->
  (~ upto lo hi -> clamp cmp v lo hi = Panics) /\
  (upto lo hi ->
    (~ upto lo v -> clamp cmp v lo hi = Value lo) /\
    (upto hi v -> clamp cmp v lo hi = Value hi) /\
    (upto lo v -> ~ upto hi v -> clamp cmp v lo hi = Value v)).
Proof. intros T P upto cmp R C. exact (clamp_ok P upto cmp R C). Qed.
Print Assumptions C73_clamp.

(** Integers are ordered as numbers, strings as the words of a dictionary whose letters are the
    Unicode characters, although their bytes are compared. *)
Theorem C73_int_order : ranking (fun _ => True) Z.le /\ tells (fun _ => True) Z.le compare_int /\
  tight (fun _ => True) Z.le /\ forall a b, equal_int a b = true <-> a = b.
Proof. exact (conj int_ranking (conj int_told (conj int_tight Z.eqb_eq))). Qed.
Print Assumptions C73_int_order.

Theorem C73_string_order : ranking (Forall scalar) dictionary /\ tells (Forall scalar) dictionary compare_string /\
  tight (Forall scalar) dictionary /\
  forall s t, Forall scalar s -> Forall scalar t -> (equal_string s t = true <-> s = t).
Proof. exact (conj string_ranking (conj string_told (conj string_tight equal_string_ok))). Qed.
Print Assumptions C73_string_order.

(** Floats are ordered as numbers. *)
Theorem C73_float_order : ranking is_float below /\ tells is_float below order_float.
Proof. exact (conj float_ranking float_told). Qed.
Print Assumptions C73_float_order.

(** [!=] is the negation of [==], and agrees with the order wherever equality does. *)
Theorem C73_not_equal : forall (T : Type) (P : T -> Prop) upto cmp eq, ranking P upto -> tells P upto cmp ->
  tight P upto -> (forall a b, P a -> P b -> (eq a b = true <-> a = b)) -> forall a b, P a -> P b ->
  (ne eq a b = true <-> a <> b) /\ (ne eq a b = true <-> lt cmp a b = true \/ gt cmp a b = true).
Proof.
  intros T P upto cmp eq R C S Q a b A B. pose proof (Q a b A B) as E. pose proof (S a b A B) as G.
  destruct (operators P upto cmp R C a b A B) as (L1 & _ & L3 & _). unfold ne. rewrite L1, L3.
  destruct R as [total _]. pose proof (total a b A B) as O. pose proof (total a a A A) as O2.
  destruct (eq a b); cbn.
  - assert (a = b) by tauto. subst b. split; (split; [discriminate|]); tauto.
  - assert (N : a <> b) by (intros K; apply E in K; discriminate). split; (split; [intros _|reflexivity]); tauto.
Qed.
Print Assumptions C73_not_equal.

(** "z" comes before "é", which comes before an emoji; "a" before "ab". *)
Example C73_example_strings :
  compare_string [122] [233] = Less /\ compare_string [65533] [128512] = Less /\
  compare_string [97; 98] [97] = Greater /\ max compare_string [233; 97] [233] = [233; 97] /\
  dictionary [97] [97; 98].
Proof. repeat split. apply d_same. apply d_end. Qed.

Example C73_example_ints :
  clamp compare_int 7 0 5 = Value 5 /\ clamp compare_int (-7) 0 5 = Value 0 /\ clamp compare_int 3 0 5 = Value 3 /\
  clamp compare_int 3 5 0 = Panics /\ min compare_int 4 (-2) = -2 /\ max compare_int 4 (-2) = 4 /\
  ne equal_int 4 5 = true.
Proof. repeat split. Qed.

(** The two zeros stand together: the minimum of 0.0 and -0.0 and their maximum are both -0.0. *)
Example C73_example_floats :
  min order_float (B754_zero false) (B754_zero true) = B754_zero true /\
  max order_float (B754_zero false) (B754_zero true) = B754_zero true.
Proof. split; reflexivity. Qed.
