From Coq Require Import List Bool Arith Lia Permutation Sorted.
From Verif Require Import ListUtil GraphModel InternModel InternSpec.
Import ListNotations.

(** * Kinds: heads and parts *)
Definition head (k : kind) : kind := map_kids (fun _ => Loc 0) k.
Definition mat (R : ty -> ty -> Prop) (a b : kind) : Prop := head a = head b /\ Forall2 R (kids a) (kids b).

Lemma map_fst_pair : forall A (f : ty -> ty) (l : list (A * ty)), map fst (map (fun x => (fst x, f (snd x))) l) = map fst l.
Proof. intros. rewrite map_map. apply map_ext. auto. Qed.
Lemma map_snd_pair : forall A (f : ty -> ty) (l : list (A * ty)), map snd (map (fun x => (fst x, f (snd x))) l) = map f (map snd l).
Proof. intros. rewrite !map_map. apply map_ext. auto. Qed.

Lemma kids_map : forall f k, kids (map_kids f k) = map f (kids k).
Proof. intros f []; simpl; rewrite ?map_app, ?map_snd_pair; auto. Qed.
Lemma map_kids_comp : forall f g k, map_kids f (map_kids g k) = map_kids (fun t => f (g t)) k.
Proof. intros f g []; simpl; rewrite ?map_map; auto; f_equal; apply map_ext; auto. Qed.
Lemma head_map : forall f k, head (map_kids f k) = head k.
Proof. intros. unfold head. apply map_kids_comp. Qed.
Lemma map_kids_ext : forall f g k, (forall t, In t (kids k) -> f t = g t) -> map_kids f k = map_kids g k.
Proof.
  intros f g [] E; simpl in *; auto; f_equal.
  all: try (apply map_ext_in; intros; simpl; apply E; auto).
  all: try (apply map_ext_in; intros [a t] J; simpl; f_equal; apply E; try (apply in_or_app; left); apply in_map_iff; exists (a, t); auto).
  all: apply E; apply in_or_app; simpl; auto.
Qed.
Lemma map_pair_id : forall A (l : list (A * ty)), map (fun x => (fst x, snd x)) l = l.
Proof. induction l as [|[] l IH]; simpl; congruence. Qed.
Lemma map_kids_idf : forall k, map_kids (fun t => t) k = k.
Proof. intros []; simpl; rewrite ?map_id, ?map_pair_id; auto. Qed.
Lemma map_kids_id : forall f k, (forall t, In t (kids k) -> f t = t) -> map_kids f k = k.
Proof. intros f k E. rewrite (map_kids_ext f (fun t => t)); auto. apply map_kids_idf. Qed.

Lemma pairs_eq : forall A (a b : list (A * ty)), map (fun x => (fst x, Loc 0)) a = map (fun x => (fst x, Loc 0)) b -> map snd a = map snd b -> a = b.
Proof.
  induction a as [|[x t] a IH]; destruct b as [|[y s] b]; simpl; intros E F; try discriminate; auto.
  injection E as E1 E2. injection F as F1 F2. subst. f_equal. auto.
Qed.
Lemma pairs_len : forall A B (f : A -> B) (a b : list A), map f a = map f b -> length a = length b.
Proof. intros A B f a b E. rewrite <- (map_length f a), <- (map_length f b). congruence. Qed.
Lemma app1_inj : forall A (a b : list A) x y, a ++ [x] = b ++ [y] -> a = b /\ x = y.
Proof. intros. apply app_inj_tail. auto. Qed.

Lemma kind_ext : forall a b, head a = head b -> kids a = kids b -> a = b.
Proof.
  intros [] []; unfold head; simpl; intros E F; try discriminate; try (injection E; intros); subst; auto;
    try (apply app1_inj in F; destruct F as [F ->]); f_equal; auto; apply pairs_eq; auto.
Qed.

Lemma mat_eq : forall a b, mat eq a b -> a = b.
Proof.
  intros a b [E F]. apply kind_ext; auto. clear E. induction F; f_equal; auto.
Qed.
Lemma Forall2_imp : forall A B (P Q : A -> B -> Prop) l m, (forall x y, In x l -> In y m -> P x y -> Q x y) -> Forall2 P l m -> Forall2 Q l m.
Proof.
  intros A B P Q l m E F. induction F; constructor; simpl in *; auto.
Qed.
Lemma mat_imp : forall (P Q : ty -> ty -> Prop) a b, (forall x y, In x (kids a) -> In y (kids b) -> P x y -> Q x y) -> mat P a b -> mat Q a b.
Proof. intros P Q a b E [H F]. split; auto. eapply Forall2_imp; eauto. Qed.
Lemma Forall2_refl_in : forall A (P : A -> A -> Prop) l, (forall x, In x l -> P x x) -> Forall2 P l l.
Proof. induction l; constructor; simpl in *; auto. Qed.
Lemma Forall2_flip' : forall A B (P : A -> B -> Prop) l m, Forall2 P l m -> Forall2 (fun y x => P x y) m l.
Proof. induction 1; constructor; auto. Qed.
Lemma Forall2_trans' : forall A B C (P : A -> B -> Prop) (Q : B -> C -> Prop) l m n, Forall2 P l m -> Forall2 Q m n -> Forall2 (fun x z => exists y, P x y /\ Q y z) l n.
Proof.
  intros A B C P Q l m n F. revert n. induction F; intros n G; inversion G; subst; constructor; eauto.
Qed.
Lemma Forall2_map2 : forall A B C D (P : C -> D -> Prop) (f : A -> C) (g : B -> D) l m, Forall2 (fun x y => P (f x) (g y)) l m <-> Forall2 P (map f l) (map g m).
Proof.
  intros. split.
  - induction 1; simpl; constructor; auto.
  - revert m. induction l; destruct m; simpl; intros F; inversion F; subst; constructor; auto.
Qed.
Lemma Forall2_len : forall A B (P : A -> B -> Prop) l m, Forall2 P l m -> length l = length m.
Proof. induction 1; simpl; auto. Qed.
Lemma Forall2_In_r : forall A B (P : A -> B -> Prop) l m y, Forall2 P l m -> In y m -> exists x, In x l /\ P x y.
Proof.
  intros A B P l m z F. induction F as [|x y l m H F IH]; simpl; [contradiction|].
  intros [E|J]; [subst; eauto|]. destruct (IH J) as (w & ? & ?). eauto.
Qed.
Lemma Forall2_In_l : forall A B (P : A -> B -> Prop) l m x, Forall2 P l m -> In x l -> exists y, In y m /\ P x y.
Proof.
  intros A B P l m z F. induction F as [|x y l m H F IH]; simpl; [contradiction|].
  intros [E|J]; [subst; eauto|]. destruct (IH J) as (w & ? & ?). eauto.
Qed.

(** * Mentions *)
Lemma mentions_kids : forall k t, mentions k t <-> In t (kids k).
Proof.
  intros [] t; simpl; try tauto.
  1,2: rewrite in_map_iff; split; [intros [n H]; exists (n, t); auto|intros [[n s] [E H]]; simpl in E; subst; eauto].
  all: rewrite in_app_iff, in_map_iff; simpl; split;
    [intros [->|[m H]]; [auto|left; exists (m, t); auto]|intros [[[m s] [E H]]|[->|[]]]; [simpl in E; subst; eauto|auto]].
Qed.

(** * Normal kinds *)
Definition names (k : kind) : list nat := match k with KVariant l | KRecord l => map fst l | _ => [] end.
Definition normal (k : kind) : Prop := StronglySorted lt (names k).

Lemma names_head : forall a b, head a = head b -> names a = names b.
Proof.
  intros [] []; unfold head; simpl; intros E; try discriminate; auto; injection E; intros E1;
    apply (f_equal (map fst)) in E1; rewrite !map_map in E1; simpl in E1; auto.
Qed.
Lemma normal_head : forall a b, head a = head b -> normal a -> normal b.
Proof. unfold normal. intros a b E N. rewrite <- (names_head _ _ E). auto. Qed.

Lemma sort_insert_perm : forall A (le : A -> A -> bool) x l, Permutation (x :: l) (sort_insert le x l).
Proof.
  induction l; simpl; auto. destruct (le x a); auto.
  etransitivity; [apply perm_swap|]. constructor. auto.
Qed.
Lemma sort_perm : forall A (le : A -> A -> bool) l, Permutation l (sort le l).
Proof.
  induction l; simpl; auto. etransitivity; [|apply sort_insert_perm]. constructor. auto.
Qed.

Lemma sort_insert_sorted : forall x l, StronglySorted lt (map fst l) -> ~ In (fst x) (map fst l) -> StronglySorted lt (map fst (sort_insert by_name x l)).
Proof.
  induction l as [|y l IH]; simpl; intros H N. { constructor; constructor. }
  inversion H as [|? ? H1 H2]; subst. unfold by_name at 1. destruct (Nat.leb_spec (fst x) (fst y)) as [L|L]; simpl.
  - constructor; auto. assert (fst x < fst y) by (assert (fst x <> fst y) by (intro; apply N; auto); lia).
    constructor; auto. eapply Forall_impl; [|exact H2]. simpl. intros. lia.
  - constructor; [apply IH; auto|].
    eapply Permutation_Forall; [apply Permutation_map, sort_insert_perm|]. simpl. constructor; auto.
Qed.
Lemma sort_sorted : forall l : list (nat * ty), NoDup (map fst l) -> StronglySorted lt (map fst (sort by_name l)).
Proof.
  induction l as [|x l IH]; simpl; intros N; [constructor|]. inversion N; subst.
  apply sort_insert_sorted; auto. intro J. apply H1.
  eapply Permutation_in; [apply Permutation_sym, Permutation_map, sort_perm|exact J].
Qed.
Lemma normalize_normal : forall k, well_named k -> normal (normalize k).
Proof. intros [] W; unfold normal; simpl in *; try constructor; apply sort_sorted; auto. Qed.

Lemma unique_nodup : forall l, unique l = true <-> NoDup l.
Proof.
  induction l; simpl. { split; [constructor|auto]. }
  rewrite andb_true_iff, IHl, negb_true_iff. split.
  - intros [H N]. constructor; auto. intro J. assert (existsb (Nat.eqb a) l = true); [|congruence].
    apply existsb_exists. exists a. rewrite Nat.eqb_refl. auto.
  - intros N. inversion N; subst. split; auto. destruct (existsb (Nat.eqb a) l) eqn:E; auto.
    apply existsb_exists in E. destruct E as (x & J & E). apply Nat.eqb_eq in E. subst. tauto.
Qed.
Lemma validate_ok : forall k, validate k = true <-> well_named k.
Proof. intros []; simpl; try tauto; apply unique_nodup. Qed.

Lemma kids_normalize : forall k, Permutation (kids k) (kids (normalize k)).
Proof. intros []; simpl; auto; apply Permutation_map, sort_perm. Qed.
Lemma mentions_normalize : forall k t, mentions k t <-> In t (kids (normalize k)).
Proof.
  intros k t. rewrite mentions_kids. split; intro J.
  - eapply Permutation_in; [apply kids_normalize|auto].
  - eapply Permutation_in; [apply Permutation_sym, kids_normalize|auto].
Qed.
Lemma plain_head : forall a b, head a = head b -> plain a -> plain b.
Proof. intros [] []; unfold head; simpl; intros E; try discriminate; auto. injection E. intros. subst. auto. Qed.
Lemma plain_normalize : forall k, plain (normalize k) <-> plain k.
Proof. intros []; simpl; tauto. Qed.

(** Sorting two lists with the same names keeps them aligned. *)
Lemma sort_insert_aligned : forall R (x y : nat * ty) l m, tagged_alike R x y -> Forall2 (tagged_alike R) l m ->
  Forall2 (tagged_alike R) (sort_insert by_name x l) (sort_insert by_name y m).
Proof.
  intros R x y l m E F. induction F as [|a b l m H F IH]; simpl; [repeat constructor; apply E|].
  unfold by_name at 1 3. destruct E as [E1 E2]. destruct H as [H1 H2]. rewrite E1, H1.
  destruct (fst y <=? fst b); constructor; auto; try (split; auto). constructor; [split; auto|]. auto.
Qed.
Lemma sort_aligned : forall R (l m : list (nat * ty)), Forall2 (tagged_alike R) l m -> Forall2 (tagged_alike R) (sort by_name l) (sort by_name m).
Proof. induction 1; simpl; [constructor|]. apply sort_insert_aligned; auto. Qed.

(** Two strictly sorted permutations are equal. *)
Lemma sorted_perm_eq : forall l m : list (nat * ty), StronglySorted lt (map fst l) -> StronglySorted lt (map fst m) -> Permutation l m -> l = m.
Proof.
  induction l as [|x l IH]; intros m H K P. { apply Permutation_nil in P. auto. }
  destruct m as [|y m]. { apply Permutation_sym, Permutation_nil in P. discriminate. }
  simpl in *. inversion H as [|? ? H1 H2]; inversion K as [|? ? K1 K2]; subst.
  assert (E : x = y).
  { assert (J : In x (y :: m)) by (eapply Permutation_in; [exact P|left; auto]).
    assert (L : In y (x :: l)) by (eapply Permutation_in; [apply Permutation_sym; exact P|left; auto]).
    destruct J as [J|J]; auto. destruct L as [L|L]; auto.
    rewrite Forall_forall in H2, K2.
    pose proof (K2 (fst x) (in_map fst _ _ J)). pose proof (H2 (fst y) (in_map fst _ _ L)). lia. }
  subst. f_equal. apply IH; auto. eapply Permutation_cons_inv; eauto.
Qed.

Lemma tagged_head : forall A R (l m : list (A * ty)), Forall2 (tagged_alike R) l m <->
  map (fun x => (fst x, Loc 0)) l = map (fun x => (fst x, Loc 0)) m /\ Forall2 R (map snd l) (map snd m).
Proof.
  intros A R l m. split.
  - induction 1 as [|x y l m [E1 E2] F [IH1 IH2]]; simpl; [auto|]. split; [congruence|constructor; auto].
  - revert m. induction l as [|x l IH]; destruct m as [|y m]; simpl; intros [E F]; try discriminate; [constructor|].
    injection E as E1 E2. inversion F; subst. constructor; [split; auto|apply IH; auto].
Qed.
Lemma const_len : forall (l m : list ty), map (fun _ => Loc 0) l = map (fun _ => Loc 0) m <-> length l = length m.
Proof.
  induction l; destruct m; simpl; split; intros E; try discriminate; auto.
  - injection E as E. f_equal. apply IHl. auto.
  - injection E as E. f_equal. apply IHl. auto.
Qed.
Lemma Forall2_app1 : forall (R : ty -> ty -> Prop) l m r s, Forall2 R (l ++ [r]) (m ++ [s]) <-> Forall2 R l m /\ R r s.
Proof.
  intros R l m r s. split.
  - intros F. assert (L : length l = length m) by (apply Forall2_len in F; rewrite !app_length in F; simpl in F; lia).
    revert m L F. induction l; destruct m; simpl; intros L F; try discriminate; inversion F; subst; auto.
    destruct (IHl m) as [G1 G2]; auto.
  - intros [F G]. apply Forall2_app; auto.
Qed.

Lemma fields_sorted : forall R a b, NoDup (map fst a) -> NoDup (map fst b) ->
  (fields_alike R a b <-> Forall2 (tagged_alike R) (sort by_name a) (sort by_name b)).
Proof.
  intros R a b Na Nb. split.
  - intros (b' & P & F).
    assert (N : NoDup (map fst b')) by (eapply Permutation_NoDup; [apply Permutation_map; exact P|auto]).
    replace (sort by_name b) with (sort by_name b'); [apply sort_aligned; auto|].
    apply sorted_perm_eq; try (apply sort_sorted; auto).
    etransitivity; [apply Permutation_sym, sort_perm|]. etransitivity; [apply Permutation_sym; exact P|apply sort_perm].
  - intros F. destruct (Permutation_Forall2 (Permutation_sym (sort_perm _ by_name a)) F) as (b' & P & G).
    exists b'. split; auto. etransitivity; [apply sort_perm|exact P].
Qed.

Lemma alike_mat : forall R a b, well_named a -> well_named b -> (alike R a b <-> mat R (normalize a) (normalize b)).
Proof.
  intros R [] []; simpl; intros Wa Wb; unfold mat, head; simpl;
    try (split; [contradiction|intros [E _]; discriminate]).
  - split; [intros [-> F]; split; auto; f_equal; apply const_len; eapply Forall2_len; eauto|intros [E F]; injection E; intros; subst; auto].
  - split; [intros ->; auto|intros [E _]; injection E; auto].
  - rewrite fields_sorted, tagged_head by auto. split; intros [E F]; split; auto; [f_equal; auto|injection E; auto].
  - split; [intros F; split; auto; f_equal; apply const_len; eapply Forall2_len; eauto|intros [E F]; auto].
  - rewrite fields_sorted, tagged_head by auto. split; intros [E F]; split; auto; [f_equal; auto|injection E; auto].
  - rewrite tagged_head, Forall2_app1. split.
    + intros ([E F] & H & ->). split; auto. f_equal. auto.
    + intros [E [F H]]. injection E. auto.
  - rewrite tagged_head, Forall2_app1. split.
    + intros ([E F] & H & -> & ->). split; auto. f_equal. auto.
    + intros [E [F H]]. injection E. auto.
  - split; [intros [-> [F ->]]; split; auto; f_equal; apply const_len; eapply Forall2_len; eauto|intros [E F]; injection E; intros; subst; auto].
  - split; auto.
Qed.
