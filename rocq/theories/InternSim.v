From Coq Require Import List Bool Arith Lia Permutation Sorted.
From Verif Require Import ListUtil GraphModel InternModel InternSpec InternKinds.
Import ListNotations.

Definition sim (d e : ty -> option kind) (a b : ty) : Prop :=
  exists R : ty -> ty -> Prop, R a b /\ forall x y, R x y -> exists k l, d x = Some k /\ e y = Some l /\ mat R k l.
Definition norm (d : ty -> option kind) (t : ty) : option kind := option_map normalize (d t).
Definition named (d : ty -> option kind) : Prop := forall t k, d t = Some k -> well_named k.
Definition total (d : ty -> option kind) : Prop := forall t k c, d t = Some k -> In c (kids k) -> exists l, d c = Some l.
Definition below (d e : ty -> option kind) : Prop := forall t k, d t = Some k -> e t = Some k.

Lemma norm_inv : forall d t k, norm d t = Some k -> exists l, d t = Some l /\ k = normalize l.
Proof. unfold norm. intros d t k H. destruct (d t) as [l|]; inversion H; eauto. Qed.
Lemma norm_val : forall d t k, d t = Some k -> norm d t = Some (normalize k).
Proof. unfold norm. intros d t k ->. auto. Qed.

Lemma same_sim : forall d e a b, named d -> named e -> (same d e a b <-> sim (norm d) (norm e) a b).
Proof.
  intros d e a b Nd Ne. split; intros (R & Rab & H); exists R; split; auto; intros x y J; destruct (H x y J) as (k & l & E & F & G).
  - exists (normalize k), (normalize l). rewrite (norm_val d x k E), (norm_val e y l F). repeat split; auto; apply alike_mat in G; eauto; apply G.
  - apply norm_inv in E. apply norm_inv in F. destruct E as (k' & E & ->). destruct F as (l' & F & ->).
    exists k', l'. repeat split; auto. apply alike_mat; eauto.
Qed.

Lemma sim_refl : forall d a k, total d -> d a = Some k -> sim d d a a.
Proof.
  intros d a k T E. exists (fun x y => x = y /\ exists l, d x = Some l). split; [eauto|].
  intros x y [<- (l & F)]. exists l, l. repeat split; auto. apply Forall2_refl_in. eauto.
Qed.
Lemma sim_sym : forall d e a b, sim d e a b -> sim e d b a.
Proof.
  intros d e a b (R & J & H). exists (fun x y => R y x). split; auto. intros x y K. destruct (H _ _ K) as (k & l & E & F & [G1 G2]).
  exists l, k. repeat split; auto. apply Forall2_flip'. auto.
Qed.
Lemma sim_trans : forall d e f a b c, sim d e a b -> sim e f b c -> sim d f a c.
Proof.
  intros d e f a b c (R & J & H) (Q & K & G). exists (fun x z => exists y, R x y /\ Q y z). split; [eauto|].
  intros x z (y & L & M). destruct (H _ _ L) as (k & l & E & F & [X1 X2]). destruct (G _ _ M) as (l' & m & E' & F' & [Y1 Y2]).
  assert (l' = l) by congruence. subst. exists k, m. repeat split; auto; [congruence|]. eapply Forall2_trans'; eauto.
Qed.
Lemma sim_unfold : forall d e a b, sim d e a b -> exists k l, d a = Some k /\ e b = Some l /\ mat (sim d e) k l.
Proof.
  intros d e a b (R & J & H). destruct (H _ _ J) as (k & l & E & F & G). exists k, l. repeat split; auto; [apply G|].
  eapply Forall2_imp; [|apply G]. intros x y _ _ K. exists R. auto.
Qed.
Lemma sim_up : forall d e (R : ty -> ty -> Prop), (forall x y, R x y -> exists k l, d x = Some k /\ e y = Some l /\ mat (fun x y => R x y \/ sim d e x y) k l) ->
  forall a b, R a b -> sim d e a b.
Proof.
  intros d e R H a b J. exists (fun x y => R x y \/ sim d e x y). split; auto. intros x y [K|K]; auto.
  destruct (sim_unfold _ _ _ _ K) as (k & l & E & F & G). exists k, l. repeat split; auto; [apply G|].
  eapply Forall2_imp; [|apply G]. auto.
Qed.
Lemma sim_one : forall d e a b k l, d a = Some k -> e b = Some l -> mat (sim d e) k l -> sim d e a b.
Proof.
  intros d e a b k l E F G. apply (sim_up d e (fun x y => x = a /\ y = b)); auto.
  intros x y [-> ->]. exists k, l. repeat split; auto; [apply G|]. eapply Forall2_imp; [|apply G]. auto.
Qed.
Lemma sim_mono : forall d e d' e' a b, below d d' -> below e e' -> sim d e a b -> sim d' e' a b.
Proof.
  intros d e d' e' a b X Y (R & J & H). exists R. split; auto. intros x y K. destruct (H _ _ K) as (k & l & E & F & G). exists k, l. auto.
Qed.
Lemma sim_restrict : forall d d' e a b k, below d d' -> total d -> d a = Some k -> sim d' e a b -> sim d e a b.
Proof.
  intros d d' e a b k X T E S. exists (fun x y => sim d' e x y /\ exists k, d x = Some k). split; [eauto|].
  intros x y [S' (k' & E')]. destruct (sim_unfold _ _ _ _ S') as (k1 & l & F & G & [M1 M2]).
  apply X in E' as F'. assert (k' = k1) by congruence. subst. exists k1, l. repeat split; auto.
  eapply Forall2_imp; [|exact M2]. simpl. intros. split; eauto.
Qed.
Lemma sim_restrict_r : forall d e e' a b k, below e e' -> total e -> e b = Some k -> sim d e' a b -> sim d e a b.
Proof. intros. apply sim_sym. eapply sim_restrict; eauto. apply sim_sym. auto. Qed.

(** * Paths *)
Lemma path_trans : forall d a b c, path d a b -> path d b c -> path d a c.
Proof. intros d a b c H K. induction K; auto. eapply path_step; eauto. Qed.
Lemma path_edge : forall d a k b, d a = Some k -> In b (kids k) -> path d a b.
Proof. intros. eapply path_step; [apply path_here|eauto|]. apply mentions_kids. auto. Qed.
Lemma path_kid : forall d a b k c, path d a b -> d b = Some k -> In c (kids k) -> path d a c.
Proof. intros. eapply path_step; eauto. apply mentions_kids. auto. Qed.
Lemma path_front : forall d a b, path d a b -> a = b \/ exists k c, d a = Some k /\ In c (kids k) /\ path d c b.
Proof.
  intros d a b H. induction H; auto. apply mentions_kids in H1. destruct IHpath as [->|(k' & c' & E & J & K)]; right.
  - exists k, c. repeat split; auto. apply path_here.
  - exists k', c'. repeat split; auto. eapply path_kid; eauto.
Qed.
Lemma path_norm : forall d a b, path (norm d) a b <-> path d a b.
Proof.
  intros d a b. split; induction 1; try apply path_here.
  - apply norm_inv in H0. destruct H0 as (l & E & ->). eapply path_step; eauto. apply mentions_normalize. apply mentions_kids. auto.
  - eapply path_step; [eauto|apply norm_val; eauto|]. apply mentions_kids, mentions_normalize. auto.
Qed.
Lemma cyclic_norm : forall d a, cyclic (norm d) a <-> cyclic d a.
Proof.
  intros d a. split; intros (k & b & E & M & P).
  - apply norm_inv in E. destruct E as (l & E & ->). exists l, b. repeat split; auto; [apply mentions_normalize, mentions_kids; auto|apply path_norm; auto].
  - exists (normalize k), b. repeat split; [apply norm_val; auto|apply mentions_kids, mentions_normalize; auto|apply path_norm; auto].
Qed.
Lemma path_total : forall d a b k, total d -> d a = Some k -> path d a b -> exists l, d b = Some l.
Proof. intros d a b k T E H. induction H; eauto. apply mentions_kids in H1. eauto. Qed.
Lemma path_mono : forall d e a b, below d e -> path d a b -> path e a b.
Proof. intros d e a b X H. induction H; [apply path_here|]. eapply path_step; eauto. Qed.
Lemma path_restrict : forall d e a b k, below d e -> total d -> d a = Some k -> path e a b -> path d a b.
Proof.
  intros d e a b k X T E H. induction H; [apply path_here|].
  destruct (path_total d a b k T E IHpath) as (l & F). apply X in F as F'. assert (l = k0) by congruence. subst. eapply path_step; eauto.
Qed.
Lemma sim_path : forall d e a b a', sim d e a b -> path d a a' -> exists b', path e b b' /\ sim d e a' b'.
Proof.
  intros d e a b a' S P. induction P as [|c k a' P (b' & P' & S') E M]. { exists b. split; auto. apply path_here. }
  apply mentions_kids in M. destruct (sim_unfold _ _ _ _ S') as (k' & l & F & G & [_ M2]). assert (k' = k) by congruence. subst.
  destruct (Forall2_In_l _ _ _ _ _ _ M2 M) as (y & J & K). exists y. split; auto. eapply path_kid; eauto.
Qed.
Lemma sim_path_r : forall d e a b b', sim d e a b -> path e b b' -> exists a', path d a a' /\ sim d e a' b'.
Proof.
  intros d e a b b' S P. destruct (sim_path _ _ _ _ _ (sim_sym _ _ _ _ S) P) as (a' & P' & S'). exists a'. split; auto. apply sim_sym. auto.
Qed.

(** [a] reaches [b] in one step or more. *)
Definition path1 (d : ty -> option kind) (a b : ty) : Prop := exists k c, d a = Some k /\ In c (kids k) /\ path d c b.
Lemma path1_path : forall d a b, path1 d a b -> path d a b.
Proof. intros d a b (k & c & E & J & P). eapply path_trans; [eapply path_edge; eauto|auto]. Qed.
Lemma path1_trans : forall d a b c, path1 d a b -> path d b c -> path1 d a c.
Proof. intros d a b c (k & x & E & J & P) Q. exists k, x. repeat split; auto. eapply path_trans; eauto. Qed.
Lemma path_path1 : forall d a b c, path d a b -> path1 d b c -> path1 d a c.
Proof.
  intros d a b c P Q. destruct (path_front _ _ _ P) as [->|(k & x & E & J & P')]; auto.
  exists k, x. repeat split; auto. eapply path_trans; eauto. apply path1_path. auto.
Qed.
Lemma cyclic_path1 : forall d a, cyclic d a <-> path1 d a a.
Proof.
  intros d a. split; intros (k & b & E & J & P); exists k, b; repeat split; auto; apply mentions_kids; auto.
Qed.
Lemma path1_mono : forall d e a b, below d e -> path1 d a b -> path1 e a b.
Proof. intros d e a b X (k & c & E & J & P). exists k, c. repeat split; auto. eapply path_mono; eauto. Qed.
Lemma path1_restrict : forall d e a b k, below d e -> total d -> d a = Some k -> path1 e a b -> path1 d a b.
Proof.
  intros d e a b k X T E (k' & c & F & J & P). apply X in E as E'. assert (k' = k) by congruence. subst.
  destruct (T _ _ _ E J) as (l & L). exists k, c. repeat split; auto. eapply path_restrict; eauto.
Qed.
Lemma sim_path1 : forall d e a b a', sim d e a b -> path1 d a a' -> exists b', path1 e b b' /\ sim d e a' b'.
Proof.
  intros d e a b a' S (k & c & E & J & P). destruct (sim_unfold _ _ _ _ S) as (k' & l & F & G & [_ M]). assert (k' = k) by congruence. subst.
  destruct (Forall2_In_l _ _ _ _ _ _ M J) as (y & K & S'). destruct (sim_path _ _ _ _ _ S' P) as (b' & P' & S''). exists b'. split; auto. exists l, y. auto.
Qed.
