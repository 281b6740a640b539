From Coq Require Import List Bool Arith Lia Decidable ListDec.
From Verif Require Import ListUtil GraphModel InternModel InternSpec InternKinds InternSim InternProofs InternCanon InternMain SnapModel SnapSpec SnapCapture.
Import ListNotations.

Local Arguments ty_eq_dec : simpl never.

Section Again.
Variable nn : nat -> option nat.

(** ** A later store gives the same *)
Section Later.
Variables (u v : universe).
Hypothesis K : keeps u v.
Variables (c d : builder -> ty -> res (sid * builder)).
Hypothesis H : forall b t r, c b t = Ok r -> d b t = Ok r.
Lemma types_later : forall l b r, capture_types c b l = Ok r -> capture_types d b l = Ok r.
Proof.
  induction l as [|t l IH]; simpl; intros b r E; auto. destruct (c b t) as [p| | |] eqn:C; try discriminate E. rewrite (H _ _ _ C). cbn [rbind] in *.
  destruct (capture_types c (snd p) l) as [q| | |] eqn:C2; try discriminate E. rewrite (IH _ _ C2). auto.
Qed.
Lemma tagged_later : forall A (l : list (A * ty)) b r, capture_tagged c b l = Ok r -> capture_tagged d b l = Ok r.
Proof.
  induction l as [|[a t] l IH]; simpl; intros b r E; auto. destruct (c b t) as [p| | |] eqn:C; try discriminate E. rewrite (H _ _ _ C). cbn [rbind] in *.
  destruct (capture_tagged c (snd p) l) as [q| | |] eqn:C2; try discriminate E. rewrite (IH _ _ C2). auto.
Qed.
Lemma bind_later : forall A B (x y : res A) (f g : A -> res B) r, (forall a, x = Ok a -> y = Ok a) -> (forall a, f a = Ok r -> g a = Ok r) -> rbind x f = Ok r -> rbind y g = Ok r.
Proof. intros A B x y f g r X F E. destruct x as [a| | |]; try discriminate E. rewrite (X a eq_refl). simpl in *. auto. Qed.
Lemma kind_later : forall k b r, capture_kind nn c b k = Ok r -> capture_kind nn d b k = Ok r.
Proof.
  intros k b r. destruct k; cbn [capture_kind]; auto.
  - destruct (nn bare); [|intros X; discriminate X]. apply bind_later; auto. intros a. apply types_later.
  - apply bind_later; auto. intros a. apply tagged_later.
  - apply bind_later; auto. intros a. apply types_later.
  - apply bind_later; auto. intros a. apply tagged_later.
  - apply bind_later; [intros a; apply tagged_later|]. intros a. apply bind_later; auto.
  - apply bind_later; [intros a; apply tagged_later|]. intros a. apply bind_later; auto.
  - apply bind_later; auto. intros a. apply types_later.
Qed.
End Later.
Lemma capture_later : forall u v, keeps u v -> forall n b t r, capture nn u n b t = Ok r -> capture nn v n b t = Ok r.
Proof.
  intros u v K. induction n as [|n IH]; intros b t r E; cbn [capture] in *.
  - destruct (known t (ids b)); auto.
  - destruct (known t (ids b)); auto. cbn zeta in *. destruct (get u t) as [k|] eqn:G; [|discriminate E]. rewrite (K _ _ G).
    revert E. apply bind_later; auto. intros a. apply kind_later. exact IH.
Qed.

(** ** Two stores with the same types, in step *)
Section Step.
Variables (u v : universe).
Hypothesis CU : canon u.
Hypothesis CV : canon v.
Let R := sim (get u) (get v).

Definition rel (b c : builder) : Prop := Forall2 (fun p q => R (fst p) (fst q) /\ snd p = snd q) (ids b) (ids c) /\ nodes b = nodes c.

Lemma R_eq : forall a b x y, R a x -> R b y -> (a = b <-> x = y).
Proof.
  intros a b x y A B. split; intros <-.
  - apply (c_red _ CV). eapply sim_trans; [apply sim_sym; exact A|exact B].
  - apply (c_red _ CU). eapply sim_trans; [exact A|]. apply sim_sym. exact B.
Qed.
Lemma known_rel : forall t s l m, R t s -> Forall2 (fun p q => R (fst p) (fst q) /\ snd p = snd q) l m -> known t l = known s m.
Proof.
  intros t s l m X F. induction F as [|[x i] [y j] l m [A B] F IH]; simpl in *; auto. subst j.
  destruct (ty_eq_dec t x) as [E|E]; destruct (ty_eq_dec s y) as [G|G]; auto; exfalso; apply (R_eq t x s y X A) in E || apply (R_eq t x s y X A) in G; auto.
Qed.

Definition in_step {A : Type} (x y : res (A * builder)) : Prop := forall a b a' b', x = Ok (a, b) -> y = Ok (a', b') -> a = a' /\ rel b b'.
Variables (c d : builder -> ty -> res (sid * builder)).
Hypothesis H : forall b b' t t', rel b b' -> R t t' -> in_step (c b t) (d b' t').

Lemma bind_step : forall A B (x y : res (A * builder)) (f g : A * builder -> res (B * builder)),
  in_step x y -> (forall a b b', rel b b' -> in_step (f (a, b)) (g (a, b'))) -> in_step (rbind x f) (rbind y g).
Proof.
  intros A B x y f g X F a b a' b' E E'. destruct x as [[a1 b1]| | |]; try discriminate E. destruct y as [[a2 b2]| | |]; try discriminate E'.
  destruct (X _ _ _ _ eq_refl eq_refl) as [<- Y]. simpl in E, E'. exact (F a1 b1 b2 Y _ _ _ _ E E').
Qed.
Lemma ok_step : forall A (a : A) b b', rel b b' -> in_step (Ok (a, b)) (Ok (a, b')).
Proof. intros A a b b' X x y x' y' E E'. inversion E; inversion E'; subst. auto. Qed.
Lemma types_step : forall l m b b', Forall2 R l m -> rel b b' -> in_step (capture_types c b l) (capture_types d b' m).
Proof.
  induction l as [|t l IH]; intros m b b' F X; inversion F as [|? s ? m' A F']; subst; cbn [capture_types]; [apply ok_step; auto|].
  apply bind_step; [apply H; auto|]. intros i b1 b1' X1. cbn [fst snd]. apply bind_step; [apply IH; auto|]. intros is b2 b2' X2. cbn [fst snd]. apply ok_step. auto.
Qed.
Lemma tagged_step : forall A (l m : list (A * ty)) b b', Forall2 (tagged_alike R) l m -> rel b b' -> in_step (capture_tagged c b l) (capture_tagged d b' m).
Proof.
  induction l as [|[a t] l IH]; intros m b b' F X; inversion F as [|? [a' s] ? m' [A1 A2] F']; subst; cbn [capture_tagged]; [apply ok_step; auto|]. simpl in A1, A2. subst a'.
  apply bind_step; [apply H; auto|]. intros i b1 b1' X1. cbn [fst snd]. apply bind_step; [apply IH; auto|]. intros is b2 b2' X2. cbn [fst snd]. apply ok_step. auto.
Qed.
Lemma kind_step : forall k l b b', mat R k l -> rel b b' -> in_step (capture_kind nn c b k) (capture_kind nn d b' l).
Proof.
  intros k l b b' [E F] X. destruct k, l; unfold head in E; simpl in E; try discriminate E; cbn [capture_kind kids] in *.
  - inversion E; subst. destruct (nn bare0); [|intros a b1 a' b1' Y; discriminate Y]. apply bind_step; [apply types_step; auto|]. intros a b1 b1' X1. apply ok_step. auto.
  - inversion E; subst. apply ok_step. auto.
  - apply bind_step; [apply tagged_step; auto; apply tagged_head; inversion E; auto|]. intros a b1 b1' X1. apply ok_step. auto.
  - apply bind_step; [apply types_step; auto|]. intros a b1 b1' X1. apply ok_step. auto.
  - apply bind_step; [apply tagged_step; auto; apply tagged_head; inversion E; auto|]. intros a b1 b1' X1. apply ok_step. auto.
  - inversion E; subst. apply Forall2_app1 in F. destruct F as [F F2]. apply bind_step; [apply tagged_step; auto; apply tagged_head; auto|]. intros a b1 b1' X1. cbn [fst snd].
    apply bind_step; [apply H; auto|]. intros i b2 b2' X2. apply ok_step. auto.
  - inversion E; subst. apply Forall2_app1 in F. destruct F as [F F2]. apply bind_step; [apply tagged_step; auto; apply tagged_head; auto|]. intros a b1 b1' X1. cbn [fst snd].
    apply bind_step; [apply H; auto|]. intros i b2 b2' X2. apply ok_step. auto.
  - inversion E; subst. apply bind_step; [apply types_step; auto|]. intros a b1 b1' X1. apply ok_step. auto.
  - apply ok_step. auto.
Qed.
End Step.

Lemma capture_step : forall u v, canon u -> canon v -> forall n m b b' t t', rel u v b b' -> sim (get u) (get v) t t' -> in_step u v (capture nn u n b t) (capture nn v m b' t').
Proof.
  intros u v CU CV. induction n as [|n IH]; intros m b b' t t' X S'; pose proof (known_rel u v CU CV t t' _ _ S' (proj1 X)) as Kn.
  - cbn [capture]. destruct (known t (ids b)) as [i|]; [|intros a b1 a' b1' Y; discriminate Y]. destruct m; cbn [capture]; rewrite <- Kn; apply ok_step; auto.
  - cbn [capture]. destruct (known t (ids b)) as [i|]; [destruct m; cbn [capture]; rewrite <- Kn; apply ok_step; auto|].
    destruct m as [|m]; cbn [capture]; rewrite <- Kn; [intros a b1 a' b1' _ Y; discriminate Y|]. cbn zeta.
    destruct (sim_unfold _ _ _ _ S') as (k & l & E & F & M). rewrite E, F. destruct X as [X1 X2]. rewrite <- X2. apply bind_step.
    + apply kind_step; auto. split; cbn [ids nodes]; auto. apply Forall2_app; auto.
    + intros a b1 b1' [Y1 Y2]. cbn [fst snd]. rewrite <- Y2. destruct (length (nodes b) <? length (nodes b1)); [|intros ? ? ? ? Z; discriminate Z]. apply ok_step. split; cbn [ids nodes]; auto.
Qed.

Lemma requests_step : forall u v, canon u -> canon v -> forall r1 r2, Forall2 (fun x y => keeps (fst x) u /\ keeps (fst y) v /\ sim (get u) (get v) (snd x) (snd y)) r1 r2 ->
  forall b b', rel u v b b' -> in_step u v (capture_requests nn b r1) (capture_requests nn b' r2).
Proof.
  intros u v CU CV r1 r2 F. induction F as [|[u1 t1] [v1 t2] r1 r2 (K1 & K2 & S') F IH]; intros b b' X; cbn [capture_requests]; [apply ok_step; auto|]. simpl in K1, K2, S'.
  apply bind_step.
  - intros i c i' c' E E'. apply (capture_later _ _ K1) in E. apply (capture_later _ _ K2) in E'. eapply (capture_step u v CU CV); eauto.
  - intros i b1 b1' X1. cbn [fst snd]. apply bind_step; [apply IH; auto|]. intros is b2 b2' X2. apply ok_step. auto.
Qed.
Lemma snapshot_step : forall u v r1 r2 a a', canon u -> canon v -> Forall2 (fun x y => keeps (fst x) u /\ keeps (fst y) v /\ sim (get u) (get v) (snd x) (snd y)) r1 r2 ->
  snapshot nn r1 = Ok a -> snapshot nn r2 = Ok a' -> a = a'.
Proof.
  intros u v r1 r2 a a' CU CV F E E'. unfold snapshot in *.
  destruct (capture_requests nn new_builder r1) as [[i b]| | |] eqn:C; try discriminate E. destruct (capture_requests nn new_builder r2) as [[i' b']| | |] eqn:C'; try discriminate E'.
  destruct (requests_step u v CU CV r1 r2 F new_builder new_builder) with (a := i) (b := b) (a' := i') (b' := b') as [<- [_ X]]; auto; [split; [constructor|auto]|].
  cbn [rbind fst snd] in *. rewrite <- X in E'. congruence.
Qed.
End Again.

(** ** Reading a graph that was not written by [snapshot] *)
Section Bad.
Variable nt : nat -> option nat.

Definition bad_node (count : nat) (n : node) (e : error) : Prop :=
  (exists i, refers n i /\ count <= i /\ e = InvalidTypeReference i) \/ (exists name, names_native n name /\ nt name = None /\ e = UnknownNativeType name).

Lemma fault_bad : forall g e, fault nt g e <-> exists n, In n g /\ bad_node (length g) n e.
Proof. intros g e. unfold fault, bad_node. tauto. Qed.

Definition verdict {A : Type} (r : res A) (P : error -> Prop) : Prop := (exists a, r = Ok a /\ forall e, ~ P e) \/ (exists e, r = Fails e /\ P e).

Section Count.
Variable count : nat.
Definition far (l : list sid) (e : error) : Prop := exists i, In i l /\ count <= i /\ e = InvalidTypeReference i.
Lemma read_types_v : forall l, verdict (read_types count l) (far l).
Proof.
  induction l as [|i l IH]; simpl.
  - left. exists []. split; auto. intros e (i & [] & _).
  - unfold local. destruct (Nat.ltb_spec i count) as [L|L]; cbn [rbind].
    + destruct IH as [(ts & E & N)|(e & E & j & J & X)]; rewrite E; cbn [rbind].
      * left. eexists. split; [reflexivity|]. intros e (j & [<-|J] & X & Y); [lia|]. apply (N e). exists j. auto.
      * right. exists e. split; auto. exists j. split; [right; auto|auto].
    + right. eexists. split; [reflexivity|]. exists i. split; [left; auto|auto].
Qed.
Lemma read_tagged_v : forall A (l : list (A * sid)), verdict (read_tagged count l) (far (map snd l)).
Proof.
  induction l as [|[a i] l IH]; simpl.
  - left. exists []. split; auto. intros e (i & [] & _).
  - unfold local. destruct (Nat.ltb_spec i count) as [L|L]; cbn [rbind].
    + destruct IH as [(ts & E & N)|(e & E & j & J & X)]; rewrite E; cbn [rbind].
      * left. eexists. split; [reflexivity|]. intros e (j & [<-|J] & X & Y); [lia|]. apply (N e). exists j. auto.
      * right. exists e. split; auto. exists j. split; [right; auto|auto].
    + right. eexists. split; [reflexivity|]. exists i. split; [left; auto|auto].
Qed.
Lemma local_v : forall i, verdict (local count i) (far [i]).
Proof.
  intros i. unfold local. destruct (Nat.ltb_spec i count) as [L|L].
  - left. eexists. split; [reflexivity|]. intros e (j & [<-|[]] & X & Y). lia.
  - right. eexists. split; [reflexivity|]. exists i. split; [left; auto|auto].
Qed.
Lemma bind_v : forall A B (x : res A) (f : A -> res B) (P Q S' : error -> Prop), verdict x P -> (forall a, verdict (f a) Q) -> (forall e, S' e <-> P e \/ Q e) -> verdict (rbind x f) S'.
Proof.
  intros A B x f P Q S' [(a & -> & N)|(e & -> & X)] F H; cbn [rbind].
  - destruct (F a) as [(b & -> & M)|(e & -> & X)].
    + left. exists b. split; auto. intros e Y. apply H in Y. destruct Y; [eapply N|eapply M]; eauto.
    + right. exists e. split; auto. apply H. auto.
  - right. exists e. split; auto. apply H. auto.
Qed.
Lemma ok_v : forall A (a : A) (P : error -> Prop), (forall e, ~ P e) -> verdict (Ok a) P.
Proof. intros A a P H. left. eauto. Qed.
Lemma verdict_iff : forall A (r : res A) (P Q : error -> Prop), (forall e, P e <-> Q e) -> verdict r P -> verdict r Q.
Proof. intros A r P Q H [(a & E & N)|(e & E & X)]; [left; exists a; split; auto; intros e Y; apply (N e), H; auto|right; exists e; split; auto; apply H; auto]. Qed.

Lemma far_refers : forall n e, (forall name l, n <> SNative name l) -> (bad_node count n e <-> exists i, refers n i /\ count <= i /\ e = InvalidTypeReference i).
Proof. intros n e H. unfold bad_node. split; [|auto]. intros [X|(name & (l & ->) & _)]; auto. destruct (H name l eq_refl). Qed.
Lemma far_tagged : forall A (l : list (A * sid)) e, far (map snd l) e <-> exists i, (exists a, In (a, i) l) /\ count <= i /\ e = InvalidTypeReference i.
Proof.
  intros A l e. split; intros (i & J & X); exists i; split; auto.
  - apply in_map_iff in J. destruct J as ([a j] & E & J). simpl in E. subst. eauto.
  - destruct J as (a & J). apply in_map_iff. exists (a, i). auto.
Qed.

Lemma read_node_v : forall n, verdict (read_node nt count n) (bad_node count n).
Proof.
  intros n. destruct n; cbn [read_node].
  - apply ok_v. intros e [(i & [] & _)|(name & (l & X) & _)]. discriminate X.
  - destruct (nt name) as [b|] eqn:N.
    + eapply bind_v; [apply read_types_v|intros a; apply (ok_v _ _ (fun _ => False)); auto|]. intros e. unfold bad_node, far. simpl. split; [|intros [X|[]]; auto].
      intros [X|(m & (l & X) & Y & _)]; auto. inversion X; subst. congruence.
    + right. eexists. split; [reflexivity|]. right. exists name. split; [exists args; auto|auto].
  - eapply bind_v; [apply read_tagged_v|intros a; apply (ok_v _ _ (fun _ => False)); auto|]. intros e. rewrite far_refers by (intros; discriminate). rewrite far_tagged. simpl. tauto.
  - eapply bind_v; [apply read_types_v|intros a; apply (ok_v _ _ (fun _ => False)); auto|]. intros e. rewrite far_refers by (intros; discriminate). unfold far. simpl. tauto.
  - eapply bind_v; [apply read_tagged_v|intros a; apply (ok_v _ _ (fun _ => False)); auto|]. intros e. rewrite far_refers by (intros; discriminate). rewrite far_tagged. simpl. tauto.
  - apply bind_v with (P := far (map snd args)) (Q := fun e => far [ret] e \/ False); [apply read_tagged_v|intros a; eapply bind_v; [apply local_v|intros b; apply (ok_v _ _ (fun _ => False)); auto|intros e; reflexivity]|].
    intros e. rewrite far_refers by (intros; discriminate). rewrite far_tagged. unfold far. simpl. split.
    + intros (i & [->|J] & X); [right; left; exists ret; auto|left; exists i; auto].
    + intros [(i & J & X)|[(i & [<-|[]] & X)|[]]]; [exists i; auto|exists ret; auto].
  - apply bind_v with (P := far (map snd args)) (Q := fun e => far [ret] e \/ False); [apply read_tagged_v|intros a; eapply bind_v; [apply local_v|intros b; apply (ok_v _ _ (fun _ => False)); auto|intros e; reflexivity]|].
    intros e. rewrite far_refers by (intros; discriminate). rewrite far_tagged. unfold far. simpl. split.
    + intros (i & [->|J] & X); [right; left; exists ret; auto|left; exists i; auto].
    + intros [(i & J & X)|[(i & [<-|[]] & X)|[]]]; [exists i; auto|exists ret; auto].
  - eapply bind_v; [apply read_types_v|intros a; apply (ok_v _ _ (fun _ => False)); auto|]. intros e. rewrite far_refers by (intros; discriminate). unfold far. simpl. tauto.
  - apply ok_v. intros e [(i & [] & _)|(name & (l & X) & _)]. discriminate X.
Qed.
Lemma read_nodes_v : forall g, verdict (read_nodes nt count g) (fun e => exists n, In n g /\ bad_node count n e).
Proof.
  induction g as [|n g IH]; cbn [read_nodes].
  - apply ok_v. intros e (n & [] & _).
  - apply bind_v with (P := bad_node count n) (Q := fun e => (exists n, In n g /\ bad_node count n e) \/ False); [apply read_node_v|intros a; eapply bind_v; [exact IH|intros b; apply (ok_v _ _ (fun _ => False)); auto|intros e; reflexivity]|].
    intros e. simpl. split.
    + intros (m & [<-|J] & X); [auto|]. right. left. exists m. auto.
    + intros [X|[(m & J & X)|[]]]; [exists n; auto|exists m; auto].
Qed.

Lemma read_tagged_names : forall A (l : list (A * sid)) ts, read_tagged count l = Ok ts -> map fst ts = map fst l.
Proof.
  induction l as [|[a i] l IH]; simpl; intros ts E; [inversion E; auto|]. destruct (local count i); try discriminate E. cbn [rbind] in E.
  destruct (read_tagged count l); try discriminate E. cbn [rbind] in E. inversion E. simpl. f_equal. auto.
Qed.
Lemma dec_nat : ListDec.decidable_eq nat.
Proof. intros x y. destruct (Nat.eq_dec x y); [left|right]; auto. Qed.
Lemma read_node_named : forall n k, read_node nt count n = Ok k -> (well_named k <-> ~ doubled n).
Proof.
  intros n k E. destruct n; cbn [read_node] in E.
  - inversion E; subst. simpl. tauto.
  - destruct (nt name); [|discriminate E]. destruct (read_types count args); try discriminate E. inversion E. simpl. tauto.
  - destruct (read_tagged count items) as [ts| | |] eqn:R; try discriminate E. inversion E. simpl. rewrite (read_tagged_names _ _ _ R). split; [tauto|]. intros H. destruct (ListDec.NoDup_decidable dec_nat (map fst items)); tauto.
  - destruct (read_types count items); try discriminate E. inversion E. simpl. tauto.
  - destruct (read_tagged count fields) as [ts| | |] eqn:R; try discriminate E. inversion E. simpl. rewrite (read_tagged_names _ _ _ R). split; [tauto|]. intros H. destruct (ListDec.NoDup_decidable dec_nat (map fst fields)); tauto.
  - destruct (read_tagged count args); try discriminate E. cbn [rbind] in E. destruct (local count ret); try discriminate E. inversion E. simpl. tauto.
  - destruct (read_tagged count args); try discriminate E. cbn [rbind] in E. destruct (local count ret); try discriminate E. inversion E. simpl. tauto.
  - destruct (read_types count params); try discriminate E. inversion E. simpl. tauto.
  - inversion E. simpl. tauto.
Qed.
Lemma read_nodes_named : forall g ks, read_nodes nt count g = Ok ks -> (forall k, In k ks -> well_named k) <-> (forall n, In n g -> ~ doubled n).
Proof.
  induction g as [|n g IH]; simpl; intros ks E; [inversion E; subst; simpl; tauto|]. destruct (read_node nt count n) as [k| | |] eqn:R; try discriminate E. cbn [rbind] in E.
  destruct (read_nodes nt count g) as [l| | |]; try discriminate E. inversion E; subst. pose proof (read_node_named _ _ R) as X. specialize (IH l eq_refl). split.
  - intros H m [<-|J]; [apply X; apply H; simpl; auto|]. apply IH; auto. intros; apply H; simpl; auto.
  - intros H m [<-|J]; [apply X; apply H; simpl; auto|]. apply IH; auto.
Qed.
End Count.
End Bad.
Lemma materialize_panics : forall le order nt u g, (forall e, ~ fault nt g e) -> (exists n, In n g /\ doubled n) -> materialize le order nt u g = Panic.
Proof.
  intros le order nt u g F (n & J & D). unfold materialize. destruct (read_nodes_v nt (length g) g) as [(ks & E & _)|(e & _ & X)].
  - rewrite E. cbn [rbind]. unfold insert_types. destruct (forallb validate ks) eqn:V; [|reflexivity]. exfalso.
    rewrite forallb_forall in V. assert (W : forall k, In k ks -> well_named k) by (intros k K; apply validate_ok; auto). apply (read_nodes_named nt _ _ _ E) with (n := n) in W; auto.
  - exfalso. apply (F e). apply fault_bad. exact X.
Qed.
Lemma materialize_fails : forall le order nt u g, (forall e, materialize le order nt u g = Fails e -> fault nt g e) /\ ((exists e, fault nt g e) -> exists e, materialize le order nt u g = Fails e).
Proof.
  intros le order nt u g. unfold materialize. destruct (read_nodes_v nt (length g) g) as [(ks & E & N)|(e & E & X)]; rewrite E; cbn [rbind].
  - split; [intros e X; destruct (insert_types le order u ks); discriminate X|]. intros (e & X). apply fault_bad in X. destruct (N e X).
  - split; [intros e' Y; inversion Y; subst; apply fault_bad; exact X|]. eauto.
Qed.

(** ** The catalog *)
Lemma resolve_in : forall c n b, NoDup (map fst c) -> (resolve c n = Some b <-> In (n, b) c).
Proof.
  induction c as [|[m x] c IH]; simpl; intros n b N; [split; [intros X; discriminate X|intros []]|]. inversion N as [|? ? N1 N2]; subst. destruct (Nat.eqb_spec n m) as [->|D].
  - split; [intros X; inversion X; auto|]. intros [X|X]; [inversion X; auto|]. destruct N1. apply in_map_iff. exists (m, b). auto.
  - rewrite IH by auto. split; [auto|]. intros [X|X]; auto. inversion X. congruence.
Qed.
Lemma resolve_none : forall c n, resolve c n = None <-> ~ In n (map fst c).
Proof.
  induction c as [|[m x] c IH]; simpl; intros n; [tauto|]. destruct (Nat.eqb_spec n m) as [->|D]; [split; [intros X; discriminate X|intros X; exfalso; auto]|]. rewrite IH. split; [intros X [Y|Y]; auto|tauto].
Qed.
From Coq Require Import Sorted Permutation.
Lemma place_perm : forall n b c, Permutation ((n, b) :: c) (place_name n b c).
Proof.
  induction c as [|[m x] c IH]; simpl; auto. destruct (n <=? m); auto. eapply perm_trans; [apply perm_swap|]. apply perm_skip. auto.
Qed.
Lemma place_sorted : forall n b c, StronglySorted lt (map fst c) -> ~ In n (map fst c) -> StronglySorted lt (map fst (place_name n b c)).
Proof.
  induction c as [|[m x] c IH]; simpl; intros S' N; [repeat constructor|]. inversion S' as [|? ? S1 S2]; subst. destruct (Nat.leb_spec n m) as [L|L]; simpl.
  - constructor; auto. constructor; [assert (n <> m) by auto; lia|]. eapply Forall_impl; [|exact S2]. simpl. intros a X. assert (n <> m) by auto. lia.
  - constructor; [apply IH; auto|]. apply Forall_forall. intros a J. rewrite Forall_forall in S2.
    assert (X : In a (map fst ((n, b) :: c))). { eapply Permutation_in; [|exact J]. apply Permutation_map. apply Permutation_sym. apply place_perm. }
    destruct X as [<-|X]; auto.
Qed.
Lemma sorted_nodup : forall l, StronglySorted lt l -> NoDup l.
Proof. induction l as [|x l IH]; intros S'; constructor; inversion S' as [|? ? S1 S2]; subst; auto. intros J. rewrite Forall_forall in S2. specialize (S2 x J). lia. Qed.
Lemma register_all_ok : forall l c, StronglySorted lt (map fst c) -> 
  (NoDup (map fst l) /\ (forall n, In n (map fst l) -> ~ In n (map fst c)) -> exists c', register_all c l = Some c') /\
  (forall c', register_all c l = Some c' -> NoDup (map fst l) /\ (forall n, In n (map fst l) -> ~ In n (map fst c)) /\ StronglySorted lt (map fst c') /\ forall p, In p c' <-> In p c \/ In p l).
Proof.
  induction l as [|[n b] l IH]; intros c S'; cbn [register_all].
  - split; [eauto|]. intros c' E. inversion E; subst. split; [constructor|]. split; [intros n []|]. split; auto. simpl. tauto.
  - unfold register. destruct (resolve c n) as [y|] eqn:R.
    + assert (J : In n (map fst c)). { destruct (in_dec Nat.eq_dec n (map fst c)); auto. apply resolve_none in n0. congruence. }
      split; [|intros c' E; discriminate E]. intros [_ H]. destruct (H n (or_introl eq_refl) J).
    + apply resolve_none in R. pose proof (place_sorted n b c S' R) as S2. destruct (IH _ S2) as [A B].
      assert (IN : forall m, In m (map fst (place_name n b c)) <-> m = n \/ In m (map fst c)).
      { intros m. assert (P : Permutation (n :: map fst c) (map fst (place_name n b c))) by (apply (Permutation_map fst (place_perm n b c))).
        split; intros J; [apply (Permutation_in _ (Permutation_sym P)) in J; destruct J; auto|apply (Permutation_in _ P); simpl; destruct J; auto]. }
      split.
      * intros [N H]. simpl in N, H. inversion N as [|? ? N1 N2]; subst. apply A. split; auto. intros m J K. apply IN in K. destruct K as [->|K]; auto. apply (H m); auto.
      * intros c' E. destruct (B c' E) as (N & H & S3 & P). simpl. split; [constructor; auto; intros J; apply (H n J); apply IN; auto|]. split.
        { intros m [<-|J] K; auto. apply (H m J). apply IN. auto. }
        split; auto. intros p. rewrite P. assert (Q : In p (place_name n b c) <-> (n, b) = p \/ In p c).
        { split; intros J; [apply (Permutation_in _ (Permutation_sym (place_perm n b c))) in J; auto|apply (Permutation_in _ (place_perm n b c)); auto]. }
        rewrite Q. tauto.
Qed.
Lemma canonical_in : forall c b n, StronglySorted lt (map fst c) -> (canonical_name c b = Some n <-> In (n, b) c /\ forall m, In (m, b) c -> n <= m).
Proof.
  induction c as [|[m x] c IH]; simpl; intros b n S'; [split; [intros X; discriminate X|intros [[] _]]|]. inversion S' as [|? ? S1 S2]; subst. rewrite Forall_forall in S2.
  assert (B : forall k y, In (k, y) c -> m < k) by (intros k y J; apply S2; apply in_map_iff; exists (k, y); auto).
  destruct (Nat.eqb_spec x b) as [->|D].
  - split.
    + intros E. inversion E; subst. split; auto. intros k [X|X]; [inversion X; auto|]. specialize (B _ _ X). lia.
    + intros [[X|X] Y]; [inversion X; auto|]. specialize (B _ _ X). specialize (Y m (or_introl eq_refl)). lia.
  - rewrite IH by auto. split.
    + intros [X Y]. split; auto. intros k [Z|Z]; auto. inversion Z. congruence.
    + intros [[X|X] Y]; [inversion X; congruence|]. split; auto.
Qed.
Lemma canonical_none : forall c b, canonical_name c b = None <-> forall n, ~ In (n, b) c.
Proof.
  induction c as [|[m x] c IH]; simpl; intros b; [split; auto|]. destruct (Nat.eqb_spec x b) as [->|D].
  - split; [intros X; discriminate X|]. intros H. destruct (H m). auto.
  - rewrite IH. split; [intros H n [X|X]; [inversion X; congruence|eapply H; eauto]|]. intros H n X. eapply H; eauto.
Qed.
