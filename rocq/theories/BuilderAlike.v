From Coq Require Import List Bool Arith Lia Permutation.
From Verif Require Import ListUtil InternModel InternSpec InternKinds InternSim BuilderModel BuilderSpec.
Import ListNotations.

(** * Agreement of kinds *)
Lemma tagged_imp : forall A (R S : ty -> ty -> Prop), (forall x y, R x y -> S x y) -> forall l m : list (A * ty),
  Forall2 (tagged_alike R) l m -> Forall2 (tagged_alike S) l m.
Proof. intros A R Q H l m. apply Forall2_imp. intros x y _ _ [E K]. split; auto. Qed.
Lemma alike_mono : forall R S : ty -> ty -> Prop, (forall x y, R x y -> S x y) -> forall a b, alike R a b -> alike S a b.
Proof.
  intros R Q H. assert (F : forall l m, Forall2 R l m -> Forall2 Q l m) by (intros l m; apply Forall2_imp; auto).
  assert (G : forall l m, fields_alike R l m -> fields_alike Q l m) by (intros l m (b & P & T); exists b; split; auto; eapply tagged_imp; eauto).
  intros [] []; simpl; intros K; try contradiction; auto; intuition auto; eapply tagged_imp; eauto.
Qed.
Lemma tagged_comp : forall A (R S : ty -> ty -> Prop) (l m n : list (A * ty)), Forall2 (tagged_alike R) l m -> Forall2 (tagged_alike S) m n ->
  Forall2 (tagged_alike (fun x z => exists y, R x y /\ S y z)) l n.
Proof.
  intros A R Q l m n F. revert n. induction F as [|x y l m [E H] F IH]; intros n G; inversion G as [|? z ? n' [E' H'] G']; subst; constructor; auto.
  split; [congruence|]. eauto.
Qed.
Lemma Forall2_comp : forall (R S : ty -> ty -> Prop) l m n, Forall2 R l m -> Forall2 S m n -> Forall2 (fun x z => exists y, R x y /\ S y z) l n.
Proof. intros. eapply Forall2_trans'; eauto. Qed.
Lemma alike_comp : forall (R S : ty -> ty -> Prop) a b c, alike R a b -> alike S b c -> alike (fun x z => exists y, R x y /\ S y z) a c.
Proof.
  intros R Q a b c. assert (G : forall l m n, fields_alike R l m -> fields_alike Q m n -> fields_alike (fun x z => exists y, R x y /\ Q y z) l n).
  { intros l m n (b1 & P1 & F1) (b2 & P2 & F2). destruct (Permutation_Forall2 P1 F2) as (c' & P3 & F3).
    exists c'. split; [eapply Permutation_trans; eauto|]. eapply tagged_comp; eauto. }
  destruct a, b; simpl; try contradiction; destruct c; simpl; try contradiction; auto.
  - intros [? F1] [? F2]. split; [congruence|]. eapply Forall2_comp; eauto.
  - congruence.
  - apply G.
  - apply Forall2_comp.
  - apply G.
  - intros (F1 & R1 & E1) (F2 & R2 & E2). split; [eapply tagged_comp; eauto|]. split; [eauto|congruence].
  - intros (F1 & R1 & E1 & D1) (F2 & R2 & E2 & D2). split; [eapply tagged_comp; eauto|]. split; [eauto|]. split; congruence.
  - intros (N1 & F1 & E1) (N2 & F2 & E2). split; [congruence|]. split; [eapply Forall2_comp; eauto|congruence].
Qed.
Lemma alike_eq_l : forall (S : ty -> ty -> Prop) a b c, alike eq a b -> alike S b c -> alike S a c.
Proof. intros Q a b c H K. eapply alike_mono; [|eapply alike_comp; eauto]. intros x z (y & -> & L). auto. Qed.
Lemma alike_refl_on : forall (R : ty -> ty -> Prop) k, (forall t, In t (kids k) -> R t t) -> alike R k k.
Proof.
  intros R k. assert (F : forall l, (forall t, In t l -> R t t) -> Forall2 R l l) by (intros l H; apply Forall2_refl_in; auto).
  assert (T : forall A (l : list (A * ty)), (forall t, In t (map snd l) -> R t t) -> Forall2 (tagged_alike R) l l).
  { intros A l H. apply Forall2_refl_in. intros x J. split; auto. apply H. apply in_map. auto. }
  assert (G : forall l : list (nat * ty), (forall t, In t (map snd l) -> R t t) -> fields_alike R l l) by (intros l H; exists l; auto).
  destruct k; simpl; intros H; auto.
  - split; [apply T|split; auto]; intros; apply H; apply in_app_iff; simpl; auto.
  - split; [apply T|split; auto]; intros; apply H; apply in_app_iff; simpl; auto.
Qed.
Lemma alike_eq_refl : forall k, alike eq k k.
Proof. intros k. apply alike_refl_on. auto. Qed.

(** * Shapes *)
Lemma combine_fst : forall A B (l : list A) (m : list B), length l = length m -> map fst (combine l m) = l.
Proof. induction l as [|x l IH]; intros [|y m] H; simpl in *; try discriminate; f_equal; auto. Qed.
Lemma combine_snd : forall A B (l : list A) (m : list B), length l = length m -> map snd (combine l m) = m.
Proof. induction l as [|x l IH]; intros [|y m] H; simpl in *; try discriminate; f_equal; auto. Qed.
Lemma tagged_split : forall A (S : ty -> ty -> Prop) (names : list A) ts items, length names = length ts -> Forall2 (tagged_alike S) (combine names ts) items ->
  Forall2 S ts (map snd items) /\ combine names (map snd items) = items.
Proof.
  intros A Q names. induction names as [|x names IH]; intros [|t ts] items L F; simpl in *; try discriminate; inversion F as [|? [y z] ? items' [E K] F']; subst; simpl in *; [split; constructor|].
  destruct (IH ts items') as [G E']; auto. subst. split; [constructor; auto|]. congruence.
Qed.
Lemma fields_refl : forall l, fields_alike eq l l.
Proof. intros l. exists l. split; auto. apply Forall2_refl_in. split; auto. Qed.
Lemma plug_inv : forall (S : ty -> ty -> Prop) c ts l, arity_ok c (length ts) -> alike S (plug c ts) l ->
  exists ts', Forall2 S ts ts' /\ alike eq (plug c ts') l.
Proof.
  intros Q c ts l A H.
  assert (G : forall names items, length names = length ts -> fields_alike Q (combine names ts) items -> exists ts', Forall2 Q ts ts' /\ fields_alike eq (combine names ts') items).
  { intros names items L (b & P & F). destruct (tagged_split _ _ _ _ _ L F) as [F1 E]. exists (map snd b). split; auto. rewrite E. exists b. split; auto.
    apply Forall2_refl_in. split; auto. }
  destruct c; simpl in *.
  - destruct l; try contradiction. eauto.
  - destruct l; try contradiction. exists items. split; auto. apply Forall2_refl_in. auto.
  - destruct l; try contradiction. eauto.
  - destruct l; try contradiction. destruct H as (F & K & E).
    assert (X : exists as_ r, ts = as_ ++ [r] /\ length muts = length as_).
    { destruct (exists_last (l := ts)) as (as_ & r & X); [intros ->; discriminate|]. exists as_, r. split; auto. subst ts. rewrite app_length in A. simpl in A. lia. }
    destruct X as (as_ & r & -> & L).
    assert (C : forall (m : list ty) s, length muts = length m -> combine muts (m ++ [s]) = combine muts m).
    { intros m s. clear. revert m. induction muts as [|x l IH]; intros [|y m] H; simpl in *; try discriminate; f_equal; auto. }
    rewrite C in F by auto. rewrite L, app_nth2, Nat.sub_diag in K by lia. simpl in K.
    destruct (tagged_split _ _ _ _ _ L F) as [F1 E1]. exists (map snd args ++ [ret]).
    assert (L1 : length muts = length (map snd args)) by (rewrite L; eapply Forall2_len; eauto).
    split; [apply Forall2_app; auto|]. rewrite C by auto. rewrite E1. split; [apply Forall2_refl_in; split; auto|]. split; auto.
    rewrite L1, app_nth2, Nat.sub_diag by lia. auto.
Qed.
Lemma atom_inv : forall (S : ty -> ty -> Prop) a ts l, alike S (plug_atom a ts) l -> exists ts', Forall2 S ts ts' /\ l = plug_atom a ts'.
Proof.
  intros Q a ts l H. destruct a; destruct l; simpl in H; try contradiction.
  - destruct H as [<- F]. eauto.
  - destruct H as (<- & F & <-). eauto.
Qed.
Lemma leaf_inv : forall (S : ty -> ty -> Prop) l k, alike S (leaf_kind l) k -> k = leaf_kind l.
Proof. intros Q [v|] []; simpl; intros H; try contradiction; congruence. Qed.
Lemma tag_inv : forall (S : ty -> ty -> Prop) name t l, alike S (KVariant [(name, t)]) l -> exists t', S t t' /\ l = KVariant [(name, t')].
Proof.
  intros Q name t l H. destruct l; simpl in H; try contradiction. destruct H as (b & P & F).
  inversion F as [|? [n' t'] ? b' [E K] F']; subst. inversion F'; subst. apply Permutation_sym, Permutation_length_1_inv in P. simpl in *. subst. eauto.
Qed.

(** * Meaning *)
Section Group.
Variable bodies : list rtype.

Lemma shows_mono : forall d (R S : rtype -> ty -> Prop), (forall r t, R r t -> S r t) -> forall r k, shows bodies d R r k -> shows bodies d S r k.
Proof.
  intros d R Q H r k X. induction X as [c parts ts k F A|a args ts F|l|name t K|i b k E X IH|t k k' E A].
  - eapply sh_node; eauto. eapply Forall2_imp; [|exact F]. auto.
  - apply sh_atom. eapply Forall2_imp; [|exact F]. auto.
  - apply sh_leaf.
  - apply sh_tag. auto.
  - eapply sh_alias; eauto.
  - eapply sh_stored; eauto. eapply alike_mono; [|exact A]. auto.
Qed.
Lemma denote_unfold : forall d r t, denote bodies d r t -> exists k, d t = Some k /\ shows bodies d (denote bodies d) r k.
Proof.
  intros d r t (R & J & H). destruct (H _ _ J) as (k & E & X). exists k. split; auto. eapply shows_mono; [|exact X]. intros r' t' K. exists R. auto.
Qed.

Variables (u : universe).
Hypothesis TU : total (get_type_data u).
Hypothesis PB : forall b, In b bodies -> proper u (length bodies) b.

Lemma same_step : forall d e x y, same d e x y -> exists k l, d x = Some k /\ e y = Some l /\ alike (same d e) k l.
Proof.
  intros d e x y (R & J & H). destruct (H _ _ J) as (k & l & E & F & G). exists k, l. split; auto. split; auto. eapply alike_mono; [|exact G].
  intros a b K. exists R. auto.
Qed.

Lemma denote_same : forall d e, (forall t k, get_type_data u t = Some k -> d t = Some k) -> (forall t k, get_type_data u t = Some k -> e t = Some k) ->
  forall r x y, proper u (length bodies) r -> denote bodies d r x -> same d e x y -> denote bodies e r y.
Proof.
  intros d e Hd He r x y P D S'. exists (fun r y => proper u (length bodies) r /\ exists x, denote bodies d r x /\ same d e x y). split; [eauto|].
  clear r x y P D S'. intros r y (P & x & D & S'). destruct (denote_unfold _ _ _ D) as (k & E & X). destruct (same_step _ _ _ _ S') as (k' & l & E' & F & A).
  assert (k' = k) by congruence. subst k'. exists l. split; auto. clear D E E' F S' x y. revert l A P.
  induction X as [c parts ts k F A|a args ts F|lf|name t K|i b k E X IH|t k k' E A]; intros l A' P; inversion P; subst.
  - pose proof (alike_eq_l _ _ _ _ A A') as B. destruct (plug_inv (same d e) c ts l) as (ts' & F' & A2); auto; [rewrite <- (Forall2_len _ _ _ _ _ F); auto|].
    eapply sh_node; [|exact A2]. pose proof (Forall2_trans' _ _ _ _ _ _ _ _ F F') as F3. eapply Forall2_imp; [|exact F3]. intros p q J _ (z & D & S'). split; eauto.
  - destruct (atom_inv _ _ _ _ A') as (ts' & F' & ->). apply sh_atom. pose proof (Forall2_trans' _ _ _ _ _ _ _ _ F F') as F3. eapply Forall2_imp; [|exact F3].
    intros p q J _ (z & D & S'). split; eauto.
  - apply leaf_inv in A'. subst. apply sh_leaf.
  - destruct (tag_inv _ _ _ _ A') as (t' & S' & ->). apply sh_tag. split; [|eauto]. apply pr_atom. intros r [].
  - eapply sh_alias; eauto. apply IH; auto. apply PB. eapply nth_error_In; eauto.
  - match goal with H : get_type_data u t = Some ?q |- _ => rename H into Et; apply Hd in Et as Et'; assert (q = k) by congruence; subst q end.
    eapply sh_stored; [apply He; exact Et|].
    pose proof (alike_comp _ _ _ _ _ A A') as B.
    assert (M : forall c, In c (kids k) -> exists m, get_type_data u c = Some m) by (intros c J; eapply TU; eauto).
    clear - B M.
    assert (G : alike (fun x z => In x (kids k) /\ exists y, denote bodies d (RStored x) y /\ same d e y z) k l).
    { pose proof (alike_refl_on (fun x y => x = y /\ In x (kids k)) k (fun t J => conj eq_refl J)) as R0. pose proof (alike_comp _ _ _ _ _ R0 B) as C.
      eapply alike_mono; [|exact C]. intros p q (z & (-> & J) & z' & D & S'). eauto. }
    eapply alike_mono; [|exact G]. intros p q (J & z & D & S'). split; [|eauto]. destruct (M p J) as (m & Em). eapply pr_stored; eauto.
Qed.
End Group.

(** * One meaning *)
Lemma tagged_flip : forall A (R : ty -> ty -> Prop) (l m : list (A * ty)), Forall2 (tagged_alike R) l m -> Forall2 (tagged_alike (fun y x => R x y)) m l.
Proof. intros A R l m F. apply Forall2_flip' in F. eapply Forall2_imp; [|exact F]. intros x y _ _ [E H]. split; auto. Qed.
Lemma alike_flip : forall (R : ty -> ty -> Prop) a b, alike R a b -> alike (fun y x => R x y) b a.
Proof.
  intros R. assert (G : forall l m, fields_alike R l m -> fields_alike (fun y x => R x y) m l).
  { intros l m (b & P & F). apply tagged_flip in F. destruct (Permutation_Forall2 (Permutation_sym P) F) as (c & Q & F'). exists c. auto. }
  assert (F : forall l m, Forall2 R l m -> Forall2 (fun y x => R x y) m l) by (intros; apply Forall2_flip'; auto).
  intros [] []; simpl; intros H; try contradiction; auto; intuition auto using tagged_flip.
Qed.
Lemma alike_eq_r : forall (S : ty -> ty -> Prop) a b c, alike S a b -> alike eq b c -> alike S a c.
Proof. intros Q a b c H K. eapply alike_mono; [|eapply alike_comp; eauto]. intros x z (y & L & ->). auto. Qed.
Lemma combine_tagged : forall A (S : ty -> ty -> Prop) (names : list A) ts ts', Forall2 S ts ts' -> Forall2 (tagged_alike S) (combine names ts) (combine names ts').
Proof. intros A Q names. induction names as [|x names IH]; intros ts ts' F; simpl; [constructor|]. inversion F; subst; constructor; auto. split; auto. Qed.
Lemma plug_alike : forall (S : ty -> ty -> Prop) c ts ts', arity_ok c (length ts) -> Forall2 S ts ts' -> alike S (plug c ts) (plug c ts').
Proof.
  intros Q c ts ts' A F. assert (G : forall names, fields_alike Q (combine names ts) (combine names ts')).
  { intros names. exists (combine names ts'). split; auto. apply combine_tagged. auto. }
  destruct c; simpl in *; auto. split; [apply combine_tagged; auto|]. split; auto.
  clear G. revert A. generalize (length muts). induction F as [|x y l m H F IH]; intros [|i] A; simpl in *; try discriminate; auto.
Qed.
Lemma atom_alike : forall (S : ty -> ty -> Prop) a ts ts', Forall2 S ts ts' -> alike S (plug_atom a ts) (plug_atom a ts').
Proof. intros Q [] ts ts' F; simpl; auto. Qed.

Section Unique.
Variables (bodies : list rtype) (u : universe).
Hypothesis TU : total (get_type_data u).
Hypothesis PB : forall b, In b bodies -> proper u (length bodies) b.
Variables d e : ty -> option kind.
Hypothesis Hd : forall t k, get_type_data u t = Some k -> d t = Some k.
Hypothesis He : forall t k, get_type_data u t = Some k -> e t = Some k.

Lemma denote_unique : forall r x y, proper u (length bodies) r -> denote bodies d r x -> denote bodies e r y -> same d e x y.
Proof.
  intros r x y P D E. exists (fun x y => exists r, proper u (length bodies) r /\ denote bodies d r x /\ denote bodies e r y). split; [eauto|].
  clear r x y P D E. intros x y (r & P & D & E). destruct (denote_unfold _ _ _ _ D) as (k & Dk & X). destruct (denote_unfold _ _ _ _ E) as (l & El & Y).
  exists k, l. split; auto. split; auto. clear D E Dk El x y. set (R := fun x y => exists r, proper u (length bodies) r /\ denote bodies d r x /\ denote bodies e r y).
  assert (Z : forall parts ts ts', (forall r, In r parts -> proper u (length bodies) r) -> Forall2 (denote bodies d) parts ts -> Forall2 (denote bodies e) parts ts' -> Forall2 R ts ts').
  { intros parts ts ts' PP F. revert ts'. induction F as [|p t parts ts H F IH]; intros ts' F'; inversion F'; subst; constructor.
    - exists p. split; [apply PP; simpl; auto|auto].
    - apply IH; auto. intros. apply PP. simpl. auto. }
  revert l P Y. induction X as [c parts ts k F A|a args ts F|lf|name t K|i b k Eb X IH|t k k' Et A]; intros l P Y; inversion P; subst; inversion Y; subst.
  - assert (LA : arity_ok c (length ts)) by (rewrite <- (Forall2_len _ _ _ _ _ F); auto).
    eapply alike_eq_l; [|eapply alike_eq_r; [apply plug_alike; [exact LA|eapply Z; eauto]|eassumption]].
    apply alike_flip in A. eapply alike_mono; [|exact A]. simpl. auto.
  - apply atom_alike. eapply Z; eauto.
  - destruct lf; simpl; auto.
  - simpl. eexists. split; [apply Permutation_refl|]. constructor; [|constructor]. split; auto. exists (RAtom (ANative unit_bare) []). split; [apply pr_atom; intros r []|auto].
  - match goal with H : nth_error bodies i = Some ?q |- _ => assert (q = b) by congruence; subst q end. apply IH; auto. apply PB. eapply nth_error_In; eauto.
  - match goal with H : get_type_data u t = Some ?q |- _ => rename H into Gt; assert (q = k) by (pose proof (Hd _ _ Gt); congruence); subst q end.
    match goal with H : e t = Some ?q |- _ => assert (q = k) by (pose proof (He _ _ Gt); congruence); subst q end.
    match goal with H : alike _ k l |- _ => rename H into A2 end.
    pose proof (alike_refl_on (fun x y => x = y /\ In x (kids k)) k (fun t J => conj eq_refl J)) as R0. pose proof (alike_comp _ _ _ _ _ R0 A2) as A3.
    apply alike_flip in A. pose proof (alike_comp _ _ _ _ _ A A3) as A4. eapply alike_mono; [|exact A4].
    intros p q (z & Dz & z' & (-> & J) & Ez). exists (RStored z'). split; auto. destruct (TU _ _ _ Gt J) as (m & M). eapply pr_stored; eauto.
Qed.
End Unique.

(** * Steps of the meaning *)
Section Steps.
Variables (bodies : list rtype) (d : ty -> option kind).
Lemma denote_fold : forall r t k, d t = Some k -> shows bodies d (denote bodies d) r k -> denote bodies d r t.
Proof.
  intros r t k E X. exists (fun r' t' => denote bodies d r' t' \/ (r' = r /\ t' = t)). split; auto. intros r' t' [H|[-> ->]].
  - destruct (denote_unfold _ _ _ _ H) as (k' & E' & X'). exists k'. split; auto. eapply shows_mono; [|exact X']. auto.
  - exists k. split; auto. eapply shows_mono; [|exact X]. auto.
Qed.
Lemma denote_alias : forall i b t, nth_error bodies i = Some b -> denote bodies d (RAlias i) t -> denote bodies d b t.
Proof. intros i b t E H. destruct (denote_unfold _ _ _ _ H) as (k & G & X). inversion X; subst. assert (b0 = b) by congruence. subst. eapply denote_fold; eauto. Qed.
Lemma denote_tuple : forall parts t, denote bodies d (RNode CTuple parts) t -> exists ts, d t = Some (KTuple ts) /\ Forall2 (denote bodies d) parts ts.
Proof.
  intros parts t H. destruct (denote_unfold _ _ _ _ H) as (k & G & X). inversion X as [? ? ts ? F A| | | | |]; subst. destruct k; simpl in A; try contradiction.
  exists items. split; auto. assert (ts = items); [|congruence]. clear - A. induction A; congruence.
Qed.
Lemma denote_variant : forall names parts t, denote bodies d (RNode (CVariant names) parts) t -> length names = length parts -> exists items, d t = Some (KVariant items) /\
  forall j name part, nth_error names j = Some name -> nth_error parts j = Some part -> exists t', In (name, t') items /\ denote bodies d part t'.
Proof.
  intros names parts t H L. destruct (denote_unfold _ _ _ _ H) as (k & G & X). inversion X as [? ? ts ? F A| | | | |]; subst. destruct k; simpl in A; try contradiction.
  exists items. split; auto. destruct A as (b & P & Q). assert (b = combine names ts).
  { clear - Q. induction Q as [|[a x] [b y] l m [E1 E2] Q IH]; simpl in *; congruence. }
  subst b. clear - L P F.
  assert (W : forall (names : list nat) parts ts, Forall2 (denote bodies d) parts ts -> forall j name part, nth_error names j = Some name -> nth_error parts j = Some part -> exists t', In (name, t') (combine names ts) /\ denote bodies d part t').
  { clear. induction names as [|x names IH]; intros parts ts F [|j] name part En Ep; simpl in *; try discriminate; inversion F as [|p t parts' ts' D F']; subst; try discriminate.
    - inversion En; inversion Ep; subst. exists t. simpl. auto.
    - destruct (IH _ _ F' j name part En Ep) as (t' & J & K). exists t'. simpl. auto. }
  intros j name part En Ep. destruct (W names parts ts F j name part En Ep) as (t' & J & K). exists t'. split; auto.
  eapply Permutation_in; [apply Permutation_sym; exact P|exact J].
Qed.
Lemma denote_atom : forall a args t, denote bodies d (RAtom a args) t -> exists ts, d t = Some (plug_atom a ts) /\ Forall2 (denote bodies d) args ts.
Proof. intros a args t H. destruct (denote_unfold _ _ _ _ H) as (k & G & X). inversion X; subst. eauto. Qed.
End Steps.
