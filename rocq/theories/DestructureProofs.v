(** Destructuring binds each name to its part and evaluates the source once. *)
From Coq Require Import List Bool Arith Lia.
From Verif Require Import DestructureModel DestructureSpec.
Import ListNotations.

Lemma pattern_ind' (P : pattern -> Prop) (Hb : forall x m, P (PBind x m)) (Hi : P PIgnore)
  (Ht : forall path l rest, Forall P l -> P (PTuple path l rest)) (Hr : forall path l rest, Forall (fun x => P (snd x)) l -> P (PRecord path l rest)) : forall p, P p.
Proof.
  fix IH 1. intros [x m| |path l rest|path l rest]; [apply Hb|apply Hi|apply Ht|apply Hr]; revert l; fix IL 1; intros [|a l]; constructor; try apply IH; apply IL.
Qed.

Lemma name_eqb_eq a b : name_eqb a b = true <-> a = b.
Proof. destruct a, b; cbn; rewrite ?Nat.eqb_eq; split; congruence. Qed.

(** * Names bound twice *)

Definition collects (x : outcome (list nat)) (new seen : list nat) : Prop :=
  (NoDup (new ++ seen) -> exists l, x = Done l /\ NoDup l /\ forall y, In y l <-> In y (new ++ seen)) /\ (~ NoDup (new ++ seen) -> exists y, x = Fails (BoundTwice y)).

Lemma existsb_in x l : existsb (Nat.eqb x) l = true <-> In x l.
Proof. rewrite existsb_exists. split; [intros (y & H & E); apply Nat.eqb_eq in E; now subst|intros H; exists x; now rewrite Nat.eqb_refl]. Qed.
Lemma existsb_not_in x l : existsb (Nat.eqb x) l = false <-> ~ In x l.
Proof. rewrite <- existsb_in. destruct (existsb _ _); split; congruence. Qed.

Lemma nodup_app_iff (a b : list nat) : NoDup (a ++ b) <-> NoDup a /\ NoDup b /\ forall x, In x a -> ~ In x b.
Proof.
  induction a as [|x a IH]; cbn.
  - split; [intros H; repeat split; auto; constructor|intros (_ & H & _); exact H].
  - rewrite !NoDup_cons_iff, IH, in_app_iff. split.
    + intros (H1 & H2 & H3 & H4). repeat split; auto. intros y [<-|Hy] Hb; [tauto|now apply (H4 y)].
    + intros ((H1 & H2) & H3 & H4). repeat split; auto. intros [H|H]; [tauto|now apply (H4 x (or_introl eq_refl))].
Qed.
Lemma nodup_dec (l : list nat) : NoDup l \/ ~ NoDup l.
Proof.
  induction l as [|x l [IH|IH]]; [left; constructor| |right; intros H; inversion H; contradiction].
  destruct (in_dec Nat.eq_dec x l); [right; intros H; inversion H; contradiction|left; now constructor].
Qed.

Lemma collect_ok : forall p seen, NoDup seen -> collects (collect p seen) (names p) seen.
Proof.
  assert (G : forall {A} (sub : A -> pattern) (l : list A), Forall (fun a => forall seen, NoDup seen -> collects (collect (sub a) seen) (names (sub a)) seen) l ->
    forall seen, NoDup seen -> collects ((fix go (l : list A) (seen : list nat) : outcome (list nat) :=
         match l with
         | [] => Done seen
         | a :: l => match collect (sub a) seen with Done seen => go l seen | Fails e => Fails e | Panics => Panics end
         end) l seen) (flat_map (fun a => names (sub a)) l) seen).
  { intros A sub l. induction 1 as [|a l Ha Hl IH]; intros seen Hs; cbn [flat_map].
    - split; [|intros H; now destruct H]. intros _. exists seen. split; [reflexivity|]. split; [exact Hs|]. cbn. tauto.
    - destruct (Ha seen Hs) as [H1 H2]. destruct (nodup_dec (names (sub a) ++ seen)) as [D|D].
      + destruct (H1 D) as (l1 & -> & Dl & E1).
        assert (Iff : NoDup (flat_map (fun a => names (sub a)) l ++ l1) <-> NoDup ((names (sub a) ++ flat_map (fun a => names (sub a)) l) ++ seen)).
        { rewrite !nodup_app_iff in *. split.
          - intros (N1 & N2 & N3). destruct D as (D1 & D2 & D3). repeat split; auto.
            + intros x Hx Hy. apply (N3 x Hy). apply E1, in_or_app. now left.
            + intros x Hx. apply in_app_iff in Hx. destruct Hx as [Hx|Hx]; [now apply D3|]. intros Hy. apply (N3 x Hx). apply E1, in_or_app. now right.
          - intros ((N1 & N2 & N3) & N4 & N5). repeat split; auto. intros x Hx Hy. apply E1, in_app_iff in Hy. destruct Hy as [Hy|Hy]; [now apply (N3 x Hy)|]. apply (N5 x); [|exact Hy]. apply in_or_app. now right. }
        destruct (IH l1 Dl) as [I1 I2]. split.
        * intros N. destruct (I1 (proj2 Iff N)) as (l2 & -> & D2 & E2). exists l2. split; [reflexivity|]. split; [exact D2|]. intros y. rewrite E2, !in_app_iff, E1, in_app_iff. tauto.
        * intros N. apply I2. now rewrite Iff.
      + destruct (H2 D) as (y & ->). split; [|intros _; now exists y]. intros N. exfalso. apply D. rewrite !nodup_app_iff in *. destruct N as ((N1 & N2 & N3) & N4 & N5). repeat split; auto. intros x Hx. apply N5, in_or_app. now left. }
  induction p as [x m| |path l rest IH|path l rest IH] using pattern_ind'; intros seen Hs.
  - cbn. destruct (existsb (Nat.eqb x) seen) eqn:E.
    + apply existsb_in in E. split; [intros N; inversion N; contradiction|]. intros _. now exists x.
    + apply existsb_not_in in E. split; [|intros H; destruct H; now constructor]. intros N. exists (x :: seen). split; [reflexivity|]. split; [exact N|]. cbn. tauto.
  - cbn. split; [|intros H; now destruct H]. intros _. exists seen. split; [reflexivity|]. split; [exact Hs|]. tauto.
  - apply (G _ (fun p => p) l IH seen Hs).
  - pose proof (G _ (fun x : nat * pattern => snd x) l IH seen Hs) as H. cbn [collect names].
    match type of H with collects (?f l seen) _ _ => match goal with |- collects (?g l seen) _ _ => replace (g l seen) with (f l seen); [exact H|] end end.
    clear. revert seen. induction l as [|[f p] l IH]; intros seen; [reflexivity|]. cbn [snd]. destruct (collect p seen); auto.
Qed.

(** * The loops over elements *)

Section Expand.
Variable struct : nat -> option shape.
Notation expand := (expand struct).

Inductive expands : list (expr * pattern) -> nat -> list statement -> nat -> Prop :=
| expands_nil : forall n, expands [] n [] n
| expands_skip : forall e p l n s n', consumes p = false -> expands l n s n' -> expands ((e, p) :: l) n s n'
| expands_cons : forall e p l n s n1 s' n2, consumes p = true -> expand p e false n = Done (s, n1) -> expands l n1 s' n2 -> expands ((e, p) :: l) n (s ++ s') n2.

Fixpoint tuple_items (source : expr) (i : nat) (l : list pattern) : list (expr * pattern) :=
  match l with
  | [] => []
  | p :: l => (EProject source i, p) :: tuple_items source (S i) l
  end.
Definition record_items (source : expr) (l : list (nat * pattern)) : list (expr * pattern) := map (fun x => (EField source (fst x), snd x)) l.

Lemma expand_tuple path l rest e asc n ss n' : expand (PTuple path l rest) e asc n = Done (ss, n') ->
  (uses l = 0 /\ ss = [Do (EConstraint e)] /\ n' = n) \/
  (uses l <> 0 /\ exists source st n1 r, materialize (EConstraint e) asc (uses l) n = Done (source, st, n1) /\ expands (tuple_items source 0 l) n1 r n' /\ ss = st ++ r).
Proof.
  cbn [DestructureModel.expand]. destruct (tuple_constraint _ _ _ _); try discriminate. destruct (Nat.eqb_spec (uses l) 0) as [E|E]; [intros [= <- <-]; left; auto|].
  intros H. right. split; [exact E|]. destruct (materialize _ _ _ _) as [[[source st] n1]| |]; try discriminate. exists source, st, n1.
  match type of H with match ?f 0 l n1 with _ => _ end = _ => assert (G : forall l i m r m', f i l m = Done (r, m') -> expands (tuple_items source i l) m r m') end.
  { clear. induction l as [|p l IH]; intros i m r m' H; cbn in *; [injection H as <- <-; constructor|].
    destruct (consumes p) eqn:Ec; [|constructor; [exact Ec|now apply IH]].
    destruct (DestructureModel.expand struct p (EProject source i) false m) as [[s m1]| |] eqn:Ee; try discriminate.
    match type of H with match ?x with _ => _ end = _ => destruct x as [[r' m2]| |] eqn:Eg; try discriminate end. injection H as <- <-. apply (expands_cons _ _ _ m s m1 r' m2 Ec Ee). exact (IH _ _ _ _ Eg). }
  match type of H with match ?x with _ => _ end = _ => destruct x as [[r m2]| |] eqn:Eg; try discriminate end. injection H as <- <-. exists r. split; [reflexivity|]. split; [now apply G|reflexivity].
Qed.
Lemma expand_record path l rest e asc n ss n' : expand (PRecord path l rest) e asc n = Done (ss, n') ->
  exists e', (e' = e \/ e' = EConstraint e) /\
  ((uses (map snd l) = 0 /\ ss = [Do e'] /\ n' = n) \/
  (uses (map snd l) <> 0 /\ exists source st n1 r, materialize e' asc (uses (map snd l)) n = Done (source, st, n1) /\ expands (record_items source l) n1 r n' /\ ss = st ++ r)).
Proof.
  cbn [DestructureModel.expand]. destruct (record_constraint _ _ _ _) as [constrained| |]; try discriminate. exists (if constrained then EConstraint e else e).
  split; [destruct constrained; auto|]. revert H. set (e' := if constrained then EConstraint e else e). intros H.
  destruct (Nat.eqb_spec (uses (map snd l)) 0) as [E|E]; [injection H as <- <-; left; auto|].
  right. split; [exact E|]. destruct (materialize _ _ _ _) as [[[source st] n1]| |]; try discriminate. exists source, st, n1.
  match type of H with match ?f l n1 with _ => _ end = _ => assert (G : forall l m r m', f l m = Done (r, m') -> expands (record_items source l) m r m') end.
  { clear. induction l as [|[f p] l IH]; intros m r m' H; cbn in *; [injection H as <- <-; constructor|].
    destruct (consumes p) eqn:Ec; [|constructor; [exact Ec|now apply IH]].
    destruct (DestructureModel.expand struct p (EField source f) false m) as [[s m1]| |] eqn:Ee; try discriminate.
    match type of H with match ?x with _ => _ end = _ => destruct x as [[r' m2]| |] eqn:Eg; try discriminate end. injection H as <- <-. apply (expands_cons _ _ _ m s m1 r' m2 Ec Ee). exact (IH _ _ _ Eg). }
  match type of H with match ?x with _ => _ end = _ => destruct x as [[r m2]| |] eqn:Eg; try discriminate end. injection H as <- <-. exists r. split; [reflexivity|]. split; [now apply G|reflexivity].
Qed.

(** * Running the statements *)

Variable other : nat -> locals -> option (value * list nat).
Notation eval := (eval other).
Notation run := (run other).

Lemma run_app s1 s2 : forall r r1 t1 r2 t2, run r s1 = Some (r1, t1) -> run r1 s2 = Some (r2, t2) -> run r (s1 ++ s2) = Some (r2, t1 ++ t2).
Proof.
  induction s1 as [|[x m e|e] s1 IH]; cbn; intros r r1 t1 r2 t2 H1 H2; [injection H1 as <- <-; exact H2| |].
  - destruct (eval r e) as [[v t]|]; [|discriminate]. destruct (run _ s1) as [[r' t']|] eqn:E; [|discriminate]. injection H1 as <- <-. rewrite (IH _ _ _ _ _ E H2). now rewrite app_assoc.
  - destruct (eval r e) as [[v t]|]; [|discriminate]. destruct (run _ s1) as [[r' t']|] eqn:E; [|discriminate]. injection H1 as <- <-. rewrite (IH _ _ _ _ _ E H2). now rewrite app_assoc.
Qed.

(** Names that may be bound: some names of the program and generated ones from [n] up to [n']. *)
Definition among (A : list nat) (n n' : nat) (x : name) : Prop := match x with User y => In y A | Temp k => n <= k < n' end.
Definition new_names (A : list nat) (n n' : nat) (d : locals) : Prop := Forall (fun x => among A n n' (fst x)) d.
(** What the source reads is not bound. *)
Definition safe (e : expr) (A : list nat) (n : nat) : Prop := forall x, reads e x -> match x with User y => ~ In y A | Temp k => k < n end.

Lemma lookup_app d r x : ~ In x (map fst d) -> lookup (d ++ r) x = lookup r x.
Proof.
  induction d as [|[y v] d IH]; cbn; [reflexivity|]. intros H. destruct (name_eqb y x) eqn:E; [apply name_eqb_eq in E; tauto|]. apply IH. tauto.
Qed.
Lemma new_not_in A n n' d x : new_names A n n' d -> ~ among A n n' x -> ~ In x (map fst d).
Proof. intros H Hn Hin. apply in_map_iff in Hin. destruct Hin as (y & <- & Hy). apply Hn. unfold new_names in H. rewrite Forall_forall in H. now apply H. Qed.

Lemma replay_silent e : replayable e = true -> forall r v t, eval r e = Some (v, t) -> t = [].
Proof.
  induction e; cbn; intros Hr r v' t H; try discriminate; eauto.
  - destruct (lookup r x) as [[? ?]|]; [|discriminate]. now injection H.
  - now injection H.
  - destruct (eval r e) as [[[n|l|l] t']|] eqn:E; try discriminate. destruct (nth_error l i); [|discriminate]. injection H as <- <-. eauto.
  - destruct (eval r e) as [[[n|l|l] t']|] eqn:E; try discriminate. destruct (field l f); [|discriminate]. injection H as <- <-. eauto.
Qed.
Lemma replay_same e : replayable e = true -> forall r r', (forall x, reads e x -> lookup r' x = lookup r x) -> eval r' e = eval r e.
Proof.
  induction e; cbn; intros Hr r r' H; try discriminate.
  - rewrite H by constructor. reflexivity.
  - reflexivity.
  - rewrite (IHe Hr r r'); [reflexivity|]. intros x Hx. apply H. now constructor.
  - rewrite (IHe Hr r r'); [reflexivity|]. intros x Hx. apply H. now constructor.
  - apply (IHe Hr r r'). intros x Hx. apply H. now constructor.
  - apply (IHe Hr r r'). intros x Hx. apply H. now constructor.
Qed.

Definition fine (p : pattern) : Prop := forall e asc n ss n' r v t,
  expand p e asc n = Done (ss, n') -> consumes p = true -> eval r e = Some (v, t) -> fits p v -> NoDup (names p) -> safe e (names p) n ->
  n <= n' /\ exists d, run r ss = Some (d ++ r, t) /\ new_names (names p) n n' d /\ forall x m w, part p v x m w -> lookup (d ++ r) (User x) = Some (m, w).

Definition all_names (l : list (expr * pattern)) : list nat := flat_map (fun x => names (snd x)) l.
(** Whatever of these names is bound, the expression has this value. *)
Definition stable (A : list nat) (n : nat) (r : locals) (e : expr) (v : value) : Prop := forall d n', new_names A n n' d -> eval (d ++ r) e = Some (v, []).

Lemma new_names_mono A A' n n1 n' n1' d : incl A A' -> n' <= n -> n1 <= n1' -> new_names A n n1 d -> new_names A' n' n1' d.
Proof. intros H1 H2 H3. apply Forall_impl. intros [[y|k] v]; cbn; [apply H1|lia]. Qed.

Lemma part_names p v x m w : part p v x m w -> In x (names p).
Proof.
  induction 1; cbn; [auto| |].
  - apply in_flat_map. exists p. split; [|exact IHpart]. eapply nth_error_In; eauto.
  - apply in_flat_map. exists (f, p). auto.
Qed.

Lemma items_fine l : Forall (fun x => fine (snd x)) l -> forall A n s n' r, expands l n s n' -> incl (all_names l) A -> NoDup (all_names l) ->
  (forall e p, In (e, p) l -> exists v, fits p v /\ stable A n r e v) -> (forall e p, In (e, p) l -> safe e A n) ->
  n <= n' /\ exists d, run r s = Some (d ++ r, []) /\ new_names (all_names l) n n' d /\
    forall e p v, In (e, p) l -> eval r e = Some (v, []) -> forall x m w, part p v x m w -> lookup (d ++ r) (User x) = Some (m, w).
Proof.
  induction 1 as [|[e p] l Hp Hl IH]; intros A n s n' r He HA Hd Hv Hs.
  - inversion He; subst. split; [lia|]. exists []. split; [reflexivity|]. split; [constructor|]. intros ? ? ? [].
  - cbn [snd] in Hp. cbn [all_names flat_map snd] in HA, Hd. fold (all_names l) in HA, Hd. apply nodup_app_iff in Hd. destruct Hd as (D1 & D2 & D3).
    assert (HA1 : incl (names p) A) by (intros x Hx; apply HA, in_or_app; now left). assert (HA2 : incl (all_names l) A) by (intros x Hx; apply HA, in_or_app; now right).
    inversion He as [|e0 p0 l0 m0 s0 m1 Hc Hrest|e0 p0 l0 m0 s1 n1 s2 m2 Hc Hex Hrest]; subst.
    + destruct (IH A n s n' r Hrest HA2 D2) as (Hn & d & R & N & L); [intros; apply Hv; now right|intros; apply (Hs e0 p0); now right|].
      split; [exact Hn|]. exists d. split; [exact R|]. split.
      * apply (new_names_mono (all_names l) _ n n' n n'); [|lia|lia|exact N]. cbn. intros x Hx. apply in_or_app. now right.
      * intros e1 p1 v [[= <- <-]|Hin] Ev x m w Hpart; [destruct p; try discriminate; inversion Hpart|]. now apply (L e1 p1 v Hin Ev).
    + destruct (Hv e p (or_introl eq_refl)) as (v & Hf & Hst).
      assert (Ev : eval r e = Some (v, [])) by (apply (Hst [] n); constructor).
      destruct (Hp e false n s1 n1 r v [] Hex Hc Ev Hf D1) as (Hn1 & d1 & R1 & N1 & L1). { intros x Hx. specialize (Hs e p (or_introl eq_refl) x Hx). destruct x; [|exact Hs]. intros Hin. now apply Hs, HA1. }
      destruct (IH A n1 s2 n' (d1 ++ r) Hrest HA2 D2) as (Hn2 & d2 & R2 & N2 & L2).
      * intros e1 p1 Hin. destruct (Hv e1 p1 (or_intror Hin)) as (v1 & F1 & S1). exists v1. split; [exact F1|]. intros d k Hd. rewrite app_assoc. apply (S1 _ (max k n1)).
        apply Forall_app. split; [apply (new_names_mono A A n1 k n (max k n1)); [easy|lia|lia|exact Hd]|apply (new_names_mono (names p) A n n1 n (max k n1)); [exact HA1|lia|lia|exact N1]].
      * intros e1 p1 Hin x Hx. specialize (Hs e1 p1 (or_intror Hin) x Hx). destruct x; [exact Hs|lia].
      * split; [lia|]. exists (d2 ++ d1). rewrite <- app_assoc. split; [rewrite <- (app_nil_l (@nil nat)); eapply run_app; eassumption|]. split.
        { apply Forall_app. split; [apply (new_names_mono (all_names l) _ n1 n' n n'); [|lia|lia|exact N2]|apply (new_names_mono (names p) _ n n1 n n'); [|lia|lia|exact N1]]; cbn; intros x Hx; apply in_or_app; auto. }
        intros e1 p1 v1 [[= <- <-]|Hin] Ev1 x m w Hpart.
        { rewrite Ev in Ev1. injection Ev1 as <-. rewrite lookup_app; [now apply L1|]. apply (new_not_in _ _ _ _ _ N2). cbn. apply D3. now apply (part_names p v x m w). }
        apply (L2 e1 p1 v1 Hin); [|exact Hpart]. destruct (Hv e1 p1 (or_intror Hin)) as (v2 & F1 & S1). pose proof (S1 [] n ltac:(constructor)) as E2. cbn in E2. rewrite Ev1 in E2. injection E2 as <-.
        apply (S1 d1 n1). apply (new_names_mono (names p) A n n1 n n1); [exact HA1|lia|lia|exact N1].
Qed.

Lemma single l : forall n s n', expands l n s n' -> uses (map snd l) = 1 ->
  exists l1 e p l2, l = l1 ++ (e, p) :: l2 /\ consumes p = true /\ Forall (fun x => snd x = PIgnore) l1 /\ Forall (fun x => snd x = PIgnore) l2 /\ expand p e false n = Done (s, n').
Proof.
  assert (Z : forall l n s n', expands l n s n' -> uses (map snd l) = 0 -> s = [] /\ n' = n /\ Forall (fun x => snd x = PIgnore) l).
  { clear l. induction 1 as [|e p l n s n' Hc He IH|e p l n s n1 s' n2 Hc _ _ _]; unfold uses in *; cbn.
    - auto.
    - rewrite Hc. intros H. destruct (IH H) as (-> & -> & F). repeat split; auto. constructor; [|exact F]. now destruct p.
    - rewrite Hc. discriminate. }
  intros n0 s0 n0' H. induction H as [|e p l n s n' Hc He IH|e p l n s n1 s' n2 Hc Hex Hr IH]; unfold uses in *; cbn.
  - discriminate.
  - rewrite Hc. intros Hu. destruct (IH Hu) as (l1 & e' & p' & l2 & -> & C & F1 & F2 & X). exists ((e, p) :: l1), e', p', l2. repeat split; auto. constructor; [|exact F1]. now destruct p.
  - rewrite Hc. cbn. intros [= Hu]. destruct (Z _ _ _ _ Hr Hu) as (-> & -> & F). exists [], e, p, l. rewrite app_nil_r. repeat split; auto.
Qed.

(** What both kinds of patterns share. *)
Lemma product_fine p (items : expr -> list (expr * pattern)) e asc n k r v t source st n1 rest n' :
  Forall (fun x => fine (snd x)) (items source) -> k = uses (map snd (items source)) -> k <> 0 -> materialize e asc k n = Done (source, st, n1) -> expands (items source) n1 rest n' ->
  eval r e = Some (v, t) -> NoDup (names p) -> safe e (names p) n -> all_names (items source) = names p ->
  (forall e1 p1, In (e1, p1) (items source) -> exists w, fits p1 w /\ forall r' t', eval r' source = Some (v, t') -> eval r' e1 = Some (w, t')) ->
  (forall e1 p1, In (e1, p1) (items source) -> (forall x, reads e1 x -> reads source x)) ->
  (forall x m w, part p v x m w -> exists e1 p1 v1, In (e1, p1) (items source) /\ (forall r' t', eval r' source = Some (v, t') -> eval r' e1 = Some (v1, t')) /\ part p1 v1 x m w) ->
  n <= n' /\ exists d, run r (st ++ rest) = Some (d ++ r, t) /\ new_names (names p) n n' d /\ forall x m w, part p v x m w -> lookup (d ++ r) (User x) = Some (m, w).
Proof.
  intros Hl Hk Hk0 Hm He Ev Hd Hs Hn Hv Hr Hp. unfold materialize in Hm. destruct (Nat.leb k 1 || replayable e) eqn:Em.
  - injection Hm as <- <- <-. cbn [app]. destruct (Nat.eq_dec k 1) as [K1|K1].
    + rewrite Hk in K1. destruct (single _ _ _ _ He K1) as (l1 & e1 & p1 & l2 & El & Hc & F1 & F2 & Hex).
      assert (Hin : In (e1, p1) (items e)) by (rewrite El; apply in_or_app; right; now left).
      destruct (Hv _ _ Hin) as (w & Hf & Hw). rewrite Forall_forall in Hl. specialize (Hl _ Hin). cbn in Hl.
      assert (N1 : names p1 = names p).
      { rewrite <- Hn, El. unfold all_names. rewrite flat_map_app. cbn. assert (Z : forall l : list (expr * pattern), Forall (fun x => snd x = PIgnore) l -> flat_map (fun x => names (snd x)) l = []).
        { induction 1 as [|x l Hx Hl' IH]; cbn; [reflexivity|]. now rewrite Hx. }
        now rewrite (Z _ F1), (Z _ F2), app_nil_r. }
      destruct (Hl e1 false n rest n' r w t Hex Hc (Hw _ _ Ev) Hf) as (L & d & R & N & K); [now rewrite N1|intros x Hx; rewrite N1; apply Hs; now apply (Hr e1 p1)|].
      split; [exact L|]. exists d. split; [exact R|]. split; [now rewrite <- N1|]. intros x m u Hpart. destruct (Hp x m u Hpart) as (e2 & p2 & v2 & Hin2 & Ev2 & Hp2).
      assert (E : (e2, p2) = (e1, p1)).
      { rewrite El in Hin2. apply in_app_iff in Hin2. rewrite Forall_forall in F1, F2. destruct Hin2 as [H|[H|H]]; [|now symmetry|]; [pose proof (F1 _ H) as X|pose proof (F2 _ H) as X]; cbn in X; subst; inversion Hp2. }
      injection E as -> ->. apply K. pose proof (Hw _ _ Ev) as A1. rewrite (Ev2 _ _ Ev) in A1. injection A1 as ->. exact Hp2.
    + assert (Hrep : replayable e = true) by (destruct (Nat.leb_spec k 1); [lia|exact Em]). assert (t = []) as -> by (now apply (replay_silent e Hrep r v)).
      assert (St : forall d m, new_names (names p) n m d -> eval (d ++ r) e = Some (v, [])).
      { intros d m Hd'. rewrite <- Ev. apply replay_same; [exact Hrep|]. intros x Hx. apply lookup_app. apply (new_not_in _ _ _ _ _ Hd'). specialize (Hs x Hx). destruct x; cbn; [exact Hs|lia]. }
      destruct (items_fine _ Hl (names p) n rest n' r He) as (L & d & R & N & K); [rewrite Hn; easy|now rewrite Hn| |intros e1 p1 Hin x Hx; apply Hs; now apply (Hr e1 p1)|].
      { intros e1 p1 Hin. destruct (Hv _ _ Hin) as (w & Hf & Hw). exists w. split; [exact Hf|]. intros d m Hd'. apply Hw. now apply (St d m). }
      split; [exact L|]. exists d. split; [exact R|]. split; [now rewrite <- Hn|]. intros x m w Hpart. destruct (Hp x m w Hpart) as (e1 & p1 & v1 & Hin & Ev1 & Hp1). apply (K e1 p1 v1 Hin); [now apply Ev1|exact Hp1].
  - unfold bind_local in Hm. destruct (ascription_found e asc); [|discriminate]. injection Hm as <- <- <-.
    set (r1 := (Temp n, (false, v)) :: r).
    assert (St : forall d m, new_names (names p) (S n) m d -> eval (d ++ r1) (EName (Temp n)) = Some (v, [])).
    { intros d m Hd'. cbn. rewrite lookup_app; [unfold r1; cbn; now rewrite Nat.eqb_refl|]. apply (new_not_in _ _ _ _ _ Hd'). cbn. lia. }
    assert (Hrs : forall x, reads (EName (Temp n)) x -> x = Temp n) by (intros x Hx; now inversion Hx).
    destruct (items_fine _ Hl (names p) (S n) rest n' r1 He) as (L & d & R & N & K); [rewrite Hn; easy|now rewrite Hn| | |].
    { intros e1 p1 Hin. destruct (Hv _ _ Hin) as (w & Hf & Hw). exists w. split; [exact Hf|]. intros d m Hd'. apply Hw. now apply (St d m). }
    { intros e1 p1 Hin x Hx. apply (Hr e1 p1 Hin), Hrs in Hx. subst x. lia. }
    split; [lia|]. exists (d ++ [(Temp n, (false, v))]). rewrite <- app_assoc. cbn [app]. fold r1. split; [|split].
    + cbn. rewrite Ev. fold r1. rewrite R. now rewrite app_nil_r.
    + apply Forall_app. split; [apply (new_names_mono (names p) _ (S n) n' n n'); [easy|lia|lia|now rewrite <- Hn]|]. constructor; [cbn; lia|constructor].
    + intros x m w Hpart. destruct (Hp x m w Hpart) as (e1 & p1 & v1 & Hin & Ev1 & Hp1). apply (K e1 p1 v1 Hin); [|exact Hp1]. apply Ev1. apply (St [] 0). constructor.
Qed.

Lemma tuple_items_in source l : forall i e p, In (e, p) (tuple_items source i l) -> exists j, nth_error l j = Some p /\ e = EProject source (i + j).
Proof.
  induction l as [|q l IH]; cbn; intros i e p; [easy|]. intros [[= <- <-]|Hin]; [exists 0; split; [reflexivity|f_equal; lia]|].
  destruct (IH _ _ _ Hin) as (j & Hj & ->). exists (S j). split; [exact Hj|f_equal; lia].
Qed.
Lemma tuple_items_nth source l : forall i j p, nth_error l j = Some p -> In (EProject source (i + j), p) (tuple_items source i l).
Proof.
  induction l as [|q l IH]; intros i [|j] p H; cbn in *; try discriminate.
  - injection H as <-. left. f_equal. f_equal. lia.
  - right. replace (i + S j) with (S i + j) by lia. now apply IH.
Qed.
Lemma tuple_items_snd source l : forall i, map snd (tuple_items source i l) = l.
Proof. induction l; cbn; intros i; [reflexivity|]. now rewrite IHl. Qed.
Lemma record_items_snd source l : map snd (record_items source l) = map snd l.
Proof. unfold record_items. now rewrite map_map. Qed.
Lemma flat_map_snd {A} (l : list (A * pattern)) : flat_map (fun x => names (snd x)) l = flat_map names (map snd l).
Proof. induction l; cbn; [reflexivity|]. now rewrite IHl. Qed.
Lemma forall_snd (P : pattern -> Prop) {A} (l : list (A * pattern)) : Forall (fun x => P (snd x)) l <-> Forall P (map snd l).
Proof. symmetry. apply Forall_map. Qed.

Lemma unused l : uses l = 0 -> Forall (fun p => p = PIgnore) l.
Proof.
  unfold uses. intros H. apply Forall_forall. intros p Hp. destruct (consumes p) eqn:E; [|now destruct p].
  assert (Hin : In p (filter consumes l)) by (apply filter_In; auto). destruct (filter consumes l); [contradiction|discriminate].
Qed.

Lemma expand_fine : forall p, fine p.
Proof.
  induction p as [x m| |path l rest IH|path l rest IH] using pattern_ind'; intros e asc n ss n' r v t He Hc Ev Hf Hd Hs.
  - cbn in He. unfold bind_local in He. destruct (ascription_found e asc); [|discriminate]. injection He as <- <-. split; [lia|]. exists [(User x, (m, v))]. cbn. rewrite Ev, app_nil_r.
    split; [reflexivity|]. split; [constructor; [now left|constructor]|]. intros x' m' w Hp. inversion Hp; subst. now rewrite Nat.eqb_refl.
  - discriminate.
  - apply expand_tuple in He. destruct He as [(Hu & -> & ->)|(Hu & source & st & n1 & rr & Hm & Hex & ->)].
    + split; [lia|]. exists []. cbn. rewrite Ev, app_nil_r. split; [reflexivity|]. split; [constructor|]. intros x m w Hp. inversion Hp; subst.
      match goal with H : nth_error l _ = Some ?q, H' : part ?q _ _ _ _ |- _ => apply nth_error_In in H; pose proof (unused _ Hu) as F; rewrite Forall_forall in F; rewrite (F _ H) in H'; inversion H' end.
    + inversion Hf as [| |path' rest' l' vs Hall|]; subst.
      apply (product_fine (PTuple path l rest) (fun s => tuple_items s 0 l) (EConstraint e) asc n (uses l) r (VTuple vs) t source st n1 rr n'); auto.
      * apply forall_snd. now rewrite tuple_items_snd.
      * now rewrite tuple_items_snd.
      * intros x Hx. inversion Hx; subst. now apply Hs.
      * unfold all_names. now rewrite flat_map_snd, tuple_items_snd.
      * intros e1 p1 Hin. apply tuple_items_in in Hin. destruct Hin as (j & Hj & ->). destruct (Hall _ _ Hj) as (w & Hw & Hfw). exists w. split; [exact Hfw|]. intros r' t' Hr'. cbn. rewrite Hr'. cbn. now rewrite Hw.
      * intros e1 p1 Hin x Hx. apply tuple_items_in in Hin. destruct Hin as (j & Hj & ->). now inversion Hx.
      * intros x m w Hp. inversion Hp as [|path' rest' l' vs' j q vq x' m' w' Hj Hvj Hpq|]; subst. exists (EProject source j), q, vq. split; [apply (tuple_items_nth source l 0 j q Hj)|]. split; [|exact Hpq]. intros r' t' Hr'. cbn. rewrite Hr'. now rewrite Hvj.
  - apply expand_record in He. destruct He as (e' & Ee' & He). assert (Ev' : eval r e' = Some (v, t)) by (destruct Ee' as [->| ->]; exact Ev).
    assert (Hs' : safe e' (names (PRecord path l rest)) n) by (destruct Ee' as [->| ->]; [exact Hs|intros x Hx; inversion Hx; subst; now apply Hs]).
    destruct He as [(Hu & -> & ->)|(Hu & source & st & n1 & rr & Hm & Hex & ->)].
    + split; [lia|]. exists []. cbn. rewrite Ev', app_nil_r. split; [reflexivity|]. split; [constructor|]. intros x m w Hp. inversion Hp; subst.
      match goal with H : In (_, ?q) l, H' : part ?q _ _ _ _ |- _ => apply (in_map snd) in H; pose proof (unused _ Hu) as F; rewrite Forall_forall in F; cbn in H; rewrite (F _ H) in H'; inversion H' end.
    + inversion Hf as [| | |path' rest' l' vs Hall]; subst.
      apply (product_fine (PRecord path l rest) (fun s => record_items s l) e' asc n (uses (map snd l)) r (VRecord vs) t source st n1 rr n'); auto.
      * apply forall_snd. rewrite record_items_snd. now apply forall_snd.
      * now rewrite record_items_snd.
      * unfold all_names. cbn [names]. now rewrite !flat_map_snd, record_items_snd.
      * intros e1 p1 Hin. apply in_map_iff in Hin. destruct Hin as ([f q] & [= <- <-] & Hin). destruct (Hall _ _ Hin) as (w & Hw & Hfw). exists w. split; [exact Hfw|]. intros r' t' Hr'. cbn. rewrite Hr'. cbn. now rewrite Hw.
      * intros e1 p1 Hin x Hx. apply in_map_iff in Hin. destruct Hin as ([f q] & [= <- <-] & Hin). now inversion Hx.
      * intros x m w Hp. inversion Hp as [| |path' rest' l' vs' f q vq x' m' w' Hin Hvf Hpq]; subst. exists (EField source f), q, vq. split; [apply in_map_iff; now exists (f, q)|]. split; [|exact Hpq]. intros r' t' Hr'. cbn. rewrite Hr'. now rewrite Hvf.
Qed.

Lemma desugar_let_fine p e asc n ss n' r v t : desugar_let struct p e asc n = Done (ss, n') -> p <> PIgnore -> eval r e = Some (v, t) -> fits p v ->
  (forall x, In x (names p) -> ~ reads e (User x)) -> (forall k, reads e (Temp k) -> k < n) ->
  exists r', run r ss = Some (r', t) /\ (forall x m w, part p v x m w -> lookup r' (User x) = Some (m, w)) /\ (forall x, ~ In x (names p) -> lookup r' (User x) = lookup r (User x)).
Proof.
  unfold desugar_let. intros H Hp Ev Hf Hs Ht. pose proof (collect_ok p [] ltac:(constructor)) as [C1 C2]. rewrite app_nil_r in *.
  destruct (nodup_dec (names p)) as [D|D]; [|destruct (C2 D) as (y & E); rewrite E in H; discriminate]. destruct (C1 D) as (l & E & _). rewrite E in H.
  destruct (expand_fine p e asc n ss n' r v t H) as (_ & d & R & N & K); auto; [now destruct p|intros [x|k] Hx; [|now apply Ht]; intros Hin; now apply (Hs x Hin)|].
  exists (d ++ r). split; [exact R|]. split; [exact K|]. intros x Hx. apply lookup_app. apply (new_not_in _ _ _ _ _ N). exact Hx.
Qed.
End Expand.

(** * Names bound twice, panics *)

Lemma outcome_of_expand struct : forall p e asc n, (asc = true -> (exists e', e = EAscription e') \/ exists v, e = ELiteral v) -> expand struct p e asc n <> Panics /\ forall x, expand struct p e asc n <> Fails (BoundTwice x).
Proof.
  assert (B : forall x m e asc, (asc = true -> ascription_found e true = true) -> bind_local x m e asc = Done (Let x m e)).
  { intros x m e [|] H; unfold bind_local; [now rewrite H|reflexivity]. }
  assert (M : forall e asc k n, (asc = true -> ascription_found e true = true) -> exists s, materialize e asc k n = Done s).
  { intros e asc k n H. unfold materialize. destruct (_ || _); [eauto|]. rewrite B by exact H. eauto. }
  induction p as [x m| |path l rest IH|path l rest IH] using pattern_ind'; intros e asc n Ha.
  - cbn. rewrite B; [split; discriminate|]. intros E. destruct (Ha E) as [[e' ->]|[v ->]]; reflexivity.
  - split; discriminate.
  - cbn [expand]. assert (T : tuple_constraint struct path (length l) rest <> Panics /\ forall x, tuple_constraint struct path (length l) rest <> Fails (BoundTwice x)).
    { unfold tuple_constraint. destruct path; [|split; discriminate]. destruct (struct n0) as [[k|k]|]; try (split; discriminate). destruct (_ || _); split; discriminate. }
    destruct (tuple_constraint struct path (length l) rest) as [u|f|]; [|destruct T as [_ T]; split; [discriminate|intros x [= ->]; now apply (T x)]|now destruct T]. clear T.
    destruct (Nat.eqb (uses l) 0); [split; discriminate|].
    destruct (M (EConstraint e) asc (uses l) n) as ([[source st] n1] & ->). { intros E. destruct (Ha E) as [[e' ->]|[v ->]]; reflexivity. }
    match goal with |- match ?f 0 l n1 with _ => _ end <> _ /\ _ => assert (G : forall i m, f i l m <> Panics /\ forall x, f i l m <> Fails (BoundTwice x)) end.
    { clear n1. induction IH as [|p l Hp Hl IHl]; intros i m; [split; discriminate|]. cbn. destruct (consumes p); [|apply IHl].
      destruct (Hp (EProject source i) false m ltac:(discriminate)) as [P1 P2]. destruct (expand struct p (EProject source i) false m) as [[s m1]|f|]; [|split; [discriminate|exact P2]|congruence].
      destruct (IHl (S i) m1) as [Q1 Q2]. match goal with |- match ?x with _ => _ end <> _ /\ _ => destruct x as [[? ?]|f|]; [split; discriminate|split; [discriminate|exact Q2]|congruence] end. }
    destruct (G 0 n1) as [Q1 Q2]. match goal with |- match ?x with _ => _ end <> _ /\ _ => destruct x as [[? ?]|f|]; [split; discriminate|split; [discriminate|exact Q2]|congruence] end.
  - cbn [expand]. assert (T : record_constraint struct path (map fst l) rest <> Panics /\ forall x, record_constraint struct path (map fst l) rest <> Fails (BoundTwice x)).
    { unfold record_constraint, sort_fields. destruct (first_duplicate _ _); [split; discriminate|]. destruct path; [|split; discriminate]. destruct (struct n0) as [[k|k]|]; try (split; discriminate).
      assert (V : forall a b c, validate a b c <> Panics /\ forall x, validate a b c <> Fails (BoundTwice x)).
      { intros a b [|]; cbn.
        - induction b as [|f b IHb]; cbn; [split; discriminate|]. destruct (existsb _ _); [apply IHb|split; discriminate].
        - assert (W : forall a b, compare_zipped a b <> Panics /\ forall x, compare_zipped a b <> Fails (BoundTwice x)).
          { clear. induction a as [|x a IHa]; intros [|y b]; cbn [compare_zipped]; try (split; discriminate). destruct (Nat.ltb x y); [split; discriminate|]. destruct (Nat.ltb y x); [split; discriminate|apply IHa]. }
          destruct (W a b) as [W1 W2]. destruct (compare_zipped a b); [|split; [discriminate|exact W2]|congruence]. destruct (nth_error a _); [split; discriminate|]. destruct (nth_error b _); split; discriminate. }
      match goal with |- match validate ?a ?b ?c with _ => _ end <> _ /\ _ => destruct (V a b c) as [V1 V2]; destruct (validate a b c) end; [split; discriminate|split; [discriminate|intros x [= ->]; now apply (V2 x)]|congruence]. }
    destruct (record_constraint struct path (map fst l) rest) as [u|f|]; [|destruct T as [_ T]; split; [discriminate|intros x [= ->]; now apply (T x)]|now destruct T]. clear T.
    destruct (Nat.eqb (uses (map snd l)) 0); [split; discriminate|].
    destruct (M (if u then EConstraint e else e) asc (uses (map snd l)) n) as ([[source st] n1] & ->). { intros E. destruct (Ha E) as [[e' ->]|[v ->]]; now destruct u. }
    match goal with |- match ?f l n1 with _ => _ end <> _ /\ _ => assert (G : forall m, f l m <> Panics /\ forall x, f l m <> Fails (BoundTwice x)) end.
    { clear n1. induction IH as [|[f p] l Hp Hl IHl]; intros m; [split; discriminate|]. cbn in *. destruct (consumes p); [|apply IHl].
      destruct (Hp (EField source f) false m ltac:(discriminate)) as [P1 P2]. destruct (expand struct p (EField source f) false m) as [[s m1]|f'|]; [|split; [discriminate|exact P2]|congruence].
      destruct (IHl m1) as [Q1 Q2]. match goal with |- match ?x with _ => _ end <> _ /\ _ => destruct x as [[? ?]|f'|]; [split; discriminate|split; [discriminate|exact Q2]|congruence] end. }
    destruct (G n1) as [Q1 Q2]. match goal with |- match ?x with _ => _ end <> _ /\ _ => destruct x as [[? ?]|f|]; [split; discriminate|split; [discriminate|exact Q2]|congruence] end.
Qed.

Lemma desugar_let_panic struct p e asc n : (asc = true -> (exists e', e = EAscription e') \/ exists v, e = ELiteral v) -> desugar_let struct p e asc n <> Panics.
Proof.
  intros H. unfold desugar_let. pose proof (collect_ok p [] ltac:(constructor)) as [C1 C2]. destruct (nodup_dec (names p ++ [])) as [D|D].
  - destruct (C1 D) as (l & -> & _). now apply outcome_of_expand.
  - destruct (C2 D) as (y & ->). discriminate.
Qed.
Lemma desugar_let_twice struct p e asc n : (asc = true -> (exists e', e = EAscription e') \/ exists v, e = ELiteral v) -> (exists x, desugar_let struct p e asc n = Fails (BoundTwice x)) <-> ~ NoDup (names p).
Proof.
  intros H. unfold desugar_let. pose proof (collect_ok p [] ltac:(constructor)) as [C1 C2]. rewrite app_nil_r in *. destruct (nodup_dec (names p)) as [D|D].
  - destruct (C1 D) as (l & -> & _). split; [|easy]. intros (x & Hx). destruct (outcome_of_expand struct p e asc n H) as [_ O]. now apply O in Hx.
  - destruct (C2 D) as (y & ->). split; [easy|]. intros _. now exists y.
Qed.

(** * Fields of structs *)

Lemma first_duplicate_none l : forall seen, first_duplicate l seen = None <-> NoDup l /\ forall x, In x l -> ~ In x seen.
Proof.
  induction l as [|f l IH]; intros seen; cbn; [split; [intros _; split; [constructor|easy]|reflexivity]|].
  destruct (existsb (Nat.eqb f) seen) eqn:E.
  - apply existsb_in in E. split; [discriminate|]. intros [_ H]. exfalso. now apply (H f (or_introl eq_refl)).
  - apply existsb_not_in in E. rewrite IH, NoDup_cons_iff. cbn. split.
    + intros [H1 H2]. split; [split; [|exact H1]|intros x [<-|Hx]; [exact E|]]; [intros Hin; now apply (H2 f Hin); left|]. intros Hs. apply (H2 x Hx). now right.
    + intros [[H1 H2] H3]. split; [exact H2|]. intros x Hx [<-|Hs]; [contradiction|]. now apply (H3 x (or_intror Hx)).
Qed.

From Coq Require Import Sorted Permutation.
Lemma insert_perm x l : Permutation (insert x l) (x :: l).
Proof. induction l as [|y l IH]; cbn; [reflexivity|]. destruct (Nat.leb x y); [reflexivity|]. rewrite IH. apply perm_swap. Qed.
Lemma sort_perm l : Permutation (fold_right insert [] l) l.
Proof. induction l as [|x l IH]; cbn; [reflexivity|]. rewrite insert_perm. now constructor. Qed.
Lemma insert_sorted x l : StronglySorted le l -> StronglySorted le (insert x l).
Proof.
  induction 1 as [|y l Hl IH Hy]; cbn; [repeat constructor|]. destruct (Nat.leb_spec x y).
  - constructor; [now constructor|]. constructor; [exact H|]. eapply Forall_impl; [|exact Hy]. cbn. lia.
  - constructor; [exact IH|]. apply (Permutation_Forall (Permutation_sym (insert_perm x l))). constructor; [lia|exact Hy].
Qed.
Lemma sort_sorted l : StronglySorted le (fold_right insert [] l).
Proof. induction l; cbn; [constructor|now apply insert_sorted]. Qed.
Lemma strict l : StronglySorted le l -> NoDup l -> StronglySorted lt l.
Proof.
  induction 1 as [|x l Hl IH Hx]; intros Hd; [constructor|]. inversion Hd as [|? ? Hn Hd']; subst. constructor; [auto|]. rewrite Forall_forall in *. intros y Hy. specialize (Hx y Hy). destruct (Nat.eq_dec x y) as [->|]; [contradiction|lia].
Qed.
Lemma strict_eq l : StronglySorted lt l -> forall l', StronglySorted lt l' -> (forall x, In x l <-> In x l') -> l = l'.
Proof.
  induction 1 as [|x l Hl IH Hx]; intros [|y l'] Hl' E; [reflexivity|exfalso; now apply (proj2 (E y)); left|exfalso; now apply (proj1 (E x)); left|].
  inversion Hl' as [|? ? Hl'' Hy]; subst. rewrite Forall_forall in *.
  assert (x = y) as <-. { destruct (proj1 (E x) (or_introl eq_refl)) as [|A]; [congruence|]. destruct (proj2 (E y) (or_introl eq_refl)) as [|B]; [congruence|]. specialize (Hy x A). specialize (Hx y B). lia. }
  f_equal. apply IH; [exact Hl''|]. intros z. split; intros Hz; [destruct (proj1 (E z) (or_intror Hz)) as [<-|]|destruct (proj2 (E z) (or_intror Hz)) as [<-|]]; auto; [specialize (Hx x Hz)|specialize (Hy x Hz)]; lia.
Qed.
Lemma validate_exact layout fields : validate layout fields false = Done tt <-> layout = fields.
Proof.
  unfold validate. assert (C : forall a b, compare_zipped a b = Done tt <-> firstn (length b) a = firstn (length a) b).
  { induction a as [|x a IH]; intros [|y b]; cbn [compare_zipped length firstn]; try tauto. destruct (Nat.ltb_spec x y); [split; [discriminate|intros [= ]; lia]|]. destruct (Nat.ltb_spec y x); [split; [discriminate|intros [= ]; lia]|].
    rewrite IH. assert (x = y) as -> by lia. split; [intros ->; reflexivity|now intros [= ->]]. }
  split.
  - intros H. destruct (compare_zipped layout fields) as [[]| |] eqn:E; try discriminate. apply C in E.
    destruct (nth_error layout (length fields)) eqn:E1; [discriminate|]. destruct (nth_error fields (length layout)) eqn:E2; [discriminate|]. apply nth_error_None in E1, E2.
    rewrite !firstn_all2 in E by lia. exact E.
  - intros ->. assert (E : compare_zipped fields fields = Done tt) by now apply C. rewrite E. assert (N : nth_error fields (length fields) = None) by (now apply nth_error_None). now rewrite N.
Qed.
Lemma all_in_exact layout fields : all_in layout fields = Done tt <-> incl fields layout.
Proof.
  induction fields as [|f fields IH]; cbn; [split; [intros _ x []|reflexivity]|]. destruct (existsb (Nat.eqb f) layout) eqn:E.
  - apply existsb_in in E. rewrite IH. split; [intros H x [<-|Hx]; auto|intros H x Hx; apply H; now right].
  - apply existsb_not_in in E. split; [discriminate|]. intros H. exfalso. apply E, H. now left.
Qed.

Lemma record_fields struct d layout fields rest : struct d = Some (ShapeRecord layout) -> StronglySorted lt layout ->
  record_constraint struct (Some d) fields rest = Done true <-> NoDup fields /\ (if rest then incl fields layout else forall f, In f fields <-> In f layout).
Proof.
  intros Hd Hl. unfold record_constraint, sort_fields. destruct (first_duplicate fields []) eqn:E.
  - split; [discriminate|]. intros [N _]. assert (X : first_duplicate fields [] = None) by (apply first_duplicate_none; auto). congruence.
  - apply first_duplicate_none in E. destruct E as [N _]. rewrite Hd. set (sorted := fold_right insert [] fields).
    assert (P : Permutation sorted fields) by apply sort_perm.
    assert (S : StronglySorted lt sorted) by (apply strict; [apply sort_sorted|apply (Permutation_NoDup (Permutation_sym P) N)]).
    assert (I : forall x, In x sorted <-> In x fields) by (intros x; split; apply Permutation_in; [exact P|now symmetry]).
    assert (V : validate layout sorted rest = Done tt <-> (if rest then incl fields layout else forall f, In f fields <-> In f layout)).
    { destruct rest.
      - cbn. rewrite all_in_exact. split; intros H x Hx; apply H, I, Hx.
      - rewrite validate_exact. split; [intros -> f; now rewrite I|]. intros H. apply (strict_eq _ Hl _ S). intros x. rewrite I, H. tauto. }
    destruct (validate layout sorted rest) as [[]| |]; [split; [intros _; split; [exact N|now apply V]|reflexivity]|split; [discriminate|intros [_ H]; apply V in H; discriminate]|split; [discriminate|intros [_ H]; apply V in H; discriminate]].
Qed.
