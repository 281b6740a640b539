(** The operations of the effect solver keep the table sound, only add to it, and keep the promises made. *)
From Coq Require Import NArith List Bool Arith Lia.
From Verif Require Import ListUtil EffModel EffSpec EffProofs EffSolverModel EffSolverSpec EffSolverProofs EffSolverNorm.
Import ListNotations.
Open Scope N_scope.

Local Opaque inline_vars.

(** [u] already has the effect [y]. *)
Definition delivered (t : table) (u : efftype) (y : effect) : Prop :=
  match y with Primitive p => has t u p | Variable_ q => meets t u q end.
Lemma delivered_mono : forall t t' u y, extends t t' -> delivered t u y -> delivered t' u y.
Proof. intros t t' u [p|q] X H; [now apply (extends_has t t')|now apply (extends_meets t t')]. Qed.
Lemma delivered_through : forall t u r x y, sound_table t -> meets t u r -> probe t r = Some x -> mem x y -> delivered t u y.
Proof.
  intros t u r x [p|q] W M P H; cbn [delivered].
  - apply (meets_has t u r p M). apply has_var. exists x. split; [exact P|now apply has_itself].
  - destruct M as (w & L & E). exists q. split; [|reflexivity]. unfold probe in P. rewrite <- E in P.
    induction L as [u w M|u v z w M Q L IH]; [eapply leads_through; eauto using leads_itself|eapply leads_through; eauto].
Qed.
Lemma delivered_chain : forall t u v y, (forall z, mem v z -> delivered t u z) -> delivered t v y -> delivered t u y.
Proof.
  intros t u v [p|q] H D; cbn [delivered] in *.
  - inversion D as [e p' M|e w x p' M P Hx]; subst; [exact (H _ M)|]. specialize (H _ M). cbn [delivered] in H. apply (meets_has t u w p H). apply has_var. eauto.
  - destruct D as (w & L & E). inversion L as [e w' M|e w' x w'' M P L']; subst.
    + specialize (H _ M). cbn [delivered] in H. destruct H as (a & La & Ea). exists a. split; [exact La|congruence].
    + specialize (H _ M). cbn [delivered] in H. destruct H as (a & La & Ea). exists w. split; [|exact E]. unfold probe in P. rewrite <- Ea in P. clear - La P L'.
      induction La as [u a M|u b z a M Q L IH]; eapply leads_through; eauto.
Qed.
Lemma delivered_has : forall t u e, (forall y, mem e y -> delivered t u y) -> below t e u.
Proof. intros t u e H p Hp. apply (delivered_chain t u e (Primitive p) H). exact Hp. Qed.

(** ** Expanding one pending dependency *)
Lemma expand_var_ok : forall fuel source visiting t v, sound_table t -> v < len t -> inside t source ->
  NoDup visiting -> (forall x, In x visiting -> x < len t) -> (N.to_nat (len t) <= fuel + length visiting)%nat ->
  match expand fuel source visiting t v with
  | SOk t' => sound_table t' /\ extends t t' /\ len t' = len t /\ (forall w, find t' w = find t w) /\
      exists x, probe t' v = Some x /\ forall y, mem source y -> mem x y
  | SErr => True
  | _ => False
  end.
Proof.
  assert (Put : forall t v source, sound_table t -> v < len t -> inside t source ->
    let t' := union_value t (find t v) (Some (eff_union source (eff_single_variable (find t v)))) in
    sound_table t' /\ extends t t' /\ len t' = len t /\ (forall w, find t' w = find t w) /\ exists x, probe t' v = Some x /\ forall y, mem source y -> mem x y).
  { intros t v source W V I. assert (R : find t v < len t) by now apply (st_in t W).
    destruct (union_value_ok t (find t v) (eff_union source (eff_single_variable (find t v))) W R) as (W1 & X1 & L1 & F1 & (x & P1 & M1) & _).
    { apply inside_union; [exact I|now apply inside_single]. }
    cbv zeta. split; [exact W1|]. split; [exact X1|]. split; [exact L1|]. split; [exact F1|]. exists x. split.
    - rewrite <- P1. unfold probe. now rewrite !F1, (st_idem t W).
    - intros y Hy. apply M1, union_mem; [apply I|constructor|]. now left. }
  induction fuel as [|fuel IH]; intros source visiting t v W V I D B L; cbn [expand].
  all: destruct (existsb (N.eqb (find t v)) visiting) eqn:Ex; [now apply Put|].
  - exfalso. assert (In (find t v) visiting) as Hi.
    { apply (pigeon visiting (len t)); try assumption. now apply (st_in t W). }
    apply existsb_in in Hi. congruence.
  - assert (R : find t v < len t) by now apply (st_in t W).
    destruct (value t (find t v)) as [existing|] eqn:Ev; [|now apply Put].
    destruct (st_value t W _ _ Ev) as (_ & Re & Me).
    destruct (satisfied source existing) eqn:Es.
    + split; [exact W|]. split; [apply extends_refl|]. split; [reflexivity|]. split; [reflexivity|]. exists existing. split; [exact Ev|].
      unfold satisfied in Es. apply subset_mem in Es as [_ Es]; [|apply I|apply primitives_reachable]. intros y Hy. apply Es, primitives_mem in Hy. destruct Hy as (p & -> & Hp). exact Hp.
    + destruct (eff_variables existing) as [|w ws] eqn:Ew; [exact Logic.I|]. rewrite <- Ew.
      destruct (union_value_ok t (find t v) (eff_union existing source) W R) as (W1 & X1 & L1 & F1 & (x & P1 & M1) & _).
      { apply inside_union; [now split|exact I]. }
      set (t1 := union_value t (find t v) (Some (eff_union existing source))) in *.
      assert (Over : forall vars t2, sound_table t2 -> len t2 = len t -> (forall u, find t2 u = find t u) -> (forall u, In u vars -> u < len t) ->
        match over_vars (expand fuel source (find t v :: visiting)) vars t2 with
        | SOk t' => sound_table t' /\ extends t2 t' /\ len t' = len t /\ (forall u, find t' u = find t u)
        | SErr => True
        | _ => False
        end).
      { induction vars as [|u vars IHv]; intros t2 W2 L2 F2 Hv; cbn [over_vars].
        - split; [exact W2|]. split; [apply extends_refl|]. auto.
        - pose proof (IH source (find t v :: visiting) t2 u W2) as Q. rewrite L2 in Q.
          specialize (Q (Hv u (or_introl eq_refl)) (inside_mono t t2 source ltac:(lia) I)).
          assert (D' : NoDup (find t v :: visiting)). { constructor; [|exact D]. intros Hi. apply existsb_in in Hi. congruence. }
          specialize (Q D'). assert (B' : forall x0, In x0 (find t v :: visiting) -> x0 < len t) by (intros x0 [<-|Hx]; auto).
          specialize (Q B'). cbn [length] in Q. specialize (Q ltac:(lia)).
          destruct (expand fuel source (find t v :: visiting) t2 u) as [t3| | |]; cbn [sbind]; try exact Q.
          destruct Q as (W3 & X3 & L3 & F3 & _).
          specialize (IHv t3 W3 ltac:(congruence) ltac:(intros; rewrite F3; apply F2) (fun z Hz => Hv z (or_intror Hz))).
          destruct (over_vars _ vars t3) as [t4| | |]; try exact IHv. destruct IHv as (W4 & X4 & L4 & F4). split; [exact W4|]. split; [now apply (extends_trans _ _ _ X3)|]. auto. }
      specialize (Over (eff_variables existing) t1 W1 L1 F1). 
      destruct (over_vars (expand fuel source (find t v :: visiting)) (eff_variables existing) t1) as [t'| | |]; try (apply Over; intros u Hu; apply var_in in Hu; [auto|exact Re]).
      destruct Over as (W2 & X2 & L2 & F2). { intros u Hu. apply var_in in Hu; [auto|exact Re]. }
      split; [exact W2|]. split; [now apply (extends_trans _ _ _ X1)|]. split; [exact L2|]. split; [exact F2|].
      assert (P : probe t1 v = Some x). { rewrite <- P1. unfold probe. now rewrite !F1, (st_idem t W). }
      destruct (ext_value _ _ X2 v x P) as (x' & P' & M'). exists x'. split; [exact P'|]. intros y Hy. apply M', M1, union_mem; [exact Re|apply I|]. now right.
Qed.

(** ** Solver states *)
Definition good (s : solver) : Prop :=
  sound_table (tbl s) /\ (forall d, In d (pending s) -> inside (tbl s) (fst d) /\ snd d < len (tbl s)) /\
  (forall i, In i (deferred s) -> inside (tbl s) (fst i) /\ inside (tbl s) (snd i)).
Record step (s s' : solver) : Prop := {
  step_good : good s';
  step_ext : extends (tbl s) (tbl s');
  step_pending : forall d, In d (pending s) -> In d (pending s');
  step_deferred : forall i, In i (deferred s) -> In i (deferred s')
}.
Lemma step_refl : forall s, good s -> step s s.
Proof. intros s G. constructor; auto. apply extends_refl. Qed.
Lemma step_trans : forall a b c, step a b -> step b c -> step a c.
Proof. intros a b c [G1 X1 P1 D1] [G2 X2 P2 D2]. constructor; auto. now apply (extends_trans _ _ _ X1). Qed.
Lemma step_table : forall s t, good s -> sound_table t -> extends (tbl s) t -> step s (with_table s t).
Proof.
  intros s t (W & P & D) W' X. pose proof (ext_len _ _ X) as L. constructor; cbn [tbl pending deferred with_table]; auto.
  split; [exact W'|]. split; cbn [tbl pending deferred with_table].
  - intros d Hd. destruct (P d Hd) as [I V]. split; [now apply (inside_mono (tbl s))|lia].
  - intros i Hi. destruct (D i Hi). split; now apply (inside_mono (tbl s)).
Qed.
Lemma step_push : forall s ds, good s -> (forall d, In d ds -> inside (tbl s) (fst d) /\ snd d < len (tbl s)) -> step s (Solver (tbl s) (pending s ++ ds) (deferred s)).
Proof.
  intros s ds (W & P & D) H. constructor; cbn [tbl pending deferred].
  - split; [exact W|]. split; [|exact D]. cbn [tbl pending]. intros d Hd. apply in_app_or in Hd as [Hd|Hd]; auto.
  - apply extends_refl.
  - intros d Hd. apply in_or_app. now left.
  - auto.
Qed.
Lemma step_defer : forall s i, good s -> inside (tbl s) (fst i) -> inside (tbl s) (snd i) -> step s (add_defer s i).
Proof.
  intros s i (W & P & D) H1 H2. constructor; cbn [tbl pending deferred add_defer]; auto.
  - split; [exact W|]. split; [exact P|]. cbn [tbl deferred]. intros j Hj. apply in_app_or in Hj as [Hj|[<-|[]]]; auto.
  - apply extends_refl.
  - intros j Hj. apply in_or_app. now left.
Qed.

(** ** Promises *)
Definition promised (s : solver) (u : efftype) (y : effect) : Prop :=
  delivered (tbl s) u y \/ exists d, In d (pending s) /\ mem (fst d) y /\ meets (tbl s) u (snd d).
Definition due (t : table) (u : efftype) (y : effect) (i : efftype * efftype) : Prop :=
  concrete (fst i) /\ mem (fst i) y /\ forall z, mem (snd i) z -> delivered t u z.
Definition owes (s : solver) (u : efftype) (y : effect) : Prop :=
  promised s u y \/ exists i, In i (deferred s) /\ due (tbl s) u y i.
Lemma promised_step : forall s s' u y, step s s' -> promised s u y -> promised s' u y.
Proof.
  intros s s' u y [G X P D] [H|(d & H1 & H2 & H3)]; [left; now apply (delivered_mono (tbl s))|].
  right. exists d. split; [auto|]. split; [exact H2|now apply (extends_meets (tbl s))].
Qed.
Lemma due_mono : forall t t' u y i, extends t t' -> due t u y i -> due t' u y i.
Proof. intros t t' u y i X (H1 & H2 & H3). split; [exact H1|]. split; [exact H2|]. intros z Hz. apply (delivered_mono t); auto. Qed.
Lemma owes_step : forall s s' u y, step s s' -> owes s u y -> owes s' u y.
Proof.
  intros s s' u y St [H|(i & H1 & H2)]; [left; now apply (promised_step s)|]. right. exists i. destruct St. split; [auto|now apply (due_mono (tbl s))].
Qed.
Lemma promised_chain : forall s u v y, (forall z, mem v z -> delivered (tbl s) u z) -> promised s v y -> promised s u y.
Proof.
  intros s u v y H [D|(d & H1 & H2 & H3)]; [left; now apply (delivered_chain (tbl s) u v)|]. right. exists d. split; [exact H1|]. split; [exact H2|].
  exact (delivered_chain (tbl s) u v (Variable_ (snd d)) H H3).
Qed.

(** ** Expanding *)
Lemma expand_list_ok : forall ds t, sound_table t -> (forall d, In d ds -> inside t (fst d) /\ snd d < len t) ->
  match expand_list ds t with
  | SOk t' => sound_table t' /\ extends t t' /\ forall d, In d ds -> exists x, probe t' (snd d) = Some x /\ forall y, mem (fst d) y -> mem x y
  | SErr => True
  | _ => False
  end.
Proof.
  induction ds as [|d ds IH]; intros t W H; cbn [expand_list]; [split; [exact W|split; [apply extends_refl|intros d []]]|].
  destruct (H d (or_introl eq_refl)) as [I V]. unfold expand_one.
  assert (E : ensure_var t (snd d) = t). { unfold ensure_var. destruct (N.leb_spec (len t) (snd d)); [lia|reflexivity]. }
  rewrite E. pose proof (expand_var_ok (N.to_nat (len t)) (fst d) [] t (snd d) W V I (NoDup_nil _)) as Q.
  specialize (Q (fun x (F : In x []) => match F with end) ltac:(cbn [length]; lia)).
  destruct (expand (N.to_nat (len t)) (fst d) [] t (snd d)) as [t1| | |]; cbn [sbind]; try exact Q. destruct Q as (W1 & X1 & L1 & F1 & x & P1 & M1).
  specialize (IH t1 W1). assert (H' : forall d0, In d0 ds -> inside t1 (fst d0) /\ snd d0 < len t1).
  { intros d0 Hd. destruct (H d0 (or_intror Hd)) as [I0 V0]. rewrite L1. split; [apply (inside_mono t); [lia|exact I0]|exact V0]. }
  specialize (IH H'). destruct (expand_list ds t1) as [t2| | |]; try exact IH. destruct IH as (W2 & X2 & D2). split; [exact W2|]. split; [now apply (extends_trans _ _ _ X1)|].
  intros d0 [<-|Hd]; [|auto]. destruct (ext_value _ _ X2 _ _ P1) as (x' & P' & M'). exists x'. auto.
Qed.
Lemma expand_all_ok : forall s, good s ->
  match expand_all s with
  | SOk s' => good s' /\ extends (tbl s) (tbl s') /\ pending s' = [] /\ deferred s' = deferred s /\ forall u y, promised s u y -> delivered (tbl s') u y
  | SErr => True
  | _ => False
  end.
Proof.
  intros s (W & P & D). unfold expand_all. pose proof (expand_list_ok (pending s) (tbl s) W P) as Q.
  destruct (expand_list (pending s) (tbl s)) as [t| | |]; cbn [sbind]; try exact Q. destruct Q as (W1 & X1 & H). pose proof (ext_len _ _ X1) as L.
  split; [|split; [exact X1|split; [reflexivity|split; [reflexivity|]]]].
  - split; [exact W1|]. cbn [tbl pending deferred]. split; [intros d []|]. intros i Hi. destruct (D i Hi). split; now apply (inside_mono (tbl s)).
  - cbn [tbl]. intros u y [K|(d & H1 & H2 & H3)]; [now apply (delivered_mono (tbl s))|]. destruct (H d H1) as (x & Px & Mx).
    apply (delivered_through t u (snd d) x y W1); [now apply (extends_meets (tbl s))|exact Px|auto].
Qed.

(** ** Inclusions *)
Lemma exact_delivered : forall t e n, exact t e n -> forall z, mem n z -> delivered t e z.
Proof. intros t e n (_ & P & V & _) [p|q] H; cbn [delivered]; [now apply P|now apply V]. Qed.

Definition accepted (s : solver) (lower upper : efftype) (defer : bool) (done : bool) (s' : solver) : Prop :=
  step s s' /\ (defer = false -> deferred s' = deferred s) /\ (defer = true -> done = true) /\ (done = false -> s' = s) /\
  (concrete lower -> done = true -> forall y, mem lower y -> promised s' upper y \/ defer = true /\ exists i, In i (deferred s') /\ due (tbl s') upper y i).

Lemma holds_sound : forall a b, reachable a -> reachable b -> holds a b = true -> forall y, mem a y -> mem b y.
Proof.
  intros a b Ra Rb H y Hy. unfold holds in H. rewrite !orb_true_iff in H. destruct H as [[H|H]|H].
  - now apply (empty_mem a Ra) with (x := y) in H.
  - apply eff_eqb_eq in H; [now subst|assumption|assumption].
  - apply subset_mem in H; [|assumption|assumption]. now apply H.
Qed.

Lemma try_rest_ok : forall s l u defer, good s -> inside (tbl s) l -> inside (tbl s) u ->
  match try_add_rest s l u defer with
  | SOk (done, s') => accepted s l u defer done s'
  | SErr => True
  | _ => False
  end.
Proof.
  intros s l u defer G Il Iu. pose proof G as (W & _). unfold try_add_rest.
  destruct (normalize_ok (tbl s) W l Il) as (lo & El & Xl). rewrite El. cbn [sbind].
  destruct (normalize_ok (tbl s) W u Iu) as (up & Eu & Xu). rewrite Eu. cbn [sbind].
  pose proof (exact_inside (tbl s) l lo Xl) as Jl. pose proof (exact_inside (tbl s) u up Xu) as Ju. destruct (proj1 Jl, proj1 Ju) as [Rl Ru].
  assert (Cl : concrete l -> lo = l). { intros C. rewrite (normalize_concrete (tbl s) l (proj1 Il) C) in El. congruence. }
  destruct (holds lo up) eqn:Eh.
  { split; [now apply step_refl|]. split; [auto|]. split; [auto|]. split; [discriminate|]. intros C _ y Hy. left. left. rewrite <- (Cl C) in Hy.
    apply (exact_delivered _ _ _ Xu). now apply (holds_sound lo up). }
  assert (Amb : match (if defer then SOk (true, add_defer s (lo, up)) else SOk (false, s)) with SOk (done, s') => accepted s l u defer done s' | SErr => True | _ => False end).
  { destruct defer.
    - split; [now apply step_defer|]. split; [discriminate|]. split; [auto|]. split; [discriminate|]. intros C _ y Hy. right. split; [reflexivity|].
      exists (lo, up). split; [apply in_or_app; right; now left|]. rewrite (Cl C). split; [exact C|]. split; [exact Hy|]. apply (exact_delivered _ _ _ Xu).
    - split; [now apply step_refl|]. split; [auto|]. split; [discriminate|]. split; [auto|discriminate]. }
  assert (Push : forall v, eff_to_single_variable up = Some v -> accepted s l u defer true (add_push s (lo, v))).
  { intros v Ev. apply single_var in Ev; [|exact Ru]. assert (Mv : mem up (Variable_ v)) by (rewrite Ev; apply single_self).
    split; [apply step_push; [exact G|]|].
    - intros d [<-|[]]. split; [exact Jl|]. now apply Ju.
    - split; [auto|]. split; [auto|]. split; [discriminate|]. intros C _ y Hy. left. right. exists (lo, v). split; [apply in_or_app; right; now left|].
      split; [rewrite (Cl C); exact Hy|]. exact (exact_delivered _ _ _ Xu _ Mv). }
  assert (Tbl : forall t, sound_table t -> extends (tbl s) t -> ~ concrete l -> accepted s l u defer true (with_table s t)).
  { intros t Wt Xt Nc. split; [now apply step_table|]. split; [auto|]. split; [auto|]. split; [discriminate|]. intros C. now destruct (Nc C). }
  assert (Nc : forall w ws, eff_variables lo = w :: ws -> ~ concrete l).
  { intros w ws E C. rewrite <- (Cl C) in C. apply vars_nil in C; [congruence|exact Rl]. }
  destruct (eff_variables lo) as [|w ws] eqn:Elo, (eff_variables up) as [|w' ws'] eqn:Eup.
  - exact Logic.I.
  - destruct (eff_to_single_variable up) as [v|] eqn:Ev; [now apply Push|exact Amb].
  - rewrite <- Elo. destruct (bind_vars_ok (eff_variables lo) (tbl s) up W Ju) as (W1 & X1 & _). { intros v Hv. apply var_in in Hv; [now apply Jl|exact Rl]. }
    apply Tbl; [exact W1|exact X1|now apply (Nc w ws)].
  - destruct (eff_to_single_variable lo) as [v|] eqn:Ev.
    + apply single_var in Ev; [|exact Rl]. assert (Hv : v < len (tbl s)) by (apply Jl; rewrite Ev; apply single_self).
      destruct (union_value_ok (tbl s) v up W Hv Ju) as (W1 & X1 & _). apply Tbl; [exact W1|exact X1|now apply (Nc w ws)].
    + destruct (eff_to_single_variable up) as [v|] eqn:Ev'; [now apply Push|exact Amb].
Qed.

Lemma concrete_not_single : forall e, reachable e -> concrete e -> eff_to_single_variable e = None.
Proof.
  intros e R C. destruct (eff_to_single_variable e) as [v|] eqn:E; [|reflexivity]. apply single_var in E; [|exact R]. destruct (C v). rewrite E. apply single_self.
Qed.
Lemma try_add_ok : forall s l u defer, good s -> inside (tbl s) l -> inside (tbl s) u ->
  match try_add s l u defer with
  | SOk (done, s') => accepted s l u defer done s'
  | SErr => True
  | _ => False
  end.
Proof.
  intros s l u defer G Il Iu. pose proof G as (W & _). unfold try_add. destruct (eff_to_single_variable l) as [v|] eqn:Ev; [|now apply try_rest_ok].
  destruct (match value (tbl s) (find (tbl s) v) with Some x => eff_is_only_vars x | None => true end); [|now apply try_rest_ok].
  destruct (normalize_ok (tbl s) W u Iu) as (up & Eu & Xu). rewrite Eu. cbn [sbind]. pose proof (exact_inside (tbl s) u up Xu) as Ju.
  assert (Nc : ~ concrete l). { intros C. rewrite concrete_not_single in Ev; [discriminate|apply Il|exact C]. }
  apply single_var in Ev; [|apply Il]. assert (Hv : v < len (tbl s)) by (apply Il; rewrite Ev; apply single_self).
  assert (Hr : find (tbl s) v < len (tbl s)) by now apply (st_in _ W).
  destruct (eff_is_empty up || eff_eqb (eff_single_variable (find (tbl s) v)) up).
  - split; [now apply step_refl|]. split; [auto|]. split; [auto|]. split; [discriminate|]. intros C. now destruct (Nc C).
  - destruct (union_value_ok (tbl s) (find (tbl s) v) up W Hr Ju) as (W1 & X1 & _).
    split; [now apply step_table|]. split; [auto|]. split; [auto|]. split; [discriminate|]. intros C. now destruct (Nc C).
Qed.

Lemma ensure_two : forall s a b, good s -> reachable a -> reachable b ->
  let s' := with_table s (ensure_effect_vars (ensure_effect_vars (tbl s) a) b) in step s s' /\ inside (tbl s') a /\ inside (tbl s') b.
Proof.
  intros s a b G Ra Rb. pose proof G as (W & _). destruct (ensure_effect_ok (tbl s) a W Ra) as (W1 & X1 & I1). destruct (ensure_effect_ok _ b W1 Rb) as (W2 & X2 & I2).
  cbv zeta. split; [apply step_table; [exact G|exact W2|now apply (extends_trans _ _ _ X1)]|]. split; [|exact I2]. apply (inside_mono _ _ a (ext_len _ _ X2) I1).
Qed.
Lemma add_ok : forall s l u, good s -> reachable l -> reachable u ->
  match add_inclusion s l u with
  | SOk s' => step s s' /\ (concrete l -> forall y, mem l y -> owes s' u y)
  | SErr => True
  | _ => False
  end.
Proof.
  intros s l u G Rl Ru. unfold add_inclusion. destruct (ensure_two s l u G Rl Ru) as (St & Il & Iu).
  set (s1 := with_table s (ensure_effect_vars (ensure_effect_vars (tbl s) l) u)) in *.
  pose proof (try_add_ok s1 l u true (step_good _ _ St) Il Iu) as Q. destruct (try_add s1 l u true) as [[done s']| | |]; cbn [sbind]; try exact Q.
  destruct Q as (S2 & _ & D & _ & K). split; [now apply (step_trans _ s1)|]. intros C y Hy. destruct (K C (D eq_refl) y Hy) as [H|(_ & H)]; [now left|now right].
Qed.

(** ** Expanding everything *)
Lemma retry_ok : forall incs s, good s -> (forall i, In i incs -> inside (tbl s) (fst i) /\ inside (tbl s) (snd i)) ->
  match retry incs s with
  | SOk (residual, s') => step s s' /\ deferred s' = deferred s /\ incl residual incs /\
      forall i, In i incs -> In i residual \/ (concrete (fst i) -> forall y, mem (fst i) y -> promised s' (snd i) y)
  | SErr => True
  | _ => False
  end.
Proof.
  induction incs as [|i incs IH]; intros s G H; cbn [retry].
  - split; [now apply step_refl|]. split; [reflexivity|]. split; [intros x Hx; exact Hx|intros i []].
  - destruct (H i (or_introl eq_refl)) as [I1 I2]. pose proof (try_add_ok s (fst i) (snd i) false G I1 I2) as Q.
    destruct (try_add s (fst i) (snd i) false) as [[done s1]| | |]; cbn [sbind]; try exact Q. destruct Q as (S1 & D1 & _ & N1 & K1).
    pose proof (ext_len _ _ (step_ext _ _ S1)) as L1.
    specialize (IH s1 (step_good _ _ S1)). assert (H' : forall j, In j incs -> inside (tbl s1) (fst j) /\ inside (tbl s1) (snd j)).
    { intros j Hj. destruct (H j (or_intror Hj)). split; now apply (inside_mono (tbl s)). }
    specialize (IH H'). destruct (retry incs s1) as [[residual s2]| | |]; cbn [sbind]; try exact IH. destruct IH as (S2 & D2 & In2 & K2).
    split; [now apply (step_trans _ s1)|]. split; [rewrite D2; now apply D1|]. split.
    + destruct done; [now apply incl_tl|]. intros x [<-|Hx]; [now left|right; auto].
    + intros j [<-|Hj].
      * destruct done; [|left; now left]. right. intros C y Hy. apply (promised_step s1); [exact S2|]. destruct (K1 C eq_refl y Hy) as [Q|[Q _]]; [exact Q|discriminate].
      * destruct (K2 j Hj) as [Q|Q]; [left; destruct done; [exact Q|now right]|now right].
Qed.
Lemma materialize_ok : forall s i, good s -> inside (tbl s) (fst i) -> inside (tbl s) (snd i) ->
  match materialize s i with
  | SOk s' => step s s' /\ deferred s' = deferred s /\ (concrete (fst i) -> forall y, mem (fst i) y -> promised s' (snd i) y)
  | SErr => True
  | _ => False
  end.
Proof.
  intros s i G Il Iu. pose proof G as (W & _). unfold materialize. destruct (normalize_ok (tbl s) W (fst i) Il) as (lo & El & Xl). rewrite El. cbn [sbind].
  destruct (normalize_ok (tbl s) W (snd i) Iu) as (up & Eu & Xu). rewrite Eu. cbn [sbind].
  pose proof (exact_inside (tbl s) _ lo Xl) as Jl. pose proof (exact_inside (tbl s) _ up Xu) as Ju. destruct (proj1 Jl, proj1 Ju) as [Rl Ru].
  assert (Cl : concrete (fst i) -> lo = fst i). { intros C. rewrite (normalize_concrete (tbl s) _ (proj1 Il) C) in El. congruence. }
  destruct (holds lo up) eqn:Eh.
  { split; [now apply step_refl|]. split; [reflexivity|]. intros C y Hy. left. rewrite <- (Cl C) in Hy. apply (exact_delivered _ _ _ Xu). now apply (holds_sound lo up). }
  destruct (eff_variables lo) as [|w ws] eqn:Elo.
  - destruct (eff_variables up) as [|w ws] eqn:Eup; [exact Logic.I|]. rewrite <- Eup.
    assert (V : forall v, In v (eff_variables up) -> mem up (Variable_ v)) by (intros v Hv; now apply var_in).
    split; [|split; [reflexivity|]].
    + apply step_push; [exact G|]. intros d Hd. apply in_map_iff in Hd as (v & <- & Hv). cbn [fst snd]. split; [exact Jl|]. apply Ju. auto.
    + intros C y Hy. right. exists (lo, w). split; [|split].
      * apply in_or_app. right. apply in_map_iff. exists w. split; [reflexivity|]. rewrite Eup. now left.
      * cbn [fst]. now rewrite (Cl C).
      * cbn [snd tbl]. apply (exact_delivered _ _ _ Xu (Variable_ w)). apply V. rewrite Eup. now left.
  - rewrite <- Elo. destruct (bind_vars_ok (eff_variables lo) (tbl s) up W Ju) as (W1 & X1 & _). { intros v Hv. apply var_in in Hv; [now apply Jl|exact Rl]. }
    split; [now apply step_table|]. split; [reflexivity|]. intros C. rewrite <- (Cl C) in C. apply vars_nil in C; [congruence|exact Rl].
Qed.
Lemma materialize_all_ok : forall incs s, good s -> (forall i, In i incs -> inside (tbl s) (fst i) /\ inside (tbl s) (snd i)) ->
  match materialize_all incs s with
  | SOk s' => step s s' /\ deferred s' = deferred s /\ forall i, In i incs -> concrete (fst i) -> forall y, mem (fst i) y -> promised s' (snd i) y
  | SErr => True
  | _ => False
  end.
Proof.
  induction incs as [|i incs IH]; intros s G H; cbn [materialize_all].
  - split; [now apply step_refl|]. split; [reflexivity|intros i []].
  - destruct (H i (or_introl eq_refl)) as [I1 I2]. pose proof (materialize_ok s i G I1 I2) as Q.
    destruct (materialize s i) as [s1| | |]; cbn [sbind]; try exact Q. destruct Q as (S1 & D1 & K1).
    pose proof (ext_len _ _ (step_ext _ _ S1)) as L1. specialize (IH s1 (step_good _ _ S1)).
    assert (H' : forall j, In j incs -> inside (tbl s1) (fst j) /\ inside (tbl s1) (snd j)).
    { intros j Hj. destruct (H j (or_intror Hj)). split; now apply (inside_mono (tbl s)). }
    specialize (IH H'). destruct (materialize_all incs s1) as [s2| | |]; try exact IH. destruct IH as (S2 & D2 & K2).
    split; [now apply (step_trans _ s1)|]. split; [congruence|]. intros j [<-|Hj]; [|auto]. intros C y Hy. apply (promised_step s1); auto.
Qed.

Lemma expand_ok : forall s, good s ->
  match expand_pending s with
  | SOk s' => good s' /\ extends (tbl s) (tbl s') /\ pending s' = [] /\ deferred s' = [] /\ forall u y, owes s u y -> delivered (tbl s') u y
  | SErr => True
  | _ => False
  end.
Proof.
  intros s G. unfold expand_pending. pose proof (expand_all_ok s G) as Q1. destruct (expand_all s) as [s1| | |]; cbn [sbind]; try exact Q1.
  destruct Q1 as (G1 & X1 & P1 & D1 & K1).
  set (s1' := Solver (tbl s1) (pending s1) []). assert (G1' : good s1'). { destruct G1 as (W & P & D). split; [exact W|]. split; [exact P|intros i []]. }
  assert (H1 : forall i, In i (deferred s1) -> inside (tbl s1') (fst i) /\ inside (tbl s1') (snd i)) by (destruct G1 as (_ & _ & D); exact D).
  pose proof (retry_ok (deferred s1) s1' G1' H1) as Q2. destruct (retry (deferred s1) s1') as [[residual s2]| | |]; cbn [sbind]; try exact Q2.
  destruct Q2 as (S2 & D2 & In2 & K2). pose proof (ext_len _ _ (step_ext _ _ S2)) as L2.
  assert (H2 : forall i, In i residual -> inside (tbl s2) (fst i) /\ inside (tbl s2) (snd i)).
  { intros i Hi. destruct (H1 i (In2 i Hi)). split; now apply (inside_mono (tbl s1')). }
  pose proof (materialize_all_ok residual s2 (step_good _ _ S2) H2) as Q3. destruct (materialize_all residual s2) as [s3| | |]; cbn [sbind]; try exact Q3.
  destruct Q3 as (S3 & D3 & K3).
  pose proof (expand_all_ok s3 (step_good _ _ S3)) as Q4. destruct (expand_all s3) as [s4| | |]; try exact Q4. destruct Q4 as (G4 & X4 & P4 & D4 & K4).
  assert (X : extends (tbl s1) (tbl s4)). { apply (extends_trans _ (tbl s2)); [exact (step_ext _ _ S2)|]. apply (extends_trans _ (tbl s3)); [exact (step_ext _ _ S3)|exact X4]. }
  split; [exact G4|]. split; [now apply (extends_trans _ (tbl s1))|]. split; [exact P4|]. split; [rewrite D4, D3, D2; reflexivity|].
  intros u y [H|(i & Hi & Hd)].
  - apply (delivered_mono (tbl s1)); [exact X|]. auto.
  - rewrite <- D1 in Hi. apply (due_mono _ (tbl s4)) in Hd; [|now apply (extends_trans _ (tbl s1))]. destruct Hd as (C & Hy & Hz).
    apply (delivered_chain (tbl s4) u (snd i) y Hz). apply K4. destruct (K2 i Hi) as [Hr|Hr]; [auto|]. apply (promised_step s2); [exact S3|auto].
Qed.
