(** Normalization and substitution of effect types follow every variable. *)
From Coq Require Import NArith List Bool Arith Lia.
From Verif Require Import ListUtil EffModel EffSpec EffProofs EffSolverModel EffSolverSpec EffSolverProofs.
Import ListNotations.
Open Scope N_scope.

Local Opaque inline_vars.

Lemma pigeon : forall (l : list N) n r, NoDup l -> (forall x, In x l -> x < n) -> (N.to_nat n <= length l)%nat -> r < n -> In r l.
Proof.
  intros l n r D B L R. set (full := map N.of_nat (seq 0 (N.to_nat n))).
  assert (I : incl l full). { intros x Hx. apply in_map_iff. exists (N.to_nat x). split; [apply N2Nat.id|]. apply in_seq. specialize (B x Hx). lia. }
  assert (Lf : length full = N.to_nat n) by (unfold full; now rewrite map_length, seq_length).
  apply (NoDup_length_incl D) in I; [|lia]. apply I. apply in_map_iff. exists (N.to_nat r). split; [apply N2Nat.id|]. apply in_seq. lia.
Qed.
Lemma get_in : forall c v x, subst_get c v = Some x -> In (v, x) c.
Proof.
  induction c as [|[k y] c IH]; intros v x H; cbn [subst_get] in H; [discriminate|].
  destruct (N.eqb_spec k v) as [->|]; [injection H as <-; now left|right; auto].
Qed.
Lemma existsb_in : forall r l, existsb (N.eqb r) l = true <-> In r l.
Proof.
  intros r l. rewrite existsb_exists. split; [intros (x & H & E); apply N.eqb_eq in E; congruence|intros H; exists r; split; [exact H|apply N.eqb_refl]].
Qed.

Section Table.
Variable t : table.
Hypothesis W : sound_table t.

(** What a result may hold. *)
Definition comes (e : efftype) (y : effect) : Prop :=
  match y with
  | Primitive p => has t e p
  | Variable_ q => q < len t /\ find t q = q /\ meets t e q
  end.
Lemma comes_through : forall e v x y, mem e (Variable_ v) -> probe t v = Some x -> comes x y -> comes e y.
Proof.
  intros e v x [p|q] M P H; cbn [comes] in *; [eapply has_through; eauto|]. destruct H as (H1 & H2 & w & L & E).
  split; [exact H1|]. split; [exact H2|]. exists w. split; [eapply leads_through; eauto|exact E].
Qed.
Lemma comes_root : forall e v y, v < len t -> mem e (Variable_ v) -> comes (eff_single_variable (find t v)) y -> comes e y.
Proof.
  intros e v [p|q] V M H; cbn [comes] in *.
  - apply has_var in H as (x & P & H). unfold probe in P. rewrite (st_idem t W) in P. eapply has_through; eauto.
  - destruct H as (H1 & H2 & w & L & E). split; [exact H1|]. split; [exact H2|]. inversion L as [e' w' Mw|e' w' x w'' Mw P L']; subst; apply single_mem in Mw; injection Mw as ->.
    + exists v. split; [now apply leads_itself|]. now rewrite (st_idem t W) in E.
    + exists w. split; [|exact E]. unfold probe in P. rewrite (st_idem t W) in P. eapply leads_through; eauto.
Qed.
Lemma comes_self : forall e v, v < len t -> mem e (Variable_ v) -> comes e (Variable_ (find t v)).
Proof.
  intros e v V M. split; [now apply (st_in t W)|]. split; [apply (st_idem t W)|]. exists v. split; [now apply leads_itself|]. symmetry. apply (st_idem t W).
Qed.
Definition sound_for (e n : efftype) : Prop := reachable n /\ forall y, mem n y -> comes e y.

Definition entry_sound (en : N * efftype) : Prop :=
  fst en < len t /\ find t (fst en) = fst en /\ sound_for (eff_single_variable (fst en)) (snd en).
(** The entry holds what its own value says. *)
Definition entry_full (en : N * efftype) : Prop :=
  match value t (fst en) with
  | None => mem (snd en) (Variable_ (fst en))
  | Some z => forall p, mem z (Primitive p) -> mem (snd en) (Primitive p)
  end.
Definition closed (c : cache) (visiting : list N) : Prop :=
  forall r x z w, In (r, x) c -> value t r = Some z -> mem z (Variable_ w) -> In (find t w) (map fst c) \/ In (find t w) visiting.
Definition cache_ok (c : cache) (visiting : list N) : Prop := Forall entry_sound c /\ Forall entry_full c /\ closed c visiting.
Definition grows (c c' : cache) (e : efftype) : Prop := exists new, c' = new ++ c /\ forall r x y, In (r, x) new -> mem x y -> mem e y.

Definition visit_ok (visit : cache -> N -> option (efftype * cache)) (visiting : list N) : Prop :=
  forall c v, v < len t -> cache_ok c visiting ->
  exists e c', visit c v = Some (e, c') /\ cache_ok c' visiting /\ sound_for (eff_single_variable v) e /\ grows c c' e /\
    (In (find t v) (map fst c') \/ In (find t v) visiting).

Lemma norm_vars_ok : forall visit visiting, visit_ok visit visiting -> forall e vars acc c, (forall v, In v vars -> v < len t /\ mem e (Variable_ v)) ->
  sound_for e acc -> cache_ok c visiting ->
  exists n c', norm_vars visit vars acc c = Some (n, c') /\ cache_ok c' visiting /\ sound_for e n /\ (forall y, mem acc y -> mem n y) /\ grows c c' n /\
    forall v, In v vars -> In (find t v) (map fst c') \/ In (find t v) visiting.
Proof.
  intros visit visiting V e vars. induction vars as [|v vars IH]; intros acc c Hv Sa C; cbn [norm_vars].
  - exists acc, c. split; [reflexivity|]. split; [exact C|]. split; [exact Sa|]. split; [auto|]. split; [exists []; split; [reflexivity|intros ? ? ? []]|intros v []].
  - destruct (Hv v (or_introl eq_refl)) as [V1 V2]. destruct (V c v V1 C) as (x & c1 & E & C1 & [Rx Sx] & (new1 & G1 & G2) & D1). rewrite E.
    assert (Sa' : sound_for e (eff_union acc x)).
    { destruct Sa as [Ra Sa]. split; [now constructor|]. intros y Hy. apply union_mem in Hy as [Hy|Hy]; [auto| |assumption|assumption].
      specialize (Sx y Hy). destruct y as [p|q]; cbn [comes] in *.
      - apply has_var in Sx as (z & P & Hz). eapply has_through; eauto.
      - destruct Sx as (S1 & S2 & w & L & Ew). split; [exact S1|]. split; [exact S2|]. exists w. split; [|exact Ew].
        inversion L as [e' w' Mw|e' w' z w'' Mw P L']; subst; apply single_mem in Mw; injection Mw as ->; [now apply leads_itself|eapply leads_through; eauto]. }
    destruct (IH (eff_union acc x) c1 (fun w Hw => Hv w (or_intror Hw)) Sa' C1) as (n & c' & En & C' & Sn & Mn & (new2 & H1 & H2) & D).
    destruct Sa as [Ra Sa].
    exists n, c'. split; [exact En|]. split; [exact C'|]. split; [exact Sn|]. split; [|split].
    + intros y Hy. apply Mn. apply union_mem; auto.
    + exists (new2 ++ new1). split; [rewrite <- app_assoc; congruence|]. intros r z y Hi Hy. apply in_app_or in Hi as [Hi|Hi]; [eauto|].
      apply Mn, union_mem; try assumption. right. eauto.
    + intros w [<-|Hw]; [|auto]. destruct D1 as [D1|D1]; [|auto]. left. rewrite H1, map_app, in_app_iff. auto.
Qed.

Definition effect_ok (f : efftype -> cache -> option (efftype * cache)) (visiting : list N) : Prop :=
  forall e c, inside t e -> cache_ok c visiting ->
  exists n c', f e c = Some (n, c') /\ cache_ok c' visiting /\ sound_for e n /\ (forall p, mem e (Primitive p) -> mem n (Primitive p)) /\ grows c c' n /\
    forall v, mem e (Variable_ v) -> In (find t v) (map fst c') \/ In (find t v) visiting.

Lemma plain_ok : forall visiting e c, inside t e -> cache_ok c visiting -> concrete e ->
  exists n c', Some (e, c) = Some (n, c') /\ cache_ok c' visiting /\ sound_for e n /\ (forall p, mem e (Primitive p) -> mem n (Primitive p)) /\ grows c c' n /\
    forall v, mem e (Variable_ v) -> In (find t v) (map fst c') \/ In (find t v) visiting.
Proof.
  intros visiting e c [R M] C N. exists e, c. split; [reflexivity|]. split; [exact C|]. split; [split; [exact R|]|split; [auto|split]].
  - intros [p|v] H; [now apply has_itself|now destruct (N v)].
  - exists []. split; [reflexivity|intros ? ? ? []].
  - intros v H. now destruct (N v).
Qed.
Lemma shortcut : forall e, reachable e -> eff_is_empty e || negb (eff_has_variables e) = true -> concrete e.
Proof.
  intros e R H. apply orb_true_iff in H as [H|H].
  - intros v. now apply (empty_mem e R).
  - apply negb_true_iff in H. now apply no_vars.
Qed.
Lemma many_ok : forall visit visiting, visit_ok visit visiting -> effect_ok (fun e => norm_vars visit (eff_variables e) (primitives_of e)) visiting.
Proof.
  intros visit visiting V e c I C. destruct I as [R M].
  destruct (norm_vars_ok visit visiting V e (eff_variables e) (primitives_of e) c) as (n & c' & E & C' & S & Mn & G & D); try assumption.
  - intros v Hv. apply var_in in Hv; [|exact R]. auto.
  - split; [apply primitives_reachable|]. intros y Hy. apply primitives_mem in Hy as (p & -> & Hp). now apply has_itself.
  - exists n, c'. split; [exact E|]. split; [exact C'|]. split; [exact S|]. split; [|split; [exact G|]].
    + intros p Hp. apply Mn, primitives_mem. eauto.
    + intros v Hv. apply D. now apply var_in.
Qed.
Lemma norm_effect_ok : forall visit visiting, visit_ok visit visiting -> effect_ok (norm_effect visit) visiting.
Proof.
  intros visit visiting V e c I C. unfold norm_effect. destruct (eff_is_empty e || negb (eff_has_variables e)) eqn:E.
  - apply plain_ok; try assumption. apply shortcut; [apply I|exact E].
  - now apply many_ok.
Qed.
Lemma subst_effect_ok : forall visit visiting, visit_ok visit visiting -> effect_ok (subst_effect visit) visiting.
Proof.
  intros visit visiting V e c I C. unfold subst_effect. destruct (eff_is_empty e || negb (eff_has_variables e)) eqn:E.
  - apply plain_ok; try assumption. apply shortcut; [apply I|exact E].
  - destruct (eff_as_single e) as [[p|v]|] eqn:Es; try now apply many_ok.
    pose proof (proj1 (as_single_ok e (reachable_canonical e (proj1 I)) (Variable_ v)) Es) as Q.
    assert (e = eff_single_variable v). { apply eff_ext; [apply I|constructor|]. intros x. rewrite Q, single_mem. reflexivity. }
    subst e. destruct (V c v) as (n & c' & E' & C' & S & G & D); [|exact C|].
    { apply I, single_self. }
    exists n, c'. split; [exact E'|]. split; [exact C'|]. split; [exact S|]. split; [|split; [exact G|]].
    + intros p Hp. apply single_mem in Hp. discriminate.
    + intros w Hw. apply single_mem in Hw. injection Hw as ->. exact D.
Qed.

Lemma cache_add : forall c visiting r e new c1, cache_ok c1 (r :: visiting) -> entry_sound (r, e) -> entry_full (r, e) -> c1 = new ++ c ->
  (forall z w, value t r = Some z -> mem z (Variable_ w) -> In (find t w) (map fst c1) \/ In (find t w) (r :: visiting)) ->
  cache_ok ((r, e) :: c1) visiting.
Proof.
  intros c visiting r e new c1 (C1 & C2 & C3) S F E D. split; [now constructor|]. split; [now constructor|].
  intros r' x z w Hi Ez Hw. cbn [map fst In].
  assert (Q : In (find t w) (map fst c1) \/ In (find t w) (r :: visiting)).
  { destruct Hi as [Hi|Hi]; [injection Hi as <- <-; eauto|eauto]. }
  destruct Q as [Q|[Q|Q]]; auto.
Qed.
Lemma cache_wider : forall c visiting r, cache_ok c visiting -> cache_ok c (r :: visiting).
Proof.
  intros c visiting r (C1 & C2 & C3). split; [exact C1|]. split; [exact C2|]. intros r' x z w Hi Ez Hw. destruct (C3 r' x z w Hi Ez Hw); [auto|right; now right].
Qed.
Lemma sound_root : forall v e, v < len t -> sound_for (eff_single_variable (find t v)) e -> sound_for (eff_single_variable v) e.
Proof.
  intros v e V [R S]. split; [exact R|]. intros y Hy. apply (comes_root (eff_single_variable v) v); [exact V|apply single_self|auto].
Qed.

(** A walk over the variables that finishes the result of a root with [finish]. *)
Lemma walk : forall (f : nat -> list N -> cache -> N -> option (efftype * cache)) (eff : (cache -> N -> option (efftype * cache)) -> efftype -> cache -> option (efftype * cache)) (finish : N -> efftype -> efftype),
  (forall visit visiting, visit_ok visit visiting -> effect_ok (eff visit) visiting) ->
  (forall r e, reachable e -> reachable (finish r e) /\ (forall y, mem e y -> mem (finish r e) y) /\ (forall y, mem (finish r e) y -> mem e y \/ y = Variable_ r)) ->
  (forall fuel visiting c v, f fuel visiting c v =
    match subst_get c (find t v) with
    | Some cached => Some (cached, c)
    | None =>
        if existsb (N.eqb (find t v)) visiting then Some (eff_single_variable (find t v), c)
        else match fuel with
             | O => None
             | S fuel =>
                 match
                   match value t (find t v) with
                   | Some x => eff (f fuel (find t v :: visiting)) x c
                   | None => Some (eff_single_variable (find t v), c)
                   end
                 with
                 | Some (e, c) => Some (finish (find t v) e, (find t v, finish (find t v) e) :: c)
                 | None => None
                 end
             end
    end) ->
  forall fuel visiting, NoDup visiting -> (forall x, In x visiting -> x < len t) -> (N.to_nat (len t) <= fuel + length visiting)%nat -> visit_ok (f fuel visiting) visiting.
Proof.
  intros f eff finish Heff Hfin Hf fuel. induction fuel as [|fuel IH]; intros visiting D B L c v V C; rewrite Hf.
  all: destruct (subst_get c (find t v)) as [cached|] eqn:Eg;
    [apply get_in in Eg; exists cached, c; split; [reflexivity|]; split; [exact C|]; split;
      [apply sound_root; [exact V|]; destruct C as (C1 & _); rewrite Forall_forall in C1; specialize (C1 _ Eg); apply C1
      |split; [exists []; split; [reflexivity|intros ? ? ? []]|left; apply in_map_iff; exists (find t v, cached); auto]]|].
  all: destruct (existsb (N.eqb (find t v)) visiting) eqn:Ex;
    [apply existsb_in in Ex; exists (eff_single_variable (find t v)), c; split; [reflexivity|]; split; [exact C|]; split;
      [split; [constructor|]; intros y Hy; apply single_mem in Hy; subst y; apply comes_self; [exact V|apply single_self]
      |split; [exists []; split; [reflexivity|intros ? ? ? []]|right; exact Ex]]|].
  - exfalso. assert (In (find t v) visiting) as Hi.
    { apply (pigeon visiting (len t)); try assumption. now apply (st_in t W). }
    apply existsb_in in Hi. congruence.
  - set (root := find t v) in *. assert (Rr : root < len t) by now apply (st_in t W). assert (Fr : find t root = root) by apply (st_idem t W).
    assert (Ni : ~ In root visiting) by (intros Hi; apply existsb_in in Hi; congruence).
    destruct (value t root) as [x|] eqn:Ev.
    + assert (Ix : inside t x) by (destruct (st_value t W _ _ Ev) as (_ & H1 & H2); now split).
      assert (V' : visit_ok (f fuel (root :: visiting)) (root :: visiting)).
      { apply IH; [now constructor|intros y [<-|Hy]; auto|cbn [length]; lia]. }
      destruct (Heff _ _ V' x c Ix (cache_wider c visiting root C)) as (e & c1 & E & C1 & [Re Se] & Pe & (new & G1 & G2) & De). rewrite E.
      destruct (Hfin root e Re) as (F1 & F2 & F3).
      assert (Sr : sound_for (eff_single_variable root) (finish root e)).
      { split; [exact F1|]. intros y Hy. destruct (F3 y Hy) as [Hy'| ->].
        - eapply comes_through; [apply single_self| |auto]. unfold probe. now rewrite Fr.
        - pose proof (comes_self (eff_single_variable root) root Rr (single_self root)) as Q. now rewrite Fr in Q. }
      exists (finish root e), ((root, finish root e) :: c1). split; [reflexivity|]. split; [|split; [|split]].
      * apply (cache_add c visiting root (finish root e) new c1); [exact C1|now split| |exact G1|].
        { unfold entry_full. cbn [fst snd]. rewrite Ev. intros p Hp. apply F2. auto. }
        { intros z w Ez Hw. rewrite Ev in Ez. injection Ez as <-. auto. }
      * apply sound_root; assumption.
      * exists ((root, finish root e) :: new). split; [now rewrite G1|]. intros r z y [Hi|Hi] Hy; [injection Hi as <- <-; exact Hy|apply F2; eauto].
      * left. now left.
    + destruct (Hfin root (eff_single_variable root)) as (F1 & F2 & F3); [constructor|].
      assert (Sr : sound_for (eff_single_variable root) (finish root (eff_single_variable root))).
      { split; [exact F1|]. intros y Hy. assert (y = Variable_ root) as -> by (destruct (F3 y Hy) as [Hy'|Hy']; [now apply single_mem in Hy'|exact Hy']).
        pose proof (comes_self (eff_single_variable root) root Rr (single_self root)) as Q. now rewrite Fr in Q. }
      exists (finish root (eff_single_variable root)), ((root, finish root (eff_single_variable root)) :: c). split; [reflexivity|]. split; [|split; [|split]].
      * apply (cache_add c visiting root _ [] c); [now apply cache_wider|now split| |reflexivity|].
        { unfold entry_full. cbn [fst snd]. rewrite Ev. apply F2, single_self. }
        { intros z w Ez. congruence. }
      * apply sound_root; assumption.
      * exists [(root, finish root (eff_single_variable root))]. split; [reflexivity|]. intros r z y [Hi|[]] Hy. now injection Hi as <- <-.
      * left. now left.
Qed.

Lemma norm_var_ok : visit_ok (norm_var (N.to_nat (len t)) t []) [].
Proof.
  refine (walk (fun fuel => norm_var fuel t) norm_effect (fun _ e => e) norm_effect_ok _ _ (N.to_nat (len t)) [] (NoDup_nil _) _ _).
  - intros r e R. split; [exact R|]. auto.
  - intros [|fuel] visiting c v; cbn [norm_var]; destruct (subst_get c (find t v)); try reflexivity; destruct (existsb _ _); try reflexivity.
    destruct (value t (find t v)) as [x|]; reflexivity.
  - intros x [].
  - cbn [length]. lia.
Qed.
Lemma subst_var_ok : visit_ok (subst_var (N.to_nat (len t)) t []) [].
Proof.
  refine (walk (fun fuel => subst_var fuel t) subst_effect (fun r e => if eff_is_only_vars e then e else eff_insert e (Variable_ r)) subst_effect_ok _ _ (N.to_nat (len t)) [] (NoDup_nil _) _ _).
  - intros r e R. destruct (eff_is_only_vars e).
    + split; [exact R|]. auto.
    + split; [now constructor|]. pose proof (proj2 (insert_ok e (Variable_ r) (reachable_canonical e R))) as Q. split; intros y; rewrite Q; tauto.
  - intros [|fuel] visiting c v; cbn [subst_var]; destruct (subst_get c (find t v)); try reflexivity; destruct (existsb _ _); try reflexivity.
  - intros x [].
  - cbn [length]. lia.
Qed.

(** From an empty cache, the result is complete. *)
Definition exact (e n : efftype) : Prop :=
  reachable n /\ (forall p, mem n (Primitive p) <-> has t e p) /\
  (forall q, mem n (Variable_ q) -> q < len t /\ find t q = q /\ meets t e q) /\
  (forall w, leads t e w -> probe t w = None -> mem n (Variable_ (find t w))).
Lemma complete : forall f, effect_ok f [] -> forall e, inside t e -> exists n c, f e [] = Some (n, c) /\ exact e n /\ cache_ok c [].
Proof.
  intros f Hf e I. destruct (Hf e [] I) as (n & c & E & C & [R S] & P & (new & G1 & G2) & D).
  { split; [constructor|]. split; [constructor|]. intros ? ? ? ? []. }
  rewrite app_nil_r in G1. subst new. destruct C as (C1 & C2 & C3). rewrite Forall_forall in C1, C2.
  assert (K : forall x, (forall w, mem x (Variable_ w) -> In (find t w) (map fst c)) ->
    (forall p, has t x p -> mem x (Primitive p) \/ mem n (Primitive p)) /\ (forall w, leads t x w -> probe t w = None -> mem n (Variable_ (find t w)))).
  { intros x Hx. split.
    - intros p H. revert Hx. induction H as [x p M|x v y p M Q H IH]; intros Hx; [auto|right].
      specialize (Hx v M). apply in_map_iff in Hx as ([r z] & Er & Hi). cbn [fst] in Er. subst r. unfold probe in Q.
      destruct IH as [IH|IH]; [|apply (G2 (find t v) z); [exact Hi|]|exact IH].
      + intros w Hw. destruct (C3 _ _ _ _ Hi Q Hw) as [K|[]]; exact K.
      + pose proof (C2 _ Hi) as F. unfold entry_full in F. cbn [fst snd] in F. rewrite Q in F. auto.
    - intros w L. revert Hx. induction L as [x v M|x u y v M Q L IH]; intros Hx N.
      + specialize (Hx v M). apply in_map_iff in Hx as ([r z] & Er & Hi). cbn [fst] in Er. subst r. apply (G2 (find t v) z); [exact Hi|].
        pose proof (C2 _ Hi) as F. unfold entry_full in F. cbn [fst snd] in F. unfold probe in N. now rewrite N in F.
      + apply IH; [|exact N]. intros w Hw. specialize (Hx u M). apply in_map_iff in Hx as ([r z] & Er & Hi). cbn [fst] in Er. subst r. unfold probe in Q.
        destruct (C3 _ _ _ _ Hi Q Hw) as [K|[]]; exact K. }
  destruct (K e) as [K1 K2]. { intros w Hw. destruct (D w Hw) as [Q|[]]; exact Q. }
  exists n, c. split; [exact E|]. split.
  - split; [exact R|]. split; [|split; [|exact K2]].
    + intros p. split; [apply (S (Primitive p))|]. intros H. destruct (K1 p H); auto.
    + intros q Hq. exact (S _ Hq).
  - split; [now apply Forall_forall|]. split; [now apply Forall_forall|exact C3].
Qed.

Lemma normalize_ok : forall e, inside t e -> exists n, normalize t e = SOk n /\ exact e n.
Proof.
  intros e I. destruct (complete (norm_effect (norm_var (N.to_nat (len t)) t [])) (norm_effect_ok _ _ norm_var_ok) e I) as (n & c & E & X & _).
  exists n. unfold normalize. rewrite E. auto.
Qed.
Lemma exact_inside : forall e n, exact e n -> inside t n.
Proof. intros e n (R & _ & V & _). split; [exact R|]. intros v Hv. now apply V. Qed.
Lemma substitute_ok : forall e, inside t e -> exists n c, substitute t e [] = Some (n, c) /\ exact e n /\ cache_ok c [].
Proof. intros e I. apply (complete (subst_effect (subst_var (N.to_nat (len t)) t [])) (subst_effect_ok _ _ subst_var_ok) e I). Qed.
Lemma substitute_any : forall e c, inside t e -> cache_ok c [] -> exists n c', substitute t e c = Some (n, c') /\ cache_ok c' [] /\ sound_for e n.
Proof.
  intros e c I C. destruct (subst_effect_ok _ _ subst_var_ok e c I C) as (n & c' & E & C' & S & _). exists n, c'. auto.
Qed.
Lemma normalize_concrete : forall e, reachable e -> concrete e -> normalize t e = SOk e.
Proof.
  intros e R C. unfold normalize, norm_effect. apply (no_vars e R) in C. rewrite C, orb_true_r. reflexivity.
Qed.

(** ** Without cycles but loops, every entry of the cache is complete. *)
Section Rank.
Variable rank : N -> nat.
Hypothesis ranked : forall r x v, value t r = Some x -> mem x (Variable_ v) -> find t v = r \/ (rank (find t v) < rank r)%nat.

Definition full_for (e n : efftype) : Prop := forall p, has t e p -> mem n (Primitive p).
Definition all_full (c : cache) : Prop := forall r x, In (r, x) c -> full_for (eff_single_variable r) x.
Definition under (visiting : list N) (r : N) : Prop := In r visiting \/ forall g, In g visiting -> (rank r < rank g)%nat.
Definition visit_full (visit : cache -> N -> option (efftype * cache)) (visiting : list N) : Prop :=
  forall c v e c', v < len t -> cache_ok c visiting -> all_full c -> under visiting (find t v) -> visit c v = Some (e, c') ->
  all_full c' /\ (~ In (find t v) visiting -> full_for (eff_single_variable v) e).

Lemma norm_vars_full : forall visit visiting, visit_ok visit visiting -> visit_full visit visiting -> forall vars acc c n c', reachable acc ->
  (forall v, In v vars -> v < len t /\ under visiting (find t v)) -> cache_ok c visiting -> all_full c -> norm_vars visit vars acc c = Some (n, c') ->
  all_full c' /\ reachable n /\ (forall y, mem acc y -> mem n y) /\ forall v, In v vars -> ~ In (find t v) visiting -> full_for (eff_single_variable v) n.
Proof.
  intros visit visiting V F vars. induction vars as [|v vars IH]; intros acc c n c' Ra Hv C A E; cbn [norm_vars] in E.
  - injection E as <- <-. split; [exact A|]. split; [exact Ra|]. split; [auto|intros v []].
  - destruct (Hv v (or_introl eq_refl)) as [V1 V2]. destruct (V c v V1 C) as (x & c1 & E1 & C1 & [Rx Sx] & _). rewrite E1 in E.
    destruct (F c v x c1 V1 C A V2 E1) as [A1 Fx].
    destruct (IH (eff_union acc x) c1 n c' (r_union _ _ Ra Rx) (fun w Hw => Hv w (or_intror Hw)) C1 A1 E) as (A2 & Rn & M2 & F2).
    split; [exact A2|]. split; [exact Rn|]. split; [intros y Hy; apply M2, union_mem; auto|].
    intros w [<-|Hw] N; [|auto]. intros p Hp. apply M2, union_mem; try assumption. right. now apply Fx.
Qed.

(** The effect type [e], its loops left out. *)
Definition effect_full (f : efftype -> cache -> option (efftype * cache)) (visiting : list N) : Prop :=
  forall e c n c', inside t e -> cache_ok c visiting -> all_full c -> (forall v, mem e (Variable_ v) -> under visiting (find t v)) -> f e c = Some (n, c') ->
  all_full c' /\ reachable n /\ (forall p, mem e (Primitive p) -> mem n (Primitive p)) /\
  forall v, mem e (Variable_ v) -> ~ In (find t v) visiting -> full_for (eff_single_variable v) n.
Lemma subst_effect_full : forall visit visiting, visit_ok visit visiting -> visit_full visit visiting -> effect_full (subst_effect visit) visiting.
Proof.
  intros visit visiting V F e c n c' I C A Hu E. unfold subst_effect in E.
  assert (Many : norm_vars visit (eff_variables e) (primitives_of e) c = Some (n, c') ->
    all_full c' /\ reachable n /\ (forall p, mem e (Primitive p) -> mem n (Primitive p)) /\ forall v, mem e (Variable_ v) -> ~ In (find t v) visiting -> full_for (eff_single_variable v) n).
  { intros En. destruct (norm_vars_full visit visiting V F (eff_variables e) (primitives_of e) c n c') as (A1 & R1 & M1 & F1); try assumption.
    - apply primitives_reachable.
    - intros v Hv. apply var_in in Hv; [|apply I]. split; [now apply I|auto].
    - split; [exact A1|]. split; [exact R1|]. split; [intros p Hp; apply M1, primitives_mem; eauto|]. intros v Hv. apply F1. apply var_in; [apply I|exact Hv]. }
  destruct (eff_is_empty e || negb (eff_has_variables e)) eqn:Es.
  - injection E as <- <-. apply shortcut in Es; [|apply I]. split; [exact A|]. split; [apply I|]. split; [auto|]. intros v Hv. now destruct (Es v).
  - destruct (eff_as_single e) as [[p|v]|] eqn:Ea; try now apply Many.
    pose proof (proj1 (as_single_ok e (reachable_canonical e (proj1 I)) (Variable_ v)) Ea) as Q. assert (Mv : mem e (Variable_ v)) by now apply Q.
    assert (V1 : v < len t) by now apply I. destruct (V c v V1 C) as (n' & c1 & E1 & _ & [R1 _] & _). rewrite E in E1. injection E1 as <- <-.
    destruct (F c v n c' V1 C A (Hu v Mv) E) as [A1 F1]. split; [exact A1|]. split; [exact R1|]. split; [intros p Hp; apply Q in Hp; discriminate|].
    intros w Hw. apply Q in Hw. injection Hw as ->. exact F1.
Qed.

Lemma subst_var_full : forall fuel visiting, NoDup visiting -> (forall x, In x visiting -> x < len t) -> (N.to_nat (len t) <= fuel + length visiting)%nat ->
  visit_ok (subst_var fuel t visiting) visiting /\ visit_full (subst_var fuel t visiting) visiting.
Proof.
  assert (Vok : forall fuel visiting, NoDup visiting -> (forall x, In x visiting -> x < len t) -> (N.to_nat (len t) <= fuel + length visiting)%nat -> visit_ok (subst_var fuel t visiting) visiting).
  { intros fuel visiting D B L. refine (walk (fun fuel => subst_var fuel t) subst_effect (fun r e => if eff_is_only_vars e then e else eff_insert e (Variable_ r)) subst_effect_ok _ _ fuel visiting D B L).
    - intros r e R. destruct (eff_is_only_vars e).
      + split; [exact R|]. auto.
      + split; [now constructor|]. pose proof (proj2 (insert_ok e (Variable_ r) (reachable_canonical e R))) as Q. split; intros y; rewrite Q; tauto.
    - intros [|fuel0] visiting0 c v; cbn [subst_var]; destruct (subst_get c (find t v)); try reflexivity; destruct (existsb _ _); try reflexivity. }
  induction fuel as [|fuel IH]; intros visiting D B L; (split; [now apply Vok|]); intros c v e c' V C A U E; cbn [subst_var] in E.
  all: destruct (subst_get c (find t v)) as [cached|] eqn:Eg;
    [injection E as <- <-; split; [exact A|]; intros _ p Hp; apply get_in in Eg; apply (A _ _ Eg); apply (has_same_root t (find t v) v p (st_idem t W v)); exact Hp|].
  all: destruct (existsb (N.eqb (find t v)) visiting) eqn:Ex; [apply existsb_in in Ex; injection E as <- <-; split; [exact A|]; intros N; now destruct N|].
  - discriminate.
  - assert (Ni : ~ In (find t v) visiting) by (intros Hi; apply existsb_in in Hi; congruence).
    assert (Ur : forall g, In g visiting -> (rank (find t v) < rank g)%nat) by (destruct U; tauto).
    assert (Rr : find t v < len t) by now apply (st_in t W).
    assert (Fin : forall n c1, reachable n -> all_full c1 -> full_for (eff_single_variable v) n ->
      Some (if eff_is_only_vars n then n else eff_insert n (Variable_ (find t v)), (find t v, if eff_is_only_vars n then n else eff_insert n (Variable_ (find t v))) :: c1) = Some (e, c') ->
      all_full c' /\ (~ In (find t v) visiting -> full_for (eff_single_variable v) e)).
    { intros n c1 Rn A1 F1 Ee. set (n' := if eff_is_only_vars n then n else eff_insert n (Variable_ (find t v))) in *. injection Ee as <- <-.
      assert (F2 : full_for (eff_single_variable v) n').
      { intros p Hp. specialize (F1 p Hp). unfold n'. destruct (eff_is_only_vars n); [exact F1|]. apply (proj2 (insert_ok n (Variable_ (find t v)) (reachable_canonical n Rn))). now right. }
      split; [|auto]. intros r x [Hi|Hi]; [injection Hi as <- <-|now apply A1]. intros p Hp. apply F2. apply (has_same_root t (find t v) v p (st_idem t W v)). exact Hp. }
    destruct (value t (find t v)) as [x|] eqn:Ev.
    + destruct (st_value t W _ _ Ev) as (_ & Rx & Mx).
      destruct (IH (find t v :: visiting)) as [Vi Fi]; [now constructor|intros y [<-|Hy]; auto|cbn [length]; lia|].
      destruct (subst_effect (subst_var fuel t (find t v :: visiting)) x c) as [[n c1]|] eqn:Es; [|discriminate].
      destruct (subst_effect_full _ _ Vi Fi x c n c1) as (A1 & R1 & P1 & F1); try assumption; [now split|now apply cache_wider| |].
      { intros w Hw. destruct (ranked _ _ _ Ev Hw) as [<-|H]; [left; now left|]. right. intros g [<-|Hg]; [exact H|]. specialize (Ur g Hg). lia. }
      apply (Fin n c1 R1 A1); [|exact E]. intros p Hp. apply has_var in Hp as (x' & Px & Hp). unfold probe in Px. rewrite Ev in Px. injection Px as <-.
      remember x as y eqn:Ey in Hp. induction Hp as [y p M|y w z p M P H IHp]; subst y; [now apply P1|].
      destruct (ranked _ _ _ Ev M) as [Ew|Hw].
      * apply IHp. unfold probe in P. rewrite Ew, Ev in P. now injection P as <-.
      * apply (F1 w M); [|apply has_var; eauto]. intros [Q|Q]; [rewrite Q in Hw; lia|]. specialize (Ur _ Q). lia.
    + apply (Fin (eff_single_variable (find t v)) c); [constructor|exact A| |exact E]. intros p Hp. apply has_var in Hp as (x' & Px & _). unfold probe in Px. congruence.
Qed.

Lemma substitute_full : forall e c, inside t e -> cache_ok c [] -> all_full c ->
  exists n c', substitute t e c = Some (n, c') /\ cache_ok c' [] /\ all_full c' /\ reachable n /\ forall p, mem n (Primitive p) <-> has t e p.
Proof.
  intros e c I C A. destruct (substitute_any e c I C) as (n & c' & E & C' & [Rn Sn]). exists n, c'. split; [exact E|]. split; [exact C'|].
  destruct (subst_var_full (N.to_nat (len t)) [] (NoDup_nil _)) as [V F]; [intros x []|cbn [length]; lia|].
  destruct (subst_effect_full _ _ V F e c n c' I C A) as (A' & _ & P & F'); [intros v _; right; intros g []|exact E|].
  split; [exact A'|]. split; [exact Rn|]. intros p. split; [apply (Sn (Primitive p))|]. intros H. inversion H as [e' q M|e' v x q M Q Hx]; subst; [auto|].
  apply (F' v M); [intros []|]. apply has_var. eauto.
Qed.
Lemma substitute_list_full : forall es c, Forall (inside t) es -> cache_ok c [] -> all_full c ->
  exists ns, substitute_list t es c = Some ns /\ Forall2 (fun e n => forall p, mem n (Primitive p) <-> has t e p) es ns.
Proof.
  induction es as [|e es IH]; intros c F C A; cbn [substitute_list]; [exists []; split; [reflexivity|constructor]|].
  inversion F as [|? ? I F']; subst. destruct (substitute_full e c I C A) as (n & c' & E & C' & A' & _ & H). rewrite E.
  destruct (IH c' F' C' A') as (ns & En & Hn). rewrite En. exists (n :: ns). split; [reflexivity|now constructor].
Qed.
End Rank.

Lemma substitute_list_any : forall es c, Forall (inside t) es -> cache_ok c [] ->
  exists ns, substitute_list t es c = Some ns /\ Forall2 (fun e n => forall p, mem n (Primitive p) -> has t e p) es ns.
Proof.
  induction es as [|e es IH]; intros c F C; cbn [substitute_list]; [exists []; split; [reflexivity|constructor]|].
  inversion F as [|? ? I F']; subst. destruct (substitute_any e c I C) as (n & c' & E & C' & _ & S). rewrite E.
  destruct (IH c' F' C') as (ns & En & Hn). rewrite En. exists (n :: ns). split; [reflexivity|]. constructor; [|exact Hn]. intros p. apply (S (Primitive p)).
Qed.
Lemma empty_cache : cache_ok [] [].
Proof. split; [constructor|]. split; [constructor|]. intros ? ? ? ? []. Qed.

(** Variables with plain values normalize to plain effects. *)
Lemma normalize_plain : forall e n, inside t e -> (forall v, mem e (Variable_ v) -> exists x, probe t v = Some x /\ concrete x) -> normalize t e = SOk n -> concrete n.
Proof.
  intros e n I H E. unfold normalize, norm_effect in E. destruct (eff_is_empty e || negb (eff_has_variables e)) eqn:Es.
  - injection E as <-. apply shortcut; [apply I|exact Es].
  - set (plain_cache := fun c : cache => forall r x, In (r, x) c -> reachable x /\ concrete x).
    assert (L : forall vars acc c n c', reachable acc -> concrete acc -> plain_cache c -> (forall v, In v vars -> v < len t /\ exists x, probe t v = Some x /\ concrete x) ->
      norm_vars (norm_var (N.to_nat (len t)) t []) vars acc c = Some (n, c') -> concrete n).
    { induction vars as [|v vars IH]; intros acc c n0 c' Ra Ca Pc Hv En; cbn [norm_vars] in En; [injection En as <- <-; exact Ca|].
      destruct (Hv v (or_introl eq_refl)) as [V1 (x & Px & Cx)]. unfold probe in Px. destruct (st_value t W _ _ Px) as (_ & Rx & _).
      assert (K : exists z c1, norm_var (N.to_nat (len t)) t [] c v = Some (z, c1) /\ reachable z /\ concrete z /\ plain_cache c1).
      { destruct (N.to_nat (len t)) as [|k] eqn:Ek; [lia|]. cbn [norm_var]. destruct (subst_get c (find t v)) as [z|] eqn:Eg.
        - apply get_in, Pc in Eg. exists z, c. tauto.
        - cbn [existsb]. rewrite Px. unfold norm_effect. pose proof (proj2 (no_vars x Rx) Cx) as Q. rewrite Q, orb_true_r. exists x, ((find t v, x) :: c).
          split; [reflexivity|]. split; [exact Rx|]. split; [exact Cx|]. intros r y [Hi|Hi]; [injection Hi as <- <-; auto|now apply Pc in Hi]. }
      destruct K as (z & c1 & Ez & Rz & Cz & Pz). rewrite Ez in En. refine (IH (eff_union acc z) c1 n0 c' (r_union _ _ Ra Rz) _ Pz (fun w Hw => Hv w (or_intror Hw)) En).
      intros w Hw. apply union_mem in Hw as [Hw|Hw]; [now apply Ca in Hw|now apply Cz in Hw|assumption|assumption]. }
    destruct (norm_vars (norm_var (N.to_nat (len t)) t []) (eff_variables e) (primitives_of e) []) as [[n' c']|] eqn:En; [|discriminate]. injection E as <-.
    apply (L (eff_variables e) (primitives_of e) [] n' c'); [apply primitives_reachable| | | |exact En].
    + intros v Hv. apply primitives_mem in Hv as (p & Q & _). discriminate.
    + intros r x [].
    + intros v Hv. apply var_in in Hv; [|apply I]. split; [now apply I|auto].
Qed.
End Table.
