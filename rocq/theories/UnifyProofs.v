(** Unification keeps the tables well formed and makes the types agree. *)
From Coq Require Import List Bool Arith Lia.
From Verif Require Import UnifyModel UnifySpec UnifyBasics UnifyState.
Import ListNotations.

Section Proofs.
Variable first_is_root : state -> nat -> nat -> bool.
Notation unify := (unify first_is_root).
Notation at_least := (at_least first_is_root).
Notation solve := (solve first_is_root).

(** What one step does. *)
Definition do_step (f : nat) (m : mode) (x : step) (s : state) : outcome :=
  match x with
  | Check b => if b then Unified s else Mismatch
  | Assert b => if b then Unified s else Panics
  | Muts c t => at_least m c t s
  | Types c e => unify f m c e s
  end.

Definition leaf (t : ty) : bool := match t with TVar _ | TNever => true | _ => false end.

(** The cases of unification, once the types are normalised. *)
Inductive cases (f : nat) (m : mode) (c e : ty) (s : state) : outcome -> Prop :=
| ca_never_left : c = TNever -> cases f m c e s (Unified s)
| ca_never_right : e = TNever -> cases f m c e s (Unified s)
| ca_same : c = e -> cases f m c e s (Unified s)
| ca_first : forall a b, c = TVar a -> e = TVar b -> a <> b -> cases f m c e s (Unified (bind_type s b (TVar a)))
| ca_second : forall a b, c = TVar a -> e = TVar b -> a <> b -> cases f m c e s (Unified (bind_type s a (TVar b)))
| ca_var_left : forall v, c = TVar v -> leaf e = false -> cases f m c e s (unify_variable v e s)
| ca_var_right : forall v, e = TVar v -> leaf c = false -> cases f m c e s (unify_variable v c s)
| ca_steps : leaf c = false -> leaf e = false -> cases f m c e s (each (do_step f m) (steps c e) s).

Lemma unify_cases f m c e s : wf s -> unify f m c e s = NoFuel \/ c = e /\ unify f m c e s = Unified s \/
  exists g, f = S g /\ cases g m (res s c) (res s e) s (unify f m c e s).
Proof.
  intros Hw. destruct f as [|f]; [now left|]. cbn [UnifyModel.unify].
  destruct (ty_eqb c e) eqn:E; [right; left; now apply ty_eqb_eq in E|].
  destruct (normalize f s c) as [c'|] eqn:Ec; [|now left]. destruct (normalize f s e) as [e'|] eqn:Ee; [|now left].
  apply (normalize_ok _ _ _ _ Hw) in Ec, Ee. right; right. exists f. split; [reflexivity|]. rewrite <- Ec, <- Ee. clear Ec Ee.
  destruct (ty_eqb c' e') eqn:E2; [apply ty_eqb_eq in E2; now apply ca_same|].
  assert (Hne : c' <> e') by (intros H; apply ty_eqb_eq in H; congruence).
  destruct c', e'; try (now apply ca_never_left); try (now apply ca_never_right); try (now apply ca_var_left); try (now apply ca_var_right); try (now apply (ca_steps f m)).
  - destruct (first_is_root s v v0); [apply (ca_first f m _ _ s v v0)|apply (ca_second f m _ _ s v v0)]; congruence.
Qed.

(** Binding a free variable to a type without it. *)
Lemma wf_bind_type s v t : wf s -> binding v (types s) = None -> occurs v t = false -> (forall w, occurs w t = true -> binding w (types s) = None) -> wf (bind_type s v t).
Proof. intros [H1 H2] Hb Ho Hf. split; cbn; [now constructor|exact H2]. Qed.
Lemma ext_bind_type s v t : ext s (bind_type s v t).
Proof. split; [now exists [(v, t)]|now exists []]. Qed.
Lemma wf_bind_mut s v m : wf s -> binding v (muts s) = None -> m <> MVar v -> (forall w, m = MVar w -> binding w (muts s) = None) -> wf (bind_mut s v m).
Proof. intros [H1 H2] Hb Ho Hf. split; cbn; [exact H1|now constructor]. Qed.
Lemma ext_bind_mut s v m : ext s (bind_mut s v m).
Proof. split; [now exists []|now exists [(v, m)]]. Qed.

Lemma M_bind s v m : wf (bind_mut s v m) -> M (bind_mut s v m) v = apply_mut (M (bind_mut s v m)) m.
Proof. intros H. apply M_bound; [exact H|]. cbn. now rewrite Nat.eqb_refl. Qed.
Lemma R_bind s v t : wf (bind_type s v t) -> R (bind_type s v t) v = res (bind_type s v t) t.
Proof. intros H. apply R_bound; [exact H|]. cbn. now rewrite Nat.eqb_refl. Qed.

(** Mutability. *)
Lemma at_least_ok m c t s s' : wf s -> at_least m c t s = Unified s' -> wf s' /\ ext s s' /\ types s' = types s /\ fits m (apply_mut (M s') c) (apply_mut (M s') t).
Proof.
  intros Hw. unfold UnifyModel.at_least. rewrite !normalize_mut_ok by exact Hw.
  destruct (apply_mut (M s) c) as [a|a] eqn:Ec, (apply_mut (M s) t) as [b|b] eqn:Et.
  - destruct (Nat.eqb_spec a b) as [->|Hn]; [intros [= <-]; repeat split; try apply Hw; try (now exists []); left; congruence|].
    pose proof (apply_mut_free _ _ _ Hw Ec) as Fa. pose proof (apply_mut_free _ _ _ Hw Et) as Fb.
    assert (G1 : wf (bind_mut s b (MVar a))) by (apply wf_bind_mut; auto; congruence).
    assert (G2 : wf (bind_mut s a (MVar b))) by (apply wf_bind_mut; auto; congruence).
    destruct (first_is_root s a b); intros [= <-]; (split; [assumption|]; split; [apply ext_bind_mut|]; split; [reflexivity|]; left).
    + rewrite <- (ext_mut s _ c G1), <- (ext_mut s _ t G1), Ec, Et by apply ext_bind_mut. cbn [apply_mut]. now rewrite (M_bind _ _ _ G1).
    + rewrite <- (ext_mut s _ c G2), <- (ext_mut s _ t G2), Ec, Et by apply ext_bind_mut. cbn [apply_mut]. now rewrite (M_bind _ _ _ G2).
  - pose proof (apply_mut_free _ _ _ Hw Ec) as Fa.
    assert (G : wf (bind_mut s a (MVal b))) by (apply wf_bind_mut; auto; congruence).
    assert (Hf : M (bind_mut s a (MVal b)) a = MVal b) by now rewrite (M_bind _ _ _ G).
    assert (Heq : apply_mut (M (bind_mut s a (MVal b))) c = apply_mut (M (bind_mut s a (MVal b))) t).
    { rewrite <- (ext_mut s _ c G), <- (ext_mut s _ t G), Ec, Et by apply ext_bind_mut. cbn [apply_mut]. exact Hf. }
    destruct m; [destruct b|]; intros [= <-].
    + split; [exact G|]. split; [apply ext_bind_mut|]. split; [reflexivity|]. now left.
    + split; [exact Hw|]. split; [apply ext_refl|]. split; [reflexivity|]. right. split; [reflexivity|]. right. exact Et.
    + split; [exact G|]. split; [apply ext_bind_mut|]. split; [reflexivity|]. now left.
  - pose proof (apply_mut_free _ _ _ Hw Et) as Fa.
    assert (G : wf (bind_mut s b (MVal a))) by (apply wf_bind_mut; auto; congruence).
    assert (Hf : M (bind_mut s b (MVal a)) b = MVal a) by now rewrite (M_bind _ _ _ G).
    assert (Heq : apply_mut (M (bind_mut s b (MVal a))) c = apply_mut (M (bind_mut s b (MVal a))) t).
    { rewrite <- (ext_mut s _ c G), <- (ext_mut s _ t G), Ec, Et by apply ext_bind_mut. cbn [apply_mut]. now symmetry. }
    destruct m; [destruct a|]; intros [= <-].
    + split; [exact Hw|]. split; [apply ext_refl|]. split; [reflexivity|]. right. split; [reflexivity|]. left. exact Ec.
    + split; [exact G|]. split; [apply ext_bind_mut|]. split; [reflexivity|]. now left.
    + split; [exact G|]. split; [apply ext_bind_mut|]. split; [reflexivity|]. now left.
  - destruct m.
    + destruct (negb a && b) eqn:E; [discriminate|]. intros [= <-]. split; [exact Hw|]. split; [apply ext_refl|]. split; [reflexivity|].
      rewrite Ec, Et. destruct a, b; try discriminate; [now left| |now left]. right. split; [reflexivity|]. now left.
    + destruct (Bool.eqb a b) eqn:E; [|discriminate]. intros [= <-]. split; [exact Hw|]. split; [apply ext_refl|]. split; [reflexivity|].
      apply Bool.eqb_prop in E. left. congruence.
Qed.
Lemma at_least_outcome m c t s : at_least m c t s = Mismatch \/ exists s', at_least m c t s = Unified s'.
Proof.
  unfold UnifyModel.at_least. destruct (normalize_mut s c) as [a|a], (normalize_mut s t) as [b|b].
  - destruct (Nat.eqb a b); [eauto|]. destruct (first_is_root s a b); eauto.
  - destruct m; [destruct b|]; eauto.
  - destruct m; [destruct a|]; eauto.
  - destruct m; [destruct (negb a && b)|destruct (Bool.eqb a b)]; eauto.
Qed.

(** The parts the steps compare. *)
Definition parts (x : step) : list ty := match x with Types c e => [c; e] | _ => [] end.

Lemma steps_size c e a b : leaf c = false -> leaf e = false -> In (Types a b) (steps c e) -> size a + size b < size c + size e.
Proof.
  intros Hc He Hin.
  assert (P1 : forall l r, In (Types a b) (map (fun p : ty * ty => Types (fst p) (snd p)) (combine l r)) -> size a <= list_sum (map size l) /\ size b <= list_sum (map size r)).
  { intros l r Hi. apply in_map_iff in Hi. destruct Hi as ([x y] & [= <- <-] & Hi). split; [apply list_sum_in; now apply in_combine_l in Hi|apply list_sum_in; now apply in_combine_r in Hi]. }
  assert (P2 : forall l r, In (Types a b) (flat_map (fun p : (nat * ty) * (nat * ty) => [Check (Nat.eqb (fst (fst p)) (fst (snd p))); Types (snd (fst p)) (snd (snd p))]) (combine l r)) ->
    size a <= list_sum (map (fun p => size (snd p)) l) /\ size b <= list_sum (map (fun p => size (snd p)) r)).
  { intros l r Hi. apply in_flat_map in Hi. destruct Hi as ([x y] & Hi & Hj). cbn in Hj. destruct Hj as [Hj|[Hj|[]]]; [discriminate|]. injection Hj as <- <-.
    split; [apply (list_sum_in (fun p => size (snd p))); now apply in_combine_l in Hi|apply (list_sum_in (fun p => size (snd p))); now apply in_combine_r in Hi]. }
  assert (P3 : forall l r, In (Types a b) (flat_map (fun p : (mut_ty * ty) * (mut_ty * ty) => [Muts (fst (snd p)) (fst (fst p)); Types (snd (snd p)) (snd (fst p))]) (combine l r)) ->
    size b <= list_sum (map (fun p => size (snd p)) l) /\ size a <= list_sum (map (fun p => size (snd p)) r)).
  { intros l r Hi. apply in_flat_map in Hi. destruct Hi as ([x y] & Hi & Hj). cbn in Hj. destruct Hj as [Hj|[Hj|[]]]; [discriminate|]. injection Hj as <- <-.
    split; [apply (list_sum_in (fun p => size (snd p))); now apply in_combine_l in Hi|apply (list_sum_in (fun p => size (snd p))); now apply in_combine_r in Hi]. }
  destruct c, e; try discriminate; cbn [steps] in Hin; try (destruct Hin as [Hin|[]]; discriminate); cbn [size].
  - destruct Hin as [Hin|Hin]; [discriminate|]. apply P1 in Hin. lia.
  - destruct Hin as [Hin|Hin]; [discriminate|]. apply P2 in Hin. lia.
  - destruct Hin as [Hin|Hin]; [discriminate|]. apply P1 in Hin. lia.
  - apply P2 in Hin. lia.
  - destruct Hin as [Hin|Hin]; [discriminate|]. apply in_app_iff in Hin. destruct Hin as [Hin|[Hin|[]]]; [apply P3 in Hin; lia|]. injection Hin as -> ->. lia.
  - destruct Hin as [Hin|Hin]; [discriminate|]. apply in_app_iff in Hin. destruct Hin as [Hin|[Hin|[]]]; [apply P3 in Hin; lia|]. injection Hin as -> ->. lia.
  - destruct Hin as [Hin|[Hin|Hin]]; [discriminate|discriminate|]. apply P1 in Hin. lia.
Qed.

Lemma steps_occurs c e a b v : In (Types a b) (steps c e) -> occurs v a || occurs v b = true -> occurs v c || occurs v e = true.
Proof.
  intros Hin Hv. apply orb_true_iff in Hv.
  assert (P1 : forall l r, In (Types a b) (map (fun p : ty * ty => Types (fst p) (snd p)) (combine l r)) -> existsb (occurs v) l || existsb (occurs v) r = true).
  { intros l r Hi. apply in_map_iff in Hi. destruct Hi as ([x y] & [= <- <-] & Hi). apply orb_true_iff.
    destruct Hv; [left|right]; apply existsb_exists; [exists x|exists y]; split; auto; [now apply in_combine_l in Hi|now apply in_combine_r in Hi]. }
  assert (P2 : forall l r, In (Types a b) (flat_map (fun p : (nat * ty) * (nat * ty) => [Check (Nat.eqb (fst (fst p)) (fst (snd p))); Types (snd (fst p)) (snd (snd p))]) (combine l r)) ->
    existsb (fun p => occurs v (snd p)) l || existsb (fun p => occurs v (snd p)) r = true).
  { intros l r Hi. apply in_flat_map in Hi. destruct Hi as ([x y] & Hi & Hj). cbn in Hj. destruct Hj as [Hj|[Hj|[]]]; [discriminate|]. injection Hj as <- <-. apply orb_true_iff.
    destruct Hv; [left|right]; apply existsb_exists; [exists x|exists y]; split; auto; [now apply in_combine_l in Hi|now apply in_combine_r in Hi]. }
  assert (P3 : forall l r, In (Types a b) (flat_map (fun p : (mut_ty * ty) * (mut_ty * ty) => [Muts (fst (snd p)) (fst (fst p)); Types (snd (snd p)) (snd (fst p))]) (combine l r)) ->
    existsb (fun p => occurs v (snd p)) l || existsb (fun p => occurs v (snd p)) r = true).
  { intros l r Hi. apply in_flat_map in Hi. destruct Hi as ([x y] & Hi & Hj). cbn in Hj. destruct Hj as [Hj|[Hj|[]]]; [discriminate|]. injection Hj as <- <-. apply orb_true_iff.
    destruct Hv; [right|left]; apply existsb_exists; [exists y|exists x]; split; auto; [now apply in_combine_r in Hi|now apply in_combine_l in Hi]. }
  destruct c, e; cbn [steps] in Hin; try (destruct Hin as [Hin|[]]; discriminate); cbn [occurs].
  - destruct Hin as [Hin|Hin]; [discriminate|]. now apply P1.
  - destruct Hin as [Hin|Hin]; [discriminate|]. now apply P2.
  - destruct Hin as [Hin|Hin]; [discriminate|]. now apply P1.
  - now apply P2.
  - destruct Hin as [Hin|Hin]; [discriminate|]. apply in_app_iff in Hin. rewrite !orb_true_iff. destruct Hin as [Hin|[Hin|[]]]; [apply P3 in Hin; apply orb_true_iff in Hin; tauto|]. injection Hin as -> ->. tauto.
  - destruct Hin as [Hin|Hin]; [discriminate|]. apply in_app_iff in Hin. rewrite !orb_true_iff. destruct Hin as [Hin|[Hin|[]]]; [apply P3 in Hin; apply orb_true_iff in Hin; tauto|]. injection Hin as -> ->. tauto.
  - destruct Hin as [Hin|[Hin|Hin]]; [discriminate|discriminate|]. now apply P1.
Qed.

(** Invariant: well formed, more bindings, variables below a bound. *)
Definition below (N : nat) (t : ty) : Prop := forall v, occurs v t = true -> v < N.
Definition bounded (N : nat) (s : state) : Prop := Forall (fun p => fst p < N /\ below N (snd p)) (types s).
Definition inv (N : nat) (s : state) : Prop := wf s /\ bounded N s.

Lemma tval_below N l w : Forall (fun p => fst p < N /\ below N (snd p)) l -> w < N -> below N (tval l w).
Proof.
  intros H Hw. induction H as [|[v u] l [Hv Hu] Hl IH]; cbn.
  - intros x Hx. cbn in Hx. apply Nat.eqb_eq in Hx. now subst.
  - intros x Hx. apply occurs_apply in Hx. destruct Hx as (y & Hy & Hx). unfold one in Hx. destruct (Nat.eqb v y); [now apply Hu|]. cbn in Hx. apply Nat.eqb_eq in Hx. subst. now apply IH.
Qed.
Lemma res_below N s t : bounded N s -> below N t -> below N (res s t).
Proof.
  intros Hs Ht x Hx. apply occurs_apply in Hx. destruct Hx as (y & Hy & Hx). unfold R in Hx. apply occurs_apply in Hx. destruct Hx as (z & Hz & Hx). cbn in Hx. apply Nat.eqb_eq in Hx. subst.
  now apply (tval_below N (types s) y) in Hz; [|exact Hs|apply Ht].
Qed.

Lemma unify_variable_inv N v t s c s' : inv N s -> res s c = TVar v -> below N c -> below N (res s t) -> unify_variable v (res s t) s = Unified s' -> inv N s' /\ ext s s' /\ s' = bind_type s v (res s t).
Proof.
  intros [Hw Hb] Hc Hbc Hbt. unfold unify_variable. destruct (occurs v (res s t)) eqn:Eo; [discriminate|]. intros [= <-].
  assert (Hv : occurs v (res s c) = true) by (rewrite Hc; cbn; apply Nat.eqb_refl).
  split; [|split; [apply ext_bind_type|reflexivity]]. split.
  - apply wf_bind_type; auto; [now apply res_free in Hv|]. intros w Hx. now apply res_free in Hx.
  - constructor; [|exact Hb]. split; [|exact Hbt]. now apply (res_below N s c Hb Hbc).
Qed.

Lemma each_inv N (go : step -> state -> outcome) l : (forall x s s', In x l -> inv N s -> go x s = Unified s' -> inv N s' /\ ext s s') ->
  forall s s', inv N s -> each go l s = Unified s' -> inv N s' /\ ext s s'.
Proof.
  induction l as [|x l IH]; intros Hgo s s' Hi; cbn; [intros [= <-]; split; [exact Hi|apply ext_refl]|].
  destruct (go x s) as [s1| | | |] eqn:E; try discriminate. intros H. destruct (Hgo x s s1 (or_introl eq_refl) Hi E) as [Hi1 He1].
  destruct (IH (fun y s s' Hy => Hgo y s s' (or_intror Hy)) s1 s' Hi1 H) as [Hi' He']. split; [exact Hi'|]. now apply (ext_trans s s1 s').
Qed.

Lemma unify_inv N f : forall m c e s s', inv N s -> below N c -> below N e -> unify f m c e s = Unified s' -> inv N s' /\ ext s s'.
Proof.
  induction f as [f IHf] using (well_founded_induction lt_wf). intros m c e s s' Hi Hc He H.
  pose proof (res_below N s c (proj2 Hi) Hc) as Bc. pose proof (res_below N s e (proj2 Hi) He) as Be.
  destruct (unify_cases f m c e s (proj1 Hi)) as [Hn|[[_ Hn]|(g & -> & Hg)]]; [congruence|rewrite Hn in H; injection H as <-; split; [exact Hi|apply ext_refl]|].
  rewrite H in Hg. inversion Hg as [E|E|E|a b Ea Eb Hab E|a b Ea Eb Hab E|v Ev El E|v Ev El E|L1 L2 E]; subst.
  - split; [exact Hi|apply ext_refl].
  - split; [exact Hi|apply ext_refl].
  - split; [exact Hi|apply ext_refl].
  - destruct (unify_variable_inv N b c s e (bind_type s b (TVar a))) as (I & X & _); auto. unfold unify_variable. rewrite Ea. cbn. destruct (Nat.eqb_spec a b); [contradiction|reflexivity].
  - destruct (unify_variable_inv N a e s c (bind_type s a (TVar b))) as (I & X & _); auto. unfold unify_variable. rewrite Eb. cbn. destruct (Nat.eqb_spec b a); [congruence|reflexivity].
  - destruct (unify_variable_inv N v e s c s') as (I & X & _); auto.
  - destruct (unify_variable_inv N v c s e s') as (I & X & _); auto.
  - revert Hi E. apply each_inv. intros x s1 s2 Hx Hi1 Hd. destruct x as [b|b|a b|a b]; cbn in Hd.
    + destruct b; [|discriminate]. injection Hd as <-. split; [exact Hi1|apply ext_refl].
    + destruct b; [|discriminate]. injection Hd as <-. split; [exact Hi1|apply ext_refl].
    + destruct (at_least_ok _ _ _ _ _ (proj1 Hi1) Hd) as (W & X & T & _). split; [|exact X]. split; [exact W|]. unfold bounded. rewrite T. apply Hi1.
    + apply (IHf g (Nat.lt_succ_diag_r g) m a b s1 s2); auto; intros w Hw.
      * assert (Ho := steps_occurs _ _ _ _ w Hx). rewrite Hw in Ho. specialize (Ho eq_refl). apply orb_true_iff in Ho. destruct Ho; [now apply Bc|now apply Be].
      * assert (Ho := steps_occurs _ _ _ _ w Hx). rewrite Hw, orb_true_r in Ho. specialize (Ho eq_refl). apply orb_true_iff in Ho. destruct Ho; [now apply Bc|now apply Be].
Qed.
End Proofs.
