(** Proofs about the acceptance of recursive type equations. *)
From Coq Require Import List Bool Arith Lia Permutation.
From Verif Require Import ListUtil GraphModel InhabitModel InhabitSpec InhabitProofs RecEquationModel RecEquationSpec.
Import ListNotations.

Lemma children_components : forall k, children k = components k.
Proof. now intros []. Qed.

(** The table holds the components of its types. *)
Definition closed_table (T : table) : Prop :=
  forall t k c, nth_error T t = Some k -> In c (components k) -> c < length T.

Lemma well_formed_closed : forall T, well_formed T -> closed_table T.
Proof.
  intros T W t k c Ek Hc. apply (W t k c Ek). destruct k; cbn [components parts] in *; auto.
  apply in_or_app. now left.
Qed.

(** ** Summaries *)

Section Summaries.
Variables (T : table) (v : nat).
Hypothesis W : closed_table T.

Definition says (s : list bool) (k : kind) : Prop :=
  k = TVariable v \/ exists c, In c (components k) /\ nth_error s c = Some true.

Lemma collect_total : forall s t k, length s = length T -> nth_error T t = Some k ->
  exists b, collect v s k = Val b /\ (b = true <-> says s k).
Proof.
  intros s t k Hl Ek.
  assert (G : exists b, any_of (rd s) (children k) = Val b /\ (b = true <-> exists c, In c (components k) /\ nth_error s c = Some true)).
  { rewrite children_components. destruct (any_of_total (rd s) (components k)) as [b [E1 E2]].
    { intros c Hc. specialize (W t k c Ek Hc). destruct (rd_in _ s c) as [x [_ Hx]]; [lia|]. now exists x. }
    exists b. split; [exact E1|]. rewrite E2. split; intros [c [H1 H2]]; exists c; split; auto.
    - now apply rd_some.
    - unfold rd. now rewrite H2. }
  unfold says. destruct k as [x| | | | | | | |];
    try (destruct G as [b [G1 G2]]; exists b; split; [exact G1|]; rewrite G2; split; [now right|intros [H|H]; [discriminate|exact H]]).
  exists (Nat.eqb x v). split; [reflexivity|]. rewrite Nat.eqb_eq. split.
  - intros ->. now left.
  - intros [[= ->]|[c [[] _]]]. reflexivity.
Qed.

Definition summary_inv (s : list bool) : Prop :=
  length s = length T /\ (forall t, nth_error s t = Some true -> mentions T v t) /\
  (forall t k, nth_error s t = Some true -> nth_error T t = Some k -> says s k).

Definition count (s : list bool) : nat := count_occ Bool.bool_dec s true.

Lemma count_le : forall s, count s <= length s.
Proof. intros s. apply count_occ_bound. Qed.

Lemma count_upd : forall s i, nth_error s i = Some false -> count (upd s i true) = S (count s).
Proof.
  induction s as [|b s IH]; intros [|i] H; try discriminate; cbn in *.
  - injection H as ->. reflexivity.
  - unfold count in *. cbn [count_occ]. rewrite (IH i H). destruct (Bool.bool_dec b true); reflexivity.
Qed.

Lemma skipn_cons : forall (A : Type) i (l : list A) x r, skipn i l = x :: r -> nth_error l i = Some x /\ skipn (S i) l = r.
Proof.
  intros A. induction i as [|i IH]; intros [|y l] x r H; cbn in *; try discriminate.
  - injection H as -> ->. now split.
  - destruct (IH l x r H) as [H1 H2]. now split.
Qed.

Lemma skipn_nil_length : forall (A : Type) i (l : list A), skipn i l = [] -> length l <= i.
Proof.
  intros A i l H. pose proof (skipn_length i l) as E. rewrite H in E. cbn in E. lia.
Qed.

Lemma says_mono : forall s i k, says s k -> nth_error s i = Some false -> says (upd s i true) k.
Proof.
  intros s i k [H|[c [H1 H2]]] Hi; [now left|]. right. exists c. split; [exact H1|].
  destruct (Nat.eq_dec c i) as [->|N]; [congruence|]. rewrite nth_error_upd_other; auto.
Qed.

Lemma summary_round_spec : forall kinds i s ch, kinds = skipn i T -> summary_inv s ->
  exists s' ch', summary_round v kinds i s ch = Val (s', ch') /\ summary_inv s' /\ count s <= count s' /\
    (ch' = true -> ch = true \/ count s < count s') /\
    (ch' = false -> s' = s /\ forall j k, i <= j -> nth_error T j = Some k -> says s k -> nth_error s j = Some true).
Proof.
  induction kinds as [|k kinds IH]; intros i s ch Ek Hi; cbn [summary_round].
  - exists s, ch. split; [reflexivity|]. split; [exact Hi|]. split; [lia|]. split; [auto|]. intros _.
    split; [reflexivity|]. intros j k Hj Hk _. symmetry in Ek. apply skipn_nil_length in Ek.
    assert (j < length T) by (apply nth_error_Some; congruence). lia.
  - symmetry in Ek. apply skipn_cons in Ek. destruct Ek as [Ek Er].
    destruct Hi as [Hl [Hm Hs]].
    destruct (collect_total s i k Hl Ek) as [b [Eb Hb]]. rewrite Eb. cbn [bind].
    assert (Hti : i < length T) by (apply nth_error_Some; congruence).
    destruct (rd_in _ s i) as [old [Eo Ero]]; [lia|]. rewrite Ero. cbn [bind].
    destruct (Bool.eqb b old) eqn:Q.
    + apply Bool.eqb_prop in Q. subst old.
      destruct (IH (S i) s ch) as [s' [ch' [E1 [E2 [E3 [E4 E5]]]]]]; [now symmetry|now split|].
      exists s', ch'. split; [exact E1|]. split; [exact E2|]. split; [exact E3|]. split; [exact E4|].
      intros Hc. destruct (E5 Hc) as [-> E6]. split; [reflexivity|]. intros j k' Hj Hk Hsay.
      destruct (Nat.eq_dec i j) as [<-|N]; [|apply (E6 j k'); auto; lia].
      assert (k' = k) by congruence. subst k'. apply Hb in Hsay. congruence.
    + assert (Hold : old = false).
      { destruct old; [|reflexivity]. exfalso. specialize (Hs i k Eo Ek). apply Hb in Hs. subst b. discriminate. }
      subst old. assert (b = true) by (destruct b; [reflexivity|discriminate]). subst b.
      destruct (IH (S i) (upd s i true) true) as [s' [ch' [E1 [E2 [E3 [E4 E5]]]]]]; [now symmetry| |].
      { split; [rewrite upd_length; exact Hl|]. split.
        - intros t Ht. destruct (Nat.eq_dec t i) as [->|N]; [|rewrite nth_error_upd_other in Ht by auto; auto].
          destruct (proj1 Hb eq_refl) as [->|[c [H1 H2]]]; [now apply m_here|]. eapply m_below; eauto.
        - intros t k' Ht Hk. apply says_mono; [|exact Eo].
          destruct (Nat.eq_dec t i) as [->|N].
          + assert (k' = k) by congruence. subst k'. now apply Hb.
          + rewrite nth_error_upd_other in Ht by auto. eauto. }
      rewrite (count_upd s i Eo) in *.
      exists s', ch'. split; [exact E1|]. split; [exact E2|]. split; [lia|]. split; [intros _; right; lia|].
      intros Hc. exfalso. destruct (E5 Hc) as [Es _]. destruct ch'; [discriminate|].
      clear - E1. revert E1. generalize (upd s i true) as s0. generalize (S i) as n.
      induction kinds as [|k kinds IH]; intros n s0; cbn [summary_round]; [discriminate|].
      destruct (collect v s0 k); cbn [bind]; try discriminate. destruct (rd s0 n); cbn [bind]; try discriminate.
      destruct (Bool.eqb a a0); apply IH.
Qed.

Lemma summary_loop_spec : forall f s, summary_inv s -> length T < f + count s ->
  exists s', summary_loop f v T s = Val s' /\ length s' = length T /\ forall t, nth_error s' t = Some true <-> mentions T v t.
Proof.
  induction f as [|f IH]; intros s Hi Hf.
  - exfalso. pose proof (count_le s). destruct Hi as [Hl _]. lia.
  - cbn [summary_loop]. destruct (summary_round_spec T 0 s false eq_refl Hi) as [s' [ch' [E1 [E2 [E3 [E4 E5]]]]]].
    rewrite E1. cbn [bind]. destruct ch'.
    + destruct (E4 eq_refl) as [H|H]; [discriminate|]. apply IH; [exact E2|lia].
    + destruct (E5 eq_refl) as [-> E6]. exists s. split; [reflexivity|]. destruct E2 as [Hl [Hm _]].
      split; [exact Hl|]. intros t. split; [apply Hm|]. intros H.
      induction H as [t Ht|t k c Ht Hc _ IHm]; apply (E6 t _ (Nat.le_0_l t) Ht); [now left|]. right. now exists c.
Qed.

Lemma compute_summaries_spec :
  exists s, compute_summaries v T = Val s /\ length s = length T /\ forall t, nth_error s t = Some true <-> mentions T v t.
Proof.
  unfold compute_summaries. apply summary_loop_spec; [|lia].
  assert (N : forall t, nth_error (repeat false (length T)) t <> Some true).
  { intros t H. apply nth_error_In in H. apply repeat_spec in H. discriminate. }
  split; [apply repeat_length|]. split; [intros t H; now apply N in H|intros t k H; now apply N in H].
Qed.
End Summaries.

(** ** Validation *)

Lemma mentions_on_path : forall T v root t k c,
  (mentions T v t -> on_cycle T v root t) -> nth_error T t = Some k -> In c (components k) -> mentions T v c ->
  on_cycle T v root c.
Proof. intros T v root t k c H Hk Hc Hm. eapply oc_below; eauto. apply H. eapply m_below; eauto. Qed.

Definition is_variant (k : kind) : bool := match k with TVariant _ => true | _ => false end.

Lemma all_st_snoc : forall f l r st, all_st f (l ++ [r]) st =
  (let* (ok, st) := all_st f l st in if ok then f r st else Val (false, st)).
Proof.
  induction l as [|x l IH]; intros r st; cbn [all_st app bind].
  - destruct (f r st) as [[[] st']| |]; reflexivity.
  - destruct (f x st) as [[[] st']| |]; cbn [bind]; auto.
Qed.

Lemma NoDup_snoc : forall (A : Type) (l : list A) x, NoDup l -> ~ In x l -> NoDup (l ++ [x]).
Proof.
  intros A l x H Hn. apply (Permutation_NoDup (l := x :: l)); [|now constructor].
  apply Permutation_cons_append.
Qed.

Section Validate.
Variables (T : table) (v root : nat) (s : list bool).
Hypothesis W : closed_table T.
Hypothesis Sl : length s = length T.
Hypothesis Sm : forall t, nth_error s t = Some true <-> mentions T v t.

Definition ok (vis : list (nat * bool)) (t : nat) (g : bool) : Prop :=
  ~ mentions T v t \/ (nth_error T t = Some (TVariable v) /\ g = true) \/ In (t, false) vis \/ In (t, g) vis.

Definition sat (vis : list (nat * bool)) (flag : bool) (e : nat * bool) : Prop :=
  forall k c, nth_error T (fst e) = Some k -> In c (components k) ->
    ok vis c (if is_variant k then true else snd e) /\ (is_variant k = true -> ~ mentions T v c -> flag = true).

Definition inv (st : validation) : Prop :=
  NoDup (visited st) /\
  (forall t g, In (t, g) (visited st) -> t < length T /\ forall x, nth_error T t <> Some (TVariable x)) /\
  (has_terminating_payload st = true -> ending_payload T v root).

Definition post (Q : list (nat * bool) -> bool -> Prop) (st : validation) (r : gres (bool * validation)) : Prop :=
  exists b st', r = Val (b, st') /\ inv st' /\ incl (visited st) (visited st') /\
    (has_terminating_payload st = true -> has_terminating_payload st' = true) /\
    (b = false -> unguarded T v root) /\
    (b = true -> Q (visited st') (has_terminating_payload st') /\
       forall e, In e (visited st') -> In e (visited st) \/ sat (visited st') (has_terminating_payload st') e).

Definition mono (Q : list (nat * bool) -> bool -> Prop) : Prop :=
  forall vis vis' flag flag', Q vis flag -> incl vis vis' -> (flag = true -> flag' = true) -> Q vis' flag'.

Lemma ok_mono : forall vis vis' t g, ok vis t g -> incl vis vis' -> ok vis' t g.
Proof. intros vis vis' t g [H|[H|[H|H]]] Hi; unfold ok; auto. Qed.

Lemma sat_mono : forall e, mono (fun vis flag => sat vis flag e).
Proof.
  intros e vis vis' flag flag' H Hi Hf k c Hk Hc. destruct (H k c Hk Hc) as [H1 H2].
  split; [eapply ok_mono; eauto|auto].
Qed.

Lemma inv_size : forall st, inv st -> length (visited st) <= 2 * length T.
Proof.
  intros st [Hd [Hb _]].
  pose proof (NoDup_incl_length Hd (l' := list_prod (seq 0 (length T)) [true; false])) as H.
  rewrite prod_length, seq_length in H. cbn [length] in H. rewrite Nat.mul_comm. apply H.
  intros [t g] Hi. apply in_prod; [apply in_seq; destruct (Hb t g Hi); lia|]. destruct g; cbn; auto.
Qed.

Lemma all_st_post : forall (Q : nat -> list (nat * bool) -> bool -> Prop) f l st,
  (forall x, mono (Q x)) ->
  (forall x st', In x l -> inv st' -> incl (visited st) (visited st') -> post (Q x) st' (f x st')) ->
  inv st -> post (fun vis flag => forall x, In x l -> Q x vis flag) st (all_st f l st).
Proof.
  intros Q f l st Hm. revert st. induction l as [|x l IH]; intros st Hf Hi; cbn [all_st].
  - exists true, st. split; [reflexivity|]. split; [exact Hi|]. split; [apply incl_refl|]. split; [auto|].
    split; [discriminate|]. intros _. split; [easy|auto].
  - destruct (Hf x st (or_introl eq_refl) Hi (incl_refl _)) as [b [st1 [E1 [E2 [E3 [E4 [E5 E6]]]]]]].
    rewrite E1. cbn [bind]. destruct b.
    + destruct (E6 eq_refl) as [E7 E8].
      destruct (IH st1) as [b2 [st2 [F1 [F2 [F3 [F4 [F5 F6]]]]]]].
      { intros y st' Hy Hi' Hinc. apply Hf; [now right|exact Hi'|]. eapply incl_tran; eauto. }
      { exact E2. }
      exists b2, st2. split; [exact F1|]. split; [exact F2|]. split; [eapply incl_tran; eauto|]. split; [auto|].
      split; [exact F5|]. intros Hb. destruct (F6 Hb) as [F7 F8]. split.
      * intros y [<-|Hy]; [|auto]. exact (Hm x _ _ _ _ E7 F3 F4).
      * intros e He. destruct (F8 e He) as [H|H]; [|now right]. destruct (E8 e H) as [H'|H']; [now left|right].
        exact (sat_mono e _ _ _ _ H' F3 F4).
    + exists false, st1. split; [reflexivity|]. split; [exact E2|]. split; [exact E3|]. split; [exact E4|].
      split; [exact E5|]. discriminate.
Qed.

Lemma visited_at_spec : forall st t g, visited_at st t g = true <-> In (t, g) (visited st).
Proof.
  intros st t g. unfold visited_at. rewrite existsb_exists. split.
  - intros [[t' g'] [H1 H2]]. cbn [fst snd] in H2. apply andb_prop in H2. destruct H2 as [H2 H3].
    apply Nat.eqb_eq in H2. apply Bool.eqb_prop in H3. now subst.
  - intros H. exists (t, g). split; [exact H|]. cbn [fst snd]. now rewrite Nat.eqb_refl, Bool.eqb_reflx.
Qed.

Lemma contains_read : forall t, t < length T -> exists b, rd s t = Val b /\ (b = true <-> mentions T v t).
Proof.
  intros t Ht. destruct (rd_in _ s t) as [b [E1 E2]]; [lia|]. exists b. split; [exact E2|].
  rewrite <- Sm. rewrite E1. split; [intros ->; reflexivity|congruence].
Qed.

(** The part of [validate] below the visited check. *)
Lemma body_post : forall f ty g k st,
  (forall t g' st', t < length T -> (mentions T v t -> on_cycle T v root t) ->
     (g' = false -> unguarded T v t -> unguarded T v root) -> inv st' ->
     2 * length T < f + length (visited st') -> post (fun vis _ => ok vis t g') st' (validate f T s t g' st')) ->
  nth_error T ty = Some k -> (forall x, k <> TVariable x) ->
  on_cycle T v root ty -> (g = false -> unguarded T v ty -> unguarded T v root) ->
  inv st -> 2 * length T < S f + length (visited st) -> ~ In (ty, g) (visited st) ->
  forall F, (F = fun t st' => if is_variant k
      then (let* c := rd s t in if c then validate f T s t true st' else Val (true, Validation (visited st') true))
      else validate f T s t g st') ->
  post (fun vis _ => ok vis ty g) st
    (all_st F (components k) (Validation (visited st ++ [(ty, g)]) (has_terminating_payload st))).
Proof.
  intros f ty g k st IH Ek Hk Hc Hu Hi Hf Hn F EF.
  set (st1 := Validation (visited st ++ [(ty, g)]) (has_terminating_payload st)).
  assert (Hty : ty < length T) by (apply nth_error_Some; congruence).
  assert (Hi1 : inv st1).
  { destruct Hi as [H1 [H2 H3]]. unfold st1. split; [|split].
    - cbn [visited]. apply NoDup_snoc; assumption.
    - cbn [visited]. intros t g' H. apply in_app_or in H. destruct H as [H|[H|[]]]; [eauto|]. injection H as <- <-.
      split; [exact Hty|]. intros x Hx. apply (Hk x). congruence.
    - exact H3. }
  assert (P : post (fun vis flag => forall c, In c (components k) ->
      ok vis c (if is_variant k then true else g) /\ (is_variant k = true -> ~ mentions T v c -> flag = true)) st1
      (all_st F (components k) st1)).
  { apply (all_st_post (fun c vis flag => ok vis c (if is_variant k then true else g) /\ (is_variant k = true -> ~ mentions T v c -> flag = true))).
    - intros c vis vis' flag flag' [H1 H2] H3 H4. split; [eapply ok_mono; eauto|auto].
    - intros c st' Hcc Hi' Hinc. pose proof (W ty k c Ek Hcc) as Hlt.
      assert (Hlen : 2 * length T < f + length (visited st')).
      { destruct Hi1 as [Hd _]. pose proof (NoDup_incl_length Hd Hinc) as L. unfold st1 in L. cbn [visited] in L.
        rewrite app_length in L. cbn [length] in L. lia. }
      assert (Hcy : mentions T v c -> on_cycle T v root c) by (intros Hm; eapply oc_below; eauto).
      rewrite EF. destruct (is_variant k) eqn:Ev.
      + destruct (contains_read c Hlt) as [b [Eb Hb]]. rewrite Eb. cbn [bind]. destruct b.
        * destruct (IH c true st' Hlt Hcy) as [b [st2 [E1 [E2 [E3 [E4 [E5 E6]]]]]]]; [discriminate|assumption|assumption|].
          exists b, st2. split; [exact E1|]. split; [exact E2|]. split; [exact E3|]. split; [exact E4|]. split; [exact E5|].
          intros Hbt. destruct (E6 Hbt) as [E7 E8]. split; [|exact E8]. split; [exact E7|].
          intros _ Hnm. exfalso. apply Hnm. now apply Hb.
        * assert (Hnm : ~ mentions T v c) by (intros H; apply Hb in H; discriminate).
          exists true, (Validation (visited st') true). split; [reflexivity|]. split; [|split; [|split; [|split]]].
          { destruct Hi' as [I1 [I2 I3]]. split; [exact I1|]. split; [exact I2|]. intros _.
            destruct k; try discriminate. exists ty, payloads, c. split; [exact Hc|]. split; [exact Ek|]. split; [exact Hcc|exact Hnm]. }
          { apply incl_refl. }
          { reflexivity. }
          { discriminate. }
          { intros _. cbn [visited has_terminating_payload]. split; [|auto]. split; [now left|reflexivity]. }
      + destruct (IH c g st' Hlt Hcy) as [b [st2 [E1 [E2 [E3 [E4 [E5 E6]]]]]]]; [|assumption|assumption|].
        { intros Hg Huc. apply Hu; [exact Hg|]. eapply u_below; eauto. intros ps ->. discriminate. }
        exists b, st2. split; [exact E1|]. split; [exact E2|]. split; [exact E3|]. split; [exact E4|]. split; [exact E5|].
        intros Hbt. destruct (E6 Hbt) as [E7 E8]. split; [|exact E8]. split; [exact E7|]. discriminate.
    - exact Hi1. }
  destruct P as [b [st2 [E1 [E2 [E3 [E4 [E5 E6]]]]]]].
  exists b, st2. split; [exact E1|]. split; [exact E2|]. split; [|split; [|split]].
  - intros e He. apply E3. unfold st1. cbn [visited]. apply in_or_app. now left.
  - exact E4.
  - exact E5.
  - intros Hb. destruct (E6 Hb) as [E7 E8]. split.
    + right. right. right. apply E3. unfold st1. cbn [visited]. apply in_or_app. right. now left.
    + intros e He. destruct (E8 e He) as [H|H]; [|now right]. unfold st1 in H. cbn [visited] in H.
      apply in_app_or in H. destruct H as [H|[H|[]]]; [now left|]. right. subst e. intros k' c Hk' Hcc. cbn [fst snd] in *.
      assert (k' = k) by congruence. subst k'. exact (E7 c Hcc).
Qed.

Lemma validate_post : forall f ty g st, ty < length T -> (mentions T v ty -> on_cycle T v root ty) ->
  (g = false -> unguarded T v ty -> unguarded T v root) -> inv st -> 2 * length T < f + length (visited st) ->
  post (fun vis _ => ok vis ty g) st (validate f T s ty g st).
Proof.
  induction f as [|f IH]; intros ty g st Hty Hc Hu Hi Hf.
  - exfalso. pose proof (inv_size st Hi). lia.
  - cbn [validate]. destruct (contains_read ty Hty) as [b [Eb Hb]]. rewrite Eb. cbn [bind].
    assert (Stay : forall r, (r = false -> unguarded T v root) -> (r = true -> ok (visited st) ty g) ->
        post (fun vis _ => ok vis ty g) st (Val (r, st))).
    { intros r H1 H2. exists r, st. split; [reflexivity|]. split; [exact Hi|]. split; [apply incl_refl|]. split; [auto|].
      split; [exact H1|]. intros H. split; auto. }
    destruct b; cbn [negb].
    2:{ apply Stay; [discriminate|]. intros _. left. intros H. apply Hb in H. discriminate. }
    assert (Hm : mentions T v ty) by now apply Hb.
    destruct (rd_in _ T ty Hty) as [k [Ek Er]]. rewrite Er. cbn [bind].
    destruct k as [x|args|ps|ts|fs|args ret|args ret|params shape|].
    1:{ assert (x = v).
        { inversion Hm; subst; [congruence|]. rewrite Ek in H. injection H as <-. destruct H0. }
        subst x. apply Stay.
        - intros ->. apply Hu; [reflexivity|]. now apply u_here.
        - intros ->. right. left. split; [exact Ek|reflexivity]. }
    all: destruct (visited_at st ty false || visited_at st ty g) eqn:Ev;
      [apply Stay; [discriminate|intros _; apply orb_prop in Ev; rewrite !visited_at_spec in Ev; unfold ok; tauto]|];
      apply orb_false_iff in Ev; destruct Ev as [_ Ev];
      assert (Hn : ~ In (ty, g) (visited st)) by (intros H; apply visited_at_spec in H; congruence);
      specialize (Hc Hm).
    + apply (body_post f ty g (TNative args) st IH Ek ltac:(discriminate) Hc Hu Hi Hf Hn). reflexivity.
    + apply (body_post f ty g (TVariant ps) st IH Ek ltac:(discriminate) Hc Hu Hi Hf Hn). reflexivity.
    + apply (body_post f ty g (TTuple ts) st IH Ek ltac:(discriminate) Hc Hu Hi Hf Hn). reflexivity.
    + apply (body_post f ty g (TRecord fs) st IH Ek ltac:(discriminate) Hc Hu Hi Hf Hn). reflexivity.
    + rewrite (eq_sym (all_st_snoc (fun t => validate f T s t g) args ret (Validation (visited st ++ [(ty, g)]) (has_terminating_payload st)))). apply (body_post f ty g (TFunction args ret) st IH Ek ltac:(discriminate) Hc Hu Hi Hf Hn). reflexivity.
    + rewrite (eq_sym (all_st_snoc (fun t => validate f T s t g) args ret (Validation (visited st ++ [(ty, g)]) (has_terminating_payload st)))). apply (body_post f ty g (TSubscript args ret) st IH Ek ltac:(discriminate) Hc Hu Hi Hf Hn). reflexivity.
    + apply (body_post f ty g (TNamed params shape) st IH Ek ltac:(discriminate) Hc Hu Hi Hf Hn). reflexivity.
    + apply (body_post f ty g TNever st IH Ek ltac:(discriminate) Hc Hu Hi Hf Hn (fun t st' => validate f T s t g st')). reflexivity.
Qed.

(** What a finished search covers. *)
Lemma finished_cycle : forall vis flag, ok vis root false -> (forall e, In e vis -> sat vis flag e) ->
  (forall t g, In (t, g) vis -> forall x, nth_error T t <> Some (TVariable x)) ->
  (forall t, on_cycle T v root t -> exists g, ok vis t g) /\ ~ unguarded T v root /\
  (ending_payload T v root -> flag = true).
Proof.
  intros vis flag Hr Hs Hnv.
  assert (Step : forall t g k c, ok vis t g -> mentions T v t -> nth_error T t = Some k -> In c (components k) ->
     exists g', In (t, g') vis /\ (g = false -> g' = false) /\ ok vis c (if is_variant k then true else g')).
  { intros t g k c [H|[[H _]|[H|H]]] Hm Hk Hc.
    - contradiction.
    - assert (k = TVariable v) by congruence. subst k. destruct Hc.
    - exists false. split; [exact H|]. split; [auto|]. exact (proj1 (Hs _ H k c Hk Hc)).
    - exists g. split; [exact H|]. split; [auto|]. exact (proj1 (Hs _ H k c Hk Hc)). }
  assert (Cyc : forall t, on_cycle T v root t -> exists g, ok vis t g).
  { intros t H. induction H as [Hm|t k c Ht IHt Hk Hc Hm]; [now exists false|].
    destruct IHt as [g Hg]. destruct (Step t g k c Hg) as [g' [_ [_ H]]]; auto.
    - eapply m_below; eauto.
    - eexists. exact H. }
  assert (Um : forall t, unguarded T v t -> mentions T v t).
  { intros t H. induction H; [now apply m_here|]. eapply m_below; eauto. }
  split; [exact Cyc|]. split.
  - intros Hu. assert (G : forall t, unguarded T v t -> ok vis t false -> False).
    { intros t H. induction H as [t Ht|t k c Hk Hv Hc Hu' IHu]; intros Ho.
      - destruct Ho as [Ho|[[_ Ho]|Ho]]; [apply Ho; now apply m_here|discriminate|].
        destruct Ho as [Ho|Ho]; exact (Hnv _ _ Ho _ Ht).
      - apply IHu. destruct (Step t false k c Ho) as [g' [_ [Hg H]]]; auto.
        + eapply m_below; eauto.
        + rewrite (Hg eq_refl) in H. destruct k; cbn [is_variant] in H; auto. now specialize (Hv payloads). }
    exact (G root Hu Hr).
  - intros [t [ps [p [Ht [Hk [Hp Hnm]]]]]]. destruct (Cyc t Ht) as [g Hg].
    assert (Hm : mentions T v t) by (destruct Ht; auto).
    destruct (Step t g (TVariant ps) p Hg Hm Hk Hp) as [g' [Hin _]].
    exact (proj2 (Hs _ Hin (TVariant ps) p Hk Hp) eq_refl Hnm).
Qed.
End Validate.

Lemma try_equation_exact : forall T v root, well_formed T -> mentions T v root -> root < length T ->
  exists r, try_equation T v root = Val r /\
    match r with
    | Accepted => ~ unguarded T v root /\ ending_payload T v root
    | UnguardedCycle => unguarded T v root
    | NoTerminatingPayload => ~ unguarded T v root /\ ~ ending_payload T v root
    end.
Proof.
  intros T v root Wf Hm Hr. pose proof (well_formed_closed T Wf) as W. unfold try_equation.
  destruct (compute_summaries_spec T v W) as [s [Es [Hl Hs]]]. rewrite Es. cbn [bind].
  destruct (validate_post T v root s W Hl Hs (S (2 * length T)) root false (Validation [] false)) as [b [st [E1 [E2 [E3 [E4 [E5 E6]]]]]]].
  - exact Hr.
  - apply oc_root.
  - auto.
  - split; [constructor|]. split; [easy|]. discriminate.
  - cbn [visited length]. lia.
  - rewrite E1. cbn [bind]. destruct b; cbn [negb].
    + destruct (E6 eq_refl) as [E7 E8].
      destruct (finished_cycle T v root (visited st) (has_terminating_payload st) E7) as [_ [F1 F2]].
      { intros e He. destruct (E8 e He) as [[]|H]. exact H. }
      { intros t g Hi. destruct E2 as [_ [I _]]. exact (proj2 (I t g Hi)). }
      destruct (has_terminating_payload st) eqn:Ef; cbn [negb].
      * exists Accepted. split; [reflexivity|]. split; [exact F1|]. destruct E2 as [_ [_ I]]. now apply I.
      * exists NoTerminatingPayload. split; [reflexivity|]. split; [exact F1|]. intros H. apply F2 in H. discriminate.
    + exists UnguardedCycle. split; [reflexivity|]. now apply E5.
Qed.
