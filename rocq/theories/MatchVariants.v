From Coq Require Import List Arith Bool Lia Permutation.
From Verif Require Import MatchModel MatchSpec MatchProofs.
Import ListNotations.

(** ** First pass over the arms *)
Lemma named_vars_ok : forall vars tuple seen names w, named_vars tuple seen vars = Ok (names, w) ->
  names = names_of vars /\ NoDup names /\ (forall x, In x names -> ~ In x seen) /\
  (w = true <-> In Wildcard vars) /\ (tuple = true -> vars = map Named names).
Proof.
  induction vars as [|[x|] r IH]; intros tuple seen names w E; cbn in E.
  - injection E as <- <-. repeat split; try easy; now constructor.
  - destruct (mem x seen) eqn:M; [discriminate|]. apply mem_not_In in M.
    destruct (named_vars tuple (x :: seen) r) as [[l w']|] eqn:R; [|discriminate].
    injection E as <- <-. destruct (IH _ _ _ _ R) as [H1 [H2 [H3 [H4 H5]]]]. repeat split.
    + cbn; now f_equal.
    + constructor; [|easy]. intros I; apply (H3 x I); now left.
    + intros y [<-|I]; [easy|]. intros J; apply (H3 y I); now right.
    + intros H; right; now apply H4.
    + intros [H|H]; [discriminate|now apply H4].
    + intros T; cbn; f_equal; auto.
  - destruct tuple; [discriminate|]. destruct r; [|discriminate]. injection E as <- <-.
    repeat split; try easy; [now constructor|intros _; now left].
Qed.

Definition collected (p : pattern) (a : arm) : Prop :=
  exists tag tuple vars names w, p = PVariant tag tuple vars /\
    named_vars tuple [] vars = Ok (names, w) /\
    a = {| arm_tag := tag; arm_payload := payload_of tuple w names; arm_names := names |}.

Lemma collect_ok : forall arms seen l, collect seen arms = Ok l ->
  Forall2 collected arms l /\ NoDup (map arm_tag l) /\
  (forall t, In t (map arm_tag l) -> ~ In t seen).
Proof.
  induction arms as [|[q|tag tuple vars] arms IH]; intros seen l E; cbn in E; try discriminate.
  - injection E as <-. repeat split; try constructor. intros t [].
  - destruct (mem tag seen) eqn:M; [discriminate|]. apply mem_not_In in M.
    destruct (named_vars tuple [] vars) as [[names w]|] eqn:N; [|discriminate].
    destruct (collect (tag :: seen) arms) as [l'|] eqn:C; [|discriminate]. injection E as <-.
    destruct (IH _ _ C) as [F [D S]]. repeat split.
    + constructor; [|easy]. exists tag, tuple, vars, names, w; auto.
    + cbn; constructor; [|easy]. intros I; apply (S tag I); now left.
    + cbn; intros t [<-|I]; [easy|]. intros J; apply (S t I); now right.
Qed.

Lemma lookup_In {A} : forall x (l : list (nat * A)) a, lookup x l = Some a -> In (x, a) l.
Proof.
  intros x l a; induction l as [|[y b] r IH]; cbn; [discriminate|].
  destruct (Nat.eqb_spec x y) as [->|]; [intros [= ->]; now left|right; auto].
Qed.

Lemma lookup_unique {A} : forall x (l : list (nat * A)) a, NoDup (map fst l) -> In (x, a) l ->
  lookup x l = Some a.
Proof.
  intros x l a; induction l as [|[y b] r IH]; cbn; intros N I; [easy|]. inversion N as [|? ? H N']; subst.
  destruct I as [[= -> ->]|I]; [now rewrite Nat.eqb_refl|].
  destruct (Nat.eqb_spec x y) as [->|]; [|auto]. exfalso; apply H. now apply (in_map fst) in I.
Qed.

Lemma lookup_None {A} : forall x (l : list (nat * A)), lookup x l = None -> ~ In x (map fst l).
Proof.
  intros x l; induction l as [|[y b] r IH]; cbn; [easy|].
  destruct (Nat.eqb_spec x y) as [->|Ne]; [discriminate|]. intros E [->|I]; [easy|now apply IH].
Qed.

Lemma position_nth : forall x l i, position x l = Some i -> nth_error l i = Some x.
Proof.
  intros x l; induction l as [|y r IH]; intros i; cbn; [discriminate|].
  destruct (Nat.eqb_spec x y) as [->|]; [intros [= <-]; easy|].
  destruct (position x r) as [j|]; [|discriminate]. intros [= <-]; cbn; auto.
Qed.

Lemma position_In : forall x l, In x l -> exists i, position x l = Some i.
Proof.
  intros x l; induction l as [|y r IH]; cbn; [easy|]. intros H.
  destruct (Nat.eqb_spec x y) as [->|Ne]; [eauto|]. destruct H as [->|H]; [easy|].
  destruct (IH H) as [i ->]; cbn; eauto.
Qed.

Lemma names_agree_nth : forall l l' i x y, names_agree l l' = true ->
  nth_error l i = Some x -> nth_error l' i = Some y -> x = y.
Proof.
  induction l as [|a l IH]; intros [|b l'] [|i] x y A H H'; try discriminate; cbn in *.
  - apply andb_true_iff in A as [A _]; apply Nat.eqb_eq in A. congruence.
  - apply andb_true_iff in A as [_ A]. eauto.
Qed.

(** A name that both lists have is at the same place. *)
Lemma names_agree_place : forall l l' i x, names_agree l l' = true -> NoDup l' ->
  In x l -> nth_error l' i = Some x -> nth_error l i = Some x.
Proof.
  intros l l' i x A N I H. destruct (nth_error l i) as [y|] eqn:E.
  - f_equal; now apply (names_agree_nth l l' i).
  - apply nth_error_None in E. apply In_nth_error in I as [j J].
    assert (j < length l) by (apply nth_error_Some; congruence).
    assert (i < length l') by (apply nth_error_Some; congruence).
    destruct (nth_error l' j) as [y|] eqn:E'.
    + rewrite (names_agree_nth l l' j x y A J E') in *.
      assert (j = i); [|lia]. apply (NoDup_nth_error l'); [easy|lia|congruence].
    + apply nth_error_None in E'; lia.
Qed.

(** ** Bindings *)
Lemma bind_names_ok : forall elements names bs,
  Forall2 (fun x b => fst b = x /\ exists v, nth_error elements (snd b) = Some v) names bs ->
  exists env, bind_names elements bs = Some env /\ map fst env = names /\
    Forall2 (fun b e => fst b = fst e /\ nth_error elements (snd b) = Some (snd e)) bs env.
Proof.
  intros elements names bs F; induction F as [|x [y i] names bs [E [v V]] F [env [B [M G]]]].
  - exists []; repeat split; constructor.
  - cbn in E, V; subst y. exists ((x, v) :: env). cbn. rewrite V, B. repeat split.
    + now f_equal.
    + constructor; auto.
Qed.

Lemma bindings_ok : forall variants a names i bs, bindings variants a i names = Some bs ->
  length bs = length names /\
  forall j x, nth_error names j = Some x ->
    exists k, nth_error bs j = Some (x, k) /\ access variants a (i + j) x = Some k.
Proof.
  intros variants a names; induction names as [|x r IH]; intros i bs E; cbn in E.
  - injection E as <-. split; [easy|]. intros [|j] y H; discriminate.
  - destruct (access variants a i x) as [k|] eqn:A; [|discriminate].
    destruct (bindings variants a (S i) r) as [l|] eqn:B; [|discriminate]. injection E as <-.
    destruct (IH _ _ B) as [L H]. split; [cbn; now f_equal|].
    intros [|j] y Hy; cbn in *.
    + injection Hy as <-. exists k; rewrite Nat.add_0_r; auto.
    + destruct (H j y Hy) as [k' [K1 K2]]. exists k'; split; [easy|]. now rewrite Nat.add_succ_r.
Qed.

Lemma Forall2_from_nth {A B} (P : A -> B -> Prop) : forall l m, length l = length m ->
  (forall j x, nth_error l j = Some x -> exists y, nth_error m j = Some y /\ P x y) -> Forall2 P l m.
Proof.
  induction l as [|x l IH]; intros [|y m] L H; try discriminate; constructor.
  - destruct (H 0 x eq_refl) as [y' [[= <-] Py]]; easy.
  - apply IH; [now injection L|]. intros j z Hz; apply (H (S j) z Hz).
Qed.

Lemma same_nth {A} : forall l m : list A, length l = length m ->
  (forall i x, nth_error l i = Some x -> nth_error m i = Some x) -> l = m.
Proof.
  induction l as [|x l IH]; intros [|y m] L H; try discriminate; [easy|]. f_equal.
  - pose proof (H 0 x eq_refl) as E; cbn in E; congruence.
  - apply IH; [now injection L|]. intros i z Hz; apply (H (S i) z Hz).
Qed.

Section Arm.
  Variables (variants : list (nat * ty)) (tag : nat) (w : value) (wt : ty).
  Hypothesis WF : NoDup (map fst variants).
  Hypothesis I : In (tag, wt) variants.
  Hypothesis T : has_type w wt.

  (** The body of an arm for the tag of the value binds its names. *)
  Lemma arm_runs : forall p a k bs, collected p a -> arm_tag a = tag ->
    fields_exist variants p ->
    (binds a = true -> has_variant variants a = true) ->
    bindings variants a 0 (arm_names a) = Some bs ->
    exists env, run_body (k, bs) (VVariant tag w) = Ran k env /\
      selects variants p (VVariant tag w) env.
  Proof.
    intros p a k bs [tg [tuple [vars [names [wild [-> [NV ->]]]]]]] Et FE HV B.
    cbn [arm_tag arm_payload arm_names] in *. subst tg.
    destruct (named_vars_ok _ _ _ _ _ NV) as [En [ND [_ [HW HT]]]].
    unfold run_body. cbn [fst snd].
    destruct names as [|n0 nr].
    { cbn in B; injection B as <-. exists []. cbn [bind_names]. split; [easy|].
      exists w; split; [easy|]. split; [exact En|].
      destruct tuple; [left; now rewrite (HT eq_refl)|intros x u []]. }
    specialize (HV eq_refl). unfold has_variant in HV. cbn [arm_tag arm_payload] in HV.
    rewrite (lookup_unique tag variants wt WF I) in HV.
    set (names := n0 :: nr) in *.
    destruct (bindings_ok _ _ _ _ _ B) as [LB HB].
    assert (PO : payload_of tuple wild names =
      if tuple then TuplePayload (length names) else if wild then OpenPayload names
      else RecordPayload (map fst (sort_key (map (fun x => (x, tt)) names)))) by reflexivity.
    cbv beta in HB. rewrite PO in HV. destruct tuple.
    - (* tuple *)
      cbn [fits] in HV. destruct wt as [| | |ts| | |]; try discriminate. apply Nat.eqb_eq in HV.
      inversion T as [| | |vs ts' HT' E1 E2| |]; subst w ts'. pose proof (have_types_length _ _ HT') as LV.
      cbn [payload_elements].
      assert (HB' : forall j x, nth_error names j = Some x -> nth_error bs j = Some (x, j)).
      { intros j x Hx. destruct (HB j x Hx) as [k' [K1 K2]].
        unfold access in K2; cbn [arm_payload] in K2. rewrite PO in K2. cbn in K2. congruence. }
      destruct (bind_names_ok vs names bs) as [env [BN [M G]]].
      { apply Forall2_from_nth; [easy|]. intros j x Hx. exists (x, j); split; [auto|]. cbn; split; [easy|].
        assert (j < length names) by (apply nth_error_Some; congruence).
        destruct (nth_error vs j) eqn:E; eauto. apply nth_error_None in E. lia. }
      rewrite BN. exists env; split; [easy|]. exists (VTuple vs); split; [easy|]. split; [now rewrite M|].
      right. f_equal. apply same_nth.
      + rewrite map_length. apply (f_equal (@length nat)) in M. rewrite map_length in M. lia.
      + intros i x Hx.
        assert (i < length names) as Li.
        { apply (f_equal (@length nat)) in M. rewrite map_length in M.
          assert (i < length vs) by (apply nth_error_Some; congruence). lia. }
        destruct (nth_error names i) as [y|] eqn:Ey; [|apply nth_error_None in Ey; lia].
        destruct (Forall2_nth _ _ _ _ _ G (HB' i y Ey)) as [[y' u] [H1 [H2 H3]]]. cbn in *.
        apply (map_nth_error snd) in H1. cbn in H1. congruence.
    - (* record *)
      assert (Rec : exists fs, wt = TRecord fs /\ forall j x, nth_error names j = Some x ->
        exists k', nth_error bs j = Some (x, k') /\ nth_error (map fst fs) k' = Some x).
      { destruct wild.
        - cbn [fits] in HV. destruct wt as [| | | |fs| |] eqn:Ewt; try discriminate. exists fs; split; [easy|].
          intros j x Hx. destruct (HB j x Hx) as [k' [K1 K2]]. exists k'; split; [easy|].
          unfold access in K2; cbn [arm_payload arm_tag] in K2. rewrite PO in K2.
          rewrite (lookup_unique tag variants (TRecord fs) WF I) in K2.
          now apply position_nth.
        - cbn [fits] in HV. destruct wt as [| | | |fs| |] eqn:Ewt; try discriminate. exists fs; split; [easy|].
          intros j x Hx. destruct (HB j x Hx) as [k' [K1 K2]]. exists k'; split; [easy|].
          unfold access in K2; cbn [arm_payload arm_tag] in K2. rewrite PO in K2.
          apply position_nth in K2.
          apply (names_agree_place _ _ _ _ HV) in K2; [easy| |].
          + assert (Permutation (map fst (sort_key (map (fun x : nat => (x, tt)) names))) names) as P.
            { rewrite (Permutation_map fst (sort_key_perm _)), map_map; cbn [fst]. now rewrite map_id. }
            symmetry in P. now apply (Permutation_NoDup P).
          + destruct FE as [FE|FE]; [apply HW in FE; discriminate|].
            apply (FE fs x I). rewrite <- En. now apply (nth_error_In names j). }
      destruct Rec as [fs [Ewt Rec]]. subst wt.
      inversion T as [| | | |vs fs' HT' E1 E2|]; subst w fs'. pose proof (have_types_length _ _ HT') as LV.
      rewrite map_length in LV. cbn [payload_elements].
      destruct (bind_names_ok vs names bs) as [env [BN [M G]]].
      { apply Forall2_from_nth; [easy|]. intros j x Hx. destruct (Rec j x Hx) as [k' [K1 K2]].
        exists (x, k'); split; [easy|]. cbn; split; [easy|].
        assert (k' < length (map fst fs)) by (apply nth_error_Some; congruence). rewrite map_length in H.
        destruct (nth_error vs k') eqn:E; eauto. apply nth_error_None in E. lia. }
      rewrite BN. exists env; split; [easy|]. exists (VTuple vs); split; [easy|]. split; [now rewrite M|].
      intros x u Hin. apply In_nth_error in Hin as [j Hj].
      destruct (Forall2_nth' _ _ _ _ _ G Hj) as [[x' k'] [H1 [H2 H3]]]. cbn in H2, H3; subst x'.
      assert (nth_error names j = Some x) as Hx.
      { apply (map_nth_error fst) in Hj. rewrite M in Hj. exact Hj. }
      destruct (Rec j x Hx) as [k'' [K1 K2]]. rewrite H1 in K1; injection K1 as <-.
      exists tag, fs, vs, k'; auto.
  Qed.
End Arm.

(** ** Choice of the arm *)
Lemma arm_bodies_ok : forall variants l i tests, arm_bodies variants l i = Some tests ->
  length tests = length l /\
  forall k a, nth_error l k = Some a -> exists bs,
    nth_error tests k = Some (HasTag (arm_tag a), (i + k, bs)) /\
    bindings variants a 0 (arm_names a) = Some bs.
Proof.
  intros variants l; induction l as [|a r IH]; intros i tests E; cbn in E.
  - injection E as <-. split; [easy|]. intros [|k] b H; discriminate.
  - destruct (bindings variants a 0 (arm_names a)) as [b|] eqn:B; [|discriminate].
    destruct (arm_bodies variants r (S i)) as [t|] eqn:R; [|discriminate]. injection E as <-.
    destruct (IH _ _ R) as [L H]. split; [cbn; now f_equal|]. intros [|k] c Hc; cbn in *.
    + injection Hc as <-. exists b. now rewrite Nat.add_0_r.
    + destruct (H k c Hc) as [bs [H1 H2]]. exists bs; split; [|easy]. now rewrite Nat.add_succ_r.
Qed.

Lemma run_case_tag : forall tests default tag w,
  (forall c b, In (c, b) tests -> exists tg, c = HasTag tg) ->
  (exists b, In (HasTag tag, b) tests /\ run_case tests default (VVariant tag w) = run_body b (VVariant tag w)) \/
  ((forall b, ~ In (HasTag tag, b) tests) /\
   run_case tests default (VVariant tag w) = run_body default (VVariant tag w)).
Proof.
  induction tests as [|[c b] tests IH]; intros default tag w H; cbn [run_case]; [right; auto|].
  destruct (H c b (or_introl eq_refl)) as [tg ->]. cbn [passes].
  destruct (Nat.eqb_spec tg tag) as [->|Ne]; [left; exists b; split; [now left|easy]|].
  destruct (IH default tag w (fun c b I => H c b (or_intror I))) as [[b' [I R]]|[I R]].
  - left; exists b'; split; [now right|easy].
  - right; split; [|easy]. intros b' [[= -> ->]|J]; [easy|now apply (I b')].
Qed.

Lemma with_omissions_In : forall variants arms l, with_omissions variants arms = Some l ->
  forall tag e, In (tag, e) l ->
    match e with
    | inl p => In (tag, p) arms
    | inr t => In (tag, t) variants /\ uninhabited t = true
    end.
Proof.
  induction variants as [|[tg t] r IH]; intros arms l E tag e I; cbn in E.
  - injection E as <-; easy.
  - destruct (lookup tg arms) as [p|] eqn:L.
    + destruct (with_omissions r arms) as [l'|] eqn:W; [|discriminate]. injection E as <-.
      destruct I as [[= <- <-]|I]; [now apply lookup_In|].
      specialize (IH _ _ W _ _ I). destruct e; [easy|]. destruct IH; split; [now right|easy].
    + destruct (uninhabited t) eqn:U; [|discriminate].
      destruct (with_omissions r arms) as [l'|] eqn:W; [|discriminate]. injection E as <-.
      destruct I as [[= <- <-]|I]; [split; [now left|easy]|].
      specialize (IH _ _ W _ _ I). destruct e; [easy|]. destruct IH; split; [now right|easy].
Qed.

Lemma variants_fit_In : forall variants expected tag t, variants_fit variants expected = true ->
  In (tag, t) variants -> exists e, In (tag, e) expected.
Proof.
  induction variants as [|[tg t] r IH]; intros [|[tg' e] r'] tag u F I; try discriminate; [easy|].
  cbn in F. apply andb_true_iff in F as [F F3]. apply andb_true_iff in F as [F1 F2].
  apply Nat.eqb_eq in F1 as ->. destruct I as [[= -> ->]|I]; [exists e; now left|].
  destruct (IH r' tag u F3 I) as [e' H]. exists e'; now right.
Qed.

(** Without default, the tag of every value is among the arms. *)
Lemma exhaustive : forall declared variants l tag wt w,
  NoDup (map fst variants) -> In (tag, wt) variants -> has_type w wt ->
  variants_fit variants (expected_variants declared variants l) = true ->
  In tag (map arm_tag l).
Proof.
  intros declared variants l tag wt w N I T F.
  destruct (variants_fit_In _ _ _ _ F I) as [e He]. unfold expected_variants in He.
  apply (Permutation_in _ (sort_key_perm _)) in He.
  assert (Written : In (tag, e) (map (fun e : nat * payload => (fst e, inl (snd e)))
     (map (fun a => (arm_tag a, arm_payload a)) l)) -> In tag (map arm_tag l)).
  { rewrite map_map. intros H. apply in_map_iff in H as [a [E H]]. cbn in E. injection E as <- <-.
    now apply in_map. }
  destruct declared; [|now apply Written].
  destruct (with_omissions variants _) as [o|] eqn:W; [|now apply Written].
  pose proof (with_omissions_In _ _ _ W _ _ He) as H. destruct e as [p|t].
  - apply in_map_iff in H as [a [[= <- <-] H]]. now apply in_map.
  - destruct H as [H U]. exfalso.
    pose proof (lookup_unique _ _ _ N H) as E1. pose proof (lookup_unique _ _ _ N I) as E2.
    rewrite E1 in E2; injection E2 as ->. rewrite (proj1 uninhabited_ok _ _ T) in U; discriminate.
Qed.

Lemma tag_collected : forall p a, collected p a -> tag_of p = Some (arm_tag a).
Proof. intros p a [tag [tuple [vars [names [w [-> [_ ->]]]]]]]; reflexivity. Qed.

Theorem variants_ok : forall declared variants arms d c v,
  well_formed (TEnum declared variants) ->
  (exists tag tuple vars rest, arms = PVariant tag tuple vars :: rest) ->
  (forall p, In p arms -> fields_exist variants p) ->
  infer_match (TEnum declared variants) arms d = Ok c -> has_type v (TEnum declared variants) ->
  (exists k p env, nth_error arms k = Some p /\ selects variants p v env /\ run c v = Ran k env /\
     forall k' p', nth_error arms k' = Some p' -> tag_of p' = value_tag v -> k' = k) \/
  (d = true /\ (forall p, In p arms -> tag_of p <> value_tag v) /\ run c v = Ran (length arms) []).
Proof.
  intros declared variants arms d c v WF First FE E T.
  assert (infer_variants (TEnum declared variants) arms d = Ok c) as E'.
  { destruct First as [tg [tu [vs [rest ->]]]]. cbn [infer_match] in E.
    now rewrite (proj1 uninhabited_ok _ _ T) in E. }
  clear E First. unfold infer_variants in E'.
  destruct (collect [] arms) as [l|] eqn:C; [|discriminate].
  destruct (collect_ok _ _ _ C) as [F [ND _]].
  destruct (forallb _ l) eqn:HB; [|discriminate]. cbn [negb] in E'. rewrite forallb_forall in HB.
  destruct (arm_bodies variants l 0) as [tests|] eqn:AB; [|discriminate].
  destruct (arm_bodies_ok _ _ _ _ AB) as [LT HT].
  inversion WF as [| | | | |d' vs' Inc Wf|]; subst.
  pose proof (increasing_NoDup _ Inc) as NV.
  inversion T as [| | | | |d' vs' tag wt w I Tw]; subst.
  assert (Shape : forall c b, In (c, b) tests -> exists tg, c = HasTag tg).
  { intros c0 b H. apply In_nth_error in H as [k Hk].
    assert (k < length l) as Lk by (rewrite <- LT; apply nth_error_Some; congruence).
    destruct (nth_error l k) as [a|] eqn:Ea; [|apply nth_error_None in Ea; lia].
    destruct (HT k a Ea) as [bs [H1 _]]. rewrite Hk in H1. injection H1 as -> ->. eauto. }
  (* what happens when the body of an arm with the tag runs *)
  assert (Fin : forall b, In (HasTag tag, b) tests ->
    exists k p env, nth_error arms k = Some p /\ selects variants p (VVariant tag w) env /\
      run_body b (VVariant tag w) = Ran k env /\
      forall k' p', nth_error arms k' = Some p' -> tag_of p' = value_tag (VVariant tag w) -> k' = k).
  { intros b H. apply In_nth_error in H as [k Hk].
    assert (k < length l) as Lk by (rewrite <- LT; apply nth_error_Some; congruence).
    destruct (nth_error l k) as [a|] eqn:Ea; [|apply nth_error_None in Ea; lia].
    destruct (HT k a Ea) as [bs [H1 H2]]. rewrite Hk in H1. injection H1 as Et ->. cbn [Nat.add].
    destruct (Forall2_nth' _ _ _ _ _ F Ea) as [p [Hp Cp]].
    destruct (arm_runs variants tag w wt NV I Tw p a k bs) as [env [R S]]; auto.
    - apply FE. now apply (nth_error_In arms k).
    - intros Ba. specialize (HB a (nth_error_In _ _ Ea)). now rewrite Ba in HB.
    - exists k, p, env; repeat split; auto. intros k' p' Hp' Tp'.
      destruct (Forall2_nth _ _ _ _ _ F Hp') as [a' [Ha' Cp']].
      rewrite (tag_collected _ _ Cp') in Tp'. cbn in Tp'. injection Tp' as Tp'.
      apply (NoDup_nth_error (map arm_tag l)); [easy| |].
      + apply nth_error_Some. erewrite map_nth_error by eassumption. discriminate.
      + rewrite (map_nth_error arm_tag _ _ Ha'), (map_nth_error arm_tag _ _ Ea). congruence. }
  destruct d.
  - destruct (forallb (has_variant variants) l); [|discriminate]. injection E' as <-. cbn [run].
    destruct (run_case_tag tests (length arms, []) tag w Shape) as [[b [H R]]|[H R]].
    + left. rewrite R. now apply Fin.
    + right. rewrite R. repeat split. intros p Ip Tp. apply In_nth_error in Ip as [k Hk].
      destruct (Forall2_nth _ _ _ _ _ F Hk) as [a [Ha Cp]]. rewrite (tag_collected _ _ Cp) in Tp.
      cbn in Tp. injection Tp as Tp. destruct (HT k a Ha) as [bs [H1 _]]. rewrite Tp in H1.
      apply (H (0 + k, bs)). now apply (nth_error_In tests k).
  - destruct (variants_fit _ _) eqn:VF; [|discriminate].
    destruct (pop_last tests) as [[front last]|] eqn:P; [|discriminate]. injection E' as <-. cbn [run].
    left. pose proof (exhaustive _ _ _ _ _ _ NV I Tw VF) as Ht.
    apply in_map_iff in Ht as [a [Et Ia]]. apply In_nth_error in Ia as [k Ea].
    destruct (HT k a Ea) as [bs [H1 _]]. rewrite Et in H1.
    destruct (pop_last_app _ _ _ P) as [x ->].
    destruct (run_case_tag front last tag w) as [[b [H R]]|[H R]].
    + intros c0 b H; apply (Shape c0 b). apply in_app_iff; now left.
    + rewrite R. apply Fin. apply in_app_iff; now left.
    + rewrite R. apply nth_error_In in H1. apply in_app_iff in H1 as [H1|[H1|[]]].
      * exfalso; now apply (H (0 + k, bs)).
      * injection H1 as -> ->. apply Fin. apply in_app_iff; right; now left.
Qed.
