From Coq Require Import List Arith Bool Lia Permutation.
From Verif Require Import MatchModel MatchSpec MatchProofs MatchVariants.
Import ListNotations.

(** ** Right matches are accepted *)
Lemma named_vars_total : forall vars names tuple seen,
  NoDup names -> (forall x, In x names -> ~ In x seen) ->
  vars = map Named names \/ (tuple = false /\ vars = map Named names ++ [Wildcard]) ->
  exists w, named_vars tuple seen vars = Ok (names, w) /\ (vars = map Named names -> w = false) /\
    (vars = map Named names ++ [Wildcard] -> w = true).
Proof.
  intros vars names; revert vars; induction names as [|x r IH]; intros vars tuple seen N S H.
  - destruct H as [->|[-> ->]]; cbn.
    + exists false; repeat split; discriminate.
    + exists true; repeat split; discriminate.
  - inversion N as [|? ? Nx N']; subst.
    assert (exists vars', vars = Named x :: vars' /\
      (vars' = map Named r \/ tuple = false /\ vars' = map Named r ++ [Wildcard])) as [vars' [-> H']].
    { destruct H as [->|[-> ->]]; cbn; eauto. }
    destruct (IH vars' tuple (x :: seen) N') as [w [E [W1 W2]]]; [|easy|].
    + intros y Iy [<-|Is]; [easy|]. apply (S y (or_intror Iy) Is).
    + exists w. cbn [named_vars]. rewrite (proj2 (mem_not_In x seen)) by (apply S; now left).
      rewrite E. cbn. repeat split; intros [= E']; auto.
Qed.

Section Accept.
  Variable variants : list (nat * ty).
  Hypothesis NV : NoDup (map fst variants).
  Hypothesis IncF : forall tag fs, In (tag, TRecord fs) variants -> increasing (map fst fs).

  Lemma names_agree_refl : forall l, names_agree l l = true.
  Proof. induction l as [|x r IH]; cbn; [easy|]. now rewrite Nat.eqb_refl, IH. Qed.

  Lemma bindings_total : forall a names i,
    (forall x j, In x names -> access variants a j x <> None) ->
    exists bs, bindings variants a i names = Some bs.
  Proof.
    intros a names; induction names as [|x r IH]; intros i H; cbn; [eauto|].
    destruct (access variants a i x) as [k|] eqn:A; [|exfalso; apply (H x i); [now left|easy]].
    destruct (IH (S i) (fun y j Iy => H y j (or_intror Iy))) as [l ->]; eauto.
  Qed.

  Lemma arm_accepted : forall p, arm_right variants p -> exists tag tuple vars names w,
    p = PVariant tag tuple vars /\ named_vars tuple [] vars = Ok (names, w) /\
    let a := {| arm_tag := tag; arm_payload := payload_of tuple w names; arm_names := names |} in
    has_variant variants a = true /\ exists bs, bindings variants a 0 names = Some bs.
  Proof.
    intros [q|tag tuple vars] R; [easy|]. destruct R as [N [t [I R]]].
    exists tag, tuple, vars, (names_of vars). set (names := names_of vars) in *.
    pose proof (lookup_unique _ _ _ NV I) as L.
    assert (S0 : forall x, In x names -> ~ In x []) by (intros x _ []).
    destruct t as [| | |ts|fs| |]; try contradiction.
    - subst vars. exists false. cbn in *. repeat split; auto.
      + unfold has_variant; cbn. now rewrite L.
      + eauto.
    - destruct R as [-> [NE [E LN]]].
      destruct (named_vars_total vars names true [] N S0 (or_introl E)) as [w [NVs _]].
      exists w; repeat split; auto; cbv zeta.
      + unfold has_variant; cbn [arm_tag arm_payload]. rewrite L. unfold payload_of.
        destruct names; [easy|]. cbn [fits]. apply Nat.eqb_eq; now rewrite LN.
      + apply bindings_total. intros x j _. unfold access; cbn [arm_payload]. unfold payload_of.
        destruct names; [easy|discriminate].
    - destruct R as [-> [NE R]]. destruct R as [[E Same]|[E Sub]].
      + destruct (named_vars_total vars names false [] N S0 (or_introl E)) as [w [NVs [W _]]].
        rewrite (W E) in NVs. exists false; repeat split; auto; cbv zeta.
        * unfold has_variant; cbn [arm_tag arm_payload]. rewrite L.
          assert (payload_of false false names = RecordPayload (map fst (sort_key (map (fun x => (x, tt)) names)))) as ->
            by (destruct names; easy).
          cbn [fits].
          assert (P : Permutation (map fst (sort_key (map (fun x : nat => (x, tt)) names))) names).
          { rewrite (Permutation_map fst (sort_key_perm _)), map_map; cbn [fst]. now rewrite map_id. }
          assert (map fst fs = map fst (sort_key (map (fun x : nat => (x, tt)) names))) as ->; [|apply names_agree_refl].
          apply increasing_eq; [now apply (IncF tag)| |].
          { apply weakly_increasing; [apply sort_key_sorted|]. symmetry in P. now apply (Permutation_NoDup P). }
          intros x. rewrite <- Same. split; intros H; [symmetry in P|]; eapply Permutation_in; eauto.
        * apply bindings_total. intros x j Ix. unfold access; cbn [arm_payload].
          assert (payload_of false false names = RecordPayload (map fst (sort_key (map (fun x => (x, tt)) names)))) as ->
            by (destruct names; easy).
          destruct (position_In x (map fst (sort_key (map (fun x : nat => (x, tt)) names)))) as [i ->]; [|discriminate].
          apply (Permutation_in x (l := names)); [|easy]. symmetry.
          rewrite (Permutation_map fst (sort_key_perm _)), map_map; cbn [fst]. now rewrite map_id.
      + destruct (named_vars_total vars names false [] N S0 (or_intror (conj eq_refl E))) as [w [NVs [_ W]]].
        rewrite (W E) in NVs. exists true; repeat split; auto; cbv zeta.
        * unfold has_variant; cbn [arm_tag arm_payload]. rewrite L.
          assert (payload_of false true names = OpenPayload names) as -> by (destruct names; easy).
          cbn [fits]. apply forallb_forall. intros x Hx. now apply mem_In, Sub.
        * apply bindings_total. intros x j Ix. unfold access; cbn [arm_payload arm_tag].
          assert (payload_of false true names = OpenPayload names) as -> by (destruct names; easy).
          rewrite L. destruct (position_In x (map fst fs) (Sub x Ix)) as [i ->]. discriminate.
  Qed.

  Definition good (a : arm) : Prop :=
    has_variant variants a = true /\ exists bs, bindings variants a 0 (arm_names a) = Some bs.

  Lemma collect_total : forall arms seen, (forall p, In p arms -> arm_right variants p) ->
    NoDup (map tag_of arms) -> (forall p tag, In p arms -> tag_of p = Some tag -> ~ In tag seen) ->
    exists l, collect seen arms = Ok l /\ Forall good l.
  Proof.
    induction arms as [|p arms IH]; intros seen R N S; cbn [collect].
    - exists []; split; [easy|constructor].
    - destruct (arm_accepted p (R p (or_introl eq_refl))) as [tag [tuple [vars [names [w [-> [NVs [HV HB]]]]]]]].
      cbn [collect].
      rewrite (proj2 (mem_not_In tag seen)) by (apply (S (PVariant tag tuple vars)); [now left|easy]).
      rewrite NVs. cbn in N. inversion N as [|? ? Nt N']; subst.
      destruct (IH (tag :: seen) (fun p H => R p (or_intror H)) N') as [l [E G]].
      + intros q tg Iq Tq [<-|Is].
        * apply Nt. rewrite <- Tq. now apply in_map.
        * now apply (S q tg (or_intror Iq) Tq).
      + rewrite E. eexists; split; [reflexivity|]. constructor; [|easy]. split; [exact HV|exact HB].
  Qed.

  Lemma arm_bodies_total : forall l i, Forall good l -> exists tests, arm_bodies variants l i = Some tests.
  Proof.
    intros l i F; revert i; induction F as [|a r [_ [bs B]] F IH]; intros i; cbn; [eauto|].
    rewrite B. destruct (IH (S i)) as [t ->]; eauto.
  Qed.

  Lemma variants_fit_intro : forall vs expected,
    map fst vs = map fst expected -> NoDup (map fst vs) ->
    (forall tag p, In (tag, inl p) expected -> exists t, In (tag, t) vs /\ fits p t = true) ->
    variants_fit vs expected = true.
  Proof.
    induction vs as [|[tag t] vs IH]; intros [|[tag' e] ex] E N H; try discriminate; [easy|].
    cbn in E; injection E as -> E. cbn in N; inversion N as [|? ? Nt N']; subst. cbn [variants_fit].
    rewrite Nat.eqb_refl. cbn [andb]. apply andb_true_iff; split.
    - destruct e as [p|]; [|easy]. destruct (H tag' p (or_introl eq_refl)) as [t' [[[= ->]|I] F]]; [easy|].
      exfalso; apply Nt. now apply (in_map fst) in I.
    - apply IH; auto. intros tg p I. destruct (H tg p (or_intror I)) as [t' [[[= -> ->]|I'] F]]; eauto.
      exfalso; apply Nt. rewrite E. now apply (in_map fst) in I.
  Qed.

  Lemma with_omissions_total : forall vs covered,
    (forall tag t, In (tag, t) vs -> uninhabited t = true \/ In tag (map fst covered)) ->
    exists l, with_omissions vs covered = Some l /\ map fst l = map fst vs.
  Proof.
    induction vs as [|[tag t] vs IH]; intros covered H; cbn; [eauto|].
    destruct (IH covered (fun tg u I => H tg u (or_intror I))) as [l [E M]]. rewrite E; cbn.
    destruct (lookup tag covered) as [p|] eqn:L.
    - eexists; split; [reflexivity|]; cbn; now f_equal.
    - destruct (H tag t (or_introl eq_refl)) as [->|I]; [|now apply lookup_None in L].
      eexists; split; [reflexivity|]; cbn; now f_equal.
  Qed.
End Accept.

Theorem variants_accepted : forall declared variants arms d,
  well_formed (TEnum declared variants) -> uninhabited (TEnum declared variants) = false ->
  arms <> [] -> (forall p, In p arms -> arm_right variants p) -> NoDup (map tag_of arms) ->
  (d = true \/
   forall tag t, In (tag, t) variants ->
     In (Some tag) (map tag_of arms) \/ (declared = true /\ uninhabited t = true)) ->
  exists c, infer_match (TEnum declared variants) arms d = Ok c.
Proof.
  intros declared variants arms d WF U NE R N Cov.
  inversion WF as [| | | | |d' vs' Inc Wf|]; subst.
  pose proof (increasing_NoDup _ Inc) as NV.
  assert (IncF : forall tag fs, In (tag, TRecord fs) variants -> increasing (map fst fs)).
  { intros tag fs I. specialize (Wf _ _ I). now inversion Wf. }
  assert (infer_match (TEnum declared variants) arms d = infer_variants (TEnum declared variants) arms d) as ->.
  { destruct arms as [|p r]; [easy|]. cbn [infer_match]. rewrite U.
    pose proof (R p (or_introl eq_refl)) as Rp. destruct p; [easy|reflexivity]. }
  unfold infer_variants.
  destruct (collect_total variants NV IncF arms [] R N (fun p t _ _ H => match H with end)) as [l [C G]].
  rewrite C. destruct (collect_ok _ _ _ C) as [F [ND _]].
  assert (HV : forallb (has_variant variants) l = true).
  { apply forallb_forall. intros a Ia. rewrite Forall_forall in G. now destruct (G a Ia). }
  assert (forallb (fun a => negb (binds a) || has_variant variants a) l = true) as ->.
  { rewrite forallb_forall in HV |- *. intros a Ia. rewrite (HV a Ia). apply orb_true_r. }
  cbn [negb]. destruct (arm_bodies_total variants l 0 G) as [tests AB]. rewrite AB.
  destruct d; [rewrite HV; eauto|]. destruct Cov as [Cov|Cov]; [discriminate|].
  assert (Tags : map tag_of arms = map Some (map arm_tag l)).
  { clear -F. induction F as [|p a ps l H F IH]; cbn; [easy|]. rewrite (tag_collected _ _ H). now f_equal. }
  set (covered := map (fun a => (arm_tag a, arm_payload a)) l).
  assert (MC : map fst covered = map arm_tag l) by (unfold covered; now rewrite map_map).
  assert (HA : forall tag p, In (tag, p) covered -> exists t, In (tag, t) variants /\ fits p t = true).
  { intros tag p I. unfold covered in I. apply in_map_iff in I as [a [[= <- <-] Ia]].
    rewrite forallb_forall in HV. specialize (HV a Ia). unfold has_variant in HV.
    destruct (lookup (arm_tag a) variants) as [t|] eqn:L; [|discriminate]. apply lookup_In in L. eauto. }
  assert (variants_fit variants (expected_variants declared variants l) = true) as ->.
  { unfold expected_variants. fold covered.
    set (chosen := match (if declared then with_omissions variants covered else None) with
                   | Some o => o | None => map (fun e => (fst e, inl (snd e))) covered end).
    assert (HC : (forall x, In x (map fst chosen) <-> In x (map fst variants)) /\ NoDup (map fst chosen) /\
      forall tag p, In (tag, inl p) chosen -> In (tag, p) covered).
    { destruct declared.
      - destruct (with_omissions_total variants covered) as [o [E M]].
        + intros tag t I. destruct (Cov tag t I) as [H|[_ H]]; [|now left]. right. rewrite MC.
          rewrite Tags in H. apply in_map_iff in H as [tg [[= ->] H]]; easy.
        + unfold chosen. rewrite E, M. repeat split; auto.
          intros tag p I. apply (with_omissions_In _ _ _ E _ _ I).
      - unfold chosen. rewrite map_map; cbn [fst]. change (map (fun x : nat * payload => fst x) covered) with (map fst covered).
        rewrite MC. repeat split; auto.
        + intros H. rewrite <- MC in H. apply in_map_iff in H as [[tg p] [<- H]].
          destruct (HA _ _ H) as [t [H' _]]. now apply (in_map fst) in H'.
        + intros H. apply in_map_iff in H as [[tg t] [<- H]]. destruct (Cov _ _ H) as [H'|[E _]]; [|discriminate].
          rewrite Tags in H'. apply in_map_iff in H' as [tg' [[= ->] H']]; easy.
        + intros tag p I. apply in_map_iff in I as [[tg q] [[= <- <-] I]]; easy. }
    destruct HC as [Same [NC HC]]. apply variants_fit_intro; auto.
    - apply increasing_eq; auto.
      + apply weakly_increasing; [apply sort_key_sorted|].
        apply (Permutation_NoDup (Permutation_map fst (Permutation_sym (sort_key_perm chosen)))); easy.
      + intros x. rewrite <- Same.
        split; apply Permutation_in; apply Permutation_map; [symmetry|]; apply sort_key_perm.
    - intros tag p I. apply HA, HC. apply (Permutation_in _ (sort_key_perm chosen)); easy. }
  destruct (arm_bodies_ok _ _ _ _ AB) as [LT _].
  destruct (pop_last_some tests) as [f [b P]]; [|rewrite P; eauto].
  intros ->. destruct l; [|discriminate]. inversion F; subst; easy.
Qed.

Theorem scrutinee_ok : forall t arms d c, infer_match t arms d = Ok c ->
  arms <> [] \/ d = false -> evaluates c = true.
Proof.
  intros t arms d c E H. destruct arms as [|p r].
  - cbn in E. destruct H as [H| ->]; [easy|]. destruct (uninhabited t); [now injection E as <-|discriminate].
  - cbn [infer_match] in E. destruct (uninhabited t); [now injection E as <-|]. destruct p.
    + unfold infer_literals in E. destruct (check_literals _ _ _ _); [|discriminate].
      destruct d; [now injection E as <-|]. destruct (coverage _ _); [discriminate|].
      destruct (pop_last _) as [[f b]|]; [now injection E as <-|discriminate].
    + unfold infer_variants in E. destruct (collect _ _); [|discriminate].
      destruct t; try discriminate. destruct (negb _); [discriminate|].
      destruct (arm_bodies _ _ _); [|discriminate].
      destruct d; [destruct (forallb _ _); [now injection E as <-|discriminate]|].
      destruct (variants_fit _ _); [|discriminate].
      destruct (pop_last _) as [[f b]|]; [now injection E as <-|discriminate].
Qed.

Lemma check_literals_panic : forall arms seen t i,
  (forall q, In (PLiteral q) arms -> literal_value q <> None) ->
  check_literals seen t arms i <> Err CompilerPanic.
Proof.
  induction arms as [|[q|? ? ?] arms IH]; intros seen t i H; cbn; try discriminate.
  destruct (literal_value q) as [[v pt]|] eqn:P; [|exfalso; now apply (H q (or_introl eq_refl))].
  destruct (existsb _ seen); [discriminate|]. destruct (negb _); [discriminate|].
  specialize (IH (v :: seen) t (S i) (fun q I => H q (or_intror I))).
  destruct (check_literals _ _ _ _); [discriminate|congruence].
Qed.

Lemma named_vars_panic : forall vars tuple seen, named_vars tuple seen vars <> Err CompilerPanic.
Proof.
  induction vars as [|[x|] r IH]; intros tuple seen; cbn; try discriminate.
  - destruct (mem x seen); [discriminate|]. specialize (IH tuple (x :: seen)).
    destruct (named_vars _ _ r) as [[? ?]|]; [discriminate|congruence].
  - destruct tuple; [discriminate|]. destruct r; discriminate.
Qed.

Lemma collect_panic : forall arms seen, collect seen arms <> Err CompilerPanic.
Proof.
  induction arms as [|[q|tag tuple vars] arms IH]; intros seen; cbn; try discriminate.
  destruct (mem tag seen); [discriminate|]. pose proof (named_vars_panic vars tuple []) as N.
  destruct (named_vars _ _ vars) as [[? ?]|]; [|congruence].
  specialize (IH (tag :: seen)). destruct (collect _ arms); [discriminate|congruence].
Qed.

Lemma bindings_checked : forall variants p a, collected p a ->
  (binds a = true -> has_variant variants a = true) ->
  exists bs, bindings variants a 0 (arm_names a) = Some bs.
Proof.
  intros variants p a [tag [tuple [vars [names [w [-> [NV ->]]]]]]] H. cbn [arm_names].
  apply bindings_total. intros x j Ix. unfold access; cbn [arm_payload arm_tag].
  destruct names as [|n r]; [easy|]. specialize (H eq_refl). unfold has_variant in H.
  cbn [arm_payload arm_tag] in H. destruct (lookup tag variants) as [t|] eqn:L; [|discriminate].
  unfold payload_of in *. destruct tuple; [discriminate|]. destruct w.
  - cbn [fits] in H. destruct t; try discriminate. rewrite forallb_forall in H.
    destruct (position_In x (map fst fields)) as [i ->]; [|discriminate]. now apply mem_In, H.
  - destruct (position_In x (map fst (sort_key (map (fun x : nat => (x, tt)) (n :: r))))) as [i ->]; [|discriminate].
    apply (Permutation_in x (l := n :: r)); [|easy]. symmetry.
    rewrite (Permutation_map fst (sort_key_perm _)), map_map; cbn [fst]. now rewrite map_id.
Qed.

Theorem no_panic : forall t arms d,
  (forall q, In (PLiteral q) arms -> literal_value q <> None) ->
  well_formed t -> infer_match t arms d <> Err CompilerPanic.
Proof.
  intros t arms d H WF. destruct arms as [|p r] eqn:Ea.
  - cbn. destruct d; [discriminate|]. destruct (uninhabited t); discriminate.
  - rewrite <- Ea in *. assert (NE : arms <> []) by (subst; discriminate).
    assert (infer_literals t arms d <> Err CompilerPanic /\ infer_variants t arms d <> Err CompilerPanic) as [HL HV].
    2: { subst arms. cbn [infer_match]. destruct (uninhabited t); [discriminate|]. now destruct p. }
    split.
    + unfold infer_literals. pose proof (check_literals_panic arms [] t 0 H) as C.
      destruct (check_literals [] t arms 0) as [l|] eqn:CL; [|congruence].
      destruct d; [discriminate|]. unfold coverage. destruct (all_values t); [|discriminate].
      destruct (forallb _ _); [|discriminate].
      destruct (check_literals_ok _ _ _ _ _ CL) as [_ [_ [_ F]]].
      destruct (pop_last_some (map (fun a : value * body => (IsLiteral (fst a), snd a)) l)) as [f [b P]].
      { destruct l; [inversion F; subst; congruence|discriminate]. }
      rewrite P; discriminate.
    + unfold infer_variants. pose proof (collect_panic arms []) as C.
      destruct (collect [] arms) as [l|] eqn:CL; [|congruence].
      destruct (collect_ok _ _ _ CL) as [F _].
      destruct t; try discriminate. destruct (forallb _ l) eqn:HB; [|discriminate]. cbn [negb].
      assert (exists tests, arm_bodies variants l 0 = Some tests) as [tests AB].
      { rewrite forallb_forall in HB. generalize 0. clear -F HB.
        induction F as [|p a ps l Cp F IH]; intros i; cbn; [eauto|].
        destruct (bindings_checked variants p a Cp) as [bs ->].
        - intros B. specialize (HB a (or_introl eq_refl)). now rewrite B in HB.
        - destruct (IH (fun a I => HB a (or_intror I)) (S i)) as [t ->]; eauto. }
      rewrite AB. destruct d; [destruct (forallb (has_variant variants) l); intros E; discriminate E|].
      destruct (variants_fit _ _); [|intros E; discriminate E].
      destruct (arm_bodies_ok _ _ _ _ AB) as [LT _].
      destruct (pop_last_some tests) as [f [b P]]; [|rewrite P; intros E; discriminate E].
      intros ->. destruct l; [inversion F; subst; congruence|discriminate].
Qed.
