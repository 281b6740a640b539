From Coq Require Import List Bool Arith Lia Permutation.
From Verif Require Import ListUtil GraphModel InternModel InternSpec InternFind InternProofs.
Import ListNotations.

Local Arguments ty_eq_dec : simpl never.

Record grows (u v : universe) : Prop := {
  g_worlds : exists w0 x ws ws', worlds u = w0 :: ws /\ worlds v = (w0 ++ x) :: (ws ++ ws');
  g_cache : exists c, cache v = cache u ++ c }.

Lemma grows_refl : forall u, worlds u <> [] -> grows u u.
Proof.
  intros u H. constructor; [|exists []; rewrite app_nil_r; auto]. destruct (worlds u) as [|w ws]; [destruct H; auto|].
  exists w, [], ws, []. rewrite !app_nil_r. auto.
Qed.
Lemma grows_trans : forall u v w, grows u v -> grows v w -> grows u w.
Proof.
  intros u v w [(a & x & b & y & E1 & E2) (c & C)] [(a' & x' & b' & y' & F1 & F2) (c' & C')]. rewrite E2 in F1. inversion F1; subst a' b'. constructor.
  - exists a, (x ++ x'), b, (y ++ y'). split; auto. rewrite F2. rewrite !app_assoc. auto.
  - exists (c ++ c'). rewrite C', C, app_assoc. auto.
Qed.
Lemma grows_some : forall u v, grows u v -> worlds v <> [].
Proof. intros u v [(a & x & b & y & E1 & E2) _]. rewrite E2. discriminate. Qed.

Lemma get_full_app : forall k l m, get_full k (l ++ m) = match get_full k l with Some i => Some i | None => option_map (fun i => length l + i) (get_full k m) end.
Proof.
  induction l as [|x l IH]; intros m; simpl; [destruct (get_full k m); auto|]. destruct (kind_eq_dec k x); auto. rewrite IH. destruct (get_full k l); auto. destruct (get_full k m); auto.
Qed.

Lemma search_again : forall u v k ws r, (forall w, In w ws -> 0 < w) -> grows u v -> search_worlds u k ws = Val r -> search_worlds v k ws = Val r.
Proof.
  induction ws as [|w ws IH]; cbn [search_worlds]; intros r P G E; auto. destruct G as [(a & x & b & y & E1 & E2) C].
  assert (R : forall l, rd (worlds u) w = Val l -> rd (worlds v) w = Val l).
  { intros l. rewrite E1, E2. unfold rd. pose proof (P w (or_introl eq_refl)). destruct w; [lia|]. simpl. destruct (nth_error b w) as [z|] eqn:Z; [|discriminate].
    intros X. rewrite nth_error_app1 by (apply nth_error_Some; congruence). rewrite Z. auto. }
  destruct (rd (worlds u) w) as [l| |]; try discriminate. rewrite (R l eq_refl). cbn [bind] in *. destruct (get_full k l); auto. apply IH; auto; [intros; apply P; simpl; auto|]. constructor; eauto 8.
Qed.

Lemma nonrec_again : forall u k ws u' t, (forall w, In w ws -> 0 < w) -> worlds u <> [] -> insert_non_recursive_kind u k ws = Val (u', t) ->
  grows u u' /\ forall v, grows u' v -> insert_non_recursive_kind v k ws = Val (v, t).
Proof.
  intros u k ws u' t P NE. unfold insert_non_recursive_kind. destruct (search_worlds u k ws) as [[s|]| |] eqn:S1; cbn [bind]; try discriminate.
  - intros E. inversion E; subst. split; [apply grows_refl; auto|]. intros v G. rewrite (search_again _ _ _ _ _ P G S1). auto.
  - destruct (worlds u) as [|w0 wtl] eqn:W; [destruct NE; auto|]. unfold rd at 1. cbn [nth_error bind]. destruct (get_full k w0) as [i|] eqn:GF.
    + intros E. inversion E; subst. split; [apply grows_refl; rewrite W; discriminate|]. intros v G. rewrite (search_again _ _ _ _ _ P G S1). cbn [bind].
      destruct G as [(a & x & b & y & E1 & E2) C]. rewrite W in E1. inversion E1; subst a b. rewrite E2. unfold rd. cbn [nth_error bind]. rewrite get_full_app, GF. auto.
    + unfold wr. simpl. intros E. inversion E; subst u' t. 
      assert (G0 : grows u (mkUniverse ((w0 ++ [k]) :: wtl) (cache u))).
      { constructor; simpl; [|exists []; rewrite app_nil_r; auto]. rewrite W. exists w0, [k], wtl, []. rewrite app_nil_r. auto. }
      split; auto. intros v G. rewrite (search_again _ v _ _ _ P (grows_trans _ _ _ G0 G) S1). cbn [bind].
      destruct G as [(a & x & b & y & E1 & E2) C]. simpl in E1. inversion E1; subst a b. rewrite E2. unfold rd. cbn [nth_error bind].
      rewrite !get_full_app, GF. simpl. destruct (kind_eq_dec k k); [|congruence]. simpl. rewrite Nat.add_0_r. auto.
Qed.

Lemma cached_app : forall lw c d, cached lw (c ++ d) = match cached lw c with Some x => Some x | None => cached lw d end.
Proof. induction c as [|[key m] c IH]; intros d; simpl; auto. destruct (kinds_eq_dec lw key); auto. Qed.

Section Order.
Variable le : kind -> kind -> bool.
Variable order : list nat -> list nat.

Lemma cycle_again : forall u ms r u' r', worlds u <> [] -> place_cycle le u ms r = Val (u', r') -> grows u u' /\ forall v, grows u' v -> place_cycle le v ms r = Val (v, r').
Proof.
  intros u ms r u' r' NE. unfold place_cycle. generalize (sort (le_member le) ms). intros ms'.
  destruct (gmap _ _) as [lw| |]; cbn [bind]; try discriminate.
  assert (K : forall c u' w m r1 r2, cache u' = c ++ [(lw, (w, m))] -> cached lw c = None -> mark w m 0 ms' r1 = Val r2 -> forall v, grows u' v ->
     match cached lw (cache v) with
     | Some (w, mapping) => let* resolved := mark w mapping 0 ms' r1 in Val (v, resolved)
     | None => let* found := find_world lw 1 (skipn 1 (worlds v)) in
      match found with
      | Some (w, mapping) => let* resolved := mark w mapping 0 ms' r1 in Val (mkUniverse (worlds v) (cache v ++ [(lw, (w, mapping))]), resolved)
      | None => let* resolved := mark (length (worlds v)) (seq 0 (length lw)) 0 ms' r1 in
          Val (mkUniverse (worlds v ++ [index_set (map (map_kids (globalize (length (worlds v)))) lw)]) (cache v ++ [(lw, (length (worlds v), seq 0 (length lw)))]), resolved)
      end end = Val (v, r2)).
  { intros c x w m r1 r2 E N M v [_ (d & Cv)]. rewrite Cv, E, !cached_app, N. cbn [cached]. destruct (kinds_eq_dec lw lw); [|congruence]. rewrite M. auto. }
  destruct (cached lw (cache u)) as [[w m]|] eqn:C.
  - destruct (mark w m 0 ms' r) as [r2| |] eqn:M; cbn [bind]; try discriminate. intros E. inversion E; subst. split; [apply grows_refl; auto|].
    intros v [_ (d & Cv)]. rewrite Cv, cached_app, C, M. auto.
  - destruct (find_world lw 1 (skipn 1 (worlds u))) as [[[w m]|]| |]; cbn [bind]; try discriminate.
    + destruct (mark w m 0 ms' r) as [r2| |] eqn:M; cbn [bind]; try discriminate. intros E. inversion E; subst. split; [|intros v V; refine (K (cache u) _ _ _ _ _ _ C M v V); reflexivity].
      constructor; simpl; [|eauto]. destruct (grows_refl u NE) as [X _]. exact X.
    + destruct (mark _ _ 0 ms' r) as [r2| |] eqn:M; cbn [bind]; try discriminate. intros E. inversion E; subst. split; [|intros v V; refine (K (cache u) _ _ _ _ _ _ C M v V); reflexivity].
      constructor; simpl; [|eauto]. destruct (worlds u) as [|w0 ws]; [destruct NE; auto|]. eexists w0, [], ws, _. rewrite app_nil_r. split; simpl; reflexivity.
Qed.

Lemma worlds_pos : forall k ws, recursive_worlds_if_no_local_refs k = Some ws -> forall w, In w ws -> 0 < w.
Proof. intros k ws E w J. destruct (worlds_of_some _ _ _ E) as (_ & _ & X). apply (X w J). Qed.

Lemma component_again : forall u ks r scc u' r', worlds u <> [] -> place_component le u ks r scc = Val (u', r') ->
  grows u u' /\ forall v, grows u' v -> place_component le v ks r scc = Val (v, r').
Proof.
  intros u ks r scc u' r' NE. unfold place_component. destruct (gmap _ _) as [ms| |]; cbn [bind]; try discriminate.
  destruct ms as [|[i k] [|m ms]]; try (apply cycle_again; auto). destruct (recursive_worlds_if_no_local_refs k) as [ws|] eqn:R; [|apply cycle_again; auto].
  destruct (insert_non_recursive_kind u k ws) as [[u1 t]| |] eqn:E1; cbn [bind]; try discriminate. destruct (wr r i (Some t)) as [r1| |] eqn:W; cbn [bind]; try discriminate.
  intros E. inversion E; subst. destruct (nonrec_again _ _ _ _ _ (worlds_pos _ _ R) NE E1) as [G H]. split; auto. intros v V. rewrite (H v V). cbn [bind]. rewrite W. auto.
Qed.
Lemma components_again : forall sccs u ks r u' r', worlds u <> [] -> place_components le u ks r sccs = Val (u', r') ->
  grows u u' /\ forall v, grows u' v -> place_components le v ks r sccs = Val (v, r').
Proof.
  induction sccs as [|scc sccs IH]; cbn [place_components]; intros u ks r u' r' NE.
  - intros E. inversion E; subst. split; auto. apply grows_refl; auto.
  - destruct (place_component le u ks r scc) as [[u1 r1]| |] eqn:E1; cbn [bind]; try discriminate. intros E.
    destruct (component_again _ _ _ _ _ _ NE E1) as [G1 H1]. destruct (IH _ _ _ _ _ (grows_some _ _ G1) E) as [G2 H2].
    split; [eapply grows_trans; eauto|]. intros v V. rewrite (H1 v) by (eapply grows_trans; eauto). cbn [bind]. auto.
Qed.
Lemma flat_again : forall l u u' ts, (forall k ws, In (k, ws) l -> recursive_worlds_if_no_local_refs k = Some ws) -> worlds u <> [] -> insert_flat u l = Val (u', ts) ->
  grows u u' /\ forall v, grows u' v -> insert_flat v l = Val (v, ts).
Proof.
  induction l as [|[k ws] l IH]; cbn [insert_flat]; intros u u' ts R NE.
  - intros E. inversion E; subst. split; auto. apply grows_refl; auto.
  - destruct (insert_flat u l) as [[u1 ts1]| |] eqn:E1; cbn [bind]; try discriminate. destruct (insert_non_recursive_kind u1 k ws) as [[u2 t]| |] eqn:E2; cbn [bind]; try discriminate.
    intros E. inversion E; subst. destruct (IH u u1 ts1) as [G1 H1]; auto; [intros; apply R; simpl; auto|].
    destruct (nonrec_again _ _ _ _ _ (worlds_pos _ _ (R _ _ (or_introl eq_refl))) (grows_some _ _ G1) E2) as [G2 H2].
    split; [eapply grows_trans; eauto|]. intros v V. rewrite (H1 v) by (eapply grows_trans; eauto). cbn [bind]. rewrite (H2 v V). auto.
Qed.

Lemma insert_again : forall u kinds u' ts, worlds u <> [] -> insert_types le order u kinds = Val (u', ts) ->
  grows u u' /\ forall v, grows u' v -> insert_types le order v kinds = Val (v, ts).
Proof.
  intros u kinds u' ts NE. unfold insert_types. destruct (negb _); [discriminate|].
  destruct (unwrap_all _) as [ws|] eqn:U.
  - apply flat_again; auto. apply unwrap_some in U. revert ws U. induction (map normalize kinds) as [|k l IH]; intros [|w ws] U; try discriminate; simpl; try tauto.
    intros k' ws' [E|J]; [inversion E; subst; inversion U; auto|]. inversion U. eapply IH; eauto.
  - match goal with |- context [bind ?x _] => destruct x as [sccs| |] end; cbn [bind]; try discriminate.
    destruct (place_components le u _ _ sccs) as [[u1 r1]| |] eqn:E1; cbn [bind]; try discriminate. intros E. inversion E; subst.
    destruct (components_again _ _ _ _ _ _ NE E1) as [G H]. split; auto. intros v V. rewrite (H v V). auto.
Qed.
End Order.
