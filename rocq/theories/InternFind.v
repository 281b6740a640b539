From Coq Require Import List Bool Arith Lia Permutation Sorted.
From Verif Require Import ListUtil GraphModel InternModel InternSpec InternKinds.
Import ListNotations.

Lemma dec_true : forall P (d : {P} + {~ P}), (if d then true else false) = true <-> P.
Proof. intros P []; split; auto; discriminate. Qed.

(** * The matching of kinds *)
Lemma all2_ok : forall A B (f : A -> B -> bool) a b, all2 f a b = true <-> Forall2 (fun x y => f x y = true) a b.
Proof.
  unfold all2. intros A B f. induction a as [|x a IH]; destruct b as [|y b]; simpl.
  - split; [constructor|auto].
  - split; [discriminate|intros F; inversion F].
  - split; [discriminate|intros F; inversion F].
  - specialize (IH b). rewrite andb_true_iff in IH. rewrite !andb_true_iff. split.
    + intros (L & E & F). constructor; auto. apply IH. auto.
    + intros F. inversion F; subst. destruct (proj2 IH); auto.
Qed.
Lemma tagged_true : forall A (dec : A -> A -> bool) (m : ty -> ty -> bool) (a b : list (A * ty)), (forall x y, dec x y = true <-> x = y) ->
  (Forall2 (fun x y => dec (fst x) (fst y) && m (snd x) (snd y) = true) a b <->
   map (fun x => (fst x, Loc 0)) a = map (fun x => (fst x, Loc 0)) b /\ Forall2 (fun x y => m x y = true) (map snd a) (map snd b)).
Proof.
  intros A dec m a b D. rewrite <- tagged_head. split; intros F; (eapply Forall2_imp; [|exact F]); intros x y _ _; unfold tagged_alike;
    rewrite andb_true_iff, D; tauto.
Qed.

Lemma match_ok : forall w mp a b, plain a -> plain b ->
  (type_kinds_match_with_mapping w mp a b = true <-> mat (fun x y => type_matches_with_mapping w mp x y = true) a b).
Proof.
  intros w mp a b Pa Pb. unfold type_kinds_match_with_mapping, mat, head. set (m := type_matches_with_mapping w mp).
  destruct a, b; simpl in *; try (split; [discriminate|intros [E _]; discriminate]); subst;
    rewrite ?andb_true_iff, ?all2_ok, ?Nat.eqb_eq, ?Forall2_app1.
  - split; [intros [-> F]; split; auto; f_equal; apply const_len; eapply Forall2_len; eauto|intros [E F]; injection E; auto].
  - split; [intros ->; auto|intros [E _]; injection E; auto].
  - rewrite (tagged_true nat Nat.eqb m) by apply Nat.eqb_eq. split; intros [E F]; split; auto; [f_equal; auto|injection E; auto].
  - split; [intros F; split; auto; f_equal; apply const_len; eapply Forall2_len; eauto|intros [E F]; auto].
  - rewrite (tagged_true nat Nat.eqb m) by apply Nat.eqb_eq. split; intros [E F]; split; auto; [f_equal; auto|injection E; auto].
  - rewrite (tagged_true mutty (fun x y => if mutty_eq_dec x y then true else false) m) by (intros; apply dec_true). rewrite dec_true.
    split; [intros [[-> [E F]] G]; split; auto; f_equal; auto|intros [E [F G]]; injection E; auto].
  - rewrite (tagged_true mutty (fun x y => if mutty_eq_dec x y then true else false) m) by (intros; apply dec_true). rewrite !dec_true.
    split; [intros [[[-> ->] [E F]] G]; split; auto; f_equal; auto|intros [E [F G]]; injection E; auto].
  - split; [intros [-> F]; split; auto; f_equal; apply const_len; eapply Forall2_len; eauto|intros [E F]; injection E; auto].
  - split; auto.
Qed.

Lemma same_names_head : forall a b : list (nat * ty), map (fun x => (fst x, Loc 0)) a = map (fun x => (fst x, Loc 0)) b -> same_names a b = true.
Proof.
  unfold same_names. induction a as [|x a IH]; destruct b as [|y b]; simpl; intros E; try discriminate; auto.
  injection E as E1 E2. rewrite E1, Nat.eqb_refl. simpl. apply IH. auto.
Qed.
Lemma could_match_head : forall a b, head a = head b -> types_could_match a b = true.
Proof.
  intros [] []; unfold head; simpl; intros E; try discriminate; auto; injection E; intros; subst;
    rewrite ?Nat.eqb_refl, ?eqb_reflx; simpl; auto using same_names_head.
  - apply const_len in H. rewrite H. apply Nat.eqb_refl.
  - apply const_len in H. rewrite H. apply Nat.eqb_refl.
  - match goal with H : map _ args = map _ _ |- _ => apply pairs_len in H; rewrite H end. rewrite Nat.eqb_refl. auto.
Qed.

(** * The mapping found *)
Definition mapped (w : nat) (m : list nat) (t : ty) : ty :=
  match t with Loc i => match nth_error m i with Some e => Glob w e | None => t end | Glob _ _ => t end.
(** Each kind of the local world is the kind the mapping gives it. *)
Definition fits (lw : list kind) (w : nat) (m : list nat) (ew : list kind) : Prop :=
  length m = length lw /\ forall j k, nth_error lw j = Some k ->
    (forall i, In (Loc i) (kids k) -> i < length lw) /\
    exists e, nth_error m j = Some e /\ nth_error ew e = Some (map_kids (mapped w m) k).

Lemma unwrap_some : forall A (l : list (option A)) m, unwrap_all l = Some m <-> l = map Some m.
Proof.
  intros A. induction l as [|o l IH]; simpl; intros m.
  - split; [intros E; inversion E; auto|destruct m; [auto|discriminate]].
  - destruct o as [x|].
    + destruct (unwrap_all l) as [r|] eqn:E; simpl.
      * split; [intros H; inversion H; subst; simpl; f_equal; apply IH; auto|].
        destruct m; simpl; intros H; [discriminate|]. injection H as -> H. apply IH in H. congruence.
      * split; [discriminate|]. destruct m; simpl; intros H; [discriminate|]. injection H as -> H. apply IH in H. discriminate.
    + split; [discriminate|destruct m; discriminate].
Qed.

Lemma combine_nth : forall A B (a : list A) (b : list B) i x y, length a = length b -> (nth_error (combine a b) i = Some (x, y) <-> nth_error a i = Some x /\ nth_error b i = Some y).
Proof.
  induction a as [|p a IH]; destruct b as [|q b]; intros i x y L; try discriminate.
  - destruct i; simpl; split; [discriminate|intros [E _]; discriminate|discriminate|intros [E _]; discriminate].
  - destruct i; simpl.
    + split; [intros E; inversion E; auto|intros [E F]; inversion E; inversion F; auto].
    + apply IH. auto.
Qed.
Lemma forallb_nth : forall A (p : A -> bool) l, forallb p l = true <-> forall i x, nth_error l i = Some x -> p x = true.
Proof.
  intros A p l. rewrite forallb_forall. split; intros H.
  - intros i x E. apply H. eapply nth_error_In; eauto.
  - intros x J. apply In_nth_error in J. destruct J as [i J]. eauto.
Qed.

Lemma kids_mapped : forall w mp m a b, mp = map Some m -> (type_matches_with_mapping w mp a b = true <-> b = mapped w m a /\ forall i, a = Loc i -> i < length m).
Proof.
  intros w mp m a b ->. unfold type_matches_with_mapping, mapped. destruct a as [i|v i].
  - rewrite nth_error_map. destruct (nth_error m i) as [e|] eqn:E; simpl.
    + rewrite dec_true. split; [intros <-; split; auto; intros ? X; inversion X; subst; apply nth_error_Some; congruence|intros [-> _]; auto].
    + split; [discriminate|]. intros [_ L]. specialize (L i eq_refl). apply nth_error_Some in L. congruence.
  - rewrite dec_true. split; [intros <-; split; auto; discriminate|intros [-> _]; auto].
Qed.
Lemma mat_mapped : forall w m a b, mat (fun x y => y = mapped w m x /\ forall i, x = Loc i -> i < length m) a b <->
  b = map_kids (mapped w m) a /\ forall i, In (Loc i) (kids a) -> i < length m.
Proof.
  intros w m a b. split.
  - intros [H F]. assert (G : kids b = map (mapped w m) (kids a) /\ forall i, In (Loc i) (kids a) -> i < length m).
    { clear H. induction F as [|x y l n [E L] F [IH1 IH2]]; simpl; [split; [auto|contradiction]|]. split; [congruence|]. intros i [->|J]; auto. }
    destruct G as [G1 G2]. split; auto. apply kind_ext; [rewrite head_map; auto|rewrite kids_map; auto].
  - intros [-> L]. split; [rewrite head_map; auto|]. rewrite kids_map.
    assert (G : forall l, (forall i, In (Loc i) l -> i < length m) -> Forall2 (fun x y => y = mapped w m x /\ forall i, x = Loc i -> i < length m) l (map (mapped w m) l)).
    { induction l; simpl; intros; constructor; auto. }
    auto.
Qed.

Lemma verify_fits : forall lw ew w m, Forall plain lw -> Forall plain ew -> (verify_mapping lw ew w (map Some m) = true <-> fits lw w m ew).
Proof.
  intros lw ew w m Pl Pe. unfold verify_mapping, fits. rewrite andb_true_iff, Nat.eqb_eq, map_length.
  rewrite Forall_forall in Pl, Pe.
  split; intros [L H]; split; auto.
  - intros j k E. assert (j < length m) by (rewrite L; apply nth_error_Some; congruence).
    destruct (nth_error m j) as [e|] eqn:F; [|apply nth_error_None in F; lia].
    pose proof (proj1 (forallb_nth _ _ _) H j (k, Some e)) as V. simpl in V.
    rewrite combine_nth in V by (rewrite map_length; auto). rewrite nth_error_map, F in V. specialize (V (conj E eq_refl)).
    destruct (nth_error ew e) as [k'|] eqn:G; [|discriminate].
    apply match_ok in V; [|apply Pl; eapply nth_error_In; eauto|apply Pe; eapply nth_error_In; eauto].
    eapply mat_imp in V; [apply mat_mapped in V|intros x y _ _ X; apply (kids_mapped w (map Some m) m x y eq_refl) in X; exact X].
    destruct V as [-> V]. split; [rewrite <- L; auto|]. eauto.
  - apply forallb_nth. intros j [k o] E. rewrite combine_nth in E by (rewrite map_length; auto). destruct E as [E F].
    destruct (H j k E) as (B & e & M & X). rewrite nth_error_map, M in F. inversion F; subst. rewrite X.
    apply match_ok; [apply Pl; eapply nth_error_In; eauto|apply Pe; eapply nth_error_In; eauto|].
    eapply mat_imp; [intros x y _ _ Y; apply (kids_mapped w (map Some m) m x y eq_refl); exact Y|].
    apply mat_mapped. split; auto. rewrite L. auto.
Qed.

Lemma list_ext : forall A (a b : list A), (forall i, nth_error a i = nth_error b i) -> a = b.
Proof.
  induction a as [|x a IH]; destruct b as [|y b]; intros H; auto.
  - specialize (H 0). discriminate.
  - specialize (H 0). discriminate.
  - f_equal; [specialize (H 0); inversion H; auto|]. apply IH. intros i. apply (H (S i)).
Qed.

(** * The search *)
Section Search.
Variables (lw ew : list kind) (w : nat).
Lemma search_sound : forall cands mp used r, search lw ew w cands mp used = Some r -> verify_mapping lw ew w r = true.
Proof.
  induction cands as [|[i ps] cands IH]; simpl; intros mp used r H.
  - destruct (verify_mapping lw ew w mp) eqn:E; inversion H; subst; auto.
  - induction ps as [|e ps IHp]; [discriminate|]. destruct (existsb (Nat.eqb e) used); auto.
    destruct (search lw ew w cands (upd mp i (Some e)) (e :: used)) as [m|] eqn:E; [|auto]. inversion H; subst. eapply IH; eauto.
Qed.

Lemma search_complete : forall (m : list nat) cands mp used,
  search lw ew w cands mp used = None -> NoDup (map fst cands) -> length mp = length m -> NoDup m ->
  (forall i ps, In (i, ps) cands -> exists e, nth_error m i = Some e /\ In e ps) ->
  (forall e, In e used -> exists i, nth_error m i = Some e /\ ~ In i (map fst cands)) ->
  (forall i e, nth_error m i = Some e -> ~ In i (map fst cands) -> nth_error mp i = Some (Some e)) ->
  verify_mapping lw ew w (map Some m) = false.
Proof.
  intros m. induction cands as [|[i ps] cands IH]; simpl; intros mp used H N L Nm C U A.
  - assert (E : mp = map Some m).
    { apply list_ext. intros j. rewrite nth_error_map. destruct (nth_error m j) as [e|] eqn:E; simpl; auto.
      apply nth_error_None. rewrite L. apply nth_error_None. auto. }
    subst. destruct (verify_mapping lw ew w (map Some m)); [discriminate|auto].
  - inversion N as [|? ? N1 N2]; subst. destruct (C i ps (or_introl eq_refl)) as (e & E & J).
    assert (Hi : i < length mp) by (rewrite L; apply nth_error_Some; congruence).
    assert (G : search lw ew w cands (upd mp i (Some e)) (e :: used) = None).
    { assert (K : existsb (Nat.eqb e) used = false).
      { destruct (existsb (Nat.eqb e) used) eqn:X; auto. apply existsb_exists in X. destruct X as (e' & X & Y). apply Nat.eqb_eq in Y. subst e'.
        destruct (U e X) as (i' & Y & Z). exfalso. apply Z. left.
        eapply (proj1 (NoDup_nth_error m)); eauto; [apply nth_error_Some; congruence|congruence]. }
      clear - H J K. induction ps as [|e' ps IHp]; [contradiction|]. destruct J as [->|J].
      - rewrite K in H. destruct (search lw ew w cands (upd mp i (Some e)) (e :: used)); [discriminate|auto].
      - destruct (existsb (Nat.eqb e') used); [auto|]. destruct (search lw ew w cands (upd mp i (Some e')) (e' :: used)); [discriminate|auto]. }
    eapply IH; [exact G| | | | | | ]; auto.
    + rewrite upd_length. auto.
    + intros e' [<-|X]; [exists i; auto|]. destruct (U e' X) as (i' & Y & Z). exists i'. split; auto.
    + intros i' e' X Y. rewrite nth_error_upd. destruct (Nat.eqb_spec i i') as [->|X'].
      * destruct (Nat.ltb_spec i' (length mp)); [congruence|lia].
      * apply A; auto. intros [Z|Z]; auto.
Qed.
End Search.

Lemma positions_in : forall A (p : A -> bool) l i e, In e (positions p i l) <-> exists x, i <= e /\ nth_error l (e - i) = Some x /\ p x = true.
Proof.
  intros A p. induction l as [|a l IH]; simpl; intros i e.
  - split; [contradiction|]. intros (x & _ & E & _). destruct (e - i); discriminate.
  - assert (K : In e (positions p (S i) l) <-> exists x, i < e /\ nth_error (a :: l) (e - i) = Some x /\ p x = true).
    { rewrite IH. split; intros (x & L & E & P); exists x; split; try lia; split; auto.
      - replace (e - i) with (S (e - S i)) by lia. auto.
      - replace (e - i) with (S (e - S i)) in E by lia. auto. }
    destruct (p a) eqn:E; simpl; rewrite K; split.
    + intros [<-|(x & L & F & P)]; [exists a; rewrite Nat.sub_diag; auto|exists x; split; [lia|auto]].
    + intros (x & L & F & P). destruct (Nat.eq_dec i e); [auto|right]. exists x. split; [lia|auto].
    + intros (x & L & F & P). exists x. split; [lia|auto].
    + intros (x & L & F & P). destruct (Nat.eq_dec i e) as [->|].
      * rewrite Nat.sub_diag in F. inversion F; subst. congruence.
      * exists x. split; [lia|auto].
Qed.

Lemma isomorphism_sound : forall lw ew w m, Forall plain lw -> Forall plain ew -> find_world_isomorphism lw ew w = Val (Some m) -> fits lw w m ew.
Proof.
  unfold find_world_isomorphism. intros lw ew w m Pl Pe H. destruct (existsb _ _); [discriminate|].
  destruct (search _ _ _ _ _ _) as [mp|] eqn:E; [|discriminate]. destruct (unwrap_all mp) as [l|] eqn:F; [|discriminate].
  inversion H; subst. apply search_sound in E. apply unwrap_some in F. subst. apply verify_fits in E; auto.
Qed.
Lemma verify_some : forall lw ew w mp, verify_mapping lw ew w mp = true -> exists m, unwrap_all mp = Some m.
Proof.
  unfold verify_mapping. intros lw ew w mp H. apply andb_true_iff in H. destruct H as [L H]. apply Nat.eqb_eq in L.
  assert (G : forall o, In o mp -> o <> None).
  { intros o J -> . apply In_nth_error in J. destruct J as [i J]. assert (i < length lw) by (rewrite <- L; apply nth_error_Some; congruence).
    destruct (nth_error lw i) as [k|] eqn:E; [|apply nth_error_None in E; lia].
    pose proof (proj1 (forallb_nth _ _ _) H i (k, None)) as V. rewrite combine_nth in V by auto. specialize (V (conj E J)). discriminate. }
  clear H L. induction mp as [|o mp IH]; simpl; [eauto|]. destruct o as [x|]; [|destruct (G None (or_introl eq_refl) eq_refl)].
  destruct IH as [m ->]; [intros o J; apply G; right; auto|]. simpl. eauto.
Qed.
Lemma isomorphism_total : forall lw ew w, exists r, find_world_isomorphism lw ew w = Val r.
Proof.
  unfold find_world_isomorphism. intros. destruct (existsb _ _); [eauto|]. destruct (search _ _ _ _ _ _) as [mp|] eqn:E; [|eauto].
  apply search_sound in E. apply verify_some in E. destruct E as [m ->]. eauto.
Qed.
Lemma map_fst_combine : forall A B (a : list A) (b : list B), length a = length b -> map fst (combine a b) = a.
Proof. induction a; destruct b; simpl; intros; try discriminate; auto. f_equal. auto. Qed.
Lemma isomorphism_complete : forall lw ew w m, Forall plain lw -> Forall plain ew -> fits lw w m ew -> NoDup m -> find_world_isomorphism lw ew w <> Val None.
Proof.
  unfold find_world_isomorphism. intros lw ew w m Pl Pe Ft N H.
  set (cands := map (fun p => (fst p, positions (types_could_match (snd p)) 0 ew)) (combine (seq 0 (length lw)) lw)) in *.
  assert (C : forall i ps, In (i, ps) cands -> exists e, nth_error m i = Some e /\ In e ps).
  { intros i ps J. apply in_map_iff in J. destruct J as ([i' k] & E & J). inversion E; subst. apply In_nth_error in J. destruct J as [n J].
    apply combine_nth in J; [|apply seq_length]. destruct J as [J1 J2]. simpl.
    assert (n < length lw) by (apply nth_error_Some; congruence).
    rewrite nth_error_nth' with (d := 0) in J1 by (rewrite seq_length; auto). rewrite seq_nth in J1 by auto. simpl in J1; inversion J1; subst i.
    destruct (proj2 Ft n k J2) as (_ & e & M & X). simpl. exists e. split; auto. apply positions_in. exists (map_kids (mapped w m) k).
    rewrite Nat.sub_0_r. repeat split; auto; [lia|]. apply could_match_head. rewrite head_map. auto. }
  assert (F : map fst cands = seq 0 (length lw)).
  { unfold cands. rewrite map_map. simpl. apply map_fst_combine. apply seq_length. }
  destruct (existsb (fun c => length (snd c) =? 0) cands) eqn:X.
  - apply existsb_exists in X. destruct X as ([i ps] & J & Z). destruct (C i ps J) as (e & _ & K). simpl in Z. destruct ps; [destruct K|discriminate].
  - destruct (search lw ew w (sort fewest cands) (repeat None (length lw)) []) as [mp|] eqn:E.
    + apply search_sound in E. apply verify_some in E. destruct E as [m' E]. rewrite E in H. discriminate.
    + apply (search_complete lw ew w m) in E; auto.
      * apply verify_fits in Ft; auto. congruence.
      * eapply Permutation_NoDup; [apply Permutation_map, sort_perm|]. rewrite F. apply seq_NoDup.
      * rewrite repeat_length. symmetry. apply Ft.
      * intros i ps J. apply C. eapply Permutation_in; [apply Permutation_sym, sort_perm|exact J].
      * simpl. contradiction.
      * intros i e J K. exfalso. apply K. apply (Permutation_in i (Permutation_map fst (sort_perm _ fewest cands))). rewrite F. apply in_seq.
        assert (i < length m) by (apply nth_error_Some; congruence). rewrite (proj1 Ft) in H0. lia.
Qed.

Lemma find_world_total : forall lw ws w, exists r, find_world lw w ws = Val r.
Proof.
  induction ws as [|ew ws IH]; simpl; intros w; [eauto|]. destruct (length ew =? length lw); auto.
  destruct (isomorphism_total lw ew w) as [[m|] ->]; simpl; eauto.
Qed.
Lemma find_world_sound : forall lw ws w v m, find_world lw w ws = Val (Some (v, m)) ->
  exists ew, w <= v /\ nth_error ws (v - w) = Some ew /\ length ew = length lw /\ find_world_isomorphism lw ew v = Val (Some m).
Proof.
  induction ws as [|ew ws IH]; simpl; intros w v m H; [discriminate|].
  assert (K : find_world lw (S w) ws = Val (Some (v, m)) -> exists e, w <= v /\ nth_error (ew :: ws) (v - w) = Some e /\ length e = length lw /\ find_world_isomorphism lw e v = Val (Some m)).
  { intros G. apply IH in G. destruct G as (e & L & E & F & X). exists e. split; [lia|]. replace (v - w) with (S (v - S w)) by lia. auto. }
  destruct (Nat.eqb_spec (length ew) (length lw)) as [L|L]; auto.
  destruct (isomorphism_total lw ew w) as [[m'|] E]; rewrite E in H; simpl in H; auto. inversion H; subst.
  exists ew. rewrite Nat.sub_diag. auto.
Qed.
Lemma find_world_complete : forall lw ws w v ew, find_world lw w ws = Val None -> w <= v -> nth_error ws (v - w) = Some ew -> length ew = length lw ->
  find_world_isomorphism lw ew v = Val None.
Proof.
  induction ws as [|e ws IH]; simpl; intros w v ew H L E F; [destruct (v - w); discriminate|].
  destruct (Nat.eq_dec w v) as [->|D].
  - rewrite Nat.sub_diag in E. inversion E; subst. rewrite F, Nat.eqb_refl in H.
    destruct (isomorphism_total lw ew v) as [[m'|] X]; rewrite X in H; simpl in H; [discriminate|auto].
  - replace (v - w) with (S (v - S w)) in E by lia. simpl in E. eapply (IH (S w)); eauto; [|lia].
    destruct (length e =? length lw); auto. destruct (isomorphism_total lw e w) as [[m'|] X]; rewrite X in H; simpl in H; [discriminate|auto].
Qed.

(** * The index sets *)
Lemma get_full_some : forall k l i, get_full k l = Some i -> nth_error l i = Some k.
Proof.
  induction l as [|x l IH]; simpl; intros i H; [discriminate|]. destruct (kind_eq_dec k x); [inversion H; subst; auto|].
  destruct (get_full k l); inversion H; subst. simpl. auto.
Qed.
Lemma get_full_none : forall k l, get_full k l = None <-> ~ In k l.
Proof.
  induction l as [|x l IH]; simpl; [tauto|]. destruct (kind_eq_dec k x) as [->|D]; [split; [discriminate|tauto]|].
  destruct (get_full k l); simpl; split; try discriminate; auto.
  - intros H. assert (~ In k l) by tauto. apply IH in H0. discriminate.
  - intros _. intros [->|J]; [auto|]. apply (proj1 IH); auto.
Qed.
Lemma index_set_nodup : forall l, NoDup l -> index_set l = l.
Proof.
  assert (G : forall l acc, NoDup (acc ++ l) -> fold_left (fun set k => match get_full k set with Some _ => set | None => set ++ [k] end) l acc = acc ++ l).
  { induction l as [|x l IH]; simpl; intros acc N; [rewrite app_nil_r; auto|].
    destruct (get_full x acc) as [i|] eqn:E.
    - apply get_full_some in E. apply nth_error_In in E. apply NoDup_remove_2 in N. exfalso. apply N. apply in_or_app. auto.
    - rewrite IH; rewrite <- app_assoc; auto. }
  intros l N. apply G. auto.
Qed.

Lemma cached_in : forall lw c v, cached lw c = Some v -> In (lw, v) c.
Proof.
  induction c as [|[key v'] c IH]; simpl; intros v H; [discriminate|]. destruct (kinds_eq_dec lw key); [inversion H; subst; auto|auto].
Qed.
