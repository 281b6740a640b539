(** Proofs about lookup of definitions, growth of modules, trait methods. *)

From Coq Require Import List Arith Bool Lia.
From Verif Require Import NameModel NameSpec NameProofs.
Import ListNotations.

Lemma kind_eqb_eq : forall a b, kind_eqb a b = true <-> a = b.
Proof. intros a b. destruct a, b; cbn; split; intro H; try reflexivity; discriminate. Qed.

Lemma get_kind_iff : forall k m n x, NoDup (map fst (m_defs m)) ->
  (get_kind k m n = Some x <->
   exists d, In (n, d) (m_defs m) /\ d_kind d = k /\ d_index d = x).
Proof.
  intros k m n x N. unfold get_kind. split.
  - destruct (get (m_defs m) n) as [d|] eqn:G; [| discriminate].
    destruct (kind_eqb (d_kind d) k) eqn:K; [| discriminate].
    intro E. injection E as <-. apply get_some_in in G. apply kind_eqb_eq in K.
    exists d. auto.
  - intros (d & Hd & K & X). apply (get_in _ _ _ _ N) in Hd. rewrite Hd.
    apply kind_eqb_eq in K. rewrite K, X. reflexivity.
Qed.

Lemma accessible_iff : forall id m n from, NoDup (map fst (m_defs m)) ->
  (accessible id m n from = true <->
   exists d, In (n, d) (m_defs m) /\ (d_public d = true \/ id = from)).
Proof.
  intros id m n from N. unfold accessible. split.
  - destruct (get (m_defs m) n) as [d|] eqn:G; [| discriminate].
    intro E. apply get_some_in in G. apply orb_true_iff in E. rewrite Nat.eqb_eq in E.
    exists d. tauto.
  - intros (d & Hd & K). apply (get_in _ _ _ _ N) in Hd. rewrite Hd.
    apply orb_true_iff. rewrite Nat.eqb_eq. tauto.
Qed.

Lemma in_unique : forall (l : list (name * def)) n d e, NoDup (map fst l) ->
  In (n, d) l -> In (n, e) l -> d = e.
Proof.
  intros l n d e N A B. apply (get_in _ _ _ _ N) in A. apply (get_in _ _ _ _ N) in B. congruence.
Qed.

Lemma try_path_iff : forall ms k from n p id x, good_modules ms ->
  (try_path ms k from n p = Some (id, x) <-> offers ms from p k n id x).
Proof.
  intros ms k from n p id x G. unfold try_path, offers. split.
  - destruct (by_path ms p) as [[i [m|]]|] eqn:B; try discriminate.
    apply by_path_nth in B; [| apply gs_paths; exact G].
    pose proof (gm_names _ (gs_modules _ G _ _ _ B)) as N. unfold foreign_get.
    destruct (accessible i m n from) eqn:A; [| discriminate].
    destruct (get_kind k m n) as [y|] eqn:K; [| discriminate].
    intro E. injection E as <- <-.
    apply (get_kind_iff _ _ _ _ N) in K. apply (accessible_iff _ _ _ _ N) in A.
    destruct K as (d & D1 & D2 & D3). destruct A as (e & E1 & E2).
    rewrite (in_unique _ _ _ _ N E1 D1) in E2. exists m, d. auto.
  - intros (m & d & H & D1 & D2 & D3 & D4).
    pose proof (gm_names _ (gs_modules _ G _ _ _ H)) as N.
    apply by_path_nth in H; [| apply gs_paths; exact G]. rewrite H. unfold foreign_get.
    rewrite (proj2 (accessible_iff id m n from N)) by (exists d; auto).
    rewrite (proj2 (get_kind_iff k m n x N)) by (exists d; auto). reflexivity.
Qed.

Lemma try_path_none : forall ms k from n p, good_modules ms ->
  (try_path ms k from n p = None <-> forall id x, ~ offers ms from p k n id x).
Proof.
  intros ms k from n p G. split.
  - intros E id x O. apply try_path_iff in O; [congruence | exact G].
  - intro H. destruct (try_path ms k from n p) as [[id x]|] eqn:E; [| reflexivity].
    apply try_path_iff in E; [| exact G]. exfalso. exact (H id x E).
Qed.

Lemma offers_unique : forall ms from p k n i x j y, good_modules ms ->
  offers ms from p k n i x -> offers ms from p k n j y -> i = j /\ x = y.
Proof.
  intros ms from p k n i x j y G A B. apply try_path_iff in A, B; try exact G.
  rewrite A in B. injection B as -> ->. auto.
Qed.

Lemma offering_matches : forall ms from k n l, good_modules ms ->
  offering ms from k n l (map fst (wildcard_matches ms k from n l)).
Proof.
  intros ms from k n l G. induction l as [| p l IH]; cbn; [constructor|].
  destruct (try_path ms k from n p) as [[id x]|] eqn:E; cbn.
  - apply try_path_iff in E; [| exact G]. apply og_yes with (id := id) (x := x); assumption.
  - apply og_no; [apply try_path_none; assumption | exact IH].
Qed.

Lemma wildcard_offers : forall ms from k n l p y, good_modules ms ->
  In (p, y) (wildcard_matches ms k from n l) -> In p l /\ offers ms from p k n (fst y) (snd y).
Proof.
  intros ms from k n l p y G. induction l as [| q l IH]; cbn; [tauto|].
  destruct (try_path ms k from n q) as [[id x]|] eqn:E.
  - intros [H | H].
    + injection H as <- <-. apply try_path_iff in E; [| exact G]. auto.
    + apply IH in H. tauto.
  - intro H. apply IH in H. tauto.
Qed.

Lemma offering_unique : forall ms from k n l r, offering ms from k n l r ->
  forall s, offering ms from k n l s -> r = s.
Proof.
  intros ms from k n l r O. induction O as [| p l r id x P O IH | p l r P O IH]; intros s O2;
    inversion O2 as [| p2 l2 r2 id2 x2 P2 Q2 | p2 l2 r2 P2 Q2]; subst.
  - reflexivity.
  - f_equal. apply IH. exact Q2.
  - exfalso. exact (P2 _ _ P).
  - exfalso. exact (P _ _ P2).
  - apply IH. exact Q2.
Qed.

Lemma find_member_denotes : forall ms s k n, good_modules ms -> good_scope s ->
  denotes ms s k n (find_member ms s k n).
Proof.
  intros ms s k n G GS. pose proof (gm_names _ (gc_module _ GS)) as N.
  unfold find_member. destruct (get_kind k (s_module s) n) as [x|] eqn:K.
  { apply n_here. apply (get_kind_iff _ _ _ _ N) in K. exact K. }
  assert (H : forall y, ~ defined_here s k n y).
  { intros y D. apply (get_kind_iff _ _ _ _ N) in D. congruence. }
  set (b := match get (explicits (s_uses s)) n with
            | Some p => try_path ms k (s_id s) n p | None => None end).
  assert (B : forall i y, b = Some (i, y) <-> imported_by_name ms s k n i y).
  { intros i y. unfold b, imported_by_name. destruct (get (explicits (s_uses s)) n) as [p|] eqn:E.
    - pose proof (proj1 (get_in _ _ _ _ (gc_explicits _ GS)) E) as I1. rewrite try_path_iff by exact G. split.
      + intro O. exists p. auto.
      + intros (q & Q & O). apply (get_in _ _ _ _ (gc_explicits _ GS)) in Q.
        assert (p = q) by congruence. subst. exact O.
    - split; [discriminate|]. intros (q & Q & O). apply (get_in _ _ _ _ (gc_explicits _ GS)) in Q.
      congruence. }
  destruct b as [[id x]|] eqn:Eb.
  { apply n_named; [exact H | apply B; reflexivity]. }
  assert (HB : forall i y, ~ imported_by_name ms s k n i y).
  { intros i y D. apply B in D. discriminate. }
  pose proof (offering_matches ms (s_id s) k n (wildcards (s_uses s)) G) as O.
  pose proof (wildcard_offers ms (s_id s) k n (wildcards (s_uses s))) as W.
  destruct (wildcard_matches ms k (s_id s) n (wildcards (s_uses s))) as [| (p, (id, x)) [| (q, y) l]].
  - apply n_none; assumption.
  - destruct (W p (id, x) G (or_introl eq_refl)) as [_ W2].
    apply n_star with (p := p); assumption.
  - apply n_stars; assumption.
Qed.

Lemma denotes_unique : forall ms s k n a b, good_modules ms -> good_scope s ->
  denotes ms s k n a -> denotes ms s k n b -> a = b.
Proof.
  intros ms s k n a b G GS A B.
  assert (UH : forall x y, defined_here s k n x -> defined_here s k n y -> x = y).
  { intros x y (d & D1 & D2 & D3) (e & E1 & E2 & E3).
    rewrite (in_unique _ _ _ _ (gm_names _ (gc_module _ GS)) D1 E1) in D3. congruence. }
  assert (UN : forall i x j y, imported_by_name ms s k n i x -> imported_by_name ms s k n j y ->
     i = j /\ x = y).
  { intros i x j y (p & P & O) (q & Q & R).
    apply (get_in _ _ _ _ (gc_explicits _ GS)) in P, Q. assert (p = q) by congruence. subst.
    exact (offers_unique _ _ _ _ _ _ _ _ _ G O R). }
  destruct A as [x A1 | i x A1 A2 | p i x A1 A2 A3 A4 | p q l A1 A2 A3 | A1 A2 A3];
  destruct B as [y B1 | j y B1 B2 | p' j y B1 B2 B3 B4 | p' q' l' B1 B2 B3 | B1 B2 B3];
    try (exfalso; exact (B1 _ A1)); try (exfalso; exact (A1 _ B1));
    try (exfalso; exact (B2 _ _ A2)); try (exfalso; exact (A2 _ _ B2));
    try (pose proof (offering_unique _ _ _ _ _ _ A3 _ B3) as U; try discriminate U).
  - rewrite (UH _ _ A1 B1). reflexivity.
  - destruct (UN _ _ _ _ A2 B2) as [-> ->]. reflexivity.
  - injection U as ->. destruct (offers_unique _ _ _ _ _ _ _ _ _ G A4 B4) as [-> ->]. reflexivity.
  - rewrite U. reflexivity.
  - reflexivity.
Qed.

Lemma find_member_iff : forall ms s k n r, good_modules ms -> good_scope s ->
  (find_member ms s k n = r <-> denotes ms s k n r).
Proof.
  intros ms s k n r G GS. split.
  - intros <-. apply find_member_denotes; assumption.
  - intro D. apply (denotes_unique ms s k n _ _ G GS (find_member_denotes ms s k n G GS) D).
Qed.

(** Qualified names. *)
Lemma find_by_path_qualified : forall ms s k m n, good_modules ms -> m <> [] ->
  (m = [std_name] -> s_id s <> std_id) ->
  (exists id x, offers ms (s_id s) m k n id x /\ find_by_path ms s k (m ++ [n]) = Found (Some id) x) \/
  ((forall id x, ~ offers ms (s_id s) m k n id x) /\ find_by_path ms s k (m ++ [n]) = Missing).
Proof.
  intros ms s k m n G Hm Hs.
  assert (E : find_by_path ms s k (m ++ [n]) =
              match try_path ms k (s_id s) n m with
              | Some (id, x) => Found (Some id) x
              | None => Missing end).
  { unfold find_by_path. destruct m as [| a m]; [congruence|].
    assert (D : exists b l, (a :: m) ++ [n] = a :: b :: l).
    { destruct m as [| c m]; cbn; eauto. }
    destruct D as (b & l & D). rewrite D, <- D.
    rewrite split_symbol_last by (intro; destruct m; discriminate).
    rewrite removelast_last, last_last.
    destruct (path_eqb (a :: m) [std_name] && Nat.eqb (s_id s) std_id) eqn:B; [| reflexivity].
    apply andb_true_iff in B. destruct B as [B1 B2]. apply path_eqb_eq in B1. apply Nat.eqb_eq in B2.
    exfalso. exact (Hs B1 B2). }
  rewrite E. destruct (try_path ms k (s_id s) n m) as [[id x]|] eqn:T.
  - left. apply try_path_iff in T; [| exact G]. eauto.
  - right. split; [exact (proj1 (try_path_none _ _ _ _ _ G) T) | reflexivity].
Qed.

(** ** Growth *)

Lemma grown_nth : forall id n d ms ms', grown id n d ms ms' ->
  exists p m, nth_error ms id = Some (p, Some m) /\ ~ In n (map fst (m_defs m))
    /\ nth_error ms' id = Some (p, Some (MkModule (m_defs m ++ [(n, d)]) (m_traits m)))
    /\ (forall j, j <> id -> nth_error ms' j = nth_error ms j)
    /\ map fst ms' = map fst ms.
Proof.
  intros id n d ms ms' (a & p & m & b & -> & <- & H & ->). exists p, m.
  split; [rewrite nth_error_app2, Nat.sub_diag by lia; reflexivity |].
  split; [exact H |].
  split; [rewrite nth_error_app2, Nat.sub_diag by lia; reflexivity |].
  split.
  - intros j D. destruct (Nat.lt_ge_cases j (length a)) as [L | L].
    + rewrite !nth_error_app1 by exact L. reflexivity.
    + rewrite !nth_error_app2 by exact L. destruct (j - length a) as [| i] eqn:E; [lia | reflexivity].
  - rewrite !map_app. reflexivity.
Qed.

(** The definition added is not a trait, or comes with its trait. *)
Lemma grown_offers : forall id n0 d ms ms' from p k n i x, grown id n0 d ms ms' ->
  (offers ms' from p k n i x <->
   offers ms from p k n i x \/
   (i = id /\ n = n0 /\ (exists o, nth_error ms id = Some (p, o)) /\ d_kind d = k /\ d_index d = x
    /\ (d_public d = true \/ id = from))).
Proof.
  intros id n0 d ms ms' from p k n i x Gr.
  destruct (grown_nth _ _ _ _ _ Gr) as (q & m & A & F & B & C & _). unfold offers. split.
  - intros (m' & e & H & E1 & E2 & E3 & E4). destruct (Nat.eq_dec i id) as [-> | D].
    + rewrite B in H. injection H as <- <-. cbn in E1. apply in_app_iff in E1.
      destruct E1 as [E1 | [E1 | []]].
      * left. exists m, e. auto.
      * injection E1 as <- <-. right. split; [reflexivity |]. split; [reflexivity |].
        split; [exists (Some m); exact A | auto].
    + rewrite C in H by exact D. left. exists m', e. auto.
  - intros [(m' & e & H & E1 & E2 & E3 & E4) | (-> & -> & (o & H) & E2 & E3 & E4)].
    + destruct (Nat.eq_dec i id) as [-> | D].
      * rewrite A in H. injection H as <- <-.
        exists (MkModule (m_defs m ++ [(n0, d)]) (m_traits m)), e.
        split; [exact B |]. split; [cbn; apply in_app_iff; left; exact E1 | auto].
      * exists m', e. rewrite C by exact D. auto.
    + rewrite A in H. injection H as <- <-.
      exists (MkModule (m_defs m ++ [(n0, d)]) (m_traits m)), d.
      split; [exact B |]. split; [cbn; apply in_app_iff; right; left; reflexivity | auto].
Qed.

Lemma offering_mono : forall ms ms' from k n l r r',
  (forall p i x, offers ms from p k n i x -> offers ms' from p k n i x) ->
  offering ms from k n l r -> offering ms' from k n l r' ->
  r = r' \/ List.length r < List.length r'.
Proof.
  intros ms ms' from k n l r r' M O. revert r'.
  induction O as [| p l r i x P O IH | p l r P O IH]; intros r' O';
    inversion O' as [| p2 l2 r2 i2 x2 P2 Q2 | p2 l2 r2 P2 Q2]; subst.
  - left. reflexivity.
  - destruct (IH _ Q2) as [-> | L]; [left; reflexivity | right; cbn; lia].
  - exfalso. exact (P2 _ _ (M _ _ _ P)).
  - destruct (IH _ Q2) as [-> | L]; right; cbn; lia.
  - exact (IH _ Q2).
Qed.

Lemma grown_denotes : forall id n0 d ms ms' s k n r r', good_modules ms -> good_modules ms' ->
  good_scope s -> grown id n0 d ms ms' -> valid_imports ms (s_uses s) ->
  denotes ms s k n r -> denotes ms' s k n r' ->
  r = r' \/ r = Missing \/ exists l, r' = Ambiguous l.
Proof.
  intros id n0 d ms ms' s k n r r' G G' GS Gr V A B.
  assert (M : forall p i x, offers ms (s_id s) p k n i x -> offers ms' (s_id s) p k n i x).
  { intros p i x O. apply (grown_offers _ _ _ _ _ _ _ _ _ _ _ Gr). left. exact O. }
  assert (IM : forall i x, imported_by_name ms' s k n i x -> imported_by_name ms s k n i x).
  { intros i x (p & P & O). exists p. split; [exact P |].
    apply (grown_offers _ _ _ _ _ _ _ _ _ _ _ Gr) in O.
    destruct O as [O | (-> & -> & (o & H) & _)]; [exact O |]. exfalso.
    destruct (V _ _ P) as (m & e & Hm & He & _).
    destruct (grown_nth _ _ _ _ _ Gr) as (q & m2 & H2 & F & _).
    rewrite H in H2. injection H2 as -> ->.
    apply In_nth_error in Hm. destruct Hm as [j Hj].
    destruct (nth_unique _ _ _ _ _ _ _ (gs_paths _ G) H Hj) as [_ E]. injection E as ->.
    apply F. apply in_map_iff. exists (n0, e). auto. }
  assert (IM' : forall i x, imported_by_name ms s k n i x -> imported_by_name ms' s k n i x).
  { intros i x (p & P & O). exists p. auto. }
  destruct A as [x A1 | i x A1 A2 | p i x A1 A2 A3 A4 | p q l A1 A2 A3 | A1 A2 A3].
  - left. apply (denotes_unique ms' s k n _ _ G' GS); [apply n_here; exact A1 | exact B].
  - left. apply (denotes_unique ms' s k n _ _ G' GS); [apply n_named; auto | exact B].
  - destruct B as [y B1 | j y B1 B2 | p' j y B1 B2 B3 B4 | p' q' l' B1 B2 B3 | B1 B2 B3].
    + exfalso. exact (A1 _ B1).
    + exfalso. exact (A2 _ _ (IM _ _ B2)).
    + left. destruct (offering_mono _ _ _ _ _ _ _ _ M A3 B3) as [E | L]; [| cbn in L; lia].
      injection E as <-. destruct (offers_unique _ _ _ _ _ _ _ _ _ G' (M _ _ _ A4) B4) as [-> ->].
      reflexivity.
    + right. right. eauto.
    + destruct (offering_mono _ _ _ _ _ _ _ _ M A3 B3) as [E | L]; [discriminate | cbn in L; lia].
  - destruct B as [y B1 | j y B1 B2 | p' j y B1 B2 B3 B4 | p' q' l' B1 B2 B3 | B1 B2 B3].
    + exfalso. exact (A1 _ B1).
    + exfalso. exact (A2 _ _ (IM _ _ B2)).
    + destruct (offering_mono _ _ _ _ _ _ _ _ M A3 B3) as [E | L]; [discriminate | cbn in L; lia].
    + right. right. eauto.
    + destruct (offering_mono _ _ _ _ _ _ _ _ M A3 B3) as [E | L]; [discriminate | cbn in L; lia].
  - right. left. reflexivity.
Qed.

(** ** Trait methods *)

Lemma method_from_iff : forall l i n j, method_from i l n = Some j <->
  i <= j /\ nth_error l (j - i) = Some n /\ forall h, h < j - i -> nth_error l h <> Some n.
Proof.
  induction l as [| a l IH]; cbn; intros i n j.
  - split; [discriminate|]. intros (_ & H & _). destruct (j - i); discriminate.
  - destruct (Nat.eqb_spec a n) as [-> | D].
    + split.
      * intro E. injection E as <-. rewrite Nat.sub_diag. split; [lia |]. split; [reflexivity |].
        intros h L. lia.
      * intros (L & H & F). destruct (j - i) as [| h] eqn:E; [f_equal; lia |].
        exfalso. exact (F 0 ltac:(lia) eq_refl).
    + rewrite IH. split.
      * intros (L & H & F). replace (j - i) with (S (j - S i)) by lia.
        split; [lia |]. split; [exact H |]. intros [| h] Lh; cbn; [congruence |].
        apply F. lia.
      * intros (L & H & F). destruct (j - i) as [| h] eqn:E.
        -- cbn in H. congruence.
        -- replace (j - S i) with h by lia. split; [lia |]. split; [exact H |].
           intros g Lg. exact (F (S g) ltac:(lia)).
Qed.

Lemma method_index_iff : forall t n j, method_index t n = Some j <-> declares t n j.
Proof.
  intros t n j. unfold method_index, declares. rewrite method_from_iff, Nat.sub_0_r. split.
  - intros (_ & H & F). auto.
  - intros [H F]. split; [lia | auto].
Qed.

Lemma collect_from_in : forall l i o from id m n x,
  In x (collect_from i o from id m n l) <->
  exists h t j, nth_error l h = Some t /\ method_index t n = Some j /\ x = (o, ((id, i + h), j))
    /\ (o <> None -> accessible id m (t_name t) from = true).
Proof.
  induction l as [| t l IH]; cbn; intros i o from id m n x.
  - split; [tauto |]. intros (h & t & j & H & _). destruct h; discriminate.
  - set (skip := match o with Some _ => negb (accessible id m (t_name t) from) | None => false end).
    assert (SK : skip = false <-> (o <> None -> accessible id m (t_name t) from = true)).
    { unfold skip. destruct o as [a|].
      - rewrite negb_false_iff. split; [auto | intro H; apply H; discriminate].
      - split; [congruence | reflexivity]. }
    assert (R : (exists h t' j, nth_error l h = Some t' /\ method_index t' n = Some j
                  /\ x = (o, ((id, S i + h), j))
                  /\ (o <> None -> accessible id m (t_name t') from = true)) <->
                (exists h t' j, nth_error (t :: l) (S h) = Some t' /\ method_index t' n = Some j
                  /\ x = (o, ((id, i + S h), j))
                  /\ (o <> None -> accessible id m (t_name t') from = true))).
    { split; intros (h & t' & j & A & B & C & D); exists h, t', j;
        rewrite ?Nat.add_succ_r in *; auto. }
    assert (Z : (exists h t' j, nth_error (t :: l) h = Some t' /\ method_index t' n = Some j
                  /\ x = (o, ((id, i + h), j))
                  /\ (o <> None -> accessible id m (t_name t') from = true)) <->
                (exists j, method_index t n = Some j /\ x = (o, ((id, i), j)) /\ skip = false) \/
                In x (collect_from (S i) o from id m n l)).
    { rewrite IH, R. split.
      - intros ([| h] & t' & j & A & B & C & D).
        + left. cbn in A. injection A as <-. rewrite Nat.add_0_r in C. exists j.
          split; [exact B | split; [exact C | apply SK; exact D]].
        + right. exists h, t', j. auto.
      - intros [(j & A & B & C) | (h & t' & j & A & B & C & D)].
        + exists 0, t, j. rewrite Nat.add_0_r. split; [reflexivity |]. split; [exact A |].
          split; [exact B | apply SK; exact C].
        + exists (S h), t', j. auto. }
    rewrite Z. destruct skip eqn:ES.
    + split; [auto |]. intros [(j & _ & _ & F) | H]; [discriminate | exact H].
    + destruct (method_index t n) as [j|] eqn:MI; cbn.
      * split.
        -- intros [<- | H]; [left; exists j; auto | right; exact H].
        -- intros [(j' & E & -> & _) | H]; [left; congruence | right; exact H].
      * split; [auto |]. intros [(j' & E & _) | H]; [discriminate | exact H].
Qed.

(** Candidates coming from a module found by its path. *)
Lemma explicit_in : forall ms from n l x, good_modules ms ->
  (In x (explicit_matches ms from n l) <->
   exists p id i m t j, In (t_name t, p) l /\ offers ms from p KTrait (t_name t) id i
     /\ nth_error ms id = Some (p, Some m) /\ nth_error (m_traits m) i = Some t
     /\ method_index t n = Some j /\ x = (Some id, ((id, i), j))).
Proof.
  intros ms from n l x G. induction l as [| (tn, p) l IH].
  - cbn. split; [tauto |]. intros (p & id & i & m & t & j & [] & _).
  - assert (Z : (exists q id i m t j, In (t_name t, q) ((tn, p) :: l)
        /\ offers ms from q KTrait (t_name t) id i
        /\ nth_error ms id = Some (q, Some m) /\ nth_error (m_traits m) i = Some t
        /\ method_index t n = Some j /\ x = (Some id, ((id, i), j))) <->
       ((exists id i m t j, t_name t = tn /\ offers ms from p KTrait (t_name t) id i
        /\ nth_error ms id = Some (p, Some m) /\ nth_error (m_traits m) i = Some t
        /\ method_index t n = Some j /\ x = (Some id, ((id, i), j))) \/
        In x (explicit_matches ms from n l))).
    { rewrite IH. split.
      - intros (q & id & i & m & t & j & [E | H] & R).
        + injection E as -> ->. left. exists id, i, m, t, j. auto.
        + right. exists q, id, i, m, t, j. auto.
      - intros [(id & i & m & t & j & E & R) | (q & id & i & m & t & j & H & R)].
        + exists p, id, i, m, t, j. split; [left; rewrite E; reflexivity | exact R].
        + exists q, id, i, m, t, j. split; [right; exact H | exact R]. }
    rewrite Z. clear Z IH. cbn [explicit_matches].
    assert (NO : forall (P : Prop), ~ P -> forall Q : Prop, (Q <-> P \/ Q)) by tauto.
    destruct (by_path ms p) as [[id [m|]]|] eqn:B.
    2:{ apply NO. intros (id' & i & m & t & j & _ & _ & H & _).
        apply by_path_nth in H; [congruence | apply gs_paths; exact G]. }
    2:{ apply NO. intros (id' & i & m & t & j & _ & _ & H & _).
        apply by_path_nth in H; [congruence | apply gs_paths; exact G]. }
    apply by_path_nth in B; [| apply gs_paths; exact G].
    pose proof (gs_modules _ G _ _ _ B) as GM. pose proof (gm_names _ GM) as N.
    assert (SAME : forall id' m', nth_error ms id' = Some (p, Some m') -> id' = id /\ m' = m).
    { intros id' m' H. destruct (nth_unique _ _ _ _ _ _ _ (gs_paths _ G) H B) as [-> E].
      injection E as ->. auto. }
    destruct (get_kind KTrait m tn) as [i|] eqn:K.
    2:{ apply NO. intros (id' & i & m' & t & j & E & (m2 & d & H2 & D1 & D2 & _) & H & _).
        destruct (SAME _ _ H2) as [-> ->].
        rewrite (proj2 (get_kind_iff KTrait m tn (d_index d) N)) in K; [discriminate |].
        exists d. rewrite <- E. auto. }
    apply (get_kind_iff _ _ _ _ N) in K. destruct K as (d & D1 & D2 & D3).
    destruct (gm_trait_named _ GM _ _ D1 D2) as (t & T1 & T2). rewrite D3 in T1. rewrite T1.
    destruct (accessible id m (t_name t) from) eqn:A.
    + pose proof A as A0. apply (accessible_iff _ _ _ _ N) in A. destruct A as (e & E1 & E2).
      assert (e = d) by (rewrite T2 in E1; exact (in_unique _ _ _ _ N E1 D1)). subst e.
      destruct (method_index t n) as [j|] eqn:MI.
      * split.
        -- intros [<- | H]; [left | right; exact H].
           exists id, i, m, t, j. split; [exact T2 |]. split; [| auto].
           exists m, d. rewrite T2. auto.
        -- intros [(id' & i' & m' & t' & j' & E & O & H & H1 & H2 & ->) | H]; [left | right; exact H].
           destruct (SAME _ _ H) as [-> ->].
           destruct O as (m2 & d2 & O1 & O2 & O3 & O4 & _). destruct (SAME _ _ O1) as [_ ->].
           rewrite E in O2. rewrite (in_unique _ _ _ _ N O2 D1) in O4.
           assert (i' = i) by congruence. subst i'. assert (t' = t) by congruence. subst t'.
           congruence.
      * apply NO. intros (id' & i' & m' & t' & j' & E & O & H & H1 & H2 & _).
        destruct (SAME _ _ H) as [-> ->].
        destruct O as (m2 & d2 & O1 & O2 & O3 & O4 & _). destruct (SAME _ _ O1) as [_ ->].
        rewrite E in O2. rewrite (in_unique _ _ _ _ N O2 D1) in O4. congruence.
    + apply NO. intros (id' & i' & m' & t' & j' & E & O & H & H1 & H2 & _).
      destruct (SAME _ _ H) as [-> ->].
      destruct O as (m2 & d2 & O1 & O2 & O3 & O4 & O5). destruct (SAME _ _ O1) as [_ ->].
      assert (C : accessible id m (t_name t) from = true).
      { apply (accessible_iff _ _ _ _ N). exists d2. rewrite T2, <- E. auto. }
      congruence.
Qed.

Lemma wildcard_in : forall ms from n l x, good_modules ms ->
  (In x (wildcard_traits ms from n l) <->
   exists p id i m t j, In p l /\ offers ms from p KTrait (t_name t) id i
     /\ nth_error ms id = Some (p, Some m) /\ nth_error (m_traits m) i = Some t
     /\ method_index t n = Some j /\ x = (Some id, ((id, i), j))).
Proof.
  intros ms from n l x G. induction l as [| p l IH]; cbn [wildcard_traits].
  - split; [intros [] |]. intros (p & id & i & m & t & j & [] & _).
  - assert (Z : (exists q id i m t j, In q (p :: l)
        /\ offers ms from q KTrait (t_name t) id i
        /\ nth_error ms id = Some (q, Some m) /\ nth_error (m_traits m) i = Some t
        /\ method_index t n = Some j /\ x = (Some id, ((id, i), j))) <->
       ((exists id i m t j, offers ms from p KTrait (t_name t) id i
        /\ nth_error ms id = Some (p, Some m) /\ nth_error (m_traits m) i = Some t
        /\ method_index t n = Some j /\ x = (Some id, ((id, i), j))) \/
        In x (wildcard_traits ms from n l))).
    { rewrite IH. split.
      - intros (q & id & i & m & t & j & [<- | H] & R).
        + left. exists id, i, m, t, j. auto.
        + right. exists q, id, i, m, t, j. auto.
      - intros [(id & i & m & t & j & R) | (q & id & i & m & t & j & H & R)].
        + exists p, id, i, m, t, j. split; [left; reflexivity | exact R].
        + exists q, id, i, m, t, j. split; [right; exact H | exact R]. }
    rewrite Z. clear Z IH.
    assert (NO : forall (P : Prop), ~ P -> forall Q : Prop, (Q <-> P \/ Q)) by tauto.
    destruct (by_path ms p) as [[id [m|]]|] eqn:B.
    2:{ apply NO. intros (id' & i & m & t & j & _ & H & _).
        apply by_path_nth in H; [congruence | apply gs_paths; exact G]. }
    2:{ apply NO. intros (id' & i & m & t & j & _ & H & _).
        apply by_path_nth in H; [congruence | apply gs_paths; exact G]. }
    apply by_path_nth in B; [| apply gs_paths; exact G].
    pose proof (gs_modules _ G _ _ _ B) as GM. pose proof (gm_names _ GM) as N.
    assert (SAME : forall id' m', nth_error ms id' = Some (p, Some m') -> id' = id /\ m' = m).
    { intros id' m' H. destruct (nth_unique _ _ _ _ _ _ _ (gs_paths _ G) H B) as [-> E].
      injection E as ->. auto. }
    rewrite in_app_iff. unfold collect. rewrite collect_from_in.
    assert (Y : (exists h t j, nth_error (m_traits m) h = Some t /\ method_index t n = Some j
              /\ x = (Some id, ((id, 0 + h), j))
              /\ (Some id <> None -> accessible id m (t_name t) from = true)) <->
             (exists id0 i m0 t j, offers ms from p KTrait (t_name t) id0 i
        /\ nth_error ms id0 = Some (p, Some m0) /\ nth_error (m_traits m0) i = Some t
        /\ method_index t n = Some j /\ x = (Some id0, ((id0, i), j)))).
    { split.
      - intros (h & t & j & A1 & A2 & A3 & A4). exists id, h, m, t, j.
        specialize (A4 ltac:(discriminate)). apply (accessible_iff _ _ _ _ N) in A4.
        destruct A4 as (e & E1 & E2). destruct (gm_trait_defined _ GM _ _ A1) as (d & D1 & D2 & D3).
        rewrite (in_unique _ _ _ _ N E1 D1) in E2.
        split; [exists m, d; auto | auto].
      - intros (id' & i & m' & t & j & O & H & H1 & H2 & ->). destruct (SAME _ _ H) as [-> ->].
        exists i, t, j. split; [exact H1 |]. split; [exact H2 |]. split; [reflexivity |]. intros _.
        destruct O as (m2 & d2 & O1 & O2 & O3 & O4 & O5). destruct (SAME _ _ O1) as [_ ->].
        apply (accessible_iff _ _ _ _ N). exists d2. auto. }
    rewrite Y. tauto.
Qed.

Lemma sort_insert_in : forall x l y, In y (sort_insert x l) <-> y = x \/ In y l.
Proof.
  induction l as [| z l IH]; cbn; intro y; [intuition congruence|].
  destruct (id_leb (key x) (key z)); cbn; [intuition congruence |]. rewrite IH. tauto.
Qed.

Lemma sort_in : forall l y, In y (sort l) <-> In y l.
Proof.
  induction l as [| x l IH]; cbn; intro y; [tauto|]. rewrite sort_insert_in, IH.
  intuition congruence.
Qed.

Definition le_key (a b : trait_id) : Prop := a = b \/ before a b.

Lemma id_leb_iff : forall a b, id_leb a b = true <-> le_key a b.
Proof.
  intros (a1, a2) (b1, b2). unfold id_leb, le_key, before. cbn [fst snd].
  rewrite orb_true_iff, andb_true_iff, Nat.ltb_lt, Nat.eqb_eq, Nat.leb_le. split.
  - intros [L | [-> L]]; [right; left; exact L |].
    destruct (Nat.eq_dec a2 b2) as [-> | D]; [left; reflexivity | right; right; lia].
  - intros [E | [L | [-> L]]]; [injection E as -> ->; right; lia | left; exact L | right; lia].
Qed.

Lemma id_leb_not : forall a b, id_leb a b = false -> before b a.
Proof.
  intros (a1, a2) (b1, b2) H. destruct (id_leb (b1, b2) (a1, a2)) eqn:E.
  - apply id_leb_iff in E. destruct E as [E | E]; [| exact E].
    rewrite E in H. assert (id_leb (a1, a2) (a1, a2) = true) by (apply id_leb_iff; left; reflexivity).
    congruence.
  - exfalso. unfold id_leb in *. cbn [fst snd] in *.
    apply orb_false_iff in H, E. destruct H as [H1 H2], E as [E1 E2].
    apply Nat.ltb_ge in H1, E1. assert (a1 = b1) by lia. subst.
    rewrite Nat.eqb_refl in *. cbn [andb] in *. apply Nat.leb_gt in H2, E2. lia.
Qed.

Lemma before_trans : forall a b c, before a b -> before b c -> before a c.
Proof. intros (a1,a2) (b1,b2) (c1,c2). unfold before. cbn. lia. Qed.
Lemma before_irrefl : forall a, ~ before a a.
Proof. intros (a1,a2). unfold before. cbn. lia. Qed.
Lemma le_before_trans : forall a b c, le_key a b -> before b c -> before a c.
Proof. intros a b c [-> | H] K; [exact K | exact (before_trans _ _ _ H K)]. Qed.
Lemma le_trans' : forall a b c, le_key a b -> le_key b c -> le_key a c.
Proof. intros a b c H [<- | K]; [exact H | right; exact (le_before_trans _ _ _ H K)]. Qed.

Inductive sorted : list tmatch -> Prop :=
| so_nil : sorted []
| so_cons : forall x l, (forall y, In y l -> le_key (key x) (key y)) -> sorted l -> sorted (x :: l).

Lemma sort_insert_sorted : forall x l, sorted l -> sorted (sort_insert x l).
Proof.
  intros x l H. induction H as [| y l A H IH]; cbn.
  - constructor; [intros ? [] | constructor].
  - destruct (id_leb (key x) (key y)) eqn:E.
    + apply id_leb_iff in E. constructor; [| constructor; assumption].
      intros z [<- | Hz]; [exact E | exact (le_trans' _ _ _ E (A z Hz))].
    + apply id_leb_not in E. constructor; [| exact IH]. intros z Hz. apply sort_insert_in in Hz.
      destruct Hz as [-> | Hz]; [right; exact E | exact (A z Hz)].
Qed.

Lemma sort_sorted : forall l, sorted (sort l).
Proof. induction l as [| x l IH]; cbn; [constructor | apply sort_insert_sorted; exact IH]. Qed.

Inductive strict : list tmatch -> Prop :=
| st_nil : strict []
| st_cons : forall x l, (forall y, In y l -> before (key x) (key y)) -> strict l -> strict (x :: l).

Lemma id_eqb_eq : forall a b, id_eqb a b = true <-> a = b.
Proof.
  intros (a1,a2) (b1,b2). unfold id_eqb. cbn. rewrite andb_true_iff, !Nat.eqb_eq.
  split; [intros [-> ->]; reflexivity | intro E; injection E; auto].
Qed.

Lemma dedup_after_facts : forall l k, sorted l -> (forall y, In y l -> le_key k (key y)) ->
  strict (dedup_after k l)
  /\ (forall y, In y (dedup_after k l) -> In y l /\ before k (key y))
  /\ (forall y, In y l -> key y = k \/ exists z, In z (dedup_after k l) /\ key z = key y).
Proof.
  induction l as [| x l IH]; cbn; intros k H K.
  - split; [constructor |]. split; intros y [].
  - inversion H as [| x' l' A S1]; subst. destruct (id_eqb (key x) k) eqn:E.
    + apply id_eqb_eq in E.
      destruct (IH k S1 (fun y Hy => K y (or_intror Hy))) as (I1 & I2 & I3).
      split; [exact I1 |]. split.
      * intros y Hy. destruct (I2 y Hy). auto.
      * intros y [<- | Hy]; [left; exact E | exact (I3 y Hy)].
    + assert (D : key x <> k) by (intro F; apply id_eqb_eq in F; congruence).
      assert (B : before k (key x)).
      { destruct (K x (or_introl eq_refl)) as [F | F]; [congruence | exact F]. }
      destruct (IH (key x) S1 A) as (I1 & I2 & I3). split; [| split].
      * constructor; [intros y Hy; exact (proj2 (I2 y Hy)) | exact I1].
      * intros y [<- | Hy]; [auto |]. destruct (I2 y Hy) as [J1 J2].
        split; [right; exact J1 | exact (before_trans _ _ _ B J2)].
      * intros y [<- | Hy]; [right; exists x; split; [left; reflexivity | reflexivity] |].
        destruct (I3 y Hy) as [F | (z & Z1 & Z2)]; right.
        -- exists x. split; [left; reflexivity | congruence].
        -- exists z. split; [right; exact Z1 | exact Z2].
Qed.

Lemma dedup_facts : forall l, sorted l ->
  strict (dedup l) /\ (forall y, In y (dedup l) -> In y l)
  /\ (forall y, In y l -> exists z, In z (dedup l) /\ key z = key y).
Proof.
  intros l H. destruct l as [| x l]; cbn.
  - split; [constructor |]. split; [tauto | intros y []].
  - inversion H as [| x' l' A S1]; subst.
    destruct (dedup_after_facts l (key x) S1 A) as (I1 & I2 & I3). split; [| split].
    + constructor; [intros y Hy; exact (proj2 (I2 y Hy)) | exact I1].
    + intros y [<- | Hy]; [auto | right; exact (proj1 (I2 y Hy))].
    + intros y [<- | Hy]; [exists x; auto |].
      destruct (I3 y Hy) as [F | (z & Z1 & Z2)]; [exists x; auto | exists z; auto].
Qed.

Lemma strict_split : forall l, strict l -> forall x a y b z, map key l = x ++ a :: y ++ b :: z ->
  before a b.
Proof.
  intros l H. induction H as [| e l A H IH]; intros x a y b z E; [destruct x; discriminate |].
  destruct x as [| c x]; cbn in E.
  - injection E as <- E. assert (I1 : In b (map key l)) by (rewrite E; apply in_app_iff; right; left; reflexivity).
    apply in_map_iff in I1. destruct I1 as (w & <- & W). exact (A w W).
  - injection E as _ E. exact (IH _ _ _ _ _ E).
Qed.

(** All the candidates, with the place where they were found. *)
Definition all_matches (ms : modules) (s : scope) (n : name) : list tmatch :=
  collect None (s_id s) (s_id s) (s_module s) n
  ++ explicit_matches ms (s_id s) n (explicits (s_uses s))
  ++ wildcard_traits ms (s_id s) n (wildcards (s_uses s)).

Lemma foreign_origin : forall ms s p o id, not_self ms s ->
  nth_error ms id = Some (p, o) ->
  In p (wildcards (s_uses s)) \/ In p (map snd (explicits (s_uses s))) -> id <> s_id s.
Proof.
  intros ms s p o id NS H K ->. destruct (NS _ _ H) as [A B]. destruct K; contradiction.
Qed.

Lemma all_matches_in : forall ms s n x, good_modules ms -> not_self ms s ->
  (In x (all_matches ms s n) <->
   exists id j, candidate ms s n id j /\ x = (origin_of s id, (id, j))).
Proof.
  intros ms s n x G NS. unfold all_matches. rewrite !in_app_iff.
  rewrite explicit_in, wildcard_in by exact G. unfold collect. rewrite collect_from_in.
  split.
  - intros [(h & t & j & A1 & A2 & -> & _) |
      [(p & id & i & m & t & j & A1 & A2 & A3 & A4 & A5 & ->) |
       (p & id & i & m & t & j & A1 & A2 & A3 & A4 & A5 & ->)]].
    + exists (s_id s, h), j. split.
      * exists t. split; [apply ts_here; exact A1 | apply method_index_iff; exact A2].
      * unfold origin_of. cbn. rewrite Nat.eqb_refl. reflexivity.
    + exists (id, i), j. split.
      * exists t. split; [| apply method_index_iff; exact A5].
        apply ts_named with (m := m) (p := p); [exists p; auto | exact A3 | exact A4].
      * unfold origin_of. cbn. destruct (Nat.eqb_spec id (s_id s)) as [E|]; [| reflexivity].
        exfalso. apply (foreign_origin ms s p (Some m) id NS A3); [| exact E].
        right. apply in_map_iff. exists (t_name t, p). auto.
    + exists (id, i), j. split.
      * exists t. split; [| apply method_index_iff; exact A5].
        apply ts_star with (m := m) (p := p); assumption.
      * unfold origin_of. cbn. destruct (Nat.eqb_spec id (s_id s)) as [E|]; [| reflexivity].
        exfalso. apply (foreign_origin ms s p (Some m) id NS A3); [left; exact A1 | exact E].
  - intros (id & j & (t & T & D) & ->). apply method_index_iff in D.
    destruct T as [i t T1 | id i m t p (q & Q & O) T2 T3 | id i m t p T0 O T2 T3].
    + left. exists i, t, j. split; [exact T1 |]. split; [exact D |]. split.
      * unfold origin_of. cbn. rewrite Nat.eqb_refl. reflexivity.
      * congruence.
    + assert (p = q). { destruct O as (m2 & d2 & O1 & _). congruence. } subst q.
      right. left. exists p, id, i, m, t, j. split; [exact Q |]. split; [exact O |].
      split; [exact T2 |]. split; [exact T3 |]. split; [exact D |].
      unfold origin_of. cbn. destruct (Nat.eqb_spec id (s_id s)) as [E|]; [| reflexivity].
      exfalso. apply (foreign_origin ms s p (Some m) id NS T2); [| exact E].
      right. apply in_map_iff. exists (t_name t, p). auto.
    + right. right. exists p, id, i, m, t, j. split; [exact T0 |]. split; [exact O |].
      split; [exact T2 |]. split; [exact T3 |]. split; [exact D |].
      unfold origin_of. cbn. destruct (Nat.eqb_spec id (s_id s)) as [E|]; [| reflexivity].
      exfalso. apply (foreign_origin ms s p (Some m) id NS T2); [left; exact T0 | exact E].
Qed.

Lemma find_method_denotes : forall ms s n, good_modules ms -> not_self ms s ->
  method_denotes ms s n (find_method ms s n).
Proof.
  intros ms s n G NS. unfold find_method. fold (all_matches ms s n).
  pose proof (fun x => all_matches_in ms s n x G NS) as AM.
  destruct (dedup_facts _ (sort_sorted (all_matches ms s n))) as (D1 & D2 & D3).
  assert (C : forall id, (exists j, candidate ms s n id j) <->
            In id (map key (dedup (sort (all_matches ms s n))))).
  { intro id. split.
    - intros (j & H). assert (I1 : In (origin_of s id, (id, j)) (sort (all_matches ms s n))).
      { apply sort_in. apply AM. exists id, j. auto. }
      destruct (D3 _ I1) as (z & Z1 & Z2). apply in_map_iff. exists z. auto.
    - intro H. apply in_map_iff in H. destruct H as (z & <- & Z). apply D2, sort_in, AM in Z.
      destruct Z as (id & j & H & ->). exists j. exact H. }
  destruct (dedup (sort (all_matches ms s n))) as [| (o, (t, j)) [| y l]] eqn:E.
  - apply md_none. intros id j H. apply (proj1 (C id)). exists j. exact H.
  - assert (Z : In (o, (t, j)) (all_matches ms s n)).
    { apply sort_in. apply D2. left. reflexivity. }
    apply AM in Z. destruct Z as (id & j' & H & F). injection F as -> -> ->.
    apply md_one; [exact H |]. intros id' j'' H'.
    destruct (proj1 (C id') (ex_intro _ _ H')) as [F | []]. symmetry. exact F.
  - cbn [map]. apply md_many.
    + intro id. symmetry. exact (C id).
    + intros x id yy id' z F. exact (strict_split _ D1 _ _ _ _ _ F).
Qed.

Lemma declares_unique : forall t n i j, declares t n i -> declares t n j -> i = j.
Proof.
  intros t n i j H K. apply method_index_iff in H, K. congruence.
Qed.

Lemma in_scope_unique : forall ms s id t u, good_modules ms -> not_self ms s ->
  trait_in_scope ms s id t -> trait_in_scope ms s id u -> t = u.
Proof.
  intros ms s id t u G NS T U.
  assert (F : forall i t, trait_in_scope ms s (s_id s, i) t ->
    nth_error (m_traits (s_module s)) i = Some t).
  { clear t u T U. intros i t T. remember (s_id s, i) as k eqn:Ek.
    destruct T as [i' t T1 | id' i' m t p (q & Q & O) T2 T3 | id' i' m t p T0 O T2 T3];
      inversion Ek; subst.
    - exact T1.
    - exfalso. assert (p = q). { destruct O as (m2 & d2 & O1 & _). congruence. } subst q.
      apply (foreign_origin ms s p (Some m) _ NS T2); [| reflexivity].
      right. apply in_map_iff. exists (t_name t, p). auto.
    - exfalso. apply (foreign_origin ms s p (Some m) _ NS T2); [left; exact T0 | reflexivity]. }
  assert (F2 : forall id i t, id <> s_id s -> trait_in_scope ms s (id, i) t ->
    exists p m, nth_error ms id = Some (p, Some m) /\ nth_error (m_traits m) i = Some t).
  { clear. intros id i t D T. remember (id, i) as k eqn:Ek.
    destruct T as [i' t T1 | id' i' m t p Q T2 T3 | id' i' m t p T0 O T2 T3];
      inversion Ek; subst; [congruence | exists p, m; auto | exists p, m; auto]. }
  destruct id as [a i]. destruct (Nat.eq_dec a (s_id s)) as [-> | D].
  - apply F in T, U. congruence.
  - destruct (F2 _ _ _ D T) as (p & m & P1 & P2). destruct (F2 _ _ _ D U) as (p' & m' & Q1 & Q2).
    rewrite P1 in Q1. injection Q1 as <- <-. congruence.
Qed.

Lemma strict_ids_unique : forall l k : list trait_id,
  (forall x a y b z, l = x ++ a :: y ++ b :: z -> before a b) ->
  (forall x a y b z, k = x ++ a :: y ++ b :: z -> before a b) ->
  (forall a, In a l <-> In a k) -> l = k.
Proof.
  induction l as [| a l IH]; intros k L K E.
  - destruct k as [| b k]; [reflexivity |]. exfalso. apply (E b). left. reflexivity.
  - destruct k as [| b k]; [exfalso; apply (E a); left; reflexivity |].
    assert (Lt : forall c, In c l -> before a c).
    { intros c Hc. apply in_split in Hc. destruct Hc as (y & z & ->). exact (L [] a y c z eq_refl). }
    assert (Kt : forall c, In c k -> before b c).
    { intros c Hc. apply in_split in Hc. destruct Hc as (y & z & ->). exact (K [] b y c z eq_refl). }
    assert (AB : a = b).
    { destruct (proj1 (E a) (or_introl eq_refl)) as [<- | Ha]; [reflexivity |].
      destruct (proj2 (E b) (or_introl eq_refl)) as [-> | Hb]; [reflexivity |].
      exfalso. exact (before_irrefl _ (before_trans _ _ _ (Lt _ Hb) (Kt _ Ha))). }
    subst b. f_equal. apply IH.
    + intros x c y d z ->. exact (L (a :: x) c y d z eq_refl).
    + intros x c y d z ->. exact (K (a :: x) c y d z eq_refl).
    + intro c. split; intro H.
      * destruct (proj1 (E c) (or_intror H)) as [<- | R]; [| exact R].
        exfalso. exact (before_irrefl _ (Lt _ H)).
      * destruct (proj2 (E c) (or_intror H)) as [<- | R]; [| exact R].
        exfalso. exact (before_irrefl _ (Kt _ H)).
Qed.

Lemma method_denotes_unique : forall ms s n a b, good_modules ms -> not_self ms s ->
  method_denotes ms s n a -> method_denotes ms s n b -> a = b.
Proof.
  intros ms s n a b G NS A B.
  destruct A as [i j A1 A2 | A1 | c d l A1 A2]; destruct B as [i' j' B1 B2 | B1 | c' d' l' B1 B2].
  - pose proof (A2 _ _ B1) as ->. destruct A1 as (t & T & D). destruct B1 as (u & U & D').
    rewrite (in_scope_unique _ _ _ _ _ G NS T U) in D. rewrite (declares_unique _ _ _ _ D D'). reflexivity.
  - exfalso. exact (B1 _ _ A1).
  - exfalso. pose proof (proj1 (B1 c') (or_introl eq_refl)) as [j1 E1].
    pose proof (proj1 (B1 d') (or_intror (or_introl eq_refl))) as [j2 E2].
    apply A2 in E1, E2. subst. exact (before_irrefl _ (B2 [] _ [] _ _ eq_refl)).
  - exfalso. exact (A1 _ _ B1).
  - reflexivity.
  - exfalso. destruct (proj1 (B1 c') (or_introl eq_refl)) as [j1 E1]. exact (A1 _ _ E1).
  - exfalso. pose proof (proj1 (A1 c) (or_introl eq_refl)) as [j1 E1].
    pose proof (proj1 (A1 d) (or_intror (or_introl eq_refl))) as [j2 E2].
    apply B2 in E1, E2. subst. exact (before_irrefl _ (A2 [] _ [] _ _ eq_refl)).
  - exfalso. destruct (proj1 (A1 c) (or_introl eq_refl)) as [j1 E1]. exact (B1 _ _ E1).
  - f_equal. apply strict_ids_unique; [exact A2 | exact B2 |]. intro x. rewrite A1, B1. reflexivity.
Qed.

Lemma find_method_iff : forall ms s n r, good_modules ms -> not_self ms s ->
  (find_method ms s n = r <-> method_denotes ms s n r).
Proof.
  intros ms s n r G NS. split.
  - intros <-. apply find_method_denotes; assumption.
  - intro D. exact (method_denotes_unique _ _ _ _ _ G NS (find_method_denotes ms s n G NS) D).
Qed.

Lemma identifier_identifies : forall ms s locals n, good_modules ms -> good_scope s ->
  not_self ms s -> ~ In n locals -> identifies ms s n (resolve_identifier ms s locals [n]).
Proof.
  intros ms s locals n G GS NS L. unfold resolve_identifier. apply has_not in L. rewrite L.
  change (find_by_path ms s KFunction [n]) with (find_member ms s KFunction n).
  change (find_by_path ms s KSubscript [n]) with (find_member ms s KSubscript n).
  change (method_by_path ms s [n]) with (find_method ms s n).
  pose proof (find_member_denotes ms s KFunction n G GS) as F.
  pose proof (find_member_denotes ms s KSubscript n G GS) as S1.
  pose proof (find_method_denotes ms s n G NS) as M.
  destruct (find_member ms s KFunction n); [apply if_function; exact F | |
                                            apply if_function_clash; exact F].
  destruct (find_member ms s KSubscript n); [apply if_subscript; assumption | |
                                             apply if_subscript_clash; assumption].
  destruct (find_method ms s n) as [o t j | | l | l]; [apply if_method | apply if_nothing |
    apply if_traits_clash |]; try assumption. inversion M.
Qed.

Lemma identifies_unique : forall ms s n a b, good_modules ms -> good_scope s -> not_self ms s ->
  identifies ms s n a -> identifies ms s n b -> a = b.
Proof.
  intros ms s n a b G GS NS A B.
  pose proof (fun k x y => denotes_unique ms s k n x y G GS) as D.
  pose proof (fun x y => method_denotes_unique ms s n x y G NS) as M.
  destruct A as [o i A1 | l A1 | o i A1 A2 | l A1 A2 | o t j A1 A2 A3 | l A1 A2 A3 | A1 A2 A3];
  destruct B as [o' i' B1 | l' B1 | o' i' B1 B2 | l' B1 B2 | o' t' j' B1 B2 B3 | l' B1 B2 B3 | B1 B2 B3];
  pose proof (D _ _ _ A1 B1) as E1; try discriminate E1; try (injection E1; intros; subst; reflexivity);
  pose proof (D _ _ _ A2 B2) as E2; try discriminate E2; try (injection E2; intros; subst; reflexivity);
  pose proof (M _ _ A3 B3) as E3; try discriminate E3; try (injection E3; intros; subst; reflexivity);
  reflexivity.
Qed.

(** Methods written with the path of their trait. *)
Lemma method_qualified : forall ms s tp n o i, good_modules ms -> good_scope s -> tp <> [] ->
  find_by_path ms s KTrait tp = Found o i ->
  exists id t, (o = None -> id = s_id s /\ nth_error (m_traits (s_module s)) i = Some t)
    /\ (forall a, o = Some a -> id = a /\ exists p m, nth_error ms a = Some (p, Some m)
          /\ nth_error (m_traits m) i = Some t)
    /\ (forall j, declares t n j -> method_by_path ms s (tp ++ [n]) = MFound o (id, i) j)
    /\ ((forall j, ~ declares t n j) -> method_by_path ms s (tp ++ [n]) = MMissing).
Proof.
  intros ms s tp n o i G GS H E.
  assert (FO : forall p id x n', offers ms (s_id s) p KTrait n' id x ->
    exists m t, nth_error ms id = Some (p, Some m) /\ nth_error (m_traits m) x = Some t).
  { intros p id x n' (m & d & O1 & O2 & O3 & O4 & _).
    destruct (gm_trait_named _ (gs_modules _ G _ _ _ O1) _ _ O2 O3) as (t & T & _).
    exists m, t. rewrite <- O4. auto. }
  assert (FM : forall n' o' i', find_member ms s KTrait n' = Found o' i' ->
    (o' = None /\ exists t, nth_error (m_traits (s_module s)) i' = Some t) \/
    (exists id p m t, o' = Some id /\ nth_error ms id = Some (p, Some m)
       /\ nth_error (m_traits m) i' = Some t)).
  { intros n' o' i' F. apply (find_member_iff _ _ _ _ _ G GS) in F.
    remember (Found o' i') as r eqn:R.
    destruct F as [x F1 | id x F1 (p & P & F2) | p id x F1 F2 F3 F4 | p q l F1 F2 F3 | F1 F2 F3];
      try discriminate R; injection R as <- <-.
    - left. split; [reflexivity |]. destruct F1 as (d & D1 & D2 & D3).
      destruct (gm_trait_named _ (gc_module _ GS) _ _ D1 D2) as (t & T & _). exists t. congruence.
    - right. destruct (FO _ _ _ _ F2) as (m & t & M1 & M2). exists id, p, m, t. auto.
    - right. destruct (FO _ _ _ _ F4) as (m & t & M1 & M2). exists id, p, m, t. auto. }
  assert (FP : (o = None /\ exists t, nth_error (m_traits (s_module s)) i = Some t) \/
    (exists id p m t, o = Some id /\ nth_error ms id = Some (p, Some m)
       /\ nth_error (m_traits m) i = Some t)).
  { unfold find_by_path in E. destruct tp as [| a [| b tp]]; [congruence | exact (FM _ _ _ E) |].
    destruct (split_symbol (a :: b :: tp)) as [[m n']|]; [| discriminate E].
    destruct (path_eqb m [std_name] && Nat.eqb (s_id s) std_id); [exact (FM _ _ _ E) |].
    destruct (try_path ms KTrait (s_id s) n' m) as [[id x]|] eqn:T; [| discriminate E].
    injection E as <- <-. apply try_path_iff in T; [| exact G].
    destruct (FO _ _ _ _ T) as (m' & t & M1 & M2). right. exists id, m, m', t. auto. }
  assert (EQ : method_by_path ms s (tp ++ [n]) =
    match trait_of ms s o i with
    | Some (id, t) => match method_index t n with Some j => MFound o (id, i) j | None => MMissing end
    | None => MMissing end).
  { unfold method_by_path. assert (D : exists b c l, tp ++ [n] = b :: c :: l).
    { destruct tp as [| b [| c tp]]; [congruence | | ]; cbn; eauto. }
    destruct D as (b & c & l & D). rewrite D, <- D.
    rewrite split_symbol_last by (rewrite D; discriminate).
    rewrite removelast_last, last_last, E. reflexivity. }
  rewrite EQ. unfold trait_of.
  assert (MI : forall t (X : trait_id), (forall j, declares t n j ->
      match method_index t n with Some j => MFound o X j | None => MMissing end = MFound o X j)
     /\ ((forall j, ~ declares t n j) ->
      match method_index t n with Some j => MFound o X j | None => MMissing end = MMissing)).
  { intros t X. split.
    - intros j D. apply method_index_iff in D. rewrite D. reflexivity.
    - intro ND. destruct (method_index t n) as [j|] eqn:Mi; [| reflexivity].
      apply method_index_iff in Mi. exfalso. exact (ND j Mi). }
  destruct FP as [(-> & t & T) | (id & p & m & t & -> & M1 & M2)].
  - exists (s_id s), t. rewrite T. split; [auto |]. split; [discriminate |]. apply MI.
  - exists id, t. rewrite M1, M2. split; [discriminate |]. split.
    + intros a E2. injection E2 as <-. split; [reflexivity |]. exists p, m. auto.
    + apply MI.
Qed.

(** ** Imports meet lookups *)

Lemma all_fine_nodup : forall ms locals l taken, all_fine ms locals taken l -> NoDup taken ->
  NoDup (taken ++ map fst (named l)).
Proof.
  intros ms locals l. induction l as [| d l IH]; intros taken F N; cbn.
  - rewrite app_nil_r. exact N.
  - assert (Fd : fine ms locals taken d).
    { pose proof (F [] d l eq_refl) as Fd. cbn in Fd. rewrite app_nil_r in Fd. exact Fd. }
    destruct d as [p | p n]; cbn.
    + apply IH; [| exact N]. intros a d b ->. exact (F (DAll p :: a) d b eq_refl).
    + inversion Fd as [| ? ? _ _ T]; subst.
      change (n :: map fst (named l)) with ([n] ++ map fst (named l)). rewrite app_assoc. apply IH.
      * intros a d b ->. rewrite <- app_assoc. exact (F (DName p n :: a) d b eq_refl).
      * apply NoDup_rev in N. rewrite <- (rev_involutive (taken ++ [n])), rev_app_distr. cbn.
        apply (NoDup_rev (l := n :: rev taken)). constructor; [rewrite <- in_rev; exact T | exact N].
Qed.

Lemma accepted_wins : forall ms locals l u v s p n, good_modules ms ->
  NoDup (map fst (explicits u)) -> Forall parsed l ->
  resolve_imports ms locals l u = Done v -> In (DName p n) (flat_map (directives []) l) ->
  good_module (s_module s) -> s_uses s = v ->
  (forall a, In a (map fst (m_defs (s_module s))) -> In a locals) ->
  good_scope s /\ exists id m d, nth_error ms id = Some (p, Some m) /\ In (n, d) (m_defs m)
    /\ d_public d = true /\ find_member ms s (d_kind d) n = Found (Some id) (d_index d).
Proof.
  intros ms locals l u v s p n G NU F E I1 GM EU SUB.
  apply (resolve_done_iff _ _ _ _ _ (gs_paths _ G) NU F) in E. destruct E as (E1 & E2 & ->).
  assert (GS : good_scope s).
  { constructor; [exact GM |]. rewrite EU. cbn. rewrite map_app.
    exact (all_fine_nodup _ _ _ _ E2 NU). }
  split; [exact GS |]. apply in_split in I1. destruct I1 as (a & b & I1).
  pose proof (E2 a (DName p n) b I1) as Fd. inversion Fd as [| ? ? X L T]; subst.
  destruct X as (m & d & X1 & X2 & X3). apply In_nth_error in X1. destruct X1 as [id X1].
  exists id, m, d. split; [exact X1 |]. split; [exact X2 |]. split; [exact X3 |].
  apply (find_member_iff _ _ _ _ _ G GS). apply n_named.
  - intros y (e & Y1 & _). apply L. apply SUB. apply in_map_iff. exists (n, e). auto.
  - exists p. split.
    + rewrite EU. cbn. apply in_app_iff. right. rewrite I1, named_app. apply in_app_iff.
      right. left. reflexivity.
    + exists m, d. auto 8.
Qed.
