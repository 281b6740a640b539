(** Proofs about strings as sequences. *)
From Coq Require Import List Bool Arith ZArith Lia.
From Verif Require Import GraphModel NfcModel StrModel StrSeqModel StrSeqSpec.
Import ListNotations.
Open Scope nat_scope.

Lemma text_eqb_spec : forall a b, text_eqb a b = true <-> a = b.
Proof.
  induction a as [|x a IH]; intros [|y b]; cbn [text_eqb]; split; intros H; try discriminate; try reflexivity.
  - apply andb_true_iff in H. destruct H as [H1 H2]. apply Z.eqb_eq in H1. apply IH in H2. congruence.
  - injection H as -> ->. rewrite Z.eqb_refl. apply IH. reflexivity.
Qed.

(** ** Offsets *)

Lemma offsets_length : forall gs a, length (offsets gs a) = length gs.
Proof. induction gs as [|g gs IH]; intros a; cbn [offsets length]; [reflexivity|]. now rewrite IH. Qed.
Lemma offsets_nth : forall gs a i, i < length gs -> nth_error (offsets gs a) i = Some (a + length (List.concat (firstn i gs))).
Proof.
  induction gs as [|g gs IH]; intros a i H; cbn [length] in H; [lia|].
  destruct i as [|i]; cbn [offsets nth_error firstn List.concat]; [cbn [length]; f_equal; lia|].
  rewrite IH by lia. rewrite app_length. f_equal. lia.
Qed.
Lemma boundaries_at : forall gs i, i <= length gs ->
  vec_at (offsets gs 0 ++ [length (List.concat gs)]) i = Val (length (List.concat (firstn i gs))).
Proof.
  intros gs i H. unfold vec_at. destruct (Nat.eq_dec i (length gs)) as [->|N].
  - rewrite nth_error_app2 by (rewrite offsets_length; lia). rewrite offsets_length, Nat.sub_diag. cbn [nth_error].
    now rewrite firstn_all.
  - rewrite nth_error_app1 by (rewrite offsets_length; lia). rewrite offsets_nth by lia. reflexivity.
Qed.

Lemma firstn_split : forall (gs : list (list Z)) i j, i <= j -> firstn j gs = firstn i gs ++ firstn (j - i) (skipn i gs).
Proof.
  intros gs i. revert gs. induction i as [|i IH]; intros gs j H; cbn [firstn skipn app]; [now rewrite Nat.sub_0_r|].
  destruct j as [|j]; [lia|]. destruct gs as [|g gs]; cbn [firstn skipn app]; [now destruct (S j - S i)|].
  f_equal. rewrite (IH gs j) by lia. reflexivity.
Qed.

Lemma skipn_skipn : forall (A : Type) a b (l : list A), skipn a (skipn b l) = skipn (a + b) l.
Proof.
  intros A a b. revert a. induction b as [|b IH]; intros a l; cbn [skipn]; [now rewrite Nat.add_0_r|].
  destruct l as [|x l]; [now rewrite !skipn_nil|]. rewrite IH. replace (a + S b) with (S (a + b)) by lia. reflexivity.
Qed.

Lemma slice_clusters : forall gs i j, i <= j <= length gs ->
  str_slice (List.concat gs) (length (List.concat (firstn i gs))) (length (List.concat (firstn j gs)))
  = Val (List.concat (firstn (j - i) (skipn i gs))).
Proof.
  intros gs i j H. pose proof (firstn_split gs i j (proj1 H)) as E.
  assert (G : List.concat gs = List.concat (firstn i gs) ++ List.concat (firstn (j - i) (skipn i gs)) ++ List.concat (skipn j gs)).
  { rewrite <- !concat_app. f_equal. rewrite app_assoc, <- E. symmetry. apply firstn_skipn. }
  rewrite G, E, concat_app. unfold str_slice. rewrite !app_length.
  destruct (Nat.leb_spec (length (List.concat (firstn i gs))) (length (List.concat (firstn i gs)) + length (List.concat (firstn (j - i) (skipn i gs))))); [|lia].
  destruct (Nat.leb_spec (length (List.concat (firstn i gs)) + length (List.concat (firstn (j - i) (skipn i gs))))
     (length (List.concat (firstn i gs)) + (length (List.concat (firstn (j - i) (skipn i gs))) + length (List.concat (skipn j gs))))); [|lia].
  cbn [andb]. f_equal. rewrite skipn_app, skipn_all, Nat.sub_diag. cbn [skipn app].
  replace (length (List.concat (firstn i gs)) + length (List.concat (firstn (j - i) (skipn i gs))) - length (List.concat (firstn i gs)))
    with (length (List.concat (firstn (j - i) (skipn i gs))) + 0) by lia.
  rewrite firstn_app_2. cbn [firstn]. apply app_nil_r.
Qed.

Section Sequence.
Variable T : tables.
Variable seg : list Z -> list (list Z).

(** ** Iteration *)

Lemma skipn_cons : forall (gs : list (list Z)) i, i < length gs -> exists g, skipn i gs = g :: skipn (S i) gs /\ firstn 1 (skipn i gs) = [g].
Proof.
  induction gs as [|g gs IH]; intros i H; cbn [length] in H; [lia|]. destruct i as [|i]; cbn [skipn].
  - exists g. split; [reflexivity|reflexivity].
  - destruct (IH i) as (g' & E1 & E2); [lia|]. exists g'. rewrite E2. split; [exact E1|reflexivity].
Qed.

Lemma iter_next_lemma : forall s i, List.concat (seg s) = s -> i < length (seg s) ->
  iter_next T (StringIterator s (grapheme_indices seg s) i)
  = Val (Some (nfc T (List.concat (firstn 1 (skipn i (seg s))))), StringIterator s (grapheme_indices seg s) (S i)).
Proof.
  intros s i E H. unfold iter_next, grapheme_indices. cbn [position indices it_string].
  rewrite offsets_length. destruct (Nat.ltb_spec i (length (seg s))); [|lia].
  unfold vec_at at 1. rewrite offsets_nth by lia. cbn [bind Nat.add].
  assert (F : (if Nat.ltb (i + 1) (length (seg s)) then vec_at (offsets (seg s) 0) (i + 1) else Val (length s))
              = Val (length (List.concat (firstn (S i) (seg s))))).
  { destruct (Nat.ltb_spec (i + 1) (length (seg s))).
    - unfold vec_at. replace (i + 1) with (S i) by lia. rewrite offsets_nth by lia. reflexivity.
    - rewrite firstn_all2 by lia. now rewrite E. }
  rewrite F. cbn [bind]. rewrite <- E at 1. rewrite slice_clusters by lia. cbn [bind].
  replace (S i - i) with 1 by lia. replace (i + 1) with (S i) by lia. reflexivity.
Qed.

Lemma characters_from : forall s, List.concat (seg s) = s -> (forall g, In g (seg s) -> nfc T g = g) ->
  forall n i, n = length (seg s) - i -> i <= length (seg s) -> forall fuel, n < fuel ->
  collect (iter_next T) fuel (StringIterator s (grapheme_indices seg s) i) = Val (skipn i (seg s)).
Proof.
  intros s E Hn. induction n as [|n IH]; intros i Hi Hle fuel Hf; (destruct fuel as [|fuel]; [lia|]); cbn [collect].
  - assert (i = length (seg s)) by lia. subst i. unfold iter_next. cbn [position indices]. unfold grapheme_indices.
    rewrite offsets_length, Nat.ltb_irrefl. cbn [bind]. now rewrite skipn_all.
  - rewrite iter_next_lemma by (try exact E; lia). cbn [bind].
    rewrite (IH (S i)) by lia. cbn [bind]. destruct (skipn_cons (seg s) i) as (g & E1 & E2); [lia|].
    rewrite E2, E1. cbn [List.concat]. rewrite app_nil_r. rewrite Hn; [reflexivity|].
    rewrite <- (firstn_skipn i (seg s)). apply in_or_app. right. rewrite E1. now left.
Qed.

Lemma cluster_normal : forall s, List.concat (seg s) = s -> all_normalized T s -> forall g, In g (seg s) -> nfc T g = g.
Proof.
  intros s E H g Hg. apply in_split in Hg. destruct Hg as (a & b & Hg). apply (H (List.concat a) g (List.concat b)).
  rewrite <- E, Hg, concat_app. reflexivity.
Qed.

Lemma characters_lemma : forall s, segments seg s -> all_normalized T s -> characters T seg s = Val (seg s).
Proof.
  intros s [E _] H. unfold characters, iter, grapheme_count.
  apply (characters_from s E (cluster_normal s E H) (length (seg s)) 0); lia.
Qed.

(** ** Slices *)

Lemma normalize_resolved : forall i n, normalize_index i (Z.of_nat n) = resolved n i.
Proof.
  intros i n. unfold normalize_index, resolved. destruct (Z.ltb_spec i 0); lia.
Qed.

Lemma slice_lemma : forall s i j, slice seg s i j =
  Val (List.concat (firstn (resolved (length (seg s)) j - resolved (length (seg s)) i) (skipn (resolved (length (seg s)) i) (seg s)))).
Proof.
  intros s i j. unfold slice. rewrite !normalize_resolved.
  destruct (Nat.leb_spec (resolved (length (seg s)) j) (resolved (length (seg s)) i)).
  - replace (resolved (length (seg s)) j - resolved (length (seg s)) i) with 0 by lia. reflexivity.
  - destruct (Nat.leb_spec (resolved (length (seg s)) j) (length (seg s))) as [|G]; [reflexivity|].
    unfold resolved at 1 in G. lia.
Qed.

(** ** Splitting *)

Lemma split_iter_some : forall s sep, sep <> [] ->
  split_iter seg s sep = Some (SplitIterator s (grapheme_boundaries seg s) sep (grapheme_count seg sep) 0 false).
Proof. intros s [|c sep] H; [congruence|reflexivity]. Qed.
Lemma clusters_pos : forall sep, sep <> [] -> List.concat (seg sep) = sep -> 0 < length (seg sep).
Proof. intros sep H E. destruct (seg sep) as [|g l]; [cbn [List.concat] in E; congruence|cbn [length]; lia]. Qed.

Section Split.
Variables (s sep : list Z).
Hypothesis Hs : List.concat (seg s) = s.
Let gs := seg s.
Let k := length (seg sep).

Definition it_at (n : nat) (f : bool) : split_iterator := SplitIterator s (grapheme_boundaries seg s) sep k n f.

Lemma boundary : forall i, i <= length gs -> vec_at (grapheme_boundaries seg s) i = Val (length (List.concat (firstn i gs))).
Proof. intros i H. unfold grapheme_boundaries, grapheme_indices. rewrite <- Hs at 2. apply boundaries_at. exact H. Qed.
Lemma boundaries_length : length (grapheme_boundaries seg s) = S (length gs).
Proof. unfold grapheme_boundaries, grapheme_indices. rewrite app_length, offsets_length. cbn [length]. unfold gs. lia. Qed.
Lemma slice_at : forall i j, i <= j <= length gs ->
  str_slice s (length (List.concat (firstn i gs))) (length (List.concat (firstn j gs))) = Val (List.concat (firstn (j - i) (skipn i gs))).
Proof. intros i j H. rewrite <- Hs at 1. apply slice_clusters. exact H. Qed.

Lemma range_at : forall n f a b, a <= b <= length gs -> slice_grapheme_range (it_at n f) a b = Val (List.concat (firstn (b - a) (skipn a gs))).
Proof.
  intros n f a b H. unfold slice_grapheme_range. destruct (Nat.leb_spec b a).
  - replace (b - a) with 0 by lia. reflexivity.
  - cbn [it_at boundaries sp_string]. rewrite !boundary by lia. cbn [bind]. apply slice_at. lia.
Qed.

Lemma scan_lemma : forall n f m c, c + m + k <= S (length gs) ->
  match scan (it_at n f) (List.seq c m) with
  | Val (Some p) => c <= p < c + m /\ spelled k sep gs p /\ forall q, c <= q < p -> ~ spelled k sep gs q
  | Val None => forall q, c <= q < c + m -> ~ spelled k sep gs q
  | _ => False
  end.
Proof.
  intros n f. induction m as [|m IH]; intros c H; cbn [List.seq scan]; [intros q Hq; lia|].
  cbn [it_at boundaries sp_string separator separator_grapheme_len]. rewrite !boundary by lia. cbn [bind].
  rewrite slice_at by lia. cbn [bind]. replace (c + k - c) with k by lia.
  destruct (text_eqb (List.concat (firstn k (skipn c gs))) sep) eqn:E.
  - apply text_eqb_spec in E. split; [lia|]. split; [split; [lia|exact E]|]. intros q Hq. lia.
  - assert (N : ~ spelled k sep gs c). { intros [_ X]. apply text_eqb_spec in X. congruence. }
    specialize (IH (S c)). destruct (scan (it_at n f) (List.seq (S c) m)) as [[p|]| |].
    + destruct IH as (I1 & I2 & I3); [lia|]. split; [lia|]. split; [exact I2|]. intros q Hq.
      destruct (Nat.eq_dec q c) as [->|]; [exact N|]. apply I3. lia.
    + intros q Hq. destruct (Nat.eq_dec q c) as [->|]; [exact N|]. apply IH; lia.
    + apply IH. lia.
    + apply IH. lia.
Qed.

Lemma search_lemma : forall n f, n <= length gs ->
  match next_separator_start (it_at n f) with
  | Val (Some p) => n <= p /\ spelled k sep gs p /\ forall q, n <= q < p -> ~ spelled k sep gs q
  | Val None => forall q, n <= q -> ~ spelled k sep gs q
  | _ => False
  end.
Proof.
  intros n f H. unfold next_separator_start. cbn [it_at boundaries next_start separator_grapheme_len].
  rewrite boundaries_length. replace (S (length gs) - 1) with (length gs) by lia.
  destruct (Nat.ltb_spec (length gs - n) k) as [L|L].
  - intros q Hq [Hb _]. lia.
  - pose proof (scan_lemma n f (S (length gs - k) - n) n) as Q. fold (it_at n f).
    destruct (scan (it_at n f) (List.seq n (S (length gs - k) - n))) as [[p|]| |].
    + destruct Q as (Q1 & Q2 & Q3); [lia|]. split; [lia|]. split; assumption.
    + intros q Hq Hsp. apply (Q ltac:(lia) q); [destruct Hsp; lia|exact Hsp].
    + apply Q. lia.
    + apply Q. lia.
Qed.

Lemma spelled_skip : forall n q, n <= length gs -> spelled k sep (skipn n gs) q <-> spelled k sep gs (n + q).
Proof.
  intros n q H. unfold spelled. rewrite skipn_length. rewrite skipn_skipn.
  replace (q + n) with (n + q) by lia. split; intros [A B]; (split; [lia|exact B]).
Qed.

Lemma collect_done : forall fuel n, 0 < fuel -> collect (split_next) fuel (it_at n true) = Val [].
Proof. intros [|fuel] n H; [lia|]. reflexivity. Qed.

Lemma collect_lemma : 0 < k -> forall m n fuel, length gs - n <= m -> n <= length gs -> S m < fuel ->
  exists parts, collect split_next fuel (it_at n false) = Val parts /\ parts_of k sep (skipn n gs) parts.
Proof.
  intros Hk. induction m as [m IH] using lt_wf_ind. intros n fuel Hm Hn Hf.
  destruct fuel as [|fuel]; [lia|]. cbn [collect]. unfold split_next at 1. cbn [it_at finished]. fold (it_at n false).
  pose proof (search_lemma n false Hn) as Q. destruct (next_separator_start (it_at n false)) as [[p|]| |]; try contradiction; cbn [bind].
  - destruct Q as (Q1 & Q2 & Q3). cbn [it_at next_start]. fold (it_at n false). pose proof Q2 as [B _].
    rewrite range_at by lia. cbn [bind it_at sp_string boundaries separator separator_grapheme_len finished].
    destruct (IH (m - 1)) with (n := p + k) (fuel := fuel) as (parts & E & P); try lia.
    unfold it_at in E. rewrite E. cbn [bind]. eexists. split; [reflexivity|].
    replace p with (n + (p - n)) in Q2 by lia. apply spelled_skip in Q2; [|lia].
    apply po_part with (p := p - n).
    + exact Q2.
    + intros q Hq Hsp. apply spelled_skip in Hsp; [|lia]. apply (Q3 (n + q)); [lia|exact Hsp].
    + rewrite skipn_skipn. replace (p - n + k + n) with (p + k) by lia. exact P.
  - cbn [it_at next_start boundaries]. fold (it_at n false). rewrite boundaries_length.
    replace (S (length gs) - 1) with (length gs) by lia. rewrite range_at by lia.
    cbn [bind it_at sp_string boundaries separator separator_grapheme_len finished].
    pose proof (collect_done fuel n ltac:(lia)) as D. unfold it_at in D. rewrite D. cbn [bind]. eexists. split; [reflexivity|].
    rewrite firstn_all2 by (rewrite skipn_length; lia). apply po_last. intros q Hsp. apply spelled_skip in Hsp; [|lia].
    apply (Q (n + q)); [lia|exact Hsp].
Qed.

Lemma split_lemma : sep <> [] -> List.concat (seg sep) = sep -> exists parts, split seg s sep = Val (Some parts) /\ parts_of k sep gs parts.
Proof.
  intros Hne Hsep.
  pose proof (clusters_pos sep Hne Hsep) as Hk. unfold split. rewrite split_iter_some by exact Hne. fold (it_at 0 false).
  destruct (collect_lemma Hk (length gs) 0 (S (S (grapheme_count seg s)))) as (parts & E & P); [lia|lia|unfold grapheme_count; fold gs; lia|].
  exists parts. unfold it_at, k in E. unfold grapheme_count at 2. rewrite E. split; [reflexivity|exact P].
Qed.
End Split.

(** ** Parts *)

Lemma joined_cons : forall sep p rest, rest <> [] -> joined sep (p :: rest) = p ++ sep ++ joined sep rest.
Proof. intros sep p [|q rest] H; [congruence|reflexivity]. Qed.
Lemma parts_ne : forall k sep gs parts, parts_of k sep gs parts -> parts <> [].
Proof. intros k sep gs parts H. destruct H; discriminate. Qed.
Lemma joined_parts : forall k sep gs parts, parts_of k sep gs parts -> joined sep parts = List.concat gs.
Proof.
  intros k sep gs parts H. induction H as [gs H|gs p parts [H1 H2] _ P IH]; [reflexivity|].
  rewrite joined_cons by (eapply parts_ne; exact P). rewrite IH, <- H2, <- !concat_app. f_equal.
  rewrite app_assoc. pose proof (firstn_split gs p (p + k) ltac:(lia)) as E. replace (p + k - p) with k in E by lia.
  rewrite <- E. apply firstn_skipn.
Qed.

Lemma parts_clean : forall k sep gs parts, 0 < k -> parts_of k sep gs parts ->
  Forall (fun part => exists before run after, gs = before ++ run ++ after /\ part = List.concat run /\ forall p, ~ spelled k sep run p) parts.
Proof.
  intros k sep gs parts Hk H. induction H as [gs H|gs p parts H1 H2 P IH].
  - constructor; [|constructor]. exists [], gs, []. cbn [app]. rewrite app_nil_r. auto.
  - constructor.
    + exists [], (firstn p gs), (skipn p gs). cbn [app]. rewrite firstn_skipn. split; [reflexivity|]. split; [reflexivity|].
      intros q [A B]. rewrite firstn_length in A. apply (H2 q); [lia|]. split; [lia|]. rewrite <- B. f_equal.
      rewrite skipn_firstn_comm, firstn_firstn. f_equal. lia.
    + eapply Forall_impl; [|exact IH]. intros part (b & r & a & E & Ep & N). exists (firstn (p + k) gs ++ b), r, a.
      split; [|split; assumption]. rewrite <- app_assoc, <- E. symmetry. apply firstn_skipn.
Qed.

Lemma parts_unique : forall k sep gs p1, parts_of k sep gs p1 -> forall p2, parts_of k sep gs p2 -> p1 = p2.
Proof.
  intros k sep gs p1 H. induction H as [gs H|gs p parts H1 H2 P IH]; intros p2 Q; inversion Q as [gs' N E1 E2|gs' p' parts' N1 N2 N3 E1 E2]; subst.
  - reflexivity.
  - exfalso. eapply H; exact N1.
  - exfalso. eapply N; exact H1.
  - assert (p' = p). { destruct (Nat.lt_trichotomy p' p) as [L|[E|L]]; [exfalso; eapply H2; eauto|exact E|exfalso; eapply N2; eauto]. }
    subst p'. f_equal. now apply IH.
Qed.

(** ** Joining *)

Lemma join_prefix : forall sep rest first q, (forall p m, first ++ flat_map (fun e => sep ++ e) rest = p ++ m -> nfc T p = p) ->
  q = first ++ flat_map (fun e => sep ++ e) rest ->
  fold_left (fun acc element => concat T (concat T acc sep) element) rest first = q.
Proof.
  intros sep rest. induction rest as [|e rest IH]; intros first q H ->; cbn [fold_left flat_map].
  - now rewrite app_nil_r.
  - change (concat T (concat T first sep) e) with (nfc T (nfc T (first ++ sep) ++ e)). cbn [flat_map] in H.
    rewrite (H (first ++ sep) (e ++ flat_map (fun e => sep ++ e) rest)) by (now rewrite <- !app_assoc).
    rewrite (H ((first ++ sep) ++ e) (flat_map (fun e => sep ++ e) rest)) by (now rewrite <- !app_assoc).
    apply IH.
    + intros p m E. apply (H p m). rewrite <- E, <- !app_assoc. reflexivity.
    + now rewrite <- !app_assoc.
Qed.
Lemma joined_flat : forall sep rest first, joined sep (first :: rest) = first ++ flat_map (fun e => sep ++ e) rest.
Proof.
  intros sep. induction rest as [|e rest IH]; intros first; [cbn; now rewrite app_nil_r|].
  rewrite joined_cons by discriminate. rewrite IH. cbn [flat_map]. now rewrite <- !app_assoc.
Qed.
Lemma join_lemma : forall parts sep, all_normalized T (joined sep parts) -> join T parts sep = joined sep parts.
Proof.
  intros [|first rest] sep H; [reflexivity|]. unfold join. apply join_prefix; [|apply joined_flat].
  intros p m E. rewrite <- joined_flat in E. apply (H [] p m). exact E.
Qed.

Lemma split_join_lemma : forall s sep, segments seg s -> segments seg sep -> sep <> [] -> all_normalized T s ->
  exists parts, split seg s sep = Val (Some parts) /\ join T parts sep = s.
Proof.
  intros s sep [Es _] [Esep _] Hne N. destruct (split_lemma s sep Es Hne Esep) as (parts & E & P).
  exists parts. split; [exact E|]. apply joined_parts in P. rewrite Es in P. rewrite join_lemma; [exact P|]. now rewrite P.
Qed.
End Sequence.
