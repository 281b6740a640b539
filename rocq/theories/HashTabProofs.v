From Coq Require Import NArith List Bool Arith Lia.
From Coq Require Import Sorting.Permutation.
From Verif Require Import ListUtil HashTabModel HashTabSpec.
Import ListNotations.

(** ** Index arithmetic *)
Lemma land_pow2 : forall x k, N.land x (N.of_nat (2 ^ k - 1)) = (x mod N.of_nat (2 ^ k))%N.
Proof.
  intros x k. assert (E : N.of_nat (2 ^ k) = (2 ^ N.of_nat k)%N).
  { rewrite Nat2N.inj_pow. reflexivity. }
  assert (E1 : N.of_nat (2 ^ k - 1) = N.ones (N.of_nat k)).
  { rewrite N.ones_equiv, <- E. lia. }
  rewrite E1, E. apply N.land_ones.
Qed.

Definition home (h : N) (cap : nat) : nat := N.to_nat (h mod N.of_nat cap).

Lemma bucket_index_home : forall h k, bucket_index h (2 ^ k) = home h (2 ^ k).
Proof. intros. unfold bucket_index, home. rewrite land_pow2. reflexivity. Qed.

Lemma pow2_pos : forall k, 0 < 2 ^ k.
Proof. intros. assert (2 ^ k <> 0) by (apply Nat.pow_nonzero; lia). lia. Qed.

Lemma home_lt : forall h k, home h (2 ^ k) < 2 ^ k.
Proof.
  intros. unfold home. pose proof (pow2_pos k).
  assert ((h mod N.of_nat (2 ^ k) < N.of_nat (2 ^ k))%N) by (apply N.mod_lt; lia). lia.
Qed.

Lemma next_index_mod : forall i k, next_index i (2 ^ k) = (i + 1) mod 2 ^ k.
Proof.
  intros. unfold next_index. rewrite land_pow2. pose proof (pow2_pos k). rewrite <- (Nat2N.id ((i + 1) mod 2 ^ k)). f_equal.
  rewrite Nat2N.inj_mod. reflexivity.
Qed.

Lemma next_step : forall b j k, next_index ((b + j) mod 2 ^ k) (2 ^ k) = (b + S j) mod 2 ^ k.
Proof.
  intros. rewrite next_index_mod. pose proof (pow2_pos k). rewrite Nat.add_mod_idemp_l by lia. f_equal. lia.
Qed.

Lemma reach : forall cap b i, b < cap -> i < cap -> exists d, d < cap /\ i = (b + d) mod cap.
Proof.
  intros cap b i Hb Hi. destruct (le_lt_dec b i).
  - exists (i - b). split; [lia|]. rewrite Nat.mod_small by lia. lia.
  - exists (cap - b + i). split; [lia|]. replace (b + (cap - b + i)) with (i + 1 * cap) by lia.
    rewrite Nat.mod_add by lia. rewrite Nat.mod_small; lia.
Qed.

Section Proofs.
Context {K V : Type} (keqb : K -> K -> bool) (khash : K -> N) (L : lawful keqb khash).

Notation entry := (entry K V).
Notation kv e := (e_key e, e_val e).

Lemma keqb_sym : forall x y, keqb x y = keqb y x.
Proof.
  intros. destruct (keqb x y) eqn:E; symmetry.
  - eapply law_sym; eauto.
  - destruct (keqb y x) eqn:E2; auto. apply (law_sym _ _ L) in E2. congruence.
Qed.

Lemma keqb_trans_l : forall x y z, keqb x y = true -> keqb x z = keqb y z.
Proof.
  intros x y z H. destruct (keqb y z) eqn:E.
  - eapply law_trans; eauto.
  - destruct (keqb x z) eqn:E2; auto. rewrite keqb_sym in H. rewrite <- E. symmetry. eapply law_trans; eauto.
Qed.

Lemma keqb_trans_r : forall x y z, keqb x y = true -> keqb z x = keqb z y.
Proof. intros. rewrite !(keqb_sym z). apply keqb_trans_l. auto. Qed.

Definition olist (o : option entry) : list entry := match o with Some e => [e] | None => [] end.
Definition entries (bs : list (option entry)) : list entry := flat_map olist bs.

Lemma entries_In : forall bs e, In e (entries bs) <-> exists i, nth_error bs i = Some (Some e).
Proof.
  intros bs e. unfold entries. rewrite in_flat_map. split.
  - intros (o & Ho & He). destruct o; simpl in He; [|tauto]. destruct He as [->|[]].
    apply In_nth_error in Ho. auto.
  - intros (i & Hi). exists (Some e). split; [eapply nth_error_In; eauto|]. simpl. auto.
Qed.

Lemma entries_upd_none : forall bs i e, nth_error bs i = Some None -> Permutation (entries (upd bs i (Some e))) (e :: entries bs).
Proof.
  induction bs as [|o bs IH]; intros [|i] e H; simpl in *; try discriminate.
  - injection H as ->. simpl. apply Permutation_refl.
  - specialize (IH _ e H). unfold entries in *. rewrite IH. rewrite Permutation_middle. apply Permutation_refl.
Qed.

Lemma entries_upd_some : forall bs i e e', nth_error bs i = Some (Some e) ->
  exists rest, Permutation (entries bs) (e :: rest) /\ Permutation (entries (upd bs i (Some e'))) (e' :: rest).
Proof.
  induction bs as [|o bs IH]; intros [|i] e e' H; simpl in *; try discriminate.
  - injection H as ->. simpl. exists (entries bs). split; apply Permutation_refl.
  - destruct (IH _ _ e' H) as (rest & P1 & P2). exists (olist o ++ rest). unfold entries in *. split.
    + rewrite P1. rewrite Permutation_middle. apply Permutation_refl.
    + rewrite P2. rewrite Permutation_middle. apply Permutation_refl.
Qed.

Lemma free_exists : forall bs, length (entries bs) < length bs -> exists i, nth_error bs i = Some None.
Proof.
  induction bs as [|o bs IH]; simpl; intros H; [lia|]. destruct o as [e|]; simpl in H.
  - destruct IH as [i Hi]; [unfold entries in *; lia|]. exists (S i). auto.
  - exists 0. auto.
Qed.

Definition distinct (l : list entry) : Prop := ForallOrdPairs (fun a b => keqb (e_key a) (e_key b) = false) l.

Lemma distinct_perm : forall l l', Permutation l l' -> distinct l -> distinct l'.
Proof.
  unfold distinct. induction 1; intros D; auto.
  - inversion D; subst. constructor; auto. rewrite Forall_forall in *. intros y Hy. apply H2.
    eapply Permutation_in; [apply Permutation_sym|]; eauto.
  - inversion D; subst. inversion H2; subst. inversion H1; subst. constructor; [|constructor; auto].
    constructor; auto. rewrite keqb_sym. auto.
Qed.

Lemma distinct_eq : forall l a b, distinct l -> In a l -> In b l -> keqb (e_key a) (e_key b) = true -> a = b.
Proof.
  intros l a b D Ha Hb E. induction D as [|x l Hx D IH]; [destruct Ha|].
  rewrite Forall_forall in Hx. destruct Ha as [->|Ha], Hb as [->|Hb]; auto.
  - apply Hx in Hb. congruence.
  - apply Hx in Ha. rewrite keqb_sym in Ha. congruence.
Qed.

Lemma distinct_idx : forall bs i j a b, distinct (entries bs) -> nth_error bs i = Some (Some a) -> nth_error bs j = Some (Some b) ->
  keqb (e_key a) (e_key b) = true -> i = j.
Proof.
  assert (G : forall bs i j a b, distinct (entries bs) -> nth_error bs i = Some (Some a) -> nth_error bs j = Some (Some b) ->
    i < j -> keqb (e_key a) (e_key b) = false).
  { induction bs as [|o bs IH]; intros [|i] [|j] a b D Hi Hj Hlt; simpl in *; try lia; try discriminate.
    - injection Hi as ->. simpl in D. inversion D; subst. rewrite Forall_forall in H1. apply H1. apply entries_In. eauto.
    - eapply IH; eauto; try lia. destruct o; simpl in D; auto. inversion D; auto. }
  intros bs i j a b D Hi Hj E. destruct (lt_eq_lt_dec i j) as [[H|H]|H]; auto.
  - rewrite (G _ _ _ _ _ D Hi Hj H) in E. discriminate.
  - rewrite keqb_sym, (G _ _ _ _ _ D Hj Hi H) in E. discriminate.
Qed.

(** ** Bucket invariant *)
Definition placed (bs : list (option entry)) (i : nat) (e : entry) : Prop :=
  e_hash e = khash (e_key e) /\
  exists d, d < length bs /\ i = (home (e_hash e) (length bs) + d) mod length bs /\
    forall j, j < d -> occupied bs ((home (e_hash e) (length bs) + j) mod length bs).

Definition binv (bs : list (option entry)) : Prop :=
  (exists k, 3 <= k /\ length bs = 2 ^ k) /\
  (forall i e, nth_error bs i = Some (Some e) -> placed bs i e) /\
  distinct (entries bs).

Definition fresh (k : K) (bs : list (option entry)) : Prop := forall e, In e (entries bs) -> keqb (e_key e) k = false.

Lemma occupied_upd : forall bs i j (e : entry), i < length bs -> occupied bs j -> occupied (upd bs i (Some e)) j.
Proof.
  intros bs i j e Hi [x Hx]. unfold occupied. rewrite nth_error_upd. destruct (Nat.eqb_spec i j).
  - destruct (Nat.ltb_spec i (length bs)); [eauto|lia].
  - eauto.
Qed.

Lemma placed_upd : forall bs i j e x, i < length bs -> placed bs j x -> placed (upd bs i (Some e)) j x.
Proof.
  intros bs i j e x Hi (H1 & d & Hd & Hj & Ho). split; auto. rewrite upd_length. exists d. repeat split; auto.
  intros. apply occupied_upd; auto.
Qed.

Lemma insert_loop_ok : forall bs e, binv bs -> fresh (e_key e) bs -> e_hash e = khash (e_key e) ->
  forall f df, df < length bs -> nth_error bs (f) = Some None -> f = (home (e_hash e) (length bs) + df) mod length bs ->
  forall n j fuel, n = df - j -> j <= df -> df - j < fuel ->
  (forall i, i < j -> occupied bs ((home (e_hash e) (length bs) + i) mod length bs)) ->
  exists i d, insert_loop keqb fuel bs ((home (e_hash e) (length bs) + j) mod length bs) e = Returned (upd bs i (Some e)) /\
    nth_error bs i = Some None /\ d < length bs /\ i = (home (e_hash e) (length bs) + d) mod length bs /\
    (forall j, j < d -> occupied bs ((home (e_hash e) (length bs) + j) mod length bs)).
Proof.
  intros bs e ((k & Hk & Hlen) & Hp & Hdist) Hfr Hh f df Hdf Hfree Hf. induction n as [|n IH]; intros j fuel Hn Hj Hfuel Hocc.
  - assert (j = df) by lia. subst j. destruct fuel; [lia|]. simpl. rewrite <- Hf, Hfree. exists f, df. auto.
  - destruct fuel; [lia|]. simpl. set (idx := (home (e_hash e) (length bs) + j) mod length bs) in *.
    assert (Hidx : idx < length bs) by (apply Nat.mod_upper_bound; lia).
    destruct (nth_error bs idx) as [[x|]|] eqn:E.
    + assert (Hx : keqb (e_key x) (e_key e) = false) by (apply Hfr, entries_In; eauto).
      rewrite Hx, andb_false_r.
      assert (NE : next_index idx (length bs) = (home (e_hash e) (length bs) + S j) mod length bs).
      { unfold idx. rewrite Hlen. apply next_step. }
      rewrite NE. apply (IH (S j)); try lia.
      intros i Hi. destruct (Nat.eq_dec i j) as [->|]; [|apply Hocc; lia]. exists x. exact E.
    + exists idx, j. repeat split; auto; lia.
    + apply nth_error_None in E. lia.
Qed.

Lemma insert_entry_ok : forall bs e, binv bs -> fresh (e_key e) bs -> e_hash e = khash (e_key e) ->
  length (entries bs) < length bs ->
  exists bs', insert_entry keqb bs e = Returned bs' /\ binv bs' /\ length bs' = length bs /\ Permutation (entries bs') (e :: entries bs).
Proof.
  intros bs e B Hfr Hh Hroom. pose proof B as ((k & Hk & Hlen) & Hp & Hdist).
  destruct (free_exists bs Hroom) as [f Hf]. assert (f < length bs) by (apply nth_error_Some; congruence).
  pose proof (home_lt (e_hash e) k) as Hhl. rewrite <- Hlen in Hhl.
  destruct (reach (length bs) (home (e_hash e) (length bs)) f Hhl H) as (df & Hdf & Ef).
  destruct (insert_loop_ok bs e B Hfr Hh f df Hdf Hf Ef df 0 (S (length bs))) as (i & d & R & Hi & Hd & Ei & Ho); try lia.
  assert (Hil : i < length bs) by (apply nth_error_Some; congruence).
  exists (upd bs i (Some e)). split.
  { unfold insert_entry. rewrite <- R. f_equal. rewrite Nat.add_0_r, Nat.mod_small by auto. rewrite Hlen. apply bucket_index_home. }
  pose proof (entries_upd_none bs i e Hi) as P. split; [|split; [apply upd_length|auto]].
  split; [rewrite upd_length; eauto|]. split.
  - intros j x Hx. rewrite nth_error_upd in Hx. destruct (Nat.eqb_spec i j) as [<-|Hn].
    + destruct (Nat.ltb_spec i (length bs)); [|lia]. injection Hx as <-. apply placed_upd; auto.
      split; auto. exists d. auto.
    + apply placed_upd; auto.
  - eapply distinct_perm; [apply Permutation_sym; eauto|]. constructor; auto. apply Forall_forall.
    intros x Hx. rewrite keqb_sym. apply Hfr. auto.
Qed.

Lemma rehash_loop_ok : forall old new, distinct (entries old) -> (forall e, In e (entries old) -> e_hash e = khash (e_key e)) ->
  binv new -> (forall e x, In e (entries old) -> In x (entries new) -> keqb (e_key x) (e_key e) = false) ->
  length (entries old) + length (entries new) < length new ->
  exists new', rehash_loop keqb old new = Returned new' /\ binv new' /\ length new' = length new /\
    Permutation (entries new') (entries old ++ entries new).
Proof.
  induction old as [|[e|] old IH]; simpl; intros new D Hh B Hx Hroom.
  - exists new. auto.
  - inversion D as [|? ? D1 D2]; subst.
    destruct (insert_entry_ok new e B) as (n1 & R1 & B1 & L1 & P1); auto; try lia.
    { intros x Hin. apply Hx; auto. }
    rewrite R1. simpl. rewrite Forall_forall in D1.
    destruct (IH n1) as (n2 & R2 & B2 & L2 & P2); auto.
    + intros y x Hy Hin. eapply Permutation_in in Hin; [|exact P1]. destruct Hin as [<-|Hin]; auto.
    + rewrite (Permutation_length P1). simpl. unfold entries in *. lia.
    + exists n2. split; auto. split; auto. split; [lia|]. rewrite P2, P1. symmetry. apply Permutation_middle.
  - apply IH; auto.
Qed.

Lemma entries_empty : forall n, entries (empty_buckets n) = [].
Proof. induction n; simpl; auto. Qed.

Lemma binv_empty : forall k, 3 <= k -> binv (empty_buckets (2 ^ k)).
Proof.
  intros k Hk. unfold empty_buckets. split; [exists k; rewrite repeat_length; auto|]. split.
  - intros i e H. apply nth_error_In, repeat_spec in H. discriminate.
  - fold (@empty_buckets K V (2 ^ k)). rewrite entries_empty. constructor.
Qed.

Lemma rehash_ok : forall t k, 3 <= k -> distinct (entries (buckets t)) -> (forall e, In e (entries (buckets t)) -> e_hash e = khash (e_key e)) ->
  length (entries (buckets t)) < 2 ^ k ->
  exists bs', rehash keqb t (2 ^ k) = Returned (mkTable bs' (tlen t)) /\ binv bs' /\ length bs' = 2 ^ k /\ Permutation (entries bs') (entries (buckets t)).
Proof.
  intros t k Hk D Hh Hr. unfold rehash.
  assert (Hlen : length (@empty_buckets K V (2 ^ k)) = 2 ^ k) by apply repeat_length.
  destruct (rehash_loop_ok (buckets t) (empty_buckets (2 ^ k)) D Hh (binv_empty k Hk)) as (n & R & B & Ln & P).
  - rewrite entries_empty. simpl. tauto.
  - rewrite entries_empty, Hlen. simpl. lia.
  - rewrite R. simpl. exists n. rewrite entries_empty, app_nil_r in P. split; auto. split; auto. split; auto. lia.
Qed.

(** ** Table invariant: [A] is the content, as key/value pairs *)
Definition tinv (t : table K V) (A : list (K * V)) : Prop :=
  Permutation (map (fun e => kv e) (entries (buckets t))) A /\ tlen t = length A /\
  (buckets t = [] \/ binv (buckets t) /\ tlen t * 3 < length (buckets t) * 2).

Lemma tinv_len : forall t A, tinv t A -> length (entries (buckets t)) = tlen t.
Proof. intros t A (P & E & _). apply Permutation_length in P. rewrite map_length in P. lia. Qed.

Lemma tinv_new : tinv tab_new [].
Proof. split; [constructor|]. split; auto. Qed.

Lemma probe_none : forall bs h k, binv bs -> (forall e, In e (entries bs) -> keqb (e_key e) k = false) ->
  forall r i, i < length bs -> find_loop keqb r bs i h k = Returned None.
Proof.
  intros bs h k ((q & Hq & Hlen) & _) Hn. induction r as [|r IH]; intros i Hi; simpl; auto.
  destruct (nth_error bs i) as [[x|]|] eqn:E; auto.
  - rewrite Hn by (apply entries_In; eauto). rewrite andb_false_r. apply IH.
    rewrite Hlen, next_index_mod. apply Nat.mod_upper_bound. pose proof (pow2_pos q). lia.
  - apply nth_error_None in E. lia.
Qed.

Lemma probe_some : forall bs k i e, binv bs -> nth_error bs i = Some (Some e) -> keqb (e_key e) k = true ->
  forall d, i = (home (khash k) (length bs) + d) mod length bs ->
  (forall j, j < d -> occupied bs ((home (khash k) (length bs) + j) mod length bs)) ->
  forall n j r, n = d - j -> j <= d -> d - j < r ->
  find_loop keqb r bs ((home (khash k) (length bs) + j) mod length bs) (khash k) k = Returned (Some i).
Proof.
  intros bs k i e B Hi Hk d Hd Ho. pose proof B as ((q & Hq & Hlen) & Hp & D).
  assert (Hit : forall x, nth_error bs i = Some (Some x) -> (e_hash x =? khash k)%N && keqb (e_key x) k = true).
  { intros x Hx. assert (x = e) by congruence. subst x. destruct (Hp _ _ Hi) as [Hh _].
    rewrite Hh, (law_hash _ _ L _ _ Hk), N.eqb_refl, Hk. auto. }
  induction n as [|n IH]; intros j r Hn Hj Hr.
  - assert (j = d) by lia. subst j. destruct r; [lia|]. simpl. rewrite <- Hd, Hi, Hit by auto. auto.
  - destruct r; [lia|]. simpl. destruct (Ho j) as [x Hx]; [lia|]. rewrite Hx.
    destruct ((e_hash x =? khash k)%N && keqb (e_key x) k) eqn:E.
    + apply andb_prop in E as [_ E]. f_equal. f_equal. eapply distinct_idx; eauto.
      rewrite (keqb_trans_l _ _ _ E), keqb_sym. auto.
    + rewrite Hlen, next_step, <- Hlen. apply IH; lia.
Qed.

Lemma find_ok : forall t A k, tinv t A ->
  (exists i e, find_index keqb t (khash k) k = Returned (Some i) /\ nth_error (buckets t) i = Some (Some e) /\ keqb (e_key e) k = true) \/
  (find_index keqb t (khash k) k = Returned None /\ forall e, In e (entries (buckets t)) -> keqb (e_key e) k = false).
Proof.
  intros t A k (P & Hl & [E|[B Hload]]); unfold find_index.
  - rewrite E. right. simpl. split; auto. intros e [].
  - pose proof B as ((q & Hq & Hlen) & Hp & D). pose proof (pow2_pos q). pose proof (home_lt (khash k) q) as Hhl. rewrite <- Hlen in Hhl.
    destruct (Nat.leb_spec (length (buckets t)) 0); [lia|].
    assert (EB : bucket_index (khash k) (length (buckets t)) = (home (khash k) (length (buckets t)) + 0) mod length (buckets t)).
    { rewrite Nat.add_0_r, Nat.mod_small by auto. rewrite Hlen. apply bucket_index_home. }
    destruct (existsb (fun e => keqb (e_key e) k) (entries (buckets t))) eqn:EX.
    + apply existsb_exists in EX as (e & He & Hk). apply entries_In in He as [i Hi]. left. exists i, e. split; auto.
      destruct (Hp _ _ Hi) as (Hh & d & Hd & Ei & Ho). assert (EH : e_hash e = khash k) by (rewrite Hh; apply (law_hash _ _ L); auto).
      rewrite EH in *. rewrite EB. eapply probe_some; eauto; lia.
    + assert (N : forall e, In e (entries (buckets t)) -> keqb (e_key e) k = false).
      { intros e He. destruct (keqb (e_key e) k) eqn:E2; auto. rewrite <- EX. symmetry. apply existsb_exists. eauto. }
      right. split; auto. apply probe_none; auto. rewrite EB. apply Nat.mod_upper_bound. lia.
Qed.

Lemma binv_hash : forall bs e, binv bs -> In e (entries bs) -> e_hash e = khash (e_key e).
Proof. intros bs e (_ & Hp & _) He. apply entries_In in He as [i Hi]. apply (Hp _ _ Hi). Qed.

Lemma reserve_ok : forall t A, tinv t A ->
  exists t', reserve_for_insert keqb t = Returned t' /\ tinv t' A /\ binv (buckets t') /\ (tlen t' + 1) * 3 < length (buckets t') * 2.
Proof.
  intros t A (P & Hl & C). unfold reserve_for_insert.
  assert (G : forall k, 3 <= k -> distinct (entries (buckets t)) -> (forall e, In e (entries (buckets t)) -> e_hash e = khash (e_key e)) ->
     (tlen t + 1) * 3 < 2 ^ k * 2 ->
     exists t', rehash keqb t (2 ^ k) = Returned t' /\ tinv t' A /\ binv (buckets t') /\ (tlen t' + 1) * 3 < length (buckets t') * 2).
  { intros k Hk D Hh Hroom. assert (HE : length (entries (buckets t)) = tlen t).
    { apply Permutation_length in P. rewrite map_length in P. lia. }
    destruct (rehash_ok t k Hk D Hh) as (bs & R & B & Ln & P2); [rewrite HE; lia|].
    exists (mkTable bs (tlen t)). split; auto. simpl. split; [|split; [auto|lia]]. split; [|split; [auto|right; split; auto; simpl; lia]].
    simpl. rewrite <- P. apply Permutation_map. auto. }
  destruct C as [E|[B Hload]].
  - rewrite E. simpl. assert (A = []) by (rewrite E in P; simpl in P; apply Permutation_nil; auto). subst A. simpl in Hl.
    change 8 with (2 ^ 3). apply G; try lia.
    + rewrite E. constructor.
    + rewrite E. intros e [].
    + rewrite Hl. simpl. lia.
  - pose proof B as ((q & Hq & Hlen) & Hp & D). pose proof (pow2_pos q).
    destruct (Nat.leb_spec (length (buckets t)) 0); [lia|].
    destruct (Nat.leb_spec (length (buckets t) * 2) ((tlen t + 1) * 3)).
    + rewrite Hlen. replace (2 ^ q * 2) with (2 ^ S q) by (simpl; lia). apply G; auto.
      * intros. eapply binv_hash; eauto.
      * rewrite Hlen in *. assert (8 <= 2 ^ q) by (change 8 with (2 ^ 3); apply Nat.pow_le_mono_r; lia). simpl. lia.
    + exists t. split; auto. split; [|split; auto]. split; auto.
Qed.

Lemma insert_new : forall t A k v, tinv t A -> (forall e, In e (entries (buckets t)) -> keqb (e_key e) k = false) ->
  exists t1 bs, reserve_for_insert keqb t = Returned t1 /\
    insert_entry keqb (buckets t1) (mkEntry (khash k) k v) = Returned bs /\ tinv (mkTable bs (tlen t1 + 1)) ((k, v) :: A).
Proof.
  intros t A k v T Hn. destruct (reserve_ok t A T) as (t1 & R & T1 & B & Hroom).
  pose proof (tinv_len _ _ T1) as HL. pose proof T1 as (P1 & Hl1 & _). pose proof T as (P & Hl & _).
  assert (Hk1 : length (buckets t1) <> 0) by (destruct B as ((q & ? & ->) & _); pose proof (pow2_pos q); lia).
  destruct (insert_entry_ok (buckets t1) (mkEntry (khash k) k v) B) as (bs & R2 & B2 & L2 & P2); auto.
  - intros e He. simpl. assert (In (kv e) A).
    { eapply Permutation_in; [apply P1|]. apply in_map_iff. eauto. }
    eapply Permutation_in in H; [|apply Permutation_sym, P]. apply in_map_iff in H as (x & Ex & Hx). injection Ex as <- _. auto.
  - lia.
  - exists t1, bs. split; auto. split; auto. split; [|split].
    + simpl. etransitivity; [apply Permutation_map, P2|]. simpl. constructor. auto.
    + simpl. lia.
    + right. simpl. split; auto. lia.
Qed.

(** ** Maps *)
Lemma latest_from_filter : forall (l : list (K * V)) s1 s2, latest_from keqb (s1 ++ s2) l =
  filter (fun p => negb (present keqb (fst p) s2)) (latest_from keqb s1 l).
Proof.
  induction l as [|[k v] l IH]; intros s1 s2; simpl; auto.
  unfold present at 1. rewrite existsb_app. fold (present keqb k s1) (present keqb k s2).
  specialize (IH (k :: s1) s2). simpl in IH. destruct (present keqb k s1); simpl; [auto|].
  destruct (present keqb k s2); simpl; [auto|]. f_equal. auto.
Qed.

Lemma latest_cons : forall k v (l : list (K * V)), latest keqb ((k, v) :: l) = (k, v) :: filter (fun p => negb (keqb k (fst p))) (latest keqb l).
Proof.
  intros. unfold latest. simpl. f_equal. change [k] with ([] ++ [k]). rewrite latest_from_filter. apply filter_ext.
  intros [a b]. simpl. rewrite orb_false_r. auto.
Qed.

Lemma lookup_latest : forall (l : list (K * V)) k, lookup keqb k l = option_map snd (find (fun p => keqb (fst p) k) (latest keqb l)).
Proof.
  assert (G : forall (l : list (K * V)) k seen, present keqb k seen = false ->
     lookup keqb k l = option_map snd (find (fun p => keqb (fst p) k) (latest_from keqb seen l))).
  { induction l as [|[k' v] l IH]; intros k seen Hs; simpl; auto.
    destruct (keqb k' k) eqn:E.
    - assert (H : present keqb k' seen = false).
      { rewrite <- Hs. unfold present. clear - E L. induction seen as [|s seen IHs]; simpl; auto.
        rewrite IHs. f_equal. apply keqb_trans_r. auto. }
      rewrite H. simpl. rewrite E. auto.
    - assert (H : present keqb k (k' :: seen) = false) by (simpl; rewrite E; auto).
      destruct (present keqb k' seen); simpl; [apply IH; auto|]. rewrite E. apply IH; auto. }
  intros. apply G. auto.
Qed.

Lemma find_perm_none : forall (A : list (K * V)) k, (forall p, In p A -> keqb (fst p) k = false) -> find (fun p => keqb (fst p) k) A = None.
Proof. induction A; simpl; intros; auto. rewrite H by auto. auto. Qed.

Lemma tinv_perm : forall t A A', Permutation A A' -> tinv t A -> tinv t A'.
Proof. intros t A A' P (H1 & H2 & H3). split; [etransitivity; eauto|]. split; auto. rewrite H2. apply Permutation_length. auto. Qed.

Lemma lookup_none : forall t l k, tinv t (latest keqb l) -> (forall e, In e (entries (buckets t)) -> keqb (e_key e) k = false) -> lookup keqb k l = None.
Proof.
  intros t l k (P & _) H. rewrite lookup_latest, find_perm_none; auto.
  intros p Hp. eapply Permutation_in in Hp; [|apply Permutation_sym, P]. apply in_map_iff in Hp as (e & <- & He). simpl. auto.
Qed.

Lemma tinv_distinct : forall t A, tinv t A -> distinct (entries (buckets t)).
Proof. intros t A (_ & _ & [E|[(_ & _ & D) _]]); auto. rewrite E. constructor. Qed.

Lemma lookup_some : forall t l k e, tinv t (latest keqb l) -> In e (entries (buckets t)) -> keqb (e_key e) k = true -> lookup keqb k l = Some (e_val e).
Proof.
  intros t l k e T He Hk. rewrite lookup_latest. pose proof T as (P & _).
  destruct (find (fun p => keqb (fst p) k) (latest keqb l)) as [[k' v']|] eqn:F.
  - apply find_some in F as [F1 F2]. simpl in F2. eapply Permutation_in in F1; [|apply Permutation_sym, P].
    apply in_map_iff in F1 as (x & Ex & Hx). injection Ex as <- <-. simpl. f_equal.
    assert (x = e); [|subst; auto]. eapply distinct_eq; eauto using tinv_distinct.
    rewrite (keqb_trans_l _ _ _ F2), keqb_sym. auto.
  - exfalso. assert (H : In (kv e) (latest keqb l)).
    { eapply Permutation_in; [exact P|]. apply in_map_iff. eauto. }
    apply (find_none _ _ F) in H. simpl in H. congruence.
Qed.

Lemma map_get_ok : forall t l k, tinv t (latest keqb l) -> map_get keqb khash t k = Returned (lookup keqb k l).
Proof.
  intros t l k T. unfold map_get. destruct (find_ok t _ k T) as [(i & e & F & Hi & Hk)|[F N]]; rewrite F; simpl.
  - rewrite Hi. do 1 f_equal. symmetry. eapply lookup_some; eauto. apply entries_In. eauto.
  - f_equal. symmetry. eapply lookup_none; eauto.
Qed.

Lemma filter_all : forall A (f : A -> bool) l, (forall x, In x l -> f x = true) -> filter f l = l.
Proof. induction l; simpl; intros; auto. rewrite H by auto. f_equal. auto. Qed.

Lemma map_insert_ok : forall t l k v, tinv t (latest keqb l) ->
  exists t', map_insert keqb khash t k v = Returned (t', lookup keqb k l) /\ tinv t' (latest keqb ((k, v) :: l)).
Proof.
  intros t l k v T. unfold map_insert. destruct (find_ok t _ k T) as [(i & e & F & Hi & Hk)|[F N]]; rewrite F; simpl.
  - rewrite Hi. rewrite (lookup_some t l k e T) by (auto; apply entries_In; eauto). eexists. split; [reflexivity|].
    pose proof T as (P & Hl & C). destruct (entries_upd_some _ _ _ (mkEntry (khash k) k v) Hi) as (rest & P1 & P2).
    pose proof (tinv_distinct _ _ T) as D. pose proof (distinct_perm _ _ P1 D) as D1. inversion D1 as [|? ? F1 D2]; subst.
    rewrite Forall_forall in F1. assert (PE : Permutation (map (fun e => kv e) (entries (upd (buckets t) i (Some (mkEntry (khash k) k v))))) (latest keqb ((k, v) :: l))).
    { rewrite latest_cons. etransitivity; [apply Permutation_map, P2|]. simpl. constructor.
      assert (Q : Permutation (latest keqb l) (kv e :: map (fun e => kv e) rest)).
      { rewrite <- P. etransitivity; [apply Permutation_map, P1|]. apply Permutation_refl. }
      assert (Q2 : Permutation (filter (fun p => negb (keqb k (fst p))) (latest keqb l)) (filter (fun p => negb (keqb k (fst p))) (kv e :: map (fun e => kv e) rest))).
      { clear - Q. induction Q; simpl; auto.
        - destruct (negb _); auto.
        - destruct (negb (keqb k (fst x))), (negb (keqb k (fst y))); auto. apply perm_swap.
        - etransitivity; eauto. }
      rewrite Q2. simpl. rewrite keqb_sym, Hk. simpl. rewrite filter_all; auto.
      intros p Hp. apply in_map_iff in Hp as (x & <- & Hx). simpl. rewrite <- (keqb_trans_l _ _ _ Hk). rewrite F1; auto. }
    split; [exact PE|]. split; [change (tlen t = length (latest keqb ((k, v) :: l)))|simpl].
    + rewrite <- (Permutation_length PE), map_length, (Permutation_length P2). simpl.
      rewrite Hl, <- (Permutation_length P), map_length, (Permutation_length P1). auto.
    + right. destruct C as [E|[B Hload]]; [rewrite E in Hi; destruct i; discriminate|]. rewrite upd_length. split; auto.
      destruct B as (Hlen & Hp & _). assert (Hil : i < length (buckets t)) by (apply nth_error_Some; congruence).
      split; [rewrite upd_length; auto|]. split.
      * intros j x Hx. rewrite nth_error_upd in Hx. destruct (Nat.eqb_spec i j) as [<-|Hn]; [|apply placed_upd; auto].
        destruct (Nat.ltb_spec i (length (buckets t))); [|lia]. injection Hx as <-. apply placed_upd; auto.
        destruct (Hp _ _ Hi) as (Hh & d & Hd & Ei & Ho). rewrite (law_hash _ _ L _ _ Hk) in Hh. split; auto. simpl.
        rewrite <- Hh. exists d. auto.
      * eapply distinct_perm; [apply Permutation_sym, P2|]. constructor; auto. apply Forall_forall. intros x Hx. simpl.
        rewrite <- (keqb_trans_l _ _ _ Hk). auto.
  - destruct (insert_new t _ k v T N) as (t1 & bs & R1 & R2 & T2). rewrite R1. simpl. rewrite R2. simpl.
    rewrite (lookup_none t l k T N). eexists. split; [reflexivity|]. rewrite latest_cons, filter_all; auto.
    intros p Hp. destruct T as (P & _). eapply Permutation_in in Hp; [|apply Permutation_sym, P]. apply in_map_iff in Hp as (x & <- & Hx). simpl. rewrite keqb_sym, N; auto.
Qed.

Lemma map_extend_ok : forall l t ins, tinv t (latest keqb ins) ->
  exists t', map_extend keqb khash t l = Returned t' /\ tinv t' (latest keqb (rev l ++ ins)).
Proof.
  induction l as [|[k v] l IH]; intros t ins T; simpl.
  - exists t. auto.
  - destruct (map_insert_ok t ins k v T) as (t1 & R & T1). rewrite R. simpl. destruct (IH t1 _ T1) as (t2 & R2 & T2).
    exists t2. split; auto. rewrite <- app_assoc. auto.
Qed.

Lemma map_run_inv : forall veqb ops t ins, tinv t (latest keqb ins) ->
  exists t', map_run keqb veqb khash t ops = Returned (t', snd (map_spec keqb veqb ins ops)) /\ tinv t' (latest keqb (fst (map_spec keqb veqb ins ops))).
Proof.
  intros veqb. induction ops as [|op ops IH]; intros t ins T; simpl.
  - exists t. auto.
  - destruct op; simpl.
    + destruct (IH tab_new [] tinv_new) as (t' & R & T'). rewrite R. simpl. destruct (map_spec keqb veqb [] ops). simpl in *. eauto.
    + destruct (map_extend_ok l tab_new [] tinv_new) as (t1 & R1 & T1). unfold map_from_iter. rewrite R1. simpl. rewrite app_nil_r in T1.
      destruct (IH t1 _ T1) as (t' & R & T'). rewrite R. simpl. destruct (map_spec keqb veqb (rev l) ops). simpl in *. eauto.
    + destruct (map_insert_ok t ins k v T) as (t1 & R1 & T1). rewrite R1. simpl.
      destruct (IH t1 _ T1) as (t' & R & T'). rewrite R. simpl. destruct (map_spec keqb veqb ((k, v) :: ins) ops). simpl in *. eauto.
    + rewrite (map_get_ok _ _ _ T). simpl. destruct (IH t _ T) as (t' & R & T'). rewrite R. simpl. destruct (map_spec keqb veqb ins ops). simpl in *. eauto.
    + unfold map_contains_key. rewrite (map_get_ok _ _ _ T). simpl. destruct (IH t _ T) as (t' & R & T'). rewrite R. simpl. destruct (map_spec keqb veqb ins ops). simpl in *. eauto.
    + unfold map_contains_key_value. rewrite (map_get_ok _ _ _ T). simpl. destruct (IH t _ T) as (t' & R & T'). rewrite R. simpl. destruct (map_spec keqb veqb ins ops). simpl in *. eauto.
    + destruct (IH t _ T) as (t' & R & T'). rewrite R. simpl. destruct (map_spec keqb veqb ins ops). simpl in *.
      unfold tab_len. destruct T as (_ & -> & _). eauto.
Qed.

(** ** Iteration *)
Lemma iter_next_ok : forall bs index, index <= length bs ->
  match entries (skipn index bs) with
  | [] => exists j, iter_next bs index = Returned (None, j)
  | e :: rest => exists j, iter_next bs index = Returned (Some e, j) /\ index < j <= length bs /\ entries (skipn j bs) = rest
  end.
Proof.
  intros bs index Hi. unfold iter_next.
  assert (G : forall fuel index, index <= length bs -> length bs - index < fuel ->
    match entries (skipn index bs) with
    | [] => exists j, iter_next_loop fuel bs index = Returned (None, j)
    | e :: rest => exists j, iter_next_loop fuel bs index = Returned (Some e, j) /\ index < j <= length bs /\ entries (skipn j bs) = rest
    end).
  { induction fuel as [|f IH]; intros idx Hidx Hf; [lia|]. simpl.
    destruct (Nat.leb_spec (length bs) idx).
    - rewrite skipn_all2 by auto. simpl. eauto.
    - destruct (nth_error bs idx) as [o|] eqn:E; [|apply nth_error_None in E; lia].
      assert (S1 : skipn idx bs = o :: skipn (idx + 1) bs).
      { clear - E. revert idx E. induction bs as [|x bs IHb]; intros [|idx] E; simpl in *; try discriminate.
        - injection E as ->. auto.
        - apply IHb. auto. }
      rewrite S1. destruct o as [e|]; simpl.
      + exists (idx + 1). split; auto. split; [lia|auto].
      + specialize (IH (idx + 1) ltac:(lia) ltac:(lia)). fold (entries (skipn (idx + 1) bs)). destruct (entries (skipn (idx + 1) bs)); auto.
        destruct IH as (j & R & Hj & Ej). exists j. split; auto. split; [lia|auto]. }
  apply G; lia.
Qed.

Lemma iterate_from_ok : forall bs fuel index, index <= length bs -> length bs - index < fuel -> iterate_from fuel bs index = Returned (entries (skipn index bs)).
Proof.
  intros bs. induction fuel as [|f IH]; intros index Hi Hf; [lia|]. simpl. pose proof (iter_next_ok bs index Hi) as N.
  destruct (entries (skipn index bs)) as [|e rest].
  - destruct N as (j & ->). auto.
  - destruct N as (j & -> & Hj & <-). simpl. rewrite IH by lia. auto.
Qed.

Lemma iterate_ok : forall t : table K V, iterate t = Returned (entries (buckets t)).
Proof. intros. unfold iterate. rewrite iterate_from_ok by lia. auto. Qed.

(** ** Equality *)
Lemma all_contained_ok : forall (f : entry -> outcome bool) (g : entry -> bool) es, (forall e, In e es -> f e = Returned (g e)) ->
  all_contained f es = Returned (forallb g es).
Proof.
  induction es as [|e es IH]; simpl; intros H; auto. rewrite H by auto. simpl. destruct (g e); simpl; auto.
Qed.

Lemma shaped : forall t A, tinv t A -> well_shaped khash t.
Proof.
  intros t A T. pose proof (tinv_len _ _ T) as HL. destruct T as (P & Hl & [E|[B Hload]]); unfold well_shaped.
  - rewrite E. split; auto. intros [|i] e H; discriminate.
  - destruct B as ((q & Hq & Hlen) & Hp & D). split.
    + right. split; eauto. apply free_exists. lia.
    + intros i e Hi. destruct (Hp _ _ Hi) as (Hh & d & Hd & Ei & Ho). split; auto. exists d. split; [split; auto|auto].
Qed.

(** Two contents with distinct keys of the same length, one included in the other, are equal as maps. *)
Lemma pigeon : forall (A B : list entry), distinct A -> length A = length B ->
  (forall a, In a A -> exists b, In b B /\ keqb (e_key b) (e_key a) = true) ->
  forall b, In b B -> exists a, In a A /\ keqb (e_key a) (e_key b) = true.
Proof.
  induction A as [|a A IH]; intros B D HL H b Hb; simpl in HL.
  - destruct B; [destruct Hb|discriminate].
  - inversion D as [|? ? F1 D1]; subst. rewrite Forall_forall in F1.
    destruct (H a (or_introl eq_refl)) as (b0 & Hb0 & E0). apply in_split in Hb0 as (B1 & B2 & ->).
    assert (X : b = b0 \/ In b (B1 ++ B2)).
    { apply in_app_iff in Hb as [Hb|[->|Hb]]; auto; right; apply in_app_iff; auto. }
    destruct X as [->|X].
    + exists a. split; [left; auto|]. rewrite keqb_sym. auto.
    + rewrite app_length in HL. simpl in HL. destruct (IH (B1 ++ B2) D1) with (b := b) as (a' & Ha' & E'); auto.
      * rewrite app_length. lia.
      * intros x Hx. destruct (H x (or_intror Hx)) as (y & Hy & Ey). exists y. split; auto.
        apply in_app_iff in Hy as [Hy|[->|Hy]]; apply in_app_iff; auto. exfalso.
        specialize (F1 x Hx). rewrite keqb_sym in E0. rewrite (keqb_trans_l _ _ _ E0) in F1. congruence.
      * exists a'. split; auto. right. auto.
Qed.

Lemma map_eq_ok : forall (veqb : V -> V -> bool), (forall v, veqb v v = true) -> (forall v w, veqb v w = true -> veqb w v = true) ->
  forall t1 t2 l1 l2, tinv t1 (latest keqb l1) -> tinv t2 (latest keqb l2) ->
  exists b, map_eq keqb khash veqb t1 t2 = Returned b /\
   (b = true <-> forall k, match lookup keqb k l1, lookup keqb k l2 with
                           | Some v, Some w => veqb v w = true
                           | None, None => True
                           | _, _ => False end).
Proof.
  intros veqb VR VS t1 t2 l1 l2 T1 T2. unfold map_eq, collection_eq. pose proof (tinv_len _ _ T1) as HL1. pose proof (tinv_len _ _ T2) as HL2.
  assert (LK : forall t l, tinv t (latest keqb l) -> forall k, lookup keqb k l <> None -> exists e, In e (entries (buckets t)) /\ keqb (e_key e) k = true /\ lookup keqb k l = Some (e_val e)).
  { intros t l T k Hk. destruct (find_ok t _ k T) as [(i & e & F & Hi & Hke)|[F N]].
    - exists e. assert (In e (entries (buckets t))) by (apply entries_In; eauto). split; auto. split; auto. eapply lookup_some; eauto.
    - rewrite (lookup_none t l k T N) in Hk. congruence. }
  destruct (Nat.eqb_spec (tlen t1) (tlen t2)) as [El|Nl]; simpl.
  - rewrite iterate_ok. simpl. rewrite all_contained_ok with (g := fun e => match lookup keqb (e_key e) l2 with Some w => veqb w (e_val e) | None => false end).
    2:{ intros e He. unfold map_contains_key_value. rewrite (map_get_ok _ _ _ T2). simpl. auto. }
    eexists. split; [reflexivity|]. rewrite forallb_forall. split.
    + intros H k. destruct (lookup keqb k l1) as [v|] eqn:E1.
      * destruct (LK _ _ T1 k) as (e & He & Hk & Ev); [congruence|]. rewrite E1 in Ev. injection Ev as ->.
        specialize (H e He). destruct (lookup keqb (e_key e) l2) as [w|] eqn:E2; [|discriminate].
        destruct (LK _ _ T2 (e_key e)) as (e2 & He2 & Hk2 & Ev2); [congruence|]. rewrite E2 in Ev2. injection Ev2 as ->.
        rewrite (lookup_some t2 l2 k e2 T2 He2); auto. rewrite (keqb_trans_l _ _ _ Hk2). auto.
      * destruct (lookup keqb k l2) as [w|] eqn:E2; auto.
        destruct (LK _ _ T2 k) as (e2 & He2 & Hk2 & Ev2); [congruence|].
        destruct (pigeon (entries (buckets t1)) (entries (buckets t2))) with (b := e2) as (a & Ha & Ea); eauto using tinv_distinct.
        { lia. }
        { intros a Ha. specialize (H a Ha). destruct (lookup keqb (e_key a) l2) eqn:E3; [|discriminate].
          destruct (LK _ _ T2 (e_key a)) as (e3 & He3 & Hk3 & _); [congruence|]. eauto. }
        rewrite (lookup_some t1 l1 k a T1 Ha) in E1; [discriminate|]. rewrite (keqb_trans_l _ _ _ Ea). auto.
    + intros H e He. specialize (H (e_key e)). rewrite (lookup_some t1 l1 _ e T1 He (law_refl _ _ L _)) in H.
      destruct (lookup keqb (e_key e) l2); auto. 
  - eexists. split; [reflexivity|]. split; [discriminate|]. intros H. exfalso.
    assert (I : forall ta tb la lb, tinv ta (latest keqb la) -> tinv tb (latest keqb lb) ->
       (forall k, match lookup keqb k la, lookup keqb k lb with Some v, Some w => True | None, None => True | _, _ => False end) ->
       length (entries (buckets ta)) <= length (entries (buckets tb))).
    { intros ta tb la lb Ta Tb HH. assert (M : forall a, In a (entries (buckets ta)) -> exists b, In b (entries (buckets tb)) /\ keqb (e_key b) (e_key a) = true).
      { intros a Ha. specialize (HH (e_key a)). rewrite (lookup_some ta la _ a Ta Ha (law_refl _ _ L _)) in HH.
        destruct (LK _ _ Tb (e_key a)) as (b & Hb & Eb & _); eauto. destruct (lookup keqb (e_key a) lb); [congruence|tauto]. }
      pose proof (tinv_distinct _ _ Ta) as D. revert M D. generalize (entries (buckets ta)) as X, (entries (buckets tb)) as Y. clear - L.
      induction X as [|x X IH]; intros Y M D; simpl; [lia|]. inversion D as [|? ? F1 D1]; subst. rewrite Forall_forall in F1.
      destruct (M x (or_introl eq_refl)) as (y & Hy & Ey). apply in_split in Hy as (Y1 & Y2 & ->). rewrite app_length. simpl.
      specialize (IH (Y1 ++ Y2)). rewrite app_length in IH. cut (length X <= length Y1 + length Y2); [lia|]. apply IH; auto.
      intros z Hz. destruct (M z (or_intror Hz)) as (w & Hw & Ew). exists w. split; auto.
      apply in_app_iff in Hw as [Hw|[->|Hw]]; apply in_app_iff; auto. exfalso. specialize (F1 z Hz).
      rewrite keqb_sym in Ey. rewrite (keqb_trans_l _ _ _ Ey) in F1. congruence. }
    pose proof (I t1 t2 l1 l2 T1 T2) as I1. pose proof (I t2 t1 l2 l1 T2 T1) as I2. 
    cut (length (entries (buckets t1)) = length (entries (buckets t2))); [lia|]. apply Nat.le_antisymm.
    + apply I1. intros k. specialize (H k). destruct (lookup keqb k l1), (lookup keqb k l2); auto.
    + apply I2. intros k. specialize (H k). destruct (lookup keqb k l1), (lookup keqb k l2); auto.
Qed.
End Proofs.

(** ** Sets *)
Section SetProofs.
Context {K : Type} (keqb : K -> K -> bool) (khash : K -> N) (L : lawful keqb khash).

Definition sinv (t : table K unit) (ins : list K) : Prop := tinv keqb khash t (map (fun k => (k, tt)) (representatives keqb ins)).

Lemma present_rep : forall ins x, present keqb x (representatives keqb ins) = present keqb x ins.
Proof.
  induction ins as [|y ins IH]; intros x; simpl; auto.
  destruct (present keqb y ins) eqn:E; simpl; rewrite IH; auto.
  destruct (keqb y x) eqn:E2; simpl; auto. rewrite <- E. unfold present. clear - E2 L.
  induction ins as [|z ins IHi]; simpl; auto. rewrite IHi. f_equal. symmetry. eapply keqb_trans_r; eauto.
Qed.

Lemma sinv_present : forall t ins x, sinv t ins -> ((exists e, In e (entries (buckets t)) /\ keqb (e_key e) x = true) <-> present keqb x ins = true).
Proof.
  intros t ins x (P & _). rewrite <- present_rep. unfold present. rewrite existsb_exists. split.
  - intros (e & He & Hk). exists (e_key e). split; auto.
    assert (H : In (e_key e, e_val e) (map (fun k => (k, tt)) (representatives keqb ins))) by (eapply Permutation_in; [exact P|]; apply in_map_iff; eauto).
    apply in_map_iff in H as (k & Ek & Hin). assert (k = e_key e) by congruence. subst k. auto.
  - intros (k & Hk & E). assert (H : In (k, tt) (map (fun k => (k, tt)) (representatives keqb ins))) by (apply in_map_iff; eauto).
    eapply Permutation_in in H; [|apply Permutation_sym, P]. apply in_map_iff in H as (e & Ee & He). assert (k = e_key e) by congruence. subst k. eauto.
Qed.

Lemma set_contains_ok : forall t ins x, sinv t ins -> set_contains keqb khash t x = Returned (present keqb x ins).
Proof.
  intros t ins x T. unfold set_contains. destruct (find_ok keqb khash L t _ x T) as [(i & e & F & Hi & Hk)|[F N]]; rewrite F; simpl; f_equal; symmetry.
  - apply (sinv_present t ins x T). exists e. split; auto. apply entries_In. eauto.
  - destruct (present keqb x ins) eqn:E; auto. apply (sinv_present t ins x T) in E as (e & He & Hk). rewrite N in Hk; auto.
Qed.

Lemma set_insert_ok : forall t ins x, sinv t ins ->
  exists t', set_insert keqb khash t x = Returned (t', negb (present keqb x ins)) /\ sinv t' (x :: ins).
Proof.
  intros t ins x T. unfold set_insert. destruct (find_ok keqb khash L t _ x T) as [(i & e & F & Hi & Hk)|[F N]]; rewrite F; simpl.
  - assert (E : present keqb x ins = true). { apply (sinv_present t ins x T). exists e. split; auto. apply entries_In. eauto. }
    rewrite E. exists t. split; auto. unfold sinv. simpl. rewrite E. auto.
  - assert (E : present keqb x ins = false).
    { destruct (present keqb x ins) eqn:E; auto. apply (sinv_present t ins x T) in E as (e & He & Hk). rewrite N in Hk; auto. }
    destruct (insert_new keqb khash L t _ x tt T N) as (t1 & bs & R1 & R2 & T2). rewrite R1. simpl. rewrite R2. simpl. rewrite E.
    eexists. split; [reflexivity|]. unfold sinv. simpl. rewrite E. simpl. auto.
Qed.

Lemma sinv_new : sinv tab_new [].
Proof. apply tinv_new. Qed.

Lemma set_extend_ok : forall l t ins, sinv t ins -> exists t', set_extend keqb khash t l = Returned t' /\ sinv t' (rev l ++ ins).
Proof.
  induction l as [|x l IH]; intros t ins T; simpl.
  - exists t. auto.
  - destruct (set_insert_ok t ins x T) as (t1 & R & T1). rewrite R. simpl. destruct (IH t1 _ T1) as (t2 & R2 & T2).
    exists t2. split; auto. rewrite <- app_assoc. auto.
Qed.

Lemma set_run_inv : forall ops t ins, sinv t ins ->
  exists t', set_run keqb khash t ops = Returned (t', snd (set_spec keqb ins ops)) /\ sinv t' (fst (set_spec keqb ins ops)).
Proof.
  induction ops as [|op ops IH]; intros t ins T; simpl.
  - exists t. auto.
  - destruct op; simpl.
    + destruct (IH tab_new [] sinv_new) as (t' & R & T'). rewrite R. simpl. destruct (set_spec keqb [] ops). simpl in *. eauto.
    + destruct (set_extend_ok l tab_new [] sinv_new) as (t1 & R1 & T1). unfold set_from_iter. rewrite R1. simpl. rewrite app_nil_r in T1.
      destruct (IH t1 _ T1) as (t' & R & T'). rewrite R. simpl. destruct (set_spec keqb (rev l) ops). simpl in *. eauto.
    + destruct (set_insert_ok t ins x T) as (t1 & R1 & T1). rewrite R1. simpl.
      destruct (IH t1 _ T1) as (t' & R & T'). rewrite R. simpl. destruct (set_spec keqb (x :: ins) ops). simpl in *. eauto.
    + rewrite (set_contains_ok _ _ _ T). simpl. destruct (IH t _ T) as (t' & R & T'). rewrite R. simpl. destruct (set_spec keqb ins ops). simpl in *. eauto.
    + destruct (IH t _ T) as (t' & R & T'). rewrite R. simpl. destruct (set_spec keqb ins ops). simpl in *.
      unfold tab_len. destruct T as (_ & -> & _). rewrite map_length. eauto.
Qed.

Lemma set_eq_ok : forall t1 t2 i1 i2, sinv t1 i1 -> sinv t2 i2 ->
  exists b, set_eq keqb khash t1 t2 = Returned b /\ (b = true <-> forall x, present keqb x i1 = present keqb x i2).
Proof.
  intros t1 t2 i1 i2 T1 T2. unfold set_eq, collection_eq.
  pose proof (tinv_len _ _ _ _ T1) as HL1. pose proof (tinv_len _ _ _ _ T2) as HL2.
  assert (M : forall ta tb ia ib, sinv ta ia -> sinv tb ib -> (forall x, present keqb x ia = true -> present keqb x ib = true) ->
     forall a, In a (entries (buckets ta)) -> exists b, In b (entries (buckets tb)) /\ keqb (e_key b) (e_key a) = true).
  { intros ta tb ia ib Ta Tb HH a Ha. apply (sinv_present tb ib _ Tb), HH, (sinv_present ta ia _ Ta). exists a. split; auto. apply (law_refl _ _ L). }
  destruct (Nat.eqb_spec (tlen t1) (tlen t2)) as [El|Nl]; simpl.
  - rewrite iterate_ok. simpl. rewrite all_contained_ok with (g := fun e => present keqb (e_key e) i2).
    2:{ intros e He. apply set_contains_ok. auto. }
    eexists. split; [reflexivity|]. rewrite forallb_forall. split.
    + intros H x. apply eq_true_iff_eq. rewrite <- (sinv_present t1 i1 x T1), <- (sinv_present t2 i2 x T2). split.
      * intros (e & He & Hk). specialize (H e He). apply (sinv_present t2 i2 _ T2) in H as (e2 & He2 & Hk2). exists e2. split; auto.
        eapply (law_trans _ _ L); eauto.
      * intros (e & He & Hk). destruct (pigeon keqb khash L (entries (buckets t1)) (entries (buckets t2))) with (b := e) as (a & Ha & Ea); eauto using tinv_distinct.
        { lia. }
        { intros a Ha. apply (sinv_present t2 i2 _ T2). auto. }
        exists a. split; auto. eapply (law_trans _ _ L); eauto.
    + intros H e He. rewrite <- H. apply (sinv_present t1 i1 _ T1). exists e. split; auto. apply (law_refl _ _ L).
  - eexists. split; [reflexivity|]. split; [discriminate|]. intros H. exfalso.
    assert (I : forall X Y : list (entry K unit), distinct keqb X -> (forall a, In a X -> exists b, In b Y /\ keqb (e_key b) (e_key a) = true) -> length X <= length Y).
    { clear - L. induction X as [|x X IH]; intros Y D M; simpl; [lia|]. inversion D as [|? ? F1 D1]; subst. rewrite Forall_forall in F1.
      destruct (M x (or_introl eq_refl)) as (y & Hy & Ey). apply in_split in Hy as (Y1 & Y2 & ->). rewrite app_length. simpl.
      specialize (IH (Y1 ++ Y2) D1). rewrite app_length in IH. cut (length X <= length Y1 + length Y2); [lia|]. apply IH; auto.
      intros z Hz. destruct (M z (or_intror Hz)) as (w & Hw & Ew). exists w. split; auto.
      apply in_app_iff in Hw as [Hw|[->|Hw]]; apply in_app_iff; auto. exfalso. specialize (F1 z Hz).
      rewrite (keqb_sym keqb khash L) in Ey. rewrite (keqb_trans_l keqb khash L _ _ _ Ey) in F1. congruence. }
    cut (length (entries (buckets t1)) = length (entries (buckets t2))); [lia|]. apply Nat.le_antisymm.
    + apply I; [eapply tinv_distinct; eauto|]. eapply M; eauto. all: intros x; rewrite H; auto.
    + apply I; [eapply tinv_distinct; eauto|]. eapply M; eauto. all: intros x; rewrite H; auto.
Qed.
End SetProofs.

(** ** Theorems *)
Lemma hash_set_is_a_set : forall (K : Type) (keqb : K -> K -> bool) (khash : K -> N),
  lawful keqb khash -> forall ops : list (set_op K),
  exists t, set_run keqb khash tab_new ops = Returned (t, snd (set_spec keqb [] ops)).
Proof.
  intros K keqb khash L ops. destruct (set_run_inv keqb khash L ops tab_new [] (sinv_new keqb khash)) as (t & R & _). eauto.
Qed.

Lemma map_inv_new : forall (K V : Type) (keqb : K -> K -> bool) (khash : K -> N), tinv keqb khash (@tab_new K V) (latest keqb []).
Proof. intros. apply tinv_new. Qed.

Lemma hash_map_is_a_map : forall (K V : Type) (keqb : K -> K -> bool) (khash : K -> N) (veqb : V -> V -> bool),
  lawful keqb khash -> forall ops : list (map_op K V),
  exists t, map_run keqb veqb khash tab_new ops = Returned (t, snd (map_spec keqb veqb [] ops)).
Proof.
  intros K V keqb khash veqb L ops. destruct (map_run_inv keqb khash L veqb ops tab_new [] (map_inv_new K V keqb khash)) as (t & R & _). eauto.
Qed.

Lemma set_reach : forall (K : Type) (keqb : K -> K -> bool) (khash : K -> N), lawful keqb khash -> forall ops t rs,
  set_run keqb khash tab_new ops = Returned (t, rs) -> sinv keqb khash t (fst (set_spec keqb [] ops)).
Proof.
  intros K keqb khash L ops t rs H. destruct (set_run_inv keqb khash L ops tab_new [] (sinv_new keqb khash)) as (t' & R & T).
  rewrite R in H. injection H as -> _. auto.
Qed.

Lemma map_reach : forall (K V : Type) (keqb : K -> K -> bool) (khash : K -> N) (veqb : V -> V -> bool), lawful keqb khash -> forall ops t rs,
  map_run keqb veqb khash tab_new ops = Returned (t, rs) -> tinv keqb khash t (latest keqb (fst (map_spec keqb veqb [] ops))).
Proof.
  intros K V keqb khash veqb L ops t rs H. destruct (map_run_inv keqb khash L veqb ops tab_new [] (map_inv_new K V keqb khash)) as (t' & R & T).
  rewrite R in H. injection H as -> _. auto.
Qed.

Lemma tables_never_full : forall (K V : Type) (keqb : K -> K -> bool) (khash : K -> N) (veqb : V -> V -> bool),
  lawful keqb khash ->
  (forall ops t rs, set_run keqb khash tab_new ops = Returned (t, rs) -> well_shaped khash t) /\
  (forall ops t rs, map_run keqb veqb khash tab_new ops = Returned (t, rs) -> well_shaped khash t).
Proof.
  intros. split; intros; eapply shaped; [eapply set_reach|eapply map_reach]; eauto.
Qed.

Lemma iteration_once :
  forall (K V : Type) (keqb : K -> K -> bool) (khash : K -> N) (veqb : V -> V -> bool), lawful keqb khash ->
  (forall ops t rs, set_run keqb khash tab_new ops = Returned (t, rs) ->
     exists es, iterate t = Returned es /\ length es = tab_len t /\
       Permutation (map (fun e => e_key e) es) (representatives keqb (fst (set_spec keqb [] ops)))) /\
  (forall ops t rs, map_run keqb veqb khash tab_new ops = Returned (t, rs) ->
     exists es, iterate t = Returned es /\ length es = tab_len t /\
       Permutation (map (fun e => (e_key e, e_val e)) es) (latest keqb (fst (map_spec keqb veqb [] ops)))).
Proof.
  intros K V keqb khash veqb L. split; intros ops t rs H.
  - apply set_reach in H; auto. exists (entries (buckets t)). split; [apply iterate_ok|]. split; [eapply tinv_len; eauto|].
    destruct H as (P & _). apply (Permutation_map fst) in P. rewrite !map_map in P. simpl in P. rewrite map_id in P. exact P.
  - eapply map_reach in H; eauto. exists (entries (buckets t)). split; [apply iterate_ok|]. split; [eapply tinv_len; eauto|].
    apply H.
Qed.

Lemma equality_extensional :
  forall (K V : Type) (keqb : K -> K -> bool) (khash : K -> N) (veqb : V -> V -> bool), lawful keqb khash ->
  (forall v, veqb v v = true) -> (forall v w, veqb v w = true -> veqb w v = true) ->
  (forall ops1 ops2 t1 t2 rs1 rs2,
     set_run keqb khash tab_new ops1 = Returned (t1, rs1) -> set_run keqb khash tab_new ops2 = Returned (t2, rs2) ->
     exists b, set_eq keqb khash t1 t2 = Returned b /\
       (b = true <-> forall x, present keqb x (fst (set_spec keqb [] ops1)) = present keqb x (fst (set_spec keqb [] ops2)))) /\
  (forall ops1 ops2 t1 t2 rs1 rs2,
     map_run keqb veqb khash tab_new ops1 = Returned (t1, rs1) -> map_run keqb veqb khash tab_new ops2 = Returned (t2, rs2) ->
     exists b, map_eq keqb khash veqb t1 t2 = Returned b /\
       (b = true <-> forall k, match lookup keqb k (fst (map_spec keqb veqb [] ops1)),
                                     lookup keqb k (fst (map_spec keqb veqb [] ops2)) with
                               | Some v, Some w => veqb v w = true
                               | None, None => True
                               | _, _ => False
                               end)).
Proof.
  intros K V keqb khash veqb L VR VS. split; intros ops1 ops2 t1 t2 rs1 rs2 H1 H2.
  - apply set_eq_ok; eauto using set_reach.
  - eapply map_eq_ok; eauto using map_reach.
Qed.
