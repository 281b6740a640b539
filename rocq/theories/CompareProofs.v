(** Proofs about comparisons. *)
From Coq Require Import List ZArith Bool Lia Reals Lra.
From Flocq Require Import Core IEEE754.BinarySingleNaN.
From Verif Require Import Utf8Model FloatModel FloatSpec FloatProofs CompareModel CompareSpec.
Import ListNotations.
Open Scope Z_scope.

Section Any.
Context {T : Type} (P : T -> Prop) (upto : T -> T -> Prop) (cmp : T -> T -> ordering).
Hypothesis rank : ranking P upto.
Hypothesis told : tells P upto cmp.

Lemma cases : forall a b, P a -> P b ->
  (cmp a b = Less /\ upto a b /\ ~ upto b a) \/
  (cmp a b = Equal /\ upto a b /\ upto b a) \/
  (cmp a b = Greater /\ ~ upto a b /\ upto b a).
Proof.
  intros a b A B. destruct (told a b A B) as (L & E & G). destruct rank as [total _].
  specialize (total a b A B). destruct (cmp a b); [left|right; left|right; right].
  - assert (N : ~ upto b a) by (apply L; reflexivity). tauto.
  - split; [reflexivity|]. apply E. reflexivity.
  - assert (N : ~ upto a b) by (apply G; reflexivity). tauto.
Qed.

Ltac look a b A B := destruct (cases a b A B) as [(?E & ? & ?)|[(?E & ? & ?)|(?E & ? & ?)]].

Lemma operators : forall a b, P a -> P b ->
  (lt cmp a b = true <-> ~ upto b a) /\ (le cmp a b = true <-> upto a b) /\
  (gt cmp a b = true <-> ~ upto a b) /\ (ge cmp a b = true <-> upto b a).
Proof.
  intros a b A B. unfold lt, le, gt, ge.
  look a b A B; rewrite E; repeat split; intros; try reflexivity; try assumption; try discriminate; tauto.
Qed.

Lemma min_ok : forall a b, P a -> P b ->
  upto (min cmp a b) a /\ upto (min cmp a b) b /\ (min cmp a b = a \/ min cmp a b = b) /\
  (upto b a -> min cmp a b = b).
Proof.
  intros a b A B. unfold min. destruct rank as [total _].
  pose proof (total a a A A). pose proof (total b b B B).
  look a b A B; rewrite E; tauto.
Qed.

Lemma max_ok : forall a b, P a -> P b ->
  upto a (max cmp a b) /\ upto b (max cmp a b) /\ (max cmp a b = a \/ max cmp a b = b) /\
  (upto a b -> max cmp a b = b).
Proof.
  intros a b A B. unfold max. destruct rank as [total _].
  pose proof (total a a A A). pose proof (total b b B B).
  look a b A B; rewrite E; tauto.
Qed.

Lemma clamp_ok : forall v lo hi, P v -> P lo -> P hi ->
  (~ upto lo hi -> clamp cmp v lo hi = Panics) /\
  (upto lo hi ->
    (~ upto lo v -> clamp cmp v lo hi = Value lo) /\
    (upto hi v -> clamp cmp v lo hi = Value hi) /\
    (upto lo v -> ~ upto hi v -> clamp cmp v lo hi = Value v)).
Proof.
  intros v lo hi V L H. unfold clamp, gt, max, min. destruct rank as [total chain].
  split.
  - intros N. look lo hi L H; rewrite E; [tauto|tauto|reflexivity].
  - intros O. assert (C : forall X : Type, forall x y : X, match cmp lo hi with Greater => x | _ => y end = y).
    { intros X x y. look lo hi L H; rewrite E; [reflexivity|reflexivity|tauto]. }
    rewrite C. repeat split.
    + intros N. assert (U : upto v lo) by (destruct (total v lo V L); tauto).
      look v hi V H; rewrite E.
      * look lo v L V; rewrite E0; [tauto|tauto|reflexivity].
      * destruct N. apply (chain lo hi v); assumption.
      * destruct N. apply (chain lo hi v); assumption.
    + intros U. look v hi V H; rewrite E; [tauto|rewrite C; reflexivity|rewrite C; reflexivity].
    + intros U N. look v hi V H; rewrite E; [|tauto|tauto].
      look lo v L V; rewrite E0; [reflexivity|reflexivity|tauto].
Qed.
End Any.

(** ** Integers and floats *)

Lemma int_ranking : ranking (fun _ => True) Z.le.
Proof. split; intros; lia. Qed.
Lemma int_told : tells (fun _ => True) Z.le compare_int.
Proof.
  intros a b _ _. unfold compare_int.
  destruct (Z.compare_spec a b); cbn; repeat split; intros; try discriminate; try reflexivity; lia.
Qed.
Lemma int_tight : tight (fun _ => True) Z.le.
Proof. intros a b _ _. lia. Qed.

Lemma float_ranking : ranking is_float below.
Proof.
  unfold below. split; intros.
  - destruct (Rle_or_lt (number a) (number b)); [left; assumption|right; apply Rlt_le; assumption].
  - apply (Rle_trans _ (number b)); assumption.
Qed.
Lemma float_told : tells is_float below order_float.
Proof.
  intros a b A B. unfold order_float, below. rewrite compare_ok by assumption.
  destruct (Rcompare_spec (number a) (number b)) as [H|H|H]; cbn; repeat split; intros;
    try discriminate; try reflexivity; try lra; exfalso;
    match goal with K : ~ _ |- _ => apply K; lra end.
Qed.

(** ** Strings *)

Fixpoint lex (s t : list Z) : comparison :=
  match s, t with
  | [], [] => Eq
  | [], _ :: _ => Lt
  | _ :: _, [] => Gt
  | a :: s, b :: t => match Z.compare a b with Eq => lex s t | c => c end
  end.

Lemma bytes_lex : forall l r, compare_bytes l r = lex l r.
Proof.
  unfold compare_bytes. induction l as [|a l IH]; intros [|b r]; try reflexivity. cbn.
  destruct (Z.compare a b); [apply IH|reflexivity|reflexivity].
Qed.

Lemma lex_refl : forall s, lex s s = Eq.
Proof. induction s as [|a s IH]; [reflexivity|]. cbn. rewrite Z.compare_refl. exact IH. Qed.

Lemma lex_anti : forall s t, lex t s = CompOpp (lex s t).
Proof.
  induction s as [|a s IH]; intros [|b t]; try reflexivity. cbn. rewrite (Z.compare_antisym a b).
  destruct (Z.compare a b); cbn; [apply IH|reflexivity|reflexivity].
Qed.

Lemma lex_eq : forall s t, lex s t = Eq -> s = t.
Proof.
  induction s as [|a s IH]; intros [|b t] H; try discriminate; [reflexivity|]. cbn in H.
  destruct (Z.compare_spec a b); try discriminate. subst. f_equal. apply IH. exact H.
Qed.

Lemma lex_prefix : forall p s t, lex (p ++ s) (p ++ t) = lex s t.
Proof. induction p as [|a p IH]; intros s t; [reflexivity|]. cbn. rewrite Z.compare_refl. apply IH. Qed.

Lemma lex_differ : forall p x y s t, x < y -> lex (p ++ x :: s) (p ++ y :: t) = Lt.
Proof. intros p x y s t H. rewrite lex_prefix. cbn. rewrite (proj2 (Z.compare_lt_iff x y) H). reflexivity. Qed.

Lemma split_at : forall n a b, 0 < n -> a < b -> a / n < b / n \/ (a / n = b / n /\ a mod n < b mod n).
Proof.
  intros n a b N H. pose proof (Z.div_le_mono a b n N ltac:(lia)).
  pose proof (Z.div_mod a n ltac:(lia)). pose proof (Z.div_mod b n ltac:(lia)).
  destruct (Z.eq_dec (a / n) (b / n)) as [E|E]; [right; split; [exact E|rewrite E in *; lia]|left; lia].
Qed.

(** The encodings of two characters differ at some place, and there as the characters do. *)
Lemma encode_order : forall a b, 0 <= a -> b < 1114112 -> a < b ->
  exists p x y s t, encode a = p ++ x :: s /\ encode b = p ++ y :: t /\ x < y.
Proof.
  intros a b A B H. unfold encode.
  destruct (Z.ltb_spec a 128), (Z.ltb_spec b 128);
  destruct (Z.ltb_spec a 2048), (Z.ltb_spec b 2048);
  destruct (Z.ltb_spec a 65536), (Z.ltb_spec b 65536); try lia;
  try (exists [], a; do 3 eexists; repeat split;
       pose proof (Z.div_pos b 64); pose proof (Z.div_pos b 4096); pose proof (Z.div_pos b 262144); lia).
  - destruct (split_at 64 a b ltac:(lia) H) as [D|[D M]].
    + exists []. do 4 eexists. repeat split. lia.
    + exists [192 + a / 64]. rewrite D. do 4 eexists. repeat split. lia.
  - exists []. do 4 eexists. repeat split.
    pose proof (Z.div_lt_upper_bound a 64 32). pose proof (Z.div_pos b 4096). lia.
  - exists []. do 4 eexists. repeat split.
    pose proof (Z.div_lt_upper_bound a 64 32). pose proof (Z.div_pos b 262144). lia.
  - pose proof (Z.div_div a 64 64 ltac:(lia) ltac:(lia)) as DA. pose proof (Z.div_div b 64 64 ltac:(lia) ltac:(lia)) as DB.
    change (64 * 64) with 4096 in *.
    destruct (split_at 64 a b ltac:(lia) H) as [D|[D M]].
    + destruct (split_at 64 _ _ ltac:(lia) D) as [D1|[D1 M1]]; rewrite DA, DB in D1.
      * exists []. do 4 eexists. repeat split. lia.
      * exists [224 + a / 4096]. rewrite D1. do 4 eexists. repeat split. lia.
    + assert (D1 : a / 4096 = b / 4096) by (rewrite <- DA, <- DB, D; reflexivity).
      exists [224 + a / 4096; 128 + (a / 64) mod 64]. rewrite D1, D. do 4 eexists. repeat split. lia.
  - exists []. do 4 eexists. repeat split.
    pose proof (Z.div_lt_upper_bound a 4096 16). pose proof (Z.div_pos b 262144). lia.
  - pose proof (Z.div_div a 64 64 ltac:(lia) ltac:(lia)) as DA. pose proof (Z.div_div b 64 64 ltac:(lia) ltac:(lia)) as DB.
    pose proof (Z.div_div a 4096 64 ltac:(lia) ltac:(lia)) as DA2. pose proof (Z.div_div b 4096 64 ltac:(lia) ltac:(lia)) as DB2.
    change (64 * 64) with 4096 in *. change (4096 * 64) with 262144 in *.
    destruct (split_at 64 a b ltac:(lia) H) as [D|[D M]].
    + destruct (split_at 64 _ _ ltac:(lia) D) as [D1|[D1 M1]]; rewrite DA, DB in D1.
      * destruct (split_at 64 _ _ ltac:(lia) D1) as [D2|[D2 M2]]; rewrite DA2, DB2 in D2.
        -- exists []. do 4 eexists. repeat split. lia.
        -- exists [240 + a / 262144]. rewrite D2. do 4 eexists. repeat split. lia.
      * assert (D2 : a / 262144 = b / 262144) by (rewrite <- DA2, <- DB2, D1; reflexivity).
        exists [240 + a / 262144; 128 + (a / 4096) mod 64]. rewrite D1, D2. do 4 eexists. repeat split. lia.
    + assert (D1 : a / 4096 = b / 4096) by (rewrite <- DA, <- DB, D; reflexivity).
      assert (D2 : a / 262144 = b / 262144) by (rewrite <- DA2, <- DB2, D1; reflexivity).
      exists [240 + a / 262144; 128 + (a / 4096) mod 64; 128 + (a / 64) mod 64].
      rewrite D, D1, D2. do 4 eexists. repeat split. lia.
Qed.

Lemma scalar_bounds : forall c, scalar c -> 0 <= c < 1114112.
Proof. intros c [H|H]; lia. Qed.

Lemma lex_encode_lt : forall a b s t, scalar a -> scalar b -> a < b -> lex (encode a ++ s) (encode b ++ t) = Lt.
Proof.
  intros a b s t A B H. apply scalar_bounds in A. apply scalar_bounds in B.
  destruct (encode_order a b) as (p & x & y & u & v & -> & -> & L); [lia..|].
  rewrite <- !app_assoc. cbn. apply lex_differ. exact L.
Qed.

Lemma encode_nonempty : forall c, exists b l, encode c = b :: l.
Proof. intros c. unfold encode. destruct (c <? 128), (c <? 2048), (c <? 65536); eauto. Qed.

Lemma lex_utf8 : forall s t, Forall scalar s -> Forall scalar t -> lex (utf8 s) (utf8 t) = lex s t.
Proof.
  induction s as [|a s IH]; intros [|b t] A B; try reflexivity.
  - cbn. destruct (encode_nonempty b) as (x & l & ->). reflexivity.
  - cbn. destruct (encode_nonempty a) as (x & l & ->). reflexivity.
  - apply Forall_inv in A as Sa. apply Forall_inv_tail in A. apply Forall_inv in B as Sb. apply Forall_inv_tail in B.
    cbn. change (flat_map encode s) with (utf8 s). change (flat_map encode t) with (utf8 t).
    destruct (Z.compare_spec a b) as [E|L|L].
    + subst b. rewrite lex_prefix. apply IH; assumption.
    + apply lex_encode_lt; assumption.
    + rewrite lex_anti, lex_encode_lt by assumption. reflexivity.
Qed.

Lemma dictionary_lex : forall s t, dictionary s t <-> lex s t <> Gt.
Proof.
  split.
  - induction 1; cbn; [destruct t; discriminate| |rewrite Z.compare_refl; assumption].
    rewrite (proj2 (Z.compare_lt_iff a b)) by assumption. discriminate.
  - revert t. induction s as [|a s IH]; intros [|b t] H; [apply d_end|apply d_end|contradiction H; reflexivity|].
    cbn in H. destruct (Z.compare_spec a b).
    + subst b. apply d_same. apply IH. exact H.
    + apply d_less. assumption.
    + contradiction H. reflexivity.
Qed.

Lemma lex_trans : forall s t u, dictionary s t -> dictionary t u -> dictionary s u.
Proof.
  intros s t u H. revert u. induction H; intros u K; [apply d_end|inversion K; subst..].
  - apply d_less. lia.
  - apply d_less. assumption.
  - apply d_less. assumption.
  - apply d_same. auto.
Qed.

Lemma string_ranking : ranking (Forall scalar) dictionary.
Proof.
  split.
  - intros a b _ _. rewrite !dictionary_lex, (lex_anti a b). destruct (lex a b); cbn; [left|left|right]; discriminate.
  - intros a b c _ _ _. apply lex_trans.
Qed.

Lemma string_told : tells (Forall scalar) dictionary compare_string.
Proof.
  intros a b A B. unfold compare_string. rewrite bytes_lex, lex_utf8 by assumption.
  rewrite !dictionary_lex, (lex_anti a b). destruct (lex a b); cbn; repeat split; intros; try discriminate;
    try reflexivity; try congruence; try tauto; exfalso; try (apply H; discriminate); destruct H; congruence.
Qed.

Lemma string_tight : tight (Forall scalar) dictionary.
Proof.
  intros a b _ _. rewrite !dictionary_lex, (lex_anti a b). intros H K. apply lex_eq.
  destruct (lex a b); cbn in *; congruence.
Qed.

Lemma equal_bytes : forall l r, Nat.eqb (length l) (length r) = true ->
  memcmp (length l) l r = lex l r.
Proof.
  induction l as [|a l IH]; intros [|b r] H; try discriminate; [reflexivity|]. cbn in *.
  destruct (Z.compare a b); [apply IH; exact H|reflexivity|reflexivity].
Qed.

Lemma equal_string_ok : forall s t, Forall scalar s -> Forall scalar t -> (equal_string s t = true <-> s = t).
Proof.
  intros s t A B. unfold equal_string. split.
  - intros H. apply andb_true_iff in H as [L M]. rewrite equal_bytes, lex_utf8 in M by assumption.
    apply lex_eq. destruct (lex s t); [reflexivity|discriminate|discriminate].
  - intros <-. rewrite Nat.eqb_refl, equal_bytes, lex_refl by apply Nat.eqb_refl. reflexivity.
Qed.
