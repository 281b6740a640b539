(** Collecting distinct keys into a hash table keeps all of them, when equality and hashing agree on these keys. *)
From Coq Require Import List Bool NArith ZArith Lia Arith Permutation.
From Verif Require Import ListUtil HashTabModel HashTabSpec HashTabProofs.
Import ListNotations.

Lemma nth_error_map_eq : forall A B (f : A -> B) l i, nth_error (map f l) i = option_map f (nth_error l i).
Proof. induction l as [|a l IH]; intros [|i]; cbn; auto. Qed.

Lemma map_upd : forall A B (f : A -> B) l i a, map f (upd l i a) = upd (map f l) i (f a).
Proof. induction l as [|x l IH]; intros [|i] a; cbn; auto. now rewrite IH. Qed.

Definition omap {A B : Type} (f : A -> B) (x : outcome A) : outcome B := bind x (fun a => Returned (f a)).

(** Renaming the keys of a table. *)
Section Rename.
Variables K1 K2 V : Type.
Variable keqb1 : K1 -> K1 -> bool.
Variable khash1 : K1 -> N.
Variable keqb2 : K2 -> K2 -> bool.
Variable khash2 : K2 -> N.
Variable f : K1 -> K2.
Hypothesis Heq : forall a b, keqb2 (f a) (f b) = keqb1 a b.
Hypothesis Hhash : forall a, khash2 (f a) = khash1 a.

Definition fe (e : entry K1 V) : entry K2 V := mkEntry (e_hash e) (f (e_key e)) (e_val e).
Definition fb (bs : list (option (entry K1 V))) : list (option (entry K2 V)) := map (option_map fe) bs.
Definition ft (t : table K1 V) : table K2 V := mkTable (fb (buckets t)) (tlen t).

Lemma fb_length : forall bs, length (fb bs) = length bs.
Proof. intros. apply map_length. Qed.

Lemma insert_loop_rename : forall fuel bs i e, insert_loop keqb2 fuel (fb bs) i (fe e) = omap fb (insert_loop keqb1 fuel bs i e).
Proof.
  induction fuel as [|fuel IH]; intros bs i e; [reflexivity|]. cbn [insert_loop]. unfold fb at 1. rewrite nth_error_map_eq.
  destruct (nth_error bs i) as [[x|]|]; cbn [option_map]; [|cbn; unfold fb; now rewrite map_upd|reflexivity].
  cbn [e_hash e_key fe]. rewrite Heq. destruct ((e_hash x =? e_hash e)%N && keqb1 (e_key x) (e_key e)).
  - cbn. unfold fb. now rewrite map_upd.
  - rewrite fb_length. apply IH.
Qed.

Lemma insert_entry_rename : forall bs e, insert_entry keqb2 (fb bs) (fe e) = omap fb (insert_entry keqb1 bs e).
Proof. intros. unfold insert_entry. rewrite fb_length. apply insert_loop_rename. Qed.

Lemma rehash_loop_rename : forall old new, rehash_loop keqb2 (fb old) (fb new) = omap fb (rehash_loop keqb1 old new).
Proof.
  induction old as [|[e|] old IH]; intros new; cbn [fb map option_map rehash_loop]; [reflexivity| |apply IH].
  rewrite insert_entry_rename. destruct (insert_entry keqb1 new e) as [bs| |]; [exact (IH bs)|reflexivity|reflexivity].
Qed.

Lemma rehash_rename : forall t n, rehash keqb2 (ft t) n = omap ft (rehash keqb1 t n).
Proof.
  intros t n. unfold rehash. cbn [ft buckets tlen].
  assert (E : empty_buckets n = fb (empty_buckets n)). { unfold empty_buckets, fb. induction n as [|n IH]; cbn; [reflexivity|now rewrite <- IH]. }
  rewrite E, rehash_loop_rename. now destruct (rehash_loop keqb1 (buckets t) (empty_buckets n)).
Qed.

Lemma reserve_rename : forall t, reserve_for_insert keqb2 (ft t) = omap ft (reserve_for_insert keqb1 t).
Proof.
  intros t. unfold reserve_for_insert. cbn [ft buckets tlen]. rewrite fb_length.
  change (mkTable (fb (buckets t)) (tlen t)) with (ft t).
  destruct (length (buckets t) <=? 0); [apply rehash_rename|].
  destruct (length (buckets t) * 2 <=? (tlen t + 1) * 3); [apply rehash_rename|reflexivity].
Qed.

Lemma find_loop_rename : forall n bs i h k, find_loop keqb2 n (fb bs) i h (f k) = find_loop keqb1 n bs i h k.
Proof.
  induction n as [|n IH]; intros bs i h k; [reflexivity|]. cbn [find_loop]. unfold fb at 1. rewrite nth_error_map_eq.
  destruct (nth_error bs i) as [[x|]|]; cbn [option_map]; auto. cbn [e_hash e_key fe]. rewrite Heq, fb_length.
  destruct ((e_hash x =? h)%N && keqb1 (e_key x) k); auto.
Qed.

Lemma find_index_rename : forall t h k, find_index keqb2 (ft t) h (f k) = find_index keqb1 t h k.
Proof. intros. unfold find_index. cbn [ft buckets]. rewrite fb_length, find_loop_rename. reflexivity. Qed.

Lemma map_insert_rename : forall t k v, map_insert keqb2 khash2 (ft t) (f k) v = omap (fun r => (ft (fst r), snd r)) (map_insert keqb1 khash1 t k v).
Proof.
  intros t k v. unfold map_insert. rewrite Hhash, find_index_rename. destruct (find_index keqb1 t (khash1 k) k) as [[i|]| |]; cbn [bind omap]; auto.
  - cbn [ft buckets]. unfold fb at 1. rewrite nth_error_map_eq. destruct (nth_error (buckets t) i) as [[x|]|]; cbn; auto.
    unfold ft. cbn [buckets tlen]. unfold fb. now rewrite map_upd.
  - rewrite reserve_rename. destruct (reserve_for_insert keqb1 t) as [t1| |]; cbn [bind omap]; auto.
    change (mkEntry (khash1 k) (f k) v) with (fe (mkEntry (khash1 k) k v)). cbn [ft buckets tlen]. rewrite insert_entry_rename.
    now destruct (insert_entry keqb1 (buckets t1) (mkEntry (khash1 k) k v)).
Qed.

Lemma map_extend_rename : forall l t, map_extend keqb2 khash2 (ft t) (map (fun p => (f (fst p), snd p)) l) = omap ft (map_extend keqb1 khash1 t l).
Proof.
  induction l as [|[k v] l IH]; intros t; [reflexivity|]. cbn [map map_extend fst snd]. rewrite map_insert_rename.
  destruct (map_insert keqb1 khash1 t k v) as [[t1 r]| |]; cbn [bind omap fst snd]; auto.
Qed.

Lemma entries_rename : forall bs, entries (fb bs) = map fe (entries bs).
Proof. induction bs as [|[e|] bs IH]; cbn; auto. now f_equal. Qed.
End Rename.

Section RenameSet.
Variables K1 K2 : Type.
Variable keqb1 : K1 -> K1 -> bool.
Variable khash1 : K1 -> N.
Variable keqb2 : K2 -> K2 -> bool.
Variable khash2 : K2 -> N.
Variable f : K1 -> K2.
Hypothesis Heq : forall a b, keqb2 (f a) (f b) = keqb1 a b.
Hypothesis Hhash : forall a, khash2 (f a) = khash1 a.

Lemma set_insert_rename : forall t k, set_insert keqb2 khash2 (ft K1 K2 unit f t) (f k) =
  omap (fun r => (ft K1 K2 unit f (fst r), snd r)) (set_insert keqb1 khash1 t k).
Proof.
  intros t k. unfold set_insert. rewrite Hhash, (find_index_rename K1 K2 unit keqb1 keqb2 f Heq).
  destruct (find_index keqb1 t (khash1 k) k) as [[i|]| |]; cbn [bind omap]; auto.
  rewrite (reserve_rename K1 K2 unit keqb1 keqb2 f Heq). destruct (reserve_for_insert keqb1 t) as [t1| |]; cbn [bind omap]; auto.
  change (mkEntry (khash1 k) (f k) tt) with (fe K1 K2 unit f (mkEntry (khash1 k) k tt)). cbn [ft buckets tlen].
  rewrite (insert_entry_rename K1 K2 unit keqb1 keqb2 f Heq). now destruct (insert_entry keqb1 (buckets t1) (mkEntry (khash1 k) k tt)).
Qed.

Lemma set_extend_rename : forall l t, set_extend keqb2 khash2 (ft K1 K2 unit f t) (map f l) = omap (ft K1 K2 unit f) (set_extend keqb1 khash1 t l).
Proof.
  induction l as [|k l IH]; intros t; [reflexivity|]. cbn [map set_extend]. rewrite set_insert_rename.
  destruct (set_insert keqb1 khash1 t k) as [[t1 r]| |]; cbn [bind omap fst snd]; auto.
Qed.
End RenameSet.

Section Distinct.
Context {K : Type} (keqb : K -> K -> bool) (khash : K -> N).
Hypothesis L : lawful keqb khash.

Lemma present_false : forall x l, Forall (fun y => keqb y x = false) l -> present keqb x l = false.
Proof. intros x l H. unfold present. induction H as [|y l E H IH]; [reflexivity|]. cbn. now rewrite E. Qed.

Lemma representatives_distinct : forall l, ForallOrdPairs (fun x y => keqb y x = false) l -> representatives keqb l = l.
Proof.
  intros l H. induction H as [|x l F H IH]; [reflexivity|]. cbn [representatives]. rewrite (present_false x l F). now rewrite IH.
Qed.

Lemma latest_distinct : forall V (l : list (K * V)), ForallOrdPairs (fun x y => keqb (fst y) (fst x) = false) l -> latest keqb l = l.
Proof.
  intros V l H. induction H as [|x l F H IH]; [reflexivity|]. destruct x as [k v]. rewrite latest_cons. rewrite IH. f_equal.
  clear IH H. induction F as [|[k' v'] l E F IH]; [reflexivity|]. cbn [filter fst] in *. rewrite (keqb_sym keqb khash L k k'), E. cbn. now rewrite IH.
Qed.

Lemma fop_app : forall A (R : A -> A -> Prop) l r, ForallOrdPairs R l -> ForallOrdPairs R r -> (forall x y, In x l -> In y r -> R x y) ->
  ForallOrdPairs R (l ++ r).
Proof.
  intros A R l r H Hr. induction H as [|x l F H IH]; intros C; [exact Hr|]. cbn. constructor.
  - apply Forall_app. split; [exact F|]. apply Forall_forall. intros y Hy. apply C; [now left|exact Hy].
  - apply IH. intros. apply C; [now right|assumption].
Qed.

Lemma fop_rev : forall A (R : A -> A -> Prop) l, ForallOrdPairs R l -> ForallOrdPairs (fun x y => R y x) (rev l).
Proof.
  intros A R l H. induction H as [|x l F H IH]; [constructor|]. cbn. apply fop_app; [exact IH|repeat constructor|].
  intros a b Ha [<-|[]]. apply in_rev in Ha. rewrite Forall_forall in F. now apply F.
Qed.

Lemma set_collects : forall l, ForallOrdPairs (fun x y => keqb x y = false) l ->
  exists t es, set_from_iter keqb khash l = Returned t /\ iterate t = Returned es /\ Permutation (map (fun e => e_key e) es) l.
Proof.
  intros l H. assert (E : exists t, set_run keqb khash tab_new [SCollect l] = Returned (t, [SUnit])) by (destruct (hash_set_is_a_set K keqb khash L [SCollect l]) as (t & E); exists t; exact E).
  destruct E as (t & E). destruct (iteration_once K unit keqb khash (fun _ _ => true) L) as [I _]. destruct (I _ _ _ E) as (es & E1 & _ & P).
  exists t, es. split.
  - cbn in E. destruct (set_from_iter keqb khash l); cbn in E; congruence.
  - split; [exact E1|]. cbn in P. rewrite representatives_distinct in P.
    + rewrite P. apply Permutation_sym, Permutation_rev.
    + apply fop_rev in H. exact H.
Qed.

Lemma map_collects : forall V (l : list (K * V)), ForallOrdPairs (fun x y => keqb (fst x) (fst y) = false) l ->
  exists t es, map_from_iter keqb khash l = Returned t /\ iterate t = Returned es /\ Permutation (map (fun e => (e_key e, e_val e)) es) l.
Proof.
  intros V l H. assert (E : exists t, map_run keqb (fun _ _ => true) khash tab_new [MCollect l] = Returned (t, [MUnit])) by (destruct (hash_map_is_a_map K V keqb khash (fun _ _ => true) L [MCollect l]) as (t & E); exists t; exact E).
  destruct E as (t & E). destruct (iteration_once K V keqb khash (fun _ _ => true) L) as [_ I]. destruct (I _ _ _ E) as (es & E1 & _ & P).
  exists t, es. split.
  - cbn in E. destruct (map_from_iter keqb khash l); cbn in E; congruence.
  - split; [exact E1|]. cbn in P. rewrite latest_distinct in P.
    + rewrite P. apply Permutation_sym, Permutation_rev.
    + apply fop_rev in H. exact H.
Qed.
End Distinct.
