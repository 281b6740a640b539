From Coq Require Import ZArith List Bool Arith Lia.
From Verif Require Import ListUtil MachInt IntModel IntProofs ArrayModel ArraySpec.
Import ListNotations.
Open Scope Z_scope.

(** ** Machine arithmetic *)
Definition small (z : Z) : Prop := -4611686018427387903 <= z <= 4611686018427387903.

Lemma small_int : forall z, -9223372036854775808 <= z <= 9223372036854775807 -> wrap64 z = z.
Proof. intros z H. apply wrap64_id. consts. lia. Qed.
Lemma add_ok : forall a b, small a -> small b -> int_add a b = a + b.
Proof. intros a b H H0. unfold int_add. unfold small in *. apply small_int. lia. Qed.
Lemma sub_ok : forall a b, small a -> small b -> int_sub a b = a - b.
Proof. intros. unfold int_sub, small in *. apply small_int. lia. Qed.

(** ** Ring indices *)
Lemma ring_inj : forall c s i j, (i < c)%nat -> (j < c)%nat -> ((s + i) mod c = (s + j) mod c)%nat -> i = j.
Proof.
  intros c s i j Hi Hj E. assert (W : forall i j, (i <= j)%nat -> (j < c)%nat -> ((s + i) mod c = (s + j) mod c)%nat -> i = j).
  { clear i j Hi Hj E. intros i j Hij Hj E.
    pose proof (Nat.div_mod (s + i) c ltac:(lia)) as D1. pose proof (Nat.div_mod (s + j) c ltac:(lia)) as D2.
    rewrite E in D1. assert (j - i = c * ((s + j) / c) - c * ((s + i) / c))%nat by lia.
    rewrite <- Nat.mul_sub_distr_l in H. destruct ((s + j) / c - (s + i) / c)%nat eqn:K; [lia|]. rewrite Nat.mul_succ_r in H. lia. }
  destruct (le_lt_dec i j).
  - apply W; auto.
  - symmetry. apply W; auto. lia.
Qed.

Lemma ring_surj : forall c s p, (s < c)%nat -> (p < c)%nat -> exists i, (i < c)%nat /\ p = ((s + i) mod c)%nat.
Proof.
  intros c s p Hs Hp. destruct (le_lt_dec s p).
  - exists (p - s)%nat. split; [lia|]. rewrite Nat.mod_small by lia. lia.
  - exists (c - s + p)%nat. split; [lia|]. replace (s + (c - s + p))%nat with (p + 1 * c)%nat by lia.
    rewrite Nat.mod_add by lia. rewrite Nat.mod_small; lia.
Qed.

Lemma ring_lt : forall c s i, (i < c)%nat -> ((s + i) mod c < c)%nat.
Proof. intros. apply Nat.mod_upper_bound. lia. Qed.

Lemma ring_upd : forall T (d : list T) s i j x, (i < length d)%nat -> (j < length d)%nat ->
  nth_error (upd d ((s + j) mod length d) x) ((s + i) mod length d) = if Nat.eqb j i then Some x else nth_error d ((s + i) mod length d).
Proof.
  intros T d s i j x Hi Hj. rewrite nth_error_upd. pose proof (ring_lt (length d) s j Hj) as L.
  destruct (Nat.eqb_spec j i) as [->|N].
  - rewrite Nat.eqb_refl. destruct (Nat.ltb_spec ((s + i) mod length d) (length d)); [auto|lia].
  - destruct (Nat.eqb_spec ((s + j) mod length d) ((s + i) mod length d)) as [E|]; auto. apply ring_inj in E; auto. congruence.
Qed.

Section Proofs.
Context {A : Type}.
Notation arr := (array A).

Definition phys (a : arr) (i : nat) : nat := ((Z.to_nat (start a) + i) mod length (data a))%nat.

Lemma max_slots_eq : max_slots = 1152921504606846976. Proof. reflexivity. Qed.

Lemma wrap_phys : forall c s i, (s < c)%nat -> (i < c)%nat -> Z.of_nat c <= 1152921504606846976 ->
  array_wrap_index (Z.of_nat c) (int_add (Z.of_nat s) (Z.of_nat i)) = Z.of_nat ((s + i) mod c).
Proof.
  intros c s i Hs Hi Hc. unfold array_wrap_index. rewrite add_ok by (unfold small; lia).
  destruct (Z.leb_spec (Z.of_nat c) (Z.of_nat s + Z.of_nat i)).
  - rewrite sub_ok by (unfold small; lia). replace (s + i)%nat with (s + i - c + 1 * c)%nat by lia. rewrite Nat.mod_add by lia. rewrite Nat.mod_small by lia. lia.
  - rewrite Nat.mod_small by lia. lia.
Qed.

Lemma holds_start : forall (a : arr) l, holds a l -> (0 < length (data a))%nat -> start a = Z.of_nat (Z.to_nat (start a)) /\ (Z.to_nat (start a) < length (data a))%nat.
Proof. intros a l (Hc & _ & _ & _ & Hs & _) H. rewrite Hc in Hs. lia. Qed.

Lemma offset_phys : forall (a : arr) l i, holds a l -> (i < length (data a))%nat -> array_physical_offset_unchecked a (Z.of_nat i) = Z.of_nat (phys a i).
Proof.
  intros a l i H Hi. destruct (holds_start a l H) as [E1 E2]; [lia|]. destruct H as (Hc & Hm & _). unfold array_physical_offset_unchecked, phys.
  rewrite Hc, E1 at 1. apply wrap_phys; auto. rewrite max_slots_eq in Hm. lia.
Qed.

Lemma slot_ok : forall (d : buffer A) i s, nth_error d i = Some s -> slot d (Z.of_nat i) = Returned s.
Proof. intros d i s H. unfold slot. destruct (Z.ltb_spec (Z.of_nat i) 0); [lia|]. rewrite Nat2Z.id, H. auto. Qed.

Lemma read_ok : forall (d : buffer A) i v, nth_error d i = Some (Some v) -> slot_read d (Z.of_nat i) = Returned v.
Proof. intros. unfold slot_read. erewrite slot_ok by eauto. auto. Qed.
Lemma init_ok : forall (d : buffer A) i v, nth_error d i = Some None -> slot_init d (Z.of_nat i) v = Returned (upd d i (Some v)).
Proof. intros. unfold slot_init. erewrite slot_ok by eauto. simpl. rewrite Nat2Z.id. auto. Qed.
Lemma assign_ok : forall (d : buffer A) i w v, nth_error d i = Some (Some w) -> slot_assign d (Z.of_nat i) v = Returned (upd d i (Some v)).
Proof. intros. unfold slot_assign. erewrite slot_ok by eauto. simpl. rewrite Nat2Z.id. auto. Qed.
Lemma take_ok : forall (d : buffer A) i v, nth_error d i = Some (Some v) -> buffer_take d (Z.of_nat i) = Returned (upd d i None, v).
Proof. intros. unfold buffer_take. erewrite slot_ok by eauto. simpl. rewrite Nat2Z.id. auto. Qed.

Lemma holds_slot : forall (a : arr) l i, holds a l -> (i < length (data a))%nat -> nth_error (data a) (phys a i) = Some (nth_error l i).
Proof. intros a l i (_ & _ & _ & _ & _ & H) Hi. apply H. auto. Qed.

Lemma get_offset : forall (a : arr) l i v, holds a l -> nth_error l i = Some v -> array_offset_unchecked a (Z.of_nat i) = Returned v.
Proof.
  intros a l i v H E. assert (Hi : (i < length l)%nat) by (apply nth_error_Some; congruence).
  pose proof H as (_ & _ & _ & Hl & _). unfold array_offset_unchecked. rewrite (offset_phys a l) by (auto; lia).
  apply read_ok. rewrite (holds_slot a l) by (auto; lia). rewrite E. auto.
Qed.

(** ** Linear arrays *)
Definition linear (l : list A) (k : nat) : arr :=
  mkArray (map Some l ++ repeat None k) (Z.of_nat (length l + k)) (Z.of_nat (length l)) 0.

Lemma linear_nth : forall (l : list A) k i, (i < length l + k)%nat -> nth_error (map Some l ++ repeat None k) i = Some (nth_error l i).
Proof.
  intros l k i Hi. destruct (lt_dec i (length l)).
  - rewrite nth_error_app1 by (rewrite map_length; auto). rewrite nth_error_map. destruct (nth_error l i) eqn:E; auto. apply nth_error_None in E. lia.
  - rewrite nth_error_app2 by (rewrite map_length; lia). rewrite map_length. rewrite (proj2 (nth_error_None l i)) by lia.
    apply nth_error_repeat. lia.
Qed.

Lemma linear_holds : forall (l : list A) k, Z.of_nat (length l + k) <= max_slots -> holds (linear l k) l.
Proof.
  intros l k H. unfold holds, linear. cbn [data capacity alen start].
  assert (L : length (map Some l ++ repeat None k) = (length l + k)%nat) by (rewrite app_length, map_length, repeat_length; auto).
  rewrite L. split; auto. split; auto. split; auto. split; [lia|]. split; [lia|].
  intros i Hi. rewrite Nat.add_0_l, Nat.mod_small by lia. apply linear_nth. auto.
Qed.

Lemma linear_init : forall (l : list A) k v, slot_init (map Some l ++ repeat None (S k)) (Z.of_nat (length l)) v = Returned (map Some (l ++ [v]) ++ repeat None k).
Proof.
  intros. erewrite init_ok.
  - f_equal. rewrite upd_app_r by (rewrite map_length; auto). rewrite map_length, Nat.sub_diag. simpl. rewrite map_app, <- app_assoc. auto.
  - rewrite linear_nth by lia. rewrite (proj2 (nth_error_None l (length l))); auto.
Qed.

Lemma linear_init' : forall (l : list A) k v n, n = length l -> slot_init (map Some l ++ repeat None (S k)) (Z.of_nat n) v = Returned (map Some (l ++ [v]) ++ repeat None k).
Proof. intros l k v n ->. apply linear_init. Qed.

Lemma buffer_new : forall c, Z.of_nat c <= max_slots -> @buffer_with_capacity A (Z.of_nat c) = Returned (repeat None c).
Proof.
  intros c H. unfold buffer_with_capacity. rewrite Z.max_l by lia. destruct (Z.ltb_spec max_slots (Z.of_nat c)); [lia|]. rewrite Nat2Z.id. auto.
Qed.

Lemma array_new : forall c, Z.of_nat c <= max_slots -> @array_with_capacity A (Z.of_nat c) = Returned (linear [] c).
Proof.
  intros c H. unfold array_with_capacity. destruct (Z.ltb_spec (Z.of_nat c) 0); [lia|]. rewrite buffer_new by auto. auto.
Qed.

Lemma firstn_S : forall T (l : list T) i v, nth_error l i = Some v -> firstn (S i) l = firstn i l ++ [v].
Proof.
  induction l as [|x l IH]; intros [|i] v H; simpl in *; try discriminate.
  - injection H as ->. auto.
  - f_equal. apply IH. auto.
Qed.

Lemma skipn_S : forall T (l : list T) i v, nth_error l i = Some v -> skipn i l = v :: skipn (S i) l.
Proof.
  induction l as [|x l IH]; intros [|i] v H; simpl in *; try discriminate.
  - injection H as ->. auto.
  - apply IH. auto.
Qed.

(** ** Growth *)
Lemma ensure_loop_ok : forall n (a : arr) l i k fuel, n = (length l - i)%nat -> (i <= length l)%nat -> (n < fuel)%nat ->
  capacity a = Z.of_nat (length (data a)) -> alen a = Z.of_nat (length l) -> (length l <= length (data a))%nat ->
  0 <= start a < Z.max 1 (capacity a) -> capacity a <= max_slots -> (length l - i <= k)%nat ->
  (forall j, (i <= j < length l)%nat -> nth_error (data a) (phys a j) = Some (nth_error l j)) ->
  ensure_loop fuel a (map Some (firstn i l) ++ repeat None k) (Z.of_nat i) = Returned (map Some l ++ repeat None (k - n)).
Proof.
  induction n as [|n IH]; intros a l i k fuel En Hi Hf Hc Hl Hle Hs Hm Hk Hd; (destruct fuel as [|fuel]; [lia|]); cbn [ensure_loop]; rewrite Hl.
  - destruct (Z.ltb_spec (Z.of_nat i) (Z.of_nat (length l))); [lia|]. rewrite firstn_all2 by lia. rewrite Nat.sub_0_r. auto.
  - destruct (Z.ltb_spec (Z.of_nat i) (Z.of_nat (length l))); [|lia].
    destruct (nth_error l i) as [v|] eqn:E; [|apply nth_error_None in E; lia].
    assert (P : array_physical_offset_unchecked a (Z.of_nat i) = Z.of_nat (phys a i)).
    { unfold array_physical_offset_unchecked, phys. replace (start a) with (Z.of_nat (Z.to_nat (start a))) at 1 by lia. rewrite Hc. apply wrap_phys; try lia. rewrite max_slots_eq in Hm. lia. }
    unfold buffer_move_into. rewrite P. rewrite (take_ok _ _ v) by (rewrite Hd by lia; congruence). cbn [bind fst snd].
    destruct k as [|k]; [lia|]. assert (FL : length (firstn i l) = i) by (rewrite firstn_length; lia).
    rewrite (linear_init' _ _ _ i) by auto. cbn [bind fst snd]. rewrite <- (firstn_S _ _ _ _ E).
    rewrite add_ok by (unfold small; rewrite max_slots_eq in Hm; lia). replace (Z.of_nat i + 1) with (Z.of_nat (S i)) by lia.
    replace (S k - S n)%nat with (k - n)%nat by lia. rewrite IH; cbn [data capacity alen start]; rewrite ?upd_length; auto; try lia.
    intros j Hj. unfold phys. cbn [data start]. rewrite upd_length. unfold phys. rewrite ring_upd by lia.
    destruct (Nat.eqb_spec i j); [lia|]. apply Hd. lia.
Qed.

Definition limit : Z := 576460752303423488.

Lemma ensure_ok : forall (a : arr) l, holds a l -> Z.of_nat (S (length l)) <= limit ->
  exists a', array_ensure_capacity a (int_add (alen a) 1) = Returned a' /\ holds a' l /\ (length l < length (data a'))%nat.
Proof.
  intros a l H HL. pose proof H as (Hc & Hm & Hl & Hle & Hs & Hd). unfold limit in HL. unfold array_ensure_capacity.
  rewrite Hl, add_ok by (unfold small; lia). destruct (Z.leb_spec (Z.of_nat (length l) + 1) (capacity a)).
  - exists a. split; auto. split; auto. lia.
  - set (nc := if (if capacity a <=? 0 then 1 else int_mul (capacity a) 2) <? Z.of_nat (length l) + 1 then Z.of_nat (length l) + 1 else if capacity a <=? 0 then 1 else int_mul (capacity a) 2).
    assert (NC : exists k, nc = Z.of_nat (length l + S k) /\ nc <= max_slots).
    { assert (M : int_mul (capacity a) 2 = capacity a * 2) by (unfold int_mul; apply small_int; lia). unfold nc. rewrite M, max_slots_eq.
      destruct (Z.leb_spec (capacity a) 0).
      - destruct (Z.ltb_spec 1 (Z.of_nat (length l) + 1)); [exists 0%nat; lia|]. exists (0 - length l)%nat. lia.
      - destruct (Z.ltb_spec (capacity a * 2) (Z.of_nat (length l) + 1)); [exists 0%nat; lia|]. exists (Z.to_nat (capacity a * 2) - S (length l))%nat. lia. }
    destruct NC as (k & -> & Hnc). rewrite buffer_new by auto. cbn [bind].
    change (repeat None (length l + S k)) with (map Some (@firstn A 0 l) ++ repeat None (length l + S k)). rewrite Nat2Z.id.
    change 0 with (Z.of_nat 0). rewrite (ensure_loop_ok (length l - 0) a l 0); auto; try lia.
    + cbn [bind]. exists (linear l (S k)). split.
      * unfold linear. rewrite Nat.sub_0_r. replace (length l + S k - length l)%nat with (S k) by lia. auto.
      * split; [apply linear_holds; auto|]. cbn [linear data]. rewrite app_length, map_length, repeat_length. lia.
    + intros j Hj. apply holds_slot; auto. lia.
Qed.

(** ** Deque operations *)
Lemma append_ok : forall (a : arr) l v, holds a l -> Z.of_nat (S (length l)) <= limit ->
  exists a', array_append a v = Returned a' /\ holds a' (l ++ [v]).
Proof.
  intros a0 l v H0 HL. unfold array_append. destruct (ensure_ok a0 l H0 HL) as (a & -> & H & Hlt). cbn [bind].
  pose proof H as (Hc & Hm & Hl & Hle & Hs & Hd). unfold limit in HL.
  change (array_wrap_index (capacity a) (int_add (start a) (alen a))) with (array_physical_offset_unchecked a (alen a)).
  rewrite Hl, (offset_phys a l) by auto. rewrite init_ok.
  2:{ rewrite (holds_slot a l) by auto. f_equal. apply nth_error_None. auto. }
  cbn [bind]. eexists. split; [reflexivity|]. unfold holds. cbn [data capacity alen start]. rewrite upd_length, app_length. simpl length.
  split; auto. split; auto. split; [rewrite add_ok by (unfold small; lia); lia|]. split; [lia|]. split; auto.
  intros i Hi. unfold phys. rewrite ring_upd by auto. destruct (Nat.eqb_spec (length l) i) as [<-|N].
  - rewrite nth_error_app2, Nat.sub_diag by auto. auto.
  - rewrite Hd by auto. f_equal. destruct (lt_dec i (length l)).
    + rewrite nth_error_app1; auto.
    + rewrite (proj2 (nth_error_None l i)) by lia. symmetry. apply nth_error_None. rewrite app_length. simpl. lia.
Qed.

Lemma prepend_ok : forall (a : arr) l v, holds a l -> Z.of_nat (S (length l)) <= limit ->
  exists a', array_prepend a v = Returned a' /\ holds a' (v :: l).
Proof.
  intros a0 l v H0 HL. unfold array_prepend. destruct (ensure_ok a0 l H0 HL) as (a & -> & H & Hlt). cbn [bind].
  pose proof H as (Hc & Hm & Hl & Hle & Hs & Hd). unfold limit in HL. rewrite max_slots_eq in Hm.
  destruct (holds_start a l H) as [E1 E2]; [lia|].
  destruct (Z.ltb_spec 0 (capacity a)); [|lia].
  set (s := if start a <=? 0 then int_sub (capacity a) 1 else int_sub (start a) 1).
  assert (ES : s = Z.of_nat (phys a (length (data a) - 1))).
  { unfold s, phys. destruct (Z.leb_spec (start a) 0).
    - rewrite sub_ok by (unfold small; lia). replace (Z.to_nat (start a)) with 0%nat by lia. rewrite Nat.mod_small by lia. lia.
    - rewrite sub_ok by (unfold small; lia). replace (Z.to_nat (start a) + (length (data a) - 1))%nat with (Z.to_nat (start a) - 1 + 1 * length (data a))%nat by lia.
      rewrite Nat.mod_add by lia. rewrite Nat.mod_small by lia. lia. }
  assert (SL : (phys a (length (data a) - 1) < length (data a))%nat) by (apply ring_lt; lia).
  rewrite ES. rewrite init_ok.
  2:{ rewrite (holds_slot a l) by (auto; lia). f_equal. apply nth_error_None. lia. }
  cbn [bind]. eexists. split; [reflexivity|]. unfold holds. cbn [data capacity alen start]. rewrite upd_length. simpl length.
  split; auto. split; auto. split; [rewrite Hl, add_ok by (unfold small; lia); lia|]. split; [lia|]. split; [lia|].
  intros i Hi. rewrite Nat2Z.id. set (c := length (data a)) in *.
  assert (EP : ((phys a (c - 1) + i) mod c = (Z.to_nat (start a) + (c - 1 + i)) mod c)%nat).
  { unfold phys. fold c. rewrite Nat.add_mod_idemp_l by lia. f_equal. lia. }
  rewrite EP. destruct i as [|i].
  - rewrite Nat.add_0_r. unfold phys. fold c. rewrite nth_error_upd_same; auto.
  - assert (E3 : ((Z.to_nat (start a) + (c - 1 + S i)) mod c = (Z.to_nat (start a) + i) mod c)%nat).
    { replace (Z.to_nat (start a) + (c - 1 + S i))%nat with (Z.to_nat (start a) + i + 1 * c)%nat by lia. rewrite Nat.mod_add by lia. auto. }
    rewrite E3. unfold phys. fold c. unfold c. rewrite ring_upd by (unfold c in *; lia). destruct (Nat.eqb_spec (length (data a) - 1) i); [unfold c in *; lia|].
    simpl. apply Hd. unfold c in *. lia.
Qed.

Lemma removelast_nth : forall T (l : list T) i, nth_error (removelast l) i = if Nat.eqb (S i) (length l) then None else nth_error l i.
Proof.
  induction l as [|x l IH]; intros i; [destruct i; auto|]. destruct l as [|y l].
  - destruct i; simpl; auto. destruct i; auto.
  - change (removelast (x :: y :: l)) with (x :: removelast (y :: l)). destruct i; [simpl; auto|].
    cbn [nth_error]. rewrite IH. simpl. auto.
Qed.
Lemma removelast_len : forall T (l : list T), length (removelast l) = (length l - 1)%nat.
Proof. induction l as [|x [|y l] IH]; auto. change (removelast (x :: y :: l)) with (x :: removelast (y :: l)). simpl length in *. rewrite IH. lia. Qed.
Lemma last_nth : forall T (l : list T), hd_error (rev l) = nth_error l (length l - 1).
Proof.
  intros T l. destruct (rev l) as [|x r] eqn:E.
  - assert (l = []) by (apply (f_equal (@rev T)) in E; rewrite rev_involutive in E; auto). subst. auto.
  - apply (f_equal (@rev T)) in E. rewrite rev_involutive in E. subst l. simpl. rewrite app_length. simpl.
    rewrite nth_error_app2 by lia. replace (length (rev r) + 1 - 1 - length (rev r))%nat with 0%nat by lia. auto.
Qed.

Lemma pop_back_ok : forall (a : arr) l, holds a l -> exists a', array_pop_back a = Returned (a', hd_error (rev l)) /\ holds a' (removelast l).
Proof.
  intros a l H. pose proof H as (Hc & Hm & Hl & Hle & Hs & Hd). rewrite max_slots_eq in Hm. unfold array_pop_back, array_len. rewrite Hl, last_nth.
  destruct (Z.leb_spec (Z.of_nat (length l)) 0).
  - destruct l; [|simpl in *; lia]. exists a. auto.
  - destruct (nth_error l (length l - 1)) as [v|] eqn:E; [|apply nth_error_None in E; lia].
    rewrite sub_ok by (unfold small; lia). replace (Z.of_nat (length l) - 1) with (Z.of_nat (length l - 1)) by lia.
    rewrite (offset_phys a l) by (auto; lia). rewrite (take_ok _ _ v) by (rewrite (holds_slot a l) by (auto; lia); congruence).
    cbn [bind fst snd]. eexists. split; [reflexivity|]. unfold holds. cbn [data capacity alen start]. rewrite upd_length, removelast_len.
    split; auto. split; [rewrite max_slots_eq; auto|]. split; auto. split; [lia|]. split; auto.
    intros i Hi. unfold phys. rewrite ring_upd by lia. rewrite removelast_nth.
    destruct (Nat.eqb_spec (length l - 1) i), (Nat.eqb_spec (S i) (length l)); try lia; auto.
Qed.

Lemma pop_front_ok : forall (a : arr) l, holds a l -> exists a', array_pop_front a = Returned (a', hd_error l) /\ holds a' (tl l).
Proof.
  intros a l H. pose proof H as (Hc & Hm & Hl & Hle & Hs & Hd). rewrite max_slots_eq in Hm. unfold array_pop_front, array_len. rewrite Hl.
  destruct (Z.leb_spec (Z.of_nat (length l)) 0).
  - destruct l; [|simpl in *; lia]. exists a. auto.
  - destruct l as [|v l]; [simpl in *; lia|]. simpl length in *. destruct (holds_start a _ H) as [E1 E2]; [lia|].
    set (c := length (data a)) in *.
    assert (P0 : Z.to_nat (start a) = phys a 0) by (unfold phys; fold c; rewrite Nat.add_0_r, Nat.mod_small by lia; auto).
    assert (S0 : nth_error (data a) (Z.to_nat (start a)) = Some (Some v)) by (rewrite P0, (holds_slot a _ 0 H) by lia; auto).
    set (s' := if _ <=? 0 then 0 else _). rewrite E1. rewrite (take_ok _ _ v) by auto. cbn [bind fst snd]. eexists. split; [reflexivity|].
    rewrite sub_ok by (unfold small; lia). unfold holds. cbn [data capacity alen start tl]. rewrite upd_length. fold c.
    split; auto. split; [rewrite max_slots_eq; auto|]. split; [lia|]. split; [lia|].
    assert (U : forall i, (i < c)%nat -> nth_error (upd (data a) (Z.to_nat (start a)) None) ((Z.to_nat (start a) + i) mod c) = Some (if Nat.eqb 0 i then None else nth_error (v :: l) i)).
    { intros i Hi. rewrite P0 at 1. unfold phys, c. rewrite ring_upd by lia. destruct (Nat.eqb 0 i); auto. }
    unfold s'. rewrite sub_ok by (unfold small; lia). destruct (Z.leb_spec (Z.of_nat (S (length l)) - 1) 0).
    + destruct l; [|cbn [length] in *; lia]. split; [lia|]. intros i Hi. rewrite Nat.add_0_l, Nat.mod_small by auto.
      destruct (ring_surj c (Z.to_nat (start a)) i E2 Hi) as (j & Hj & ->). rewrite U by auto. f_equal.
      transitivity (@None A); [destruct j as [|[|j]]; auto|]. destruct ((Z.to_nat (start a) + j) mod c)%nat; auto.
    + rewrite add_ok by (unfold small; lia). assert (N1 : nth_error l (c - 1) = None) by (apply nth_error_None; lia).
      destruct (Z.leb_spec (capacity a) (start a + 1)); (split; [lia|]); intros i Hi.
      * simpl Z.to_nat. rewrite Nat.add_0_l, (Nat.mod_small i) by auto. destruct (Nat.eq_dec i (c - 1)) as [->|Ni].
        -- specialize (U 0%nat ltac:(lia)). rewrite Nat.add_0_r, Nat.mod_small in U by lia. rewrite N1. simpl in U. rewrite <- U. f_equal. lia.
        -- specialize (U (S i) ltac:(lia)). simpl in U. rewrite <- U. f_equal. replace (Z.to_nat (start a) + S i)%nat with (i + 1 * c)%nat by lia.
           rewrite Nat.mod_add by lia. rewrite Nat.mod_small; lia.
      * replace (Z.to_nat (start a + 1)) with (S (Z.to_nat (start a))) by lia. destruct (Nat.eq_dec i (c - 1)) as [->|Ni].
        -- specialize (U 0%nat ltac:(lia)). rewrite N1. simpl in U. rewrite <- U. f_equal.
           replace (S (Z.to_nat (start a)) + (c - 1))%nat with (Z.to_nat (start a) + 0 + 1 * c)%nat by lia. rewrite Nat.mod_add by lia. auto.
        -- specialize (U (S i) ltac:(lia)). simpl in U. rewrite <- U. f_equal. f_equal. lia.
Qed.

Lemma peek_back_ok : forall (a : arr) l, holds a l -> array_peek_back a = Returned (hd_error (rev l)).
Proof.
  intros a l H. pose proof H as (Hc & Hm & Hl & Hle & Hs & Hd). rewrite max_slots_eq in Hm. unfold array_peek_back, array_len. rewrite Hl, last_nth.
  destruct (Z.leb_spec (Z.of_nat (length l)) 0).
  - destruct l; [|simpl in *; lia]. auto.
  - destruct (nth_error l (length l - 1)) as [v|] eqn:E; [|apply nth_error_None in E; lia].
    rewrite sub_ok by (unfold small; lia). replace (Z.of_nat (length l) - 1) with (Z.of_nat (length l - 1)) by lia.
    rewrite (get_offset a l _ v) by auto. auto.
Qed.
Lemma peek_front_ok : forall (a : arr) l, holds a l -> array_peek_front a = Returned (hd_error l).
Proof.
  intros a l H. pose proof H as (Hc & Hm & Hl & Hle & Hs & Hd). unfold array_peek_front, array_len. rewrite Hl.
  destruct (Z.leb_spec (Z.of_nat (length l)) 0).
  - destruct l; [|simpl in *; lia]. auto.
  - destruct l as [|v l]; [simpl in *; lia|]. change 0 with (Z.of_nat 0). rewrite (get_offset a (v :: l) 0 v) by auto. auto.
Qed.

(** ** Indexing *)
Lemma resolve_ok : forall n i, Z.of_nat n <= max_slots -> in_int i ->
  array_resolve_index i (Z.of_nat n) = match denotes n i with Some j => Returned (Z.of_nat j) | None => Panic end.
Proof.
  intros n i Hn Hi. rewrite max_slots_eq in Hn. consts. unfold array_resolve_index, array_signed_index_to_offset, denotes.
  destruct (Z.ltb_spec i 0).
  - unfold int_add. rewrite small_int by lia. set (j := Z.of_nat n + i).
    destruct (Z.ltb_spec j 0), (Z.leb_spec (Z.of_nat n) j), (Z.leb_spec 0 j), (Z.ltb_spec j (Z.of_nat n)); simpl; try lia; auto. f_equal. lia.
  - destruct (Z.ltb_spec i 0), (Z.leb_spec (Z.of_nat n) i), (Z.leb_spec 0 i), (Z.ltb_spec i (Z.of_nat n)); simpl; try lia; auto. f_equal. lia.
Qed.

Lemma denotes_lt : forall n i j, denotes n i = Some j -> (j < n)%nat.
Proof.
  intros n i j. unfold denotes. set (k := if i <? 0 then _ else _). destruct (Z.leb_spec 0 k), (Z.ltb_spec k (Z.of_nat n)); simpl; try discriminate.
  intros E. injection E as <-. lia.
Qed.

Lemma holds_le : forall (a : arr) l, holds a l -> Z.of_nat (length l) <= max_slots.
Proof. intros a l (Hc & Hm & Hl & Hle & _). lia. Qed.

Lemma get_ok : forall (a : arr) l i, holds a l -> in_int i ->
  array_get a i = match denotes (length l) i with
                  | Some j => match nth_error l j with Some v => Returned v | None => Panic end
                  | None => Panic end.
Proof.
  intros a l i H Hi. pose proof H as (Hc & Hm & Hl & Hle & Hs & Hd). unfold array_get, array_len. rewrite Hl, resolve_ok by (auto; eapply holds_le; eauto).
  destruct (denotes (length l) i) as [j|] eqn:E; auto. cbn [bind]. apply denotes_lt in E.
  destruct (nth_error l j) as [v|] eqn:N; [|apply nth_error_None in N; lia].
  apply (get_offset a l j v H N).
Qed.

Lemma replace_nth : forall T (l : list T) j v i, (j < length l)%nat -> nth_error (replace l j v) i = if Nat.eqb j i then Some v else nth_error l i.
Proof.
  intros T l j v i Hj. unfold replace. destruct (Nat.eqb_spec j i) as [<-|N].
  - rewrite nth_error_app2 by (rewrite firstn_length; lia). rewrite firstn_length. replace (j - Nat.min j (length l))%nat with 0%nat by lia. auto.
  - destruct (lt_dec i j).
    + rewrite nth_error_app1 by (rewrite firstn_length; lia). clear - l0. revert i j l0. induction l; intros [|i] [|j] H; simpl; auto; try lia. apply IHl. lia.
    + rewrite nth_error_app2 by (rewrite firstn_length; lia). rewrite firstn_length. replace (i - Nat.min j (length l))%nat with (S (i - S j)) by lia. cbn [nth_error].
      assert (G : forall (l : list T) k m, nth_error (skipn k l) m = nth_error l (k + m)) by (clear; induction l; intros [|k] m; simpl; auto; destruct m; auto).
      rewrite G. f_equal. lia.
Qed.
Lemma replace_len : forall T (l : list T) j v, (j < length l)%nat -> length (replace l j v) = length l.
Proof. intros. unfold replace. rewrite app_length, firstn_length. cbn [length]. rewrite skipn_length. lia. Qed.

Lemma set_ok : forall (a : arr) l i v, holds a l -> in_int i ->
  match denotes (length l) i with
  | Some j => exists a', array_set a i v = Returned a' /\ holds a' (replace l j v)
  | None => array_set a i v = Panic end.
Proof.
  intros a l i v H Hi. pose proof H as (Hc & Hm & Hl & Hle & Hs & Hd). unfold array_set, array_len. rewrite Hl, resolve_ok by (auto; eapply holds_le; eauto).
  destruct (denotes (length l) i) as [j|] eqn:E; auto. cbn [bind]. apply denotes_lt in E.
  destruct (nth_error l j) as [w|] eqn:N; [|apply nth_error_None in N; lia].
  change (array_wrap_index (capacity a) (int_add (start a) (Z.of_nat j))) with (array_physical_offset_unchecked a (Z.of_nat j)).
  rewrite (offset_phys a l) by (auto; lia). rewrite (assign_ok _ _ w) by (rewrite (holds_slot a l) by (auto; lia); congruence).
  cbn [bind]. eexists. split; [reflexivity|]. unfold holds. cbn [data capacity alen start]. rewrite upd_length, replace_len by auto.
  split; auto. split; auto. split; auto. split; auto. split; auto.
  intros k Hk. unfold phys. rewrite ring_upd by lia. rewrite replace_nth by auto. destruct (Nat.eqb j k); auto.
Qed.

(** ** Copies *)
Lemma copy_loop_ok : forall n (a : arr) l i e r k fuel, holds a l -> n = (e - i)%nat -> (i <= e <= length l)%nat -> (n < fuel)%nat -> (n <= k)%nat ->
  Z.of_nat (length r + k) <= max_slots ->
  copy_loop fuel a (linear r k) (Z.of_nat i) (Z.of_nat e) = Returned (linear (r ++ sublist l i e) (k - n)).
Proof.
  induction n as [|n IH]; intros a l i e r k fuel H En Hi Hf Hk Hm; (destruct fuel as [|fuel]; [lia|]); cbn [copy_loop].
  - destruct (Z.ltb_spec (Z.of_nat i) (Z.of_nat e)); [lia|]. unfold sublist. replace (e - i)%nat with 0%nat by lia. simpl. rewrite app_nil_r, Nat.sub_0_r. auto.
  - destruct (Z.ltb_spec (Z.of_nat i) (Z.of_nat e)); [|lia].
    destruct (nth_error l i) as [v|] eqn:E; [|apply nth_error_None in E; lia].
    change (slot_read (data a) (array_physical_offset_unchecked a (Z.of_nat i))) with (array_offset_unchecked a (Z.of_nat i)).
    rewrite (get_offset a l i v) by auto. cbn [bind]. destruct k as [|k]; [lia|]. cbn [linear data alen capacity start].
    rewrite linear_init. cbn [bind]. rewrite max_slots_eq in Hm. pose proof (holds_le a l H) as HL. rewrite max_slots_eq in HL.
    rewrite !add_ok by (unfold small; lia). replace (Z.of_nat i + 1) with (Z.of_nat (S i)) by lia.
    assert (EL : mkArray (map Some (r ++ [v]) ++ repeat None k) (Z.of_nat (length r + S k)) (Z.of_nat (length r) + 1) 0 = linear (r ++ [v]) k).
    { unfold linear. rewrite app_length. simpl length. f_equal; lia. }
    rewrite EL. rewrite (IH a l (S i) e); auto; try lia.
    + f_equal. f_equal. rewrite <- app_assoc. f_equal. unfold sublist. rewrite (skipn_S _ _ _ _ E). replace (e - i)%nat with (S (e - S i)) by lia. auto.
    + rewrite app_length. simpl length. rewrite max_slots_eq. lia.
Qed.

Lemma sublist_all : forall T (l : list T), sublist l 0 (length l) = l.
Proof. intros. unfold sublist. rewrite Nat.sub_0_r. simpl. apply firstn_all. Qed.

Lemma sublist_len : forall T (l : list T) s e, (e <= length l)%nat -> length (sublist l s e) = (e - s)%nat.
Proof. intros. unfold sublist. rewrite firstn_length, skipn_length. lia. Qed.

Lemma clone_ok : forall (a : arr) l, holds a l -> exists a', array_clone a = Returned a' /\ holds a' l.
Proof.
  intros a l H. pose proof H as (Hc & Hm & Hl & Hle & Hs & Hd). pose proof (holds_le a l H) as HL. unfold array_clone, array_len. rewrite Hl, array_new by auto. cbn [bind].
  change 0 with (Z.of_nat 0) at 1. rewrite Nat2Z.id. rewrite (copy_loop_ok (length l) a l 0 (length l)); auto; try lia.
  eexists. split; [reflexivity|]. simpl app. rewrite sublist_all. apply linear_holds. lia.
Qed.

Lemma bound_le : forall n i, (bound n i <= n)%nat.
Proof. intros. unfold bound. set (j := if i <? 0 then _ else _). destruct (Z.leb_spec 0 j), (Z.leb_spec j (Z.of_nat n)); simpl; lia. Qed.

Lemma slice_bound_ok : forall n i, Z.of_nat n <= max_slots -> in_int i -> array_slice_bound (Z.of_nat n) i = Z.of_nat (bound n i).
Proof.
  intros n i Hn Hi. rewrite max_slots_eq in Hn. consts. unfold array_slice_bound, array_signed_index_to_offset, bound.
  destruct (Z.ltb_spec i 0).
  - unfold int_add. rewrite small_int by lia. set (j := Z.of_nat n + i).
    destruct (Z.ltb_spec j 0), (Z.ltb_spec (Z.of_nat n) j), (Z.leb_spec 0 j), (Z.leb_spec j (Z.of_nat n)); simpl; lia.
  - destruct (Z.ltb_spec i 0), (Z.ltb_spec (Z.of_nat n) i), (Z.leb_spec 0 i), (Z.leb_spec i (Z.of_nat n)); simpl; lia.
Qed.

Lemma slice_ok : forall (a : arr) l s e, holds a l -> in_int s -> in_int e ->
  exists a', array_slice a s e = Returned a' /\ holds a' (sublist l (bound (length l) s) (bound (length l) e)).
Proof.
  intros a l s e H Hs' He. pose proof (holds_le a l H) as HL. pose proof H as (_ & _ & Hl & _). unfold array_slice, array_len. rewrite Hl, !slice_bound_ok by auto.
  pose proof (bound_le (length l) s). pose proof (bound_le (length l) e). set (S0 := bound (length l) s) in *. set (E0 := bound (length l) e) in *.
  rewrite max_slots_eq in HL. rewrite sub_ok by (unfold small; lia).
  assert (N : array_with_capacity (Z.of_nat E0 - Z.of_nat S0) = Returned (@linear [] (E0 - S0))).
  { destruct (le_lt_dec S0 E0).
    - replace (Z.of_nat E0 - Z.of_nat S0) with (Z.of_nat (E0 - S0)) by lia. apply array_new. rewrite max_slots_eq. lia.
    - unfold array_with_capacity. destruct (Z.ltb_spec (Z.of_nat E0 - Z.of_nat S0) 0); [|lia]. replace (E0 - S0)%nat with 0%nat by lia. reflexivity. }
  rewrite N. cbn [bind]. destruct (Z.ltb_spec (Z.of_nat S0) (Z.of_nat E0)).
  - rewrite (copy_loop_ok (E0 - S0) a l S0 E0); auto; try lia.
    + eexists. split; [reflexivity|]. cbn [app]. apply linear_holds. rewrite sublist_len by auto. rewrite max_slots_eq. lia.
    + simpl length. rewrite max_slots_eq. lia.
  - eexists. split; [reflexivity|]. replace (sublist l S0 E0) with (@nil A).
    + apply linear_holds. simpl length. rewrite max_slots_eq. lia.
    + unfold sublist. replace (E0 - S0)%nat with 0%nat by lia. auto.
Qed.

Lemma concat_ok : forall (a b : arr) l r, holds a l -> holds b r -> Z.of_nat (length (l ++ r)) <= limit ->
  exists c, array_concat a b = Returned c /\ holds c (l ++ r).
Proof.
  intros a b l r Ha Hb HL. pose proof (holds_le a l Ha) as H1. pose proof (holds_le b r Hb) as H2. pose proof Ha as (_ & _ & La & _). pose proof Hb as (_ & _ & Lb & _).
  rewrite max_slots_eq in *. rewrite app_length in HL. unfold limit in HL. unfold array_concat, array_len. rewrite La, Lb, add_ok by (unfold small; lia).
  replace (Z.of_nat (length l) + Z.of_nat (length r)) with (Z.of_nat (length l + length r)) by lia. rewrite array_new by (rewrite max_slots_eq; lia). cbn [bind].
  change 0 with (Z.of_nat 0) at 1. rewrite !Nat2Z.id. rewrite (copy_loop_ok (length l) a l 0 (length l)); auto; try (simpl length; rewrite ?max_slots_eq; lia). cbn [bind].
  rewrite sublist_all. simpl app. change 0 with (Z.of_nat 0). rewrite (copy_loop_ok (length r) b r 0 (length r)); auto; try (rewrite ?max_slots_eq; lia).
  rewrite sublist_all. eexists. split; [reflexivity|]. apply linear_holds. rewrite app_length, max_slots_eq. lia.
Qed.

Lemma empty_ok : exists a : arr, array_empty = Returned a /\ holds a [].
Proof. exists (linear [] 0). split; [reflexivity|]. apply linear_holds. rewrite max_slots_eq. simpl. lia. Qed.

Lemma from_iter_loop_ok : forall items (a : arr) l, holds a l -> Z.of_nat (length (l ++ items)) <= limit ->
  exists a', from_iter_loop items a = Returned a' /\ holds a' (l ++ items).
Proof.
  induction items as [|x items IH]; intros a l H HL; simpl.
  - exists a. rewrite app_nil_r. auto.
  - rewrite app_length in HL. simpl length in HL. destruct (append_ok a l x H) as (a1 & -> & H1); [lia|]. cbn [bind].
    destruct (IH a1 (l ++ [x]) H1) as (a2 & -> & H2); [rewrite !app_length; simpl length; lia|]. exists a2. rewrite <- app_assoc in H2. auto.
Qed.

(** ** Iteration, equality, reversal, drop *)
Lemma iter_loop_ok : forall n (a : arr) l i fuel, holds a l -> n = (length l - i)%nat -> (n < fuel)%nat -> (i <= length l)%nat ->
  iter_loop fuel a (Z.of_nat i) = Returned (skipn i l).
Proof.
  induction n as [|n IH]; intros a l i fuel H En Hf Hi; (destruct fuel as [|fuel]; [lia|]); cbn [iter_loop]; unfold array_len; pose proof H as (_ & _ & Hl & _); rewrite Hl.
  - destruct (Z.ltb_spec (Z.of_nat i) (Z.of_nat (length l))); [lia|]. rewrite skipn_all2 by lia. auto.
  - destruct (Z.ltb_spec (Z.of_nat i) (Z.of_nat (length l))); [|lia].
    destruct (nth_error l i) as [v|] eqn:E; [|apply nth_error_None in E; lia]. rewrite (get_offset a l i v) by auto. cbn [bind].
    pose proof (holds_le a l H) as HL. rewrite max_slots_eq in HL. rewrite add_ok by (unfold small; lia). replace (Z.of_nat i + 1) with (Z.of_nat (S i)) by lia.
    rewrite (IH a l) by (auto; lia). cbn [bind]. rewrite (skipn_S _ _ _ _ E). auto.
Qed.

Lemma iterate_ok : forall (a : arr) l, holds a l -> array_iterate a = Returned l.
Proof.
  intros a l H. unfold array_iterate. pose proof H as (_ & _ & Hl & _). destruct (clone_ok a l H) as (a' & -> & H'). cbn [bind].
  change 0 with (Z.of_nat 0). rewrite Hl, Nat2Z.id. rewrite (iter_loop_ok (length l) a' l); auto; lia.
Qed.

Lemma eq_loop_ok : forall eqb n (a b : arr) l r i fuel, holds a l -> holds b r -> length l = length r -> n = (length l - i)%nat -> (n < fuel)%nat -> (i <= length l)%nat ->
  eq_loop eqb fuel a b (Z.of_nat (length l)) (Z.of_nat i) = Returned (list_eqb eqb (skipn i l) (skipn i r)).
Proof.
  intros eqb. induction n as [|n IH]; intros a b l r i fuel Ha Hb HLR En Hf Hi; (destruct fuel as [|fuel]; [lia|]); cbn [eq_loop].
  - destruct (Z.leb_spec (Z.of_nat (length l)) (Z.of_nat i)); [|lia]. rewrite !skipn_all2 by lia. auto.
  - destruct (Z.leb_spec (Z.of_nat (length l)) (Z.of_nat i)); [lia|].
    destruct (nth_error l i) as [v|] eqn:E; [|apply nth_error_None in E; lia]. rewrite (get_offset a l i v) by auto. cbn [bind].
    destruct (nth_error r i) as [w|] eqn:F; [|apply nth_error_None in F; lia]. rewrite (get_offset b r i w) by auto. cbn [bind].
    rewrite (skipn_S _ _ _ _ E), (skipn_S _ _ _ _ F). cbn [list_eqb]. destruct (eqb v w); simpl negb; cbn [andb]; auto.
    pose proof (holds_le a l Ha) as HL. rewrite max_slots_eq in HL. rewrite add_ok by (unfold small; lia). replace (Z.of_nat i + 1) with (Z.of_nat (S i)) by lia.
    apply IH; auto; lia.
Qed.

Lemma list_eqb_len : forall eqb (l r : list A), length l <> length r -> list_eqb eqb l r = false.
Proof. induction l as [|x l IH]; intros [|y r] H; simpl in *; auto; try lia. rewrite IH by lia. apply andb_false_r. Qed.

Lemma eq_ok : forall eqb (a b : arr) l r, holds a l -> holds b r -> array_eq eqb a b = Returned (list_eqb eqb l r).
Proof.
  intros eqb a b l r Ha Hb. unfold array_eq, array_len. pose proof Ha as (_ & _ & La & _). pose proof Hb as (_ & _ & Lb & _). rewrite La, Lb.
  destruct (Z.eqb_spec (Z.of_nat (length l)) (Z.of_nat (length r))); simpl negb.
  - rewrite Nat2Z.id. change 0 with (Z.of_nat 0). rewrite (eq_loop_ok eqb (length l) a b l r); auto; lia.
  - rewrite list_eqb_len; auto.
Qed.

Lemma nth_rev : forall T (l : list T) i, (i < length l)%nat -> nth_error (rev l) i = nth_error l (length l - 1 - i).
Proof.
  intros T l i Hi. destruct l as [|d l']; [simpl in Hi; lia|]. set (l := d :: l') in *.
  rewrite (nth_error_nth' (rev l) d) by (rewrite rev_length; auto). rewrite (nth_error_nth' l d) by lia. rewrite rev_nth by auto. f_equal. f_equal. lia.
Qed.

Lemma nth_ext_eq : forall T (l r : list T), length l = length r -> (forall i, (i < length l)%nat -> nth_error l i = nth_error r i) -> l = r.
Proof.
  induction l as [|x l IH]; intros [|y r] HL H; simpl in HL; try lia; auto. assert (E := H 0%nat ltac:(simpl; lia)). injection E as ->. f_equal. apply IH; [lia|].
  intros i Hi. apply (H (S i)). simpl. lia.
Qed.

Lemma denotes_pos : forall n i, (i < n)%nat -> denotes n (Z.of_nat i) = Some i.
Proof.
  intros n i H. unfold denotes. destruct (Z.ltb_spec (Z.of_nat i) 0); [lia|]. destruct (Z.leb_spec 0 (Z.of_nat i)); [|lia]. destruct (Z.ltb_spec (Z.of_nat i) (Z.of_nat n)); [|lia].
  simpl. rewrite Nat2Z.id. auto.
Qed.

Lemma small_index : forall (a : arr) l i, holds a l -> (i <= length l)%nat -> in_int (Z.of_nat i).
Proof. intros a l i H Hi. pose proof (holds_le a l H) as HL. rewrite max_slots_eq in HL. consts. lia. Qed.

Lemma reverse_loop_ok : forall fuel (a : arr) m l left right, holds a m -> length m = length l -> (left + right = length l)%nat -> (right - left < fuel)%nat ->
  (forall i, (i < length l)%nat -> nth_error m i = if (left <=? i)%nat && (i <? right)%nat then nth_error l i else nth_error (rev l) i) ->
  exists a', reverse_loop fuel a (Z.of_nat left) (Z.of_nat right) = Returned a' /\ holds a' (rev l).
Proof.
  induction fuel as [|fuel IH]; intros a m l left right H HL HS Hf Hm; [lia|]. cbn [reverse_loop].
  pose proof (holds_le a m H) as HB. rewrite max_slots_eq in HB.
  destruct (Z.leb_spec (Z.of_nat right) (Z.of_nat left)).
  - exists a. split; auto. replace (rev l) with m; auto. apply nth_ext_eq; [rewrite rev_length; auto|]. intros i Hi. rewrite Hm by lia.
    destruct (Nat.leb_spec left i), (Nat.ltb_spec i right); simpl; auto. lia.
  - rewrite sub_ok by (unfold small; lia). replace (Z.of_nat right - 1) with (Z.of_nat (right - 1)) by lia.
    destruct (Z.leb_spec (Z.of_nat (right - 1)) (Z.of_nat left)).
    + exists a. split; auto. replace (rev l) with m; auto. apply nth_ext_eq; [rewrite rev_length; auto|]. intros i Hi. rewrite Hm by lia.
      destruct (Nat.leb_spec left i), (Nat.ltb_spec i right); simpl; auto. rewrite nth_rev by lia. f_equal. lia.
    + rewrite (get_ok a m _ H) by (apply (small_index a m); auto; lia). rewrite denotes_pos by lia.
      destruct (nth_error m left) as [x|] eqn:Ex; [|apply nth_error_None in Ex; lia]. cbn [bind].
      rewrite (get_ok a m _ H) by (apply (small_index a m); auto; lia). rewrite denotes_pos by lia.
      destruct (nth_error m (right - 1)) as [y|] eqn:Ey; [|apply nth_error_None in Ey; lia]. cbn [bind].
      pose proof (set_ok a m (Z.of_nat left) y H ltac:(apply (small_index a m); auto; lia)) as S1. rewrite denotes_pos in S1 by lia. destruct S1 as (a1 & -> & Ha1). cbn [bind].
      pose proof (set_ok a1 _ (Z.of_nat (right - 1)) x Ha1 ltac:(apply (small_index a m); auto; lia)) as S2. rewrite denotes_pos in S2 by (rewrite replace_len; lia). destruct S2 as (a2 & -> & Ha2). cbn [bind].
      rewrite add_ok by (unfold small; lia). replace (Z.of_nat left + 1) with (Z.of_nat (S left)) by lia.
      apply (IH a2 _ l (S left) (right - 1)%nat Ha2); try lia.
      * rewrite !replace_len; rewrite ?replace_len; lia.
      * intros i Hi. rewrite !replace_nth by (rewrite ?replace_len; lia). pose proof (Hm left ltac:(lia)) as ML. pose proof (Hm (right - 1)%nat ltac:(lia)) as MR.
        destruct (Nat.leb_spec left left); [|lia]. destruct (Nat.ltb_spec left right); [|lia]. destruct (Nat.leb_spec left (right - 1)); [|lia]. destruct (Nat.ltb_spec (right - 1) right); [|lia].
        simpl in ML, MR. rewrite ML in Ex. rewrite MR in Ey.
        destruct (Nat.leb_spec (S left) i), (Nat.ltb_spec i (right - 1)); simpl; destruct (Nat.eqb_spec (right - 1) i), (Nat.eqb_spec left i); try lia; subst.
        -- rewrite Hm by lia. destruct (Nat.leb_spec left i), (Nat.ltb_spec i right); simpl; auto; lia.
        -- rewrite nth_rev by lia. rewrite <- Ex. f_equal. lia.
        -- rewrite Hm by lia. destruct (Nat.leb_spec left i), (Nat.ltb_spec i right); simpl; auto; lia.
        -- rewrite nth_rev by lia. rewrite <- Ey. f_equal. lia.
        -- rewrite Hm by lia. destruct (Nat.leb_spec left i), (Nat.ltb_spec i right); simpl; auto; lia.
Qed.

Lemma reverse_ok : forall (a : arr) l, holds a l -> exists a', array_reverse a = Returned a' /\ holds a' (rev l).
Proof.
  intros a l H. unfold array_reverse, array_len. pose proof H as (_ & _ & Hl & _). rewrite Hl, Nat2Z.id. change 0 with (Z.of_nat 0).
  apply (reverse_loop_ok _ a l l); auto; try lia. intros i Hi. simpl. destruct (Nat.ltb_spec i (length l)); auto. lia.
Qed.

Lemma removelast_app_last : forall (l : list A) v, nth_error l (length l - 1) = Some v -> removelast l ++ [v] = l.
Proof.
  intros l v H. rewrite <- last_nth in H. destruct (rev l) as [|x r] eqn:E; [discriminate|]. injection H as ->.
  apply (f_equal (@rev A)) in E. rewrite rev_involutive in E. simpl in E. subst l. rewrite removelast_last. auto.
Qed.

Lemma drop_loop_ok : forall n (a : arr) l d fuel, holds a l -> length l = n -> (n < fuel)%nat -> exists a', drop_loop fuel a d = Returned (a', l ++ d) /\ holds a' [].
Proof.
  induction n as [|n IH]; intros a l d fuel H Hn Hf; (destruct fuel as [|fuel]; [lia|]); cbn [drop_loop]; unfold array_len; pose proof H as (_ & _ & Hl & _); rewrite Hl.
  - destruct (Z.leb_spec (Z.of_nat (length l)) 0); [|lia]. destruct l; [|discriminate]. exists a. auto.
  - destruct (Z.leb_spec (Z.of_nat (length l)) 0); [lia|]. destruct (pop_back_ok a l H) as (a' & P & H').
    unfold array_pop_back, array_len in P. rewrite Hl in P. destruct (Z.leb_spec (Z.of_nat (length l)) 0); [lia|].
    destruct (buffer_take (data a) (array_physical_offset_unchecked a (int_sub (Z.of_nat (length l)) 1))) as [r| | | |]; try discriminate.
    cbn [bind] in *. injection P as <- P. assert (EL : length (removelast l) = n) by (rewrite removelast_len; lia).
    destruct (IH _ _ (snd r :: d) fuel H' EL ltac:(lia)) as (a2 & R & H2). rewrite R. exists a2. split; auto. f_equal. f_equal.
    rewrite last_nth in P. transitivity ((removelast l ++ [snd r]) ++ d); [rewrite <- app_assoc; auto|]. rewrite removelast_app_last by congruence. auto.
Qed.

Lemma drop_ok : forall (a : arr) l, holds a l -> exists a', array_drop a = Returned (a', l) /\ holds a' [].
Proof.
  intros a l H. unfold array_drop. pose proof H as (_ & _ & Hl & _). rewrite Hl, Nat2Z.id. destruct (drop_loop_ok (length l) a l [] (S (length l)) H eq_refl ltac:(lia)) as (a' & -> & H').
  rewrite app_nil_r. eauto.
Qed.

(** ** Programs *)
Definition all_hold (ea : env arr) (el : env (list A)) : Prop := forall x, holds (ea x) (el x).

Lemma all_hold_assign : forall ea el x a l, all_hold ea el -> holds a l -> all_hold (assign ea x a) (assign el x l).
Proof. intros ea el x a l H Ha y. unfold assign. destruct (Nat.eqb x y); auto. Qed.

Lemma assign_same : forall V (e : env V) x v, assign e x v x = v.
Proof. intros. unfold assign. rewrite Nat.eqb_refl. auto. Qed.

Lemma step_ok : forall eqb ea el o, all_hold ea el -> op_ok o -> (forall x, Z.of_nat (length (el x)) <= limit) ->
  (forall x, Z.of_nat (length (fst (list_step eqb el o) x)) <= limit) ->
  exists ea', array_step eqb ea o = Returned (ea', snd (list_step eqb el o)) /\ all_hold ea' (fst (list_step eqb el o)).
Proof.
  intros eqb ea el o H Ho HB HB'. destruct o; cbn [list_step array_step] in *; unfold update.
  - destruct empty_ok as (a & -> & Ha). cbn [bind]. eexists. split; [reflexivity|]. apply all_hold_assign; auto.
  - destruct empty_ok as (a & E & Ha). unfold array_from_iter. rewrite E. cbn [bind].
    specialize (HB' x). cbn [fst] in HB'. rewrite assign_same in HB'.
    destruct (from_iter_loop_ok l a [] Ha HB') as (a' & -> & Ha'). cbn [bind]. eexists. split; [reflexivity|]. apply all_hold_assign; auto.
  - destruct (clone_ok _ _ (H y)) as (a & -> & Ha). cbn [bind]. eexists. split; [reflexivity|]. apply all_hold_assign; auto.
  - specialize (HB' x). cbn [fst] in HB'. rewrite assign_same, app_length in HB'. simpl length in HB'.
    destruct (append_ok _ _ v (H x)) as (a & -> & Ha); [lia|]. cbn [bind]. eexists. split; [reflexivity|]. apply all_hold_assign; auto.
  - specialize (HB' x). cbn [fst] in HB'. rewrite assign_same in HB'. simpl length in HB'.
    destruct (prepend_ok _ _ v (H x)) as (a & -> & Ha); [lia|]. cbn [bind]. eexists. split; [reflexivity|]. apply all_hold_assign; auto.
  - destruct (pop_back_ok _ _ (H x)) as (a & -> & Ha). cbn [bind]. eexists. split; [reflexivity|]. apply all_hold_assign; auto.
  - destruct (pop_front_ok _ _ (H x)) as (a & -> & Ha). cbn [bind]. eexists. split; [reflexivity|]. apply all_hold_assign; auto.
  - rewrite (peek_back_ok _ _ (H x)). cbn [bind]. eexists. split; [reflexivity|]. auto.
  - rewrite (peek_front_ok _ _ (H x)). cbn [bind]. eexists. split; [reflexivity|]. auto.
  - rewrite (get_ok _ _ i (H x) Ho). cbn [fst snd]. destruct (denotes _ i) as [j|] eqn:E; [|eauto]. apply denotes_lt in E.
    destruct (nth_error (el x) j) as [v|] eqn:N; [|apply nth_error_None in N; lia]. cbn [bind]. eauto.
  - pose proof (set_ok _ _ i v (H x) Ho) as S. destruct (denotes _ i) as [j|] eqn:E.
    + destruct S as (a & -> & Ha). cbn [bind]. eexists. split; [reflexivity|]. apply all_hold_assign; auto.
    + rewrite S. eexists. split; [reflexivity|]. auto.
  - destruct Ho as [Hs He]. destruct (slice_ok _ _ s e (H y) Hs He) as (a & -> & Ha). cbn [bind]. eexists. split; [reflexivity|]. apply all_hold_assign; auto.
  - specialize (HB' x). cbn [fst] in HB'. rewrite assign_same in HB'.
    destruct (concat_ok _ _ _ _ (H y) (H z) HB') as (a & -> & Ha). cbn [bind]. eexists. split; [reflexivity|]. apply all_hold_assign; auto.
  - destruct (reverse_ok _ _ (H x)) as (a & -> & Ha). cbn [bind]. eexists. split; [reflexivity|]. apply all_hold_assign; auto.
  - rewrite (iterate_ok _ _ (H x)). cbn [bind]. eauto.
  - rewrite (eq_ok eqb _ _ _ _ (H x) (H y)). cbn [bind]. eauto.
  - destruct (drop_ok _ _ (H x)) as (a & -> & Ha). cbn [bind snd]. destruct empty_ok as (a' & -> & Ha'). cbn [bind]. eexists. split; [reflexivity|]. apply all_hold_assign; auto.
  - pose proof (H x) as (_ & _ & Hl & _). unfold array_len. rewrite Hl. eauto.
Qed.

Lemma stays_below_head : forall eqb lim (e : env (list A)) ops, stays_below eqb lim e ops -> forall x, Z.of_nat (length (e x)) <= lim.
Proof. intros eqb lim e [|o ops] [H _]; auto. Qed.

Lemma run_ok : forall eqb ops ea el, all_hold ea el -> Forall op_ok ops -> stays_below eqb limit el ops ->
  exists ea', array_run eqb ea ops = Returned (ea', snd (list_run eqb el ops)) /\ all_hold ea' (fst (list_run eqb el ops)).
Proof.
  intros eqb. induction ops as [|o ops IH]; intros ea el H Ho HB; cbn [array_run list_run].
  - eauto.
  - inversion Ho; subst. destruct HB as [HB HR]. destruct (step_ok eqb ea el o H H2 HB (stays_below_head _ _ _ _ HR)) as (ea1 & E1 & H1).
    rewrite E1. cbn [bind]. destruct (list_step eqb el o) as [e1 r]. cbn [fst snd] in *.
    destruct (IH ea1 e1 H1 H3 HR) as (ea2 & E2 & H2'). rewrite E2. cbn [bind]. destruct (list_run eqb e1 ops) as [e2 rs]. cbn [fst snd] in *. eauto.
Qed.

Lemma start_hold : all_hold empty_arrays no_elements.
Proof. intros x. apply (linear_holds [] 0). rewrite max_slots_eq. simpl. lia. Qed.

Lemma array_refines_list : forall (eqb : A -> A -> bool) (ops : list (op A)),
  Forall op_ok ops -> stays_below eqb limit no_elements ops ->
  exists e, array_run eqb empty_arrays ops = Returned (e, snd (list_run eqb no_elements ops)) /\
    forall x, holds (e x) (fst (list_run eqb no_elements ops) x).
Proof. intros. apply run_ok; auto. apply start_hold. Qed.

Lemma array_indexing : forall (a : arr) l i, holds a l -> in_int i ->
  array_get a i = match denotes (length l) i with
                  | Some j => match nth_error l j with Some v => Returned v | None => Panic end
                  | None => Panic end /\
  forall v, match denotes (length l) i with
            | Some j => exists a', array_set a i v = Returned a' /\ holds a' (replace l j v)
            | None => array_set a i v = Panic end.
Proof. intros a l i H Hi. split; [apply get_ok|intros v; apply set_ok]; auto. Qed.

Lemma denotes_spec : forall len i j, denotes len i = Some j <->
  (j < len)%nat /\ (i = Z.of_nat j \/ i = Z.of_nat j - Z.of_nat len).
Proof.
  intros len i j. unfold denotes. destruct (Z.ltb_spec i 0).
  - set (k := Z.of_nat len + i). destruct (Z.leb_spec 0 k), (Z.ltb_spec k (Z.of_nat len)); simpl; split; intros X; try discriminate; try lia.
    + injection X as <-. lia.
    + f_equal. lia.
  - destruct (Z.leb_spec 0 i), (Z.ltb_spec i (Z.of_nat len)); simpl; split; intros X; try discriminate; try lia.
    + injection X as <-. lia.
    + f_equal. lia.
Qed.

Lemma array_slicing : forall (a : arr) l s e, holds a l -> in_int s -> in_int e ->
  exists r, array_slice a s e = Returned r /\ holds r (sublist l (bound (length l) s) (bound (length l) e)).
Proof. exact slice_ok. Qed.

Lemma split_concat : forall (a : arr) l k, holds a l -> Z.of_nat (length l) <= limit -> 0 <= k <= Z.of_nat (length l) ->
  exists x y r, array_slice a 0 k = Returned x /\ array_slice a k (array_len a) = Returned y /\ array_concat x y = Returned r /\ holds r l.
Proof.
  intros a l k H HL Hk. assert (I : forall z, 0 <= z <= Z.of_nat (length l) -> in_int z) by (unfold limit in HL; intros z Hz; consts; lia).
  destruct (slice_ok a l 0 k H (I 0 ltac:(lia)) (I k ltac:(lia))) as (x & Ex & Hx).
  pose proof H as (_ & _ & Hl & _). unfold array_len. rewrite Hl.
  destruct (slice_ok a l k (Z.of_nat (length l)) H (I k ltac:(lia)) (I (Z.of_nat (length l)) ltac:(lia))) as (y & Ey & Hy).
  assert (B : forall z, 0 <= z <= Z.of_nat (length l) -> bound (length l) z = Z.to_nat z).
  { intros z Hz. unfold bound. destruct (Z.ltb_spec z 0); [lia|]. destruct (Z.leb_spec 0 z); [|lia]. destruct (Z.leb_spec z (Z.of_nat (length l))); [auto|lia]. }
  rewrite !B in * by lia. simpl Z.to_nat in Hx. rewrite Nat2Z.id in Hy.
  assert (E : sublist l 0 (Z.to_nat k) ++ sublist l (Z.to_nat k) (length l) = l).
  { unfold sublist. rewrite Nat.sub_0_r. simpl. rewrite (firstn_all2 (skipn (Z.to_nat k) l)) by (rewrite skipn_length; lia). apply firstn_skipn. }
  destruct (concat_ok x y _ _ Hx Hy) as (r & Er & Hr); [rewrite E; auto|]. rewrite E in Hr. exists x, y, r. auto.
Qed.
End Proofs.
