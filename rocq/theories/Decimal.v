(** Numbers written in base ten, most significant digit first. *)
From Coq Require Import ZArith List Lia Bool.
Import ListNotations.
Open Scope Z_scope.

(** What a list of digits denotes. *)
Definition digits_value (l : list Z) : Z := fold_left (fun v d => v * 10 + d) l 0.

(** The digits of [n], in front of [acc]. *)
Fixpoint digits_loop (fuel : nat) (n : Z) (acc : list Z) : list Z :=
  match fuel with
  | O => acc
  | S f => if n <? 10 then n :: acc else digits_loop f (n / 10) (n mod 10 :: acc)
  end.
Definition digits (n : Z) : list Z := digits_loop (S (Z.to_nat (Z.log2 n))) n [].

Lemma value_app : forall l v, fold_left (fun v d => v * 10 + d) l v = v * 10 ^ Z.of_nat (length l) + digits_value l.
Proof.
  unfold digits_value. induction l as [|d l IH]; intros v; [simpl; lia|]. cbn [fold_left length]. rewrite IH, (IH (0 * 10 + d)).
  rewrite Nat2Z.inj_succ, Z.pow_succ_r by lia. lia.
Qed.

Lemma digits_loop_ok : forall fuel n acc, 0 <= n -> n < 2 ^ Z.of_nat fuel -> (0 < fuel)%nat ->
  digits_value (digits_loop fuel n acc) = n * 10 ^ Z.of_nat (length acc) + digits_value acc /\
  (Forall (fun d => 0 <= d <= 9) acc -> Forall (fun d => 0 <= d <= 9) (digits_loop fuel n acc)) /\
  (exists d l, digits_loop fuel n acc = d :: l /\ (d = 0 -> n = 0 /\ l = acc)).
Proof.
  induction fuel as [|f IH]; intros n acc H L F; [lia|]. cbn [digits_loop]. destruct (Z.ltb_spec n 10).
  - split; [|split].
    + unfold digits_value at 1. cbn [fold_left]. rewrite value_app. lia.
    + intros A. constructor; auto. lia.
    + exists n, acc. auto.
  - assert (Hd : n = 10 * (n / 10) + n mod 10) by (apply Z.div_mod; lia). assert (Hm : 0 <= n mod 10 < 10) by (apply Z.mod_pos_bound; lia).
    rewrite Nat2Z.inj_succ, Z.pow_succ_r in L by lia. destruct f as [|f]; [simpl in L; lia|].
    destruct (IH (n / 10) (n mod 10 :: acc)) as (V & B & (d & l & E & Z0)); [lia|lia|lia|]. split; [|split].
    + rewrite V. unfold digits_value at 1. cbn [fold_left length]. rewrite value_app. rewrite Nat2Z.inj_succ, Z.pow_succ_r by lia.
      rewrite Hd at 3. ring.
    + intros A. apply B. constructor; auto. lia.
    + exists d, l. split; auto. intros D. destruct (Z0 D). lia.
Qed.

Lemma digits_fuel : forall n, 0 <= n -> n < 2 ^ Z.of_nat (S (Z.to_nat (Z.log2 n))).
Proof.
  intros n H. rewrite Nat2Z.inj_succ, Z2Nat.id by apply Z.log2_nonneg. destruct (Z.eq_dec n 0) as [->|N]; [reflexivity|].
  apply Z.log2_spec. lia.
Qed.
Lemma digits_ok : forall n, 0 <= n -> digits_value (digits n) = n.
Proof. intros n H. destruct (digits_loop_ok _ n [] H (digits_fuel n H)) as (V & _); [lia|]. unfold digits. rewrite V. simpl. unfold digits_value. simpl. lia. Qed.
Lemma digits_range : forall n, 0 <= n -> Forall (fun d => 0 <= d <= 9) (digits n).
Proof. intros n H. destruct (digits_loop_ok _ n [] H (digits_fuel n H)) as (_ & B & _); [lia|]. apply B. constructor. Qed.
Lemma digits_head : forall n, 0 <= n -> exists d l, digits n = d :: l /\ (d = 0 -> n = 0 /\ l = []).
Proof. intros n H. destruct (digits_loop_ok _ n [] H (digits_fuel n H)) as (_ & _ & X); [lia|]. exact X. Qed.
Lemma digits_inj : forall a b, 0 <= a -> 0 <= b -> digits a = digits b -> a = b.
Proof. intros a b A B E. rewrite <- (digits_ok a A), <- (digits_ok b B). congruence. Qed.
