(** List helpers shared by the models and the proofs. *)
From Coq Require Import List Arith Lia.
Import ListNotations.

(** In-place update of a slice element; out of range leaves the list unchanged (callers model the Rust
    panic separately). *)
Fixpoint upd {A} (l : list A) (i : nat) (x : A) : list A :=
  match l, i with
  | [], _ => []
  | _ :: t, O => x :: t
  | h :: t, S j => h :: upd t j x
  end.

Lemma upd_length : forall A (l : list A) i x, length (upd l i x) = length l.
Proof. induction l; destruct i; simpl; auto. Qed.

Lemma nth_upd : forall A (l : list A) i j x d,
  nth j (upd l i x) d = if Nat.eqb i j then (if Nat.ltb i (length l) then x else nth j l d) else nth j l d.
Proof.
  induction l as [|h t IH]; intros i j x d.
  - simpl. destruct i, j; destruct (Nat.eqb _ _); reflexivity.
  - destruct i, j; simpl; try reflexivity. rewrite IH. reflexivity.
Qed.

Lemma nth_error_upd : forall A (l : list A) i j x,
  nth_error (upd l i x) j =
  if Nat.eqb i j then (if Nat.ltb i (length l) then Some x else None) else nth_error l j.
Proof.
  induction l as [|h t IH]; intros i j x.
  - simpl. destruct i, j; simpl; try reflexivity. destruct (Nat.eqb i j); reflexivity.
  - destruct i, j; simpl; try reflexivity. rewrite IH. reflexivity.
Qed.

Lemma nth_error_upd_same : forall A (l : list A) i x, i < length l -> nth_error (upd l i x) i = Some x.
Proof.
  intros. rewrite nth_error_upd, Nat.eqb_refl. destruct (Nat.ltb_spec i (length l)); [auto|lia].
Qed.

Lemma nth_error_upd_other : forall A (l : list A) i j x, i <> j -> nth_error (upd l i x) j = nth_error l j.
Proof. intros. rewrite nth_error_upd. destruct (Nat.eqb_spec i j); [lia|auto]. Qed.

Lemma Forall_upd : forall A (P : A -> Prop) l i x, Forall P l -> P x -> Forall P (upd l i x).
Proof.
  induction l; simpl; intros; auto. destruct i; inversion H; subst; constructor; auto.
Qed.

Lemma nth_repeat_any : forall A (a : A) m n, nth n (repeat a m) a = a.
Proof. induction m; destruct n; simpl; auto. Qed.

Lemma upd_app_r : forall A (l1 l2 : list A) i x, length l1 <= i ->
  upd (l1 ++ l2) i x = l1 ++ upd l2 (i - length l1) x.
Proof.
  induction l1; simpl; intros. { f_equal. lia. }
  destruct i; [lia|]. simpl. rewrite IHl1 by lia. reflexivity.
Qed.

Lemma upd_app_l : forall A (l1 l2 : list A) i x, i < length l1 ->
  upd (l1 ++ l2) i x = upd l1 i x ++ l2.
Proof.
  induction l1; simpl; intros; [lia|]. destruct i; simpl; auto. rewrite IHl1 by lia. reflexivity.
Qed.
