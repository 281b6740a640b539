(** The blocks after the move. *)
From Coq Require Import List Bool Arith Lia.
From Verif Require Import LicmModel LicmSpec LicmStatic LicmRoots LicmLoops LicmFind LicmWays.
Import ListNotations.

Fixpoint drop {A : Type} (p : nat -> bool) (l : list A) : list A :=
  match l with [] => [] | x :: l => (if p 0 then [] else [x]) ++ drop (fun k => p (S k)) l end.

Lemma drop_ext : forall (A : Type) (l : list A) p q, (forall k, p k = q k) -> drop p l = drop q l.
Proof. intros A l. induction l as [|x l IH]; intros p q H; cbn [drop]; [reflexivity|]. rewrite (H 0). f_equal. apply IH. intros k. apply H. Qed.
Lemma drop_none : forall (A : Type) (l : list A) p, (forall k, k < length l -> p k = false) -> drop p l = l.
Proof.
  intros A l. induction l as [|x l IH]; intros p H; cbn [drop]; [reflexivity|]. rewrite H by (cbn; lia). cbn. f_equal. apply IH.
  intros k L. apply H. cbn. lia.
Qed.
Lemma remove_drop : forall (A : Type) (l : list A) i, remove_at i l = drop (fun k => k =? i) l.
Proof.
  intros A l. induction l as [|x l IH]; intros [|i]; cbn [remove_at drop]; try reflexivity; cbn [Nat.eqb app].
  - symmetry. apply drop_none. intros; reflexivity.
  - f_equal. apply IH.
Qed.
Definition shift (i j : nat) : nat := j - (if i <? j then 1 else 0).
Lemma remove_two : forall (A : Type) (l : list A) i j, i <> j ->
  remove_at (shift i j) (remove_at i l) = drop (fun k => (k =? i) || (k =? j)) l.
Proof.
  intros A l. induction l as [|x l IH]; intros i j N; [destruct i; destruct (shift _ j); reflexivity|]. destruct i as [|i], j as [|j].
  - contradiction.
  - cbn [remove_at drop Nat.eqb orb app]. replace (shift 0 (S j)) with j by (unfold shift; cbn; lia). rewrite remove_drop.
    apply drop_ext. intros k. reflexivity.
  - cbn [remove_at drop Nat.eqb orb app]. replace (shift (S i) 0) with 0 by reflexivity. cbn [remove_at]. rewrite remove_drop.
    apply drop_ext. intros k. cbn. rewrite orb_false_r. reflexivity.
  - cbn [remove_at drop Nat.eqb orb app]. replace (shift (S i) (S j)) with (S (shift i j)).
    + cbn [remove_at]. f_equal. rewrite IH by lia. apply drop_ext. intros k. reflexivity.
    + unfold shift. destruct (Nat.ltb_spec (S i) (S j)), (Nat.ltb_spec i j); lia.
Qed.
Lemma nth_removed : forall (A : Type) (l : list A) i j, i <> j -> nth_error (remove_at i l) (shift i j) = nth_error l j.
Proof.
  intros A l. induction l as [|x l IH]; intros i j N; [destruct i; destruct (shift _ j), j; reflexivity|]. destruct i as [|i], j as [|j].
  - contradiction.
  - cbn [remove_at]. replace (shift 0 (S j)) with j by (unfold shift; cbn; lia). reflexivity.
  - reflexivity.
  - replace (shift (S i) (S j)) with (S (shift i j)).
    + cbn [remove_at nth_error]. apply IH. lia.
    + unfold shift. destruct (Nat.ltb_spec (S i) (S j)), (Nat.ltb_spec i j); lia.
Qed.

Lemma nth_update : forall f b g x, nth_error (update_block b g f) x =
  if x =? b then option_map (fun bl => mkBlock (g (ops bl)) (term bl)) (nth_error f x) else nth_error f x.
Proof.
  induction f as [|bl f IH]; intros b g x; [destruct b, x; cbn; try reflexivity; destruct (_ =? _); reflexivity|].
  destruct b as [|b], x as [|x]; cbn; try reflexivity. apply IH.
Qed.

(** Which operations leave their block. *)
Definition leaves (call : site) (alloca : option site) (b k : nat) : bool :=
  ((b =? fst call) && (k =? snd call)) || match alloca with Some a => (b =? fst a) && (k =? snd a) | None => false end.

Section Shape.
Variables (f : func) (h : hoist) (cop : operation).
Hypothesis call_is : operation_at f (call_site h) cop.
Variable A : list operation.
Hypothesis alloca_is : match alloca_site h with
  | Some a => a <> call_site h /\ target h <> fst a /\ exists aop, operation_at f a aop /\ A = [aop]
  | None => A = [] end.
Hypothesis target_other : target h <> fst (call_site h).

Lemma moved_shape : forall b bl, nth_error f b = Some bl ->
  nth_error (apply_hoist f h) b = Some (mkBlock (if b =? target h
    then firstn (insertion h) (ops bl) ++ A ++ [cop] ++ skipn (insertion h) (ops bl)
    else drop (leaves (call_site h) (alloca_site h) b) (ops bl)) (term bl)).
Proof.
  intros b bl B. unfold apply_hoist. destruct (call_site h) as [cb ci] eqn:C. cbn [fst snd] in *.
  destruct call_is as (cbl & CB & CI). cbn [fst snd] in *.
  assert (TC : take (op_at f (cb, ci)) = [cop]) by (unfold op_at, ops_of; cbn [fst snd]; rewrite CB, CI; reflexivity).
  rewrite TC. destruct (alloca_site h) as [[ab ai]|] eqn:S.
  - destruct alloca_is as (N & Nt & aop & (abl & AB & AI) & ->). cbn [fst snd] in *.
    set (index := ai - (if (ab =? cb) && (ci <? ai) then 1 else 0)). set (f1 := update_block cb (remove_at ci) f).
    assert (TA : take (op_at f1 (ab, index)) = [aop]).
    { unfold op_at, ops_of, f1. cbn [fst snd]. rewrite nth_update. unfold index. destruct (Nat.eqb_spec ab cb) as [->|Q].
      - rewrite AB. cbn [option_map ops andb]. fold (shift ci ai). rewrite nth_removed by congruence. rewrite AI. reflexivity.
      - rewrite AB. cbn [andb]. rewrite Nat.sub_0_r, AI. reflexivity. }
    rewrite TA, nth_update. unfold f1. rewrite !nth_update. destruct (Nat.eqb_spec b (target h)) as [->|T].
    + destruct (Nat.eqb_spec (target h) ab); [congruence|]. destruct (Nat.eqb_spec (target h) cb); [congruence|]. rewrite B. reflexivity.
    + unfold index, leaves. cbn [fst snd]. destruct (Nat.eqb_spec b ab) as [->|Qa].
      * destruct (Nat.eqb_spec ab cb) as [->|Qc].
        -- rewrite B. cbn [option_map ops term andb]. fold (shift ci ai). rewrite remove_two by congruence. reflexivity.
        -- rewrite B. cbn [option_map ops term andb orb]. rewrite Nat.sub_0_r, remove_drop. reflexivity.
      * destruct (Nat.eqb_spec b cb) as [->|Qc].
        -- rewrite B. cbn [option_map ops term andb]. rewrite remove_drop. do 2 f_equal. apply drop_ext. intros k. rewrite orb_false_r. reflexivity.
        -- rewrite B. cbn [andb orb]. rewrite drop_none by reflexivity. destruct bl. reflexivity.
  - subst A. rewrite nth_update. rewrite !nth_update. destruct (Nat.eqb_spec b (target h)) as [->|T].
    + destruct (Nat.eqb_spec (target h) cb); [congruence|]. rewrite B. reflexivity.
    + unfold leaves. cbn [fst snd]. destruct (Nat.eqb_spec b cb) as [->|Qc].
      * rewrite B. cbn [option_map ops term andb]. rewrite remove_drop. do 2 f_equal. apply drop_ext. intros k. rewrite orb_false_r. reflexivity.
      * rewrite B. cbn [andb orb]. rewrite drop_none by reflexivity. destruct bl. reflexivity.
Qed.

Lemma moved_none : forall b, nth_error f b = None -> nth_error (apply_hoist f h) b = None.
Proof.
  intros b B. unfold apply_hoist. destruct (alloca_site h) as [a|]; cbv zeta beta iota.
  - rewrite !nth_update, B. cbn. destruct (b =? target h), (b =? fst a), (b =? fst (call_site h)); reflexivity.
  - rewrite !nth_update, B. cbn. destruct (b =? target h), (b =? fst (call_site h)); reflexivity.
Qed.
End Shape.
