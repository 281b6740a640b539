(** Normalization at places where nothing combines. *)
From Coq Require Import List Bool Arith ZArith Lia.
From Verif Require Import NfcModel.
Import ListNotations.
Open Scope Z_scope.

Section Nfc.
Variable T : tables.

(** Characters that never join what is before them. *)
Definition fresh (c : Z) : Prop := ccc T c = 0%nat /\ forall k, compose T k c = None.

Lemma reorder_app : forall x p c y, ccc T c = 0%nat -> reorder T (x ++ c :: y) p = reorder T x p ++ reorder T (c :: y) [].
Proof.
  induction x as [|a x IH]; intros p c y H; cbn [app reorder].
  - rewrite H. cbn [Nat.eqb]. reflexivity.
  - destruct (Nat.eqb (ccc T a) 0).
    + rewrite IH by exact H. rewrite <- app_assoc. reflexivity.
    + apply IH. exact H.
Qed.

Lemma recompose_app : forall x co buf last c y, fresh c -> (co = None -> buf = []) -> (last = None -> buf = []) ->
  recompose T (x ++ c :: y) co buf last = recompose T x co buf last ++ recompose T (c :: y) None [] None.
Proof.
  induction x as [|a x IH]; intros co buf last c y [Hc Hk] H1 H2.
  - cbn [app recompose]. rewrite Hc. cbn [Nat.eqb]. destruct co as [k|].
    + destruct last as [l|].
      * cbn [Nat.leb]. reflexivity.
      * rewrite Hk. rewrite (H2 eq_refl). reflexivity.
    + rewrite (H1 eq_refl). reflexivity.
  - cbn [app recompose]. destruct co as [k|].
    + destruct last as [l|].
      * destruct (Nat.leb (ccc T a) l).
        -- destruct (Nat.eqb (ccc T a) 0).
           ++ rewrite (IH (Some a) [] None c y) by (try split; auto; discriminate). rewrite <- !app_comm_cons, <- app_assoc. reflexivity.
           ++ apply IH; [split; auto|discriminate|discriminate].
        -- destruct (compose T k a); apply IH; try (split; auto); try discriminate.
      * destruct (compose T k a).
        -- apply IH; [split; auto|discriminate|exact H2].
        -- destruct (Nat.eqb (ccc T a) 0).
           ++ rewrite (IH (Some a) [] None c y) by (try split; auto; discriminate). reflexivity.
           ++ apply IH; [split; auto|discriminate|discriminate].
    + destruct (Nat.eqb (ccc T a) 0).
      * apply IH; [split; auto|discriminate|reflexivity].
      * rewrite (IH None [] None c y) by (try split; auto). reflexivity.
Qed.

Lemma nfc_app_decomposed : forall x y d rest, flat_map (decompose_char T) y = d :: rest -> fresh d ->
  nfc T (x ++ y) = nfc T x ++ nfc T y.
Proof.
  intros x y d rest E H. unfold nfc. rewrite flat_map_app, E. rewrite reorder_app by apply H.
  cbn [reorder]. destruct H as [H1 H2]. rewrite H1. cbn [Nat.eqb sort fold_left app].
  apply recompose_app; [split; auto| |]; reflexivity.
Qed.

(** A character whose decomposition starts with one that never joins what is before it. *)
Definition starts_fresh (c : Z) : Prop := exists d rest, decompose_char T c = d :: rest /\ fresh d.

Lemma nfc_nil : nfc T [] = [].
Proof. reflexivity. Qed.

Lemma nfc_app : forall x c y, starts_fresh c -> nfc T (x ++ c :: y) = nfc T x ++ nfc T (c :: y).
Proof.
  intros x c y [d [rest [E H]]]. apply (nfc_app_decomposed x (c :: y) d (rest ++ flat_map (decompose_char T) y)); [|exact H].
  cbn [flat_map]. now rewrite E.
Qed.

(** Characters that join neither what is before nor what is after them. *)
Definition alone (c : Z) : Prop := decompose_char T c = [c] /\ fresh c /\ forall k, compose T c k = None.

Lemma recompose_alone : forall z k buf last, (forall c, compose T k c = None) -> (last = None -> buf = []) ->
  recompose T z (Some k) buf last = k :: buf ++ recompose T z None [] None.
Proof.
  induction z as [|c z IH]; intros k buf last Hk Hl; cbn [recompose].
  - now rewrite app_nil_r.
  - rewrite Hk. destruct last as [l|].
    + destruct (Nat.eqb_spec (ccc T c) 0) as [E|E].
      * rewrite E. cbn [Nat.leb]. reflexivity.
      * destruct (Nat.leb (ccc T c) l); rewrite IH by (auto; discriminate); rewrite <- app_assoc; reflexivity.
    + rewrite (Hl eq_refl). destruct (Nat.eqb_spec (ccc T c) 0) as [E|E]; [reflexivity|].
      cbn [app]. rewrite IH by (auto; discriminate). reflexivity.
Qed.

Lemma nfc_alone : forall k y, alone k -> nfc T (k :: y) = k :: nfc T y.
Proof.
  intros k y [H1 [[H2 H3] H4]]. unfold nfc. cbn [flat_map]. rewrite H1. cbn [app reorder]. rewrite H2. cbn [Nat.eqb sort fold_left app recompose].
  rewrite H2. cbn [Nat.eqb]. rewrite recompose_alone by auto. reflexivity.
Qed.

Lemma alone_starts : forall c, alone c -> starts_fresh c.
Proof. intros c [H1 [H2 _]]. exists c, []. now split. Qed.

Lemma nfc_app_alone : forall x k y, alone k -> nfc T (x ++ k :: y) = nfc T x ++ k :: nfc T y.
Proof. intros x k y H. rewrite nfc_app by (now apply alone_starts). now rewrite nfc_alone. Qed.

Lemma nfc_single : forall c, decompose_char T c = [c] -> ccc T c = 0%nat -> nfc T [c] = [c].
Proof. intros c H1 H2. unfold nfc. cbn [flat_map]. rewrite H1. cbn [app reorder]. rewrite H2. cbn [Nat.eqb sort fold_left app recompose]. now rewrite H2. Qed.

(** The characters of a normalized text: from decompositions or composites. *)
Lemma insert_in : forall c l x, In x (insert T c l) -> x = c \/ In x l.
Proof.
  induction l as [|d l IH]; intros x H; cbn [insert] in H.
  - destruct H as [<-|[]]. now left.
  - destruct (Nat.leb (ccc T d) (ccc T c)).
    + destruct H as [<-|H]; [right; now left|]. destruct (IH x H); [now left|right; now right].
    + destruct H as [<-|H]; [now left|now right].
Qed.

Lemma sort_in : forall l x, In x (sort T l) -> In x l.
Proof.
  intros l. unfold sort. assert (G : forall acc x, In x (fold_left (fun acc c => insert T c acc) l acc) -> In x acc \/ In x l).
  { induction l as [|c l IH]; intros acc x H; cbn [fold_left] in H; [now left|].
    destruct (IH _ _ H) as [K|K]; [|right; now right]. destruct (insert_in _ _ _ K) as [->|K']; [right; now left|now left]. }
  intros x H. destruct (G [] x H) as [[]|K]. exact K.
Qed.

Lemma reorder_in : forall s p x, In x (reorder T s p) -> In x p \/ In x s.
Proof.
  induction s as [|c s IH]; intros p x H; cbn [reorder] in H.
  - left. now apply sort_in.
  - destruct (Nat.eqb (ccc T c) 0).
    + apply in_app_or in H. destruct H as [H|[<-|H]]; [left; now apply sort_in|right; now left|].
      destruct (IH [] x H) as [[]|K]. right. now right.
    + destruct (IH _ _ H) as [K|K]; [|right; now right]. apply in_app_or in K. destruct K as [K|[<-|[]]]; [now left|right; now left].
Qed.

Lemma recompose_in : forall s co buf last x, In x (recompose T s co buf last) ->
  co = Some x \/ In x buf \/ In x s \/ exists a b, compose T a b = Some x.
Proof.
  induction s as [|c s IH]; intros co buf last x H; cbn [recompose] in H.
  - destruct co as [k|]; [destruct H as [<-|H]; auto|auto].
  - assert (Sh : forall co' buf' last', In x (recompose T s co' buf' last') ->
       (co' = Some x -> co = Some x \/ x = c \/ exists a b, compose T a b = Some x) -> (In x buf' -> In x buf \/ x = c) ->
       co = Some x \/ In x buf \/ In x (c :: s) \/ exists a b, compose T a b = Some x).
    { intros co' buf' last' H' G1 G2. destruct (IH _ _ _ _ H') as [K|[K|[K|K]]].
      - destruct (G1 K) as [G | [-> | G]]; auto. right. right. left. now left.
      - destruct (G2 K) as [G | ->]; auto. right. right. left. now left.
      - right. right. left. now right.
      - auto. }
    assert (Bu : In x (buf ++ [c]) -> In x buf \/ x = c).
    { intros K. apply in_app_or in K. destruct K as [K|[<-|[]]]; auto. }
    destruct co as [k|].
    + destruct last as [l|].
      * destruct (Nat.leb (ccc T c) l).
        -- destruct (Nat.eqb (ccc T c) 0).
           ++ destruct H as [<-|H]; [now left|]. apply in_app_or in H. destruct H as [H|H]; [auto|].
              eapply Sh; [exact H|intros [= ->]; auto|intros []].
           ++ eapply Sh; [exact H|intros [= ->]; auto|exact Bu].
        -- destruct (compose T k c) as [r|] eqn:E.
           ++ eapply Sh; [exact H|intros [= ->]; right; right; eauto|auto].
           ++ eapply Sh; [exact H|intros [= ->]; auto|exact Bu].
      * destruct (compose T k c) as [r|] eqn:E.
        -- eapply Sh; [exact H|intros [= ->]; right; right; eauto|auto].
        -- destruct (Nat.eqb (ccc T c) 0).
           ++ destruct H as [<-|H]; [now left|]. eapply Sh; [exact H|intros [= ->]; auto|intros []].
           ++ eapply Sh; [exact H|intros [= ->]; auto|exact Bu].
    + destruct (Nat.eqb (ccc T c) 0).
      * eapply Sh; [exact H|intros [= ->]; auto|intros []].
      * destruct H as [<-|H]; [right; right; left; now left|]. eapply Sh; [exact H|discriminate|intros []].
Qed.

Lemma nfc_in : forall s x, In x (nfc T s) -> (exists c, In c s /\ In x (decompose_char T c)) \/ exists a b, compose T a b = Some x.
Proof.
  intros s x H. unfold nfc in H. destruct (recompose_in _ _ _ _ _ H) as [K|[[]|[K|K]]]; [discriminate| |now right].
  left. destruct (reorder_in _ _ _ K) as [[]|K']. apply in_flat_map in K'. exact K'.
Qed.
End Nfc.
