From Coq Require Import ZArith List Bool Arith Lia.
From Verif Require Import ListUtil MachInt IntModel IntProofs ArrayModel ArraySpec ArrayProofs SortProofs SplitModel SplitSpec.
Import ListNotations.
Open Scope Z_scope.

Section Lists.
Context {A : Type} (eqb : A -> A -> bool).

Lemma starts_with_length : forall sep l, starts_with eqb sep l = true -> (length sep <= length l)%nat.
Proof. induction sep; intros [|x l] H; simpl in *; try discriminate; try lia. apply andb_true_iff in H. destruct H as [_ H]. apply IHsep in H. lia. Qed.

Lemma split_fuel : forall f1 f2 sep piece l, sep <> [] -> (length l < f1)%nat -> (length l < f2)%nat -> split_from eqb f1 sep piece l = split_from eqb f2 sep piece l.
Proof.
  induction f1 as [|f1 IH]; intros [|f2] sep piece l N L1 L2; try lia. cbn [split_from]. destruct (starts_with eqb sep l) eqn:E.
  - apply starts_with_length in E. assert (0 < length sep)%nat by (destruct sep; simpl; [congruence|lia]). f_equal. apply IH; auto; rewrite skipn_length; lia.
  - destruct l as [|x l]; auto. simpl in *. apply IH; auto; lia.
Qed.

Definition SP (sep piece l : list A) : list (list A) := split_from eqb (S (length l)) sep piece l.

Lemma SP_sep : forall sep piece l, sep <> [] -> starts_with eqb sep l = true -> SP sep piece l = piece :: SP sep [] (skipn (length sep) l).
Proof.
  intros sep piece l N E. unfold SP at 1. cbn [split_from]. rewrite E. f_equal. apply starts_with_length in E.
  assert (0 < length sep)%nat by (destruct sep; simpl; [congruence|lia]). apply split_fuel; auto; rewrite ?skipn_length; lia.
Qed.
Lemma SP_nil : forall sep piece, sep <> [] -> SP sep piece [] = [piece].
Proof. intros sep piece N. unfold SP. simpl. destruct sep; [congruence|]. auto. Qed.
Lemma SP_cons : forall sep piece x l, sep <> [] -> starts_with eqb sep (x :: l) = false -> SP sep piece (x :: l) = SP sep (piece ++ [x]) l.
Proof. intros sep piece x l N E. unfold SP. remember (length (x :: l)) as n. cbn [split_from]. rewrite E. subst n. auto. Qed.

Lemma SP_short : forall l sep piece, sep <> [] -> (length l < length sep)%nat -> SP sep piece l = [piece ++ l].
Proof.
  induction l as [|x l IH]; intros sep piece N L; [rewrite app_nil_r; apply SP_nil; auto|].
  rewrite SP_cons; auto.
  - rewrite IH by (auto; simpl in L; lia). rewrite <- app_assoc. auto.
  - destruct (starts_with eqb sep (x :: l)) eqn:E; auto. apply starts_with_length in E. lia.
Qed.

Lemma starts_with_firstn : forall sep r, (length sep <= length r)%nat -> list_eqb eqb (firstn (length sep) r) sep = starts_with eqb sep r.
Proof. induction sep as [|s sep IH]; intros [|x r] L; simpl in *; auto; try lia. rewrite IH by lia. auto. Qed.

(** ** Properties of the specification *)
Lemma SP_ne : forall l sep piece, sep <> [] -> SP sep piece l <> [].
Proof.
  intros l sep piece N. unfold SP. generalize (S (length l)) as f. intros f. revert piece l. induction f; intros piece l; simpl; [discriminate|].
  destruct (starts_with eqb sep l); [discriminate|]. destruct l; [discriminate|]. apply IHf.
Qed.

Hypothesis eqb_eq : forall x y, eqb x y = true -> x = y.

Lemma starts_with_app : forall sep l, starts_with eqb sep l = true -> l = sep ++ skipn (length sep) l.
Proof. induction sep; intros [|x l] H; simpl in *; try discriminate; auto. apply andb_true_iff in H. destruct H as [H1 H2]. apply eqb_eq in H1. subst. f_equal. auto. Qed.

Lemma join_split : forall l sep piece, sep <> [] -> list_join sep (SP sep piece l) = piece ++ l.
Proof.
  intros l. remember (length l) as n. assert (length l <= n)%nat by lia. clear Heqn. revert l H. induction n as [|n IH]; intros l Hn sep piece N.
  - destruct l; [|simpl in Hn; lia]. rewrite SP_nil by auto. simpl. rewrite app_nil_r. auto.
  - destruct (starts_with eqb sep l) eqn:E.
    + rewrite SP_sep by auto. pose proof (starts_with_length _ _ E) as L. assert (0 < length sep)%nat by (destruct sep; simpl; [congruence|lia]).
      destruct (SP sep [] (skipn (length sep) l)) as [|p ps] eqn:Q; [exfalso; eapply SP_ne; eauto|].
      change (list_join sep (piece :: p :: ps)) with (piece ++ sep ++ list_join sep (p :: ps)). rewrite <- Q, IH by (auto; rewrite skipn_length; lia).
      simpl. rewrite <- (starts_with_app _ _ E). auto.
    + destruct l as [|x l]; [rewrite SP_nil by auto; simpl; rewrite app_nil_r; auto|]. rewrite SP_cons by auto. rewrite IH by (auto; simpl in Hn; lia). rewrite <- app_assoc. auto.
Qed.
End Lists.

Section NoSep.
Context {A : Type} (eqb : A -> A -> bool).

Lemma starts_with_app_l : forall sep l r, starts_with eqb sep l = true -> starts_with eqb sep (l ++ r) = true.
Proof. induction sep; intros [|x l] r H; simpl in *; auto; try discriminate. apply andb_true_iff in H. destruct H as [-> H]. simpl. auto. Qed.

(** No occurrence of [sep] in [piece ++ l] starts inside [piece]. *)
Lemma pieces_clean : forall l sep piece, sep <> [] ->
  (forall l1 l2, piece = l1 ++ l2 -> l2 <> [] -> starts_with eqb sep (l2 ++ l) = false) ->
  Forall (fun p => ~ occurs eqb sep p) (SP eqb sep piece l).
Proof.
  intros l. remember (length l) as n. assert (length l <= n)%nat by lia. clear Heqn. revert l H. induction n as [|n IH]; intros l Hn sep piece N C.
  - destruct l; [|simpl in Hn; lia]. rewrite SP_nil by auto. constructor; auto. intros (l1 & l2 & E & S). destruct l2 as [|y l2].
    + destruct sep; [congruence|discriminate].
    + specialize (C l1 (y :: l2) E ltac:(discriminate)). rewrite app_nil_r in C. congruence.
  - assert (CP : ~ occurs eqb sep piece).
    { intros (l1 & l2 & E & S). destruct l2 as [|y l2].
      - destruct sep; [congruence|discriminate].
      - specialize (C l1 (y :: l2) E ltac:(discriminate)). rewrite (starts_with_app_l _ _ l S) in C. discriminate. }
    destruct (starts_with eqb sep l) eqn:E.
    + rewrite SP_sep by auto. constructor; auto. pose proof (starts_with_length eqb _ _ E) as L. assert (0 < length sep)%nat by (destruct sep; simpl; [congruence|lia]).
      apply IH; auto; [rewrite skipn_length; lia|]. intros l1 l2 E2 N2. destruct l1, l2; simpl in *; congruence.
    + destruct l as [|x l]; [rewrite SP_nil by auto; constructor; auto|]. rewrite SP_cons by auto. apply IH; auto; [simpl in Hn; lia|].
      intros l1 l2 E2 N2. destruct (exists_last N2) as (l3 & y & ->). rewrite app_assoc in E2. apply app_inj_tail in E2. destruct E2 as [E2 ->].
      rewrite <- app_assoc. simpl. destruct l3 as [|z l3]; [exact E|]. apply (C l1 (z :: l3)); auto. discriminate.
Qed.
End NoSep.

(** ** The iterators *)
Section Iter.
Context {A : Type} (eqb : A -> A -> bool).

Lemma bound_pos : forall n p, (p <= n)%nat -> bound n (Z.of_nat p) = p.
Proof. intros n p H. unfold bound. destruct (Z.ltb_spec (Z.of_nat p) 0); [lia|]. destruct (Z.leb_spec 0 (Z.of_nat p)), (Z.leb_spec (Z.of_nat p) (Z.of_nat n)); simpl; lia. Qed.

Lemma slice_pos : forall (a : array A) l s e, holds a l -> (s <= length l)%nat -> (e <= length l)%nat ->
  exists r, array_slice a (Z.of_nat s) (Z.of_nat e) = Returned r /\ holds r (sublist l s e).
Proof.
  intros a l s e H Hs He. destruct (slice_ok a l (Z.of_nat s) (Z.of_nat e) H) as (r & E & Hr); try (eapply small_index; eauto).
  rewrite !bound_pos in Hr by auto. eauto.
Qed.

Lemma sublist_snoc : forall (l : list A) n p x, (n <= p)%nat -> nth_error l p = Some x -> sublist l n p ++ [x] = sublist l n (S p).
Proof.
  intros l n p x H E. rewrite (sublist_split l n p (S p)) by lia. f_equal. rewrite (sublist_cons l p (S p) x) by (auto; lia). rewrite sublist_nil by lia. auto.
Qed.
Lemma sublist_end : forall (l : list A) n p, (n <= p <= length l)%nat -> sublist l n p ++ skipn p l = sublist l n (length l).
Proof.
  intros l n p H. rewrite (sublist_split l n p (length l)) by lia. f_equal. unfold sublist. rewrite firstn_all2; auto. rewrite skipn_length. lia.
Qed.
Lemma skipn_skipn' : forall a b (k : list A), skipn a (skipn b k) = skipn (b + a) k.
Proof. induction b; intros k; auto. destruct k; simpl; auto. rewrite skipn_nil. auto. Qed.

Section Arr.
Variables (a s : array A) (l sep : list A).
Hypothesis (Ha : holds a l) (Hs : holds s sep) (Ns : sep <> []).

Lemma array_loop_ok : forall fuel n p, (n <= p <= length l)%nat -> (length sep <= length l)%nat -> (length l - p < fuel)%nat ->
  exists part it q, array_loop eqb fuel (mkArrayIt a s (Z.of_nat n) false) (Z.of_nat (length l)) (Z.of_nat (length sep)) (Z.of_nat (length l) - Z.of_nat (length sep)) (Z.of_nat p) = Returned (part, it) /\
    holds part q /\
    ((SP eqb sep (sublist l n p) (skipn p l) = [q] /\ a_finished it = true) \/
     exists p', SP eqb sep (sublist l n p) (skipn p l) = q :: SP eqb sep [] (skipn p' l) /\ (p < p' <= length l)%nat /\ it = mkArrayIt a s (Z.of_nat p') false).
Proof.
  induction fuel as [|fuel IH]; intros n p Hn Hl Hf; [lia|]. cbn [array_loop a_array a_separator a_next_start a_finished].
  pose proof (holds_le a l Ha) as HB. rewrite max_slots_eq in HB.
  destruct (Z.ltb_spec (Z.of_nat (length l) - Z.of_nat (length sep)) (Z.of_nat p)).
  - destruct (slice_pos a l n (length l) Ha) as (r & -> & Hr); try lia. cbn [bind]. do 3 eexists. split; [reflexivity|]. split; [exact Hr|]. left. split; auto.
    rewrite SP_short by (auto; rewrite skipn_length; lia). rewrite sublist_end by lia. auto.
  - rewrite !add_ok by (unfold small; lia). replace (Z.of_nat p + Z.of_nat (length sep)) with (Z.of_nat (p + length sep)) by lia.
    destruct (slice_pos a l p (p + length sep) Ha) as (c & -> & Hc); try lia. cbn [bind]. rewrite (eq_ok eqb c s _ _ Hc Hs). cbn [bind].
    assert (EQ : list_eqb eqb (sublist l p (p + length sep)) sep = starts_with eqb sep (skipn p l)).
    { unfold sublist. replace (p + length sep - p)%nat with (length sep) by lia. apply starts_with_firstn. rewrite skipn_length. lia. }
    rewrite EQ. destruct (starts_with eqb sep (skipn p l)) eqn:E.
    + destruct (slice_pos a l n p Ha) as (r & -> & Hr); try lia. cbn [bind]. do 3 eexists. split; [reflexivity|]. split; [exact Hr|]. right. exists (p + length sep)%nat.
      rewrite SP_sep by auto. rewrite skipn_skipn'. split; auto. split; auto. assert (0 < length sep)%nat by (destruct sep; simpl; [congruence|lia]). lia.
    + destruct (nth_error l p) as [x|] eqn:X.
      2:{ apply nth_error_None in X. assert (0 < length sep)%nat by (destruct sep; simpl; [congruence|lia]). lia. }
      assert (p < length l)%nat by (apply nth_error_Some; congruence).
      replace (Z.of_nat p + 1) with (Z.of_nat (S p)) by lia. destruct (IH n (S p)) as (part & it & q & R & Hq & D); try lia.
      exists part, it, q. split; auto. split; auto. rewrite (skipn_S _ _ _ _ X) in *. rewrite SP_cons by auto. rewrite (sublist_snoc l n p x) by (auto; lia).
      destruct D as [D|(p' & D1 & D2 & D3)]; [left; auto|right; exists p'; split; auto; split; auto; lia].
Qed.

Lemma array_next_ok : forall n, (n <= length l)%nat ->
  exists part it q, array_next eqb (mkArrayIt a s (Z.of_nat n) false) = Returned (Some part, it) /\ holds part q /\
    ((SP eqb sep [] (skipn n l) = [q] /\ a_finished it = true) \/
     exists p', SP eqb sep [] (skipn n l) = q :: SP eqb sep [] (skipn p' l) /\ (n < p' <= length l)%nat /\ it = mkArrayIt a s (Z.of_nat p') false).
Proof.
  intros n Hn. unfold array_next. cbn [a_finished a_array a_separator a_next_start]. unfold array_len.
  pose proof Ha as (_ & _ & La & _). pose proof Hs as (_ & _ & Ls & _). rewrite La, Ls.
  pose proof (holds_le a l Ha) as HB. pose proof (holds_le s sep Hs) as HB'. rewrite max_slots_eq in HB, HB'. rewrite !sub_ok by (unfold small; lia).
  destruct (Z.ltb_spec (Z.of_nat (length l) - Z.of_nat n) (Z.of_nat (length sep))).
  - destruct (slice_pos a l n (length l) Ha) as (r & -> & Hr); try lia. cbn [bind]. do 3 eexists. split; [reflexivity|]. split; [exact Hr|]. left. split; auto.
    rewrite SP_short by (auto; rewrite skipn_length; lia). simpl. unfold sublist. rewrite firstn_all2; auto. rewrite skipn_length. lia.
  - rewrite Nat2Z.id. destruct (array_loop_ok (S (length l)) n n) as (part & it & q & R & Hq & D); try lia. rewrite R. cbn [bind fst snd].
    exists part, it, q. split; auto. split; auto. rewrite (sublist_nil l n n) in D by lia. auto.
Qed.

Lemma collect_array_ok : forall m n fuel, (length l - n <= m)%nat -> (n <= length l)%nat -> (S m < fuel)%nat ->
  exists parts, collect_parts (array_next eqb) fuel (mkArrayIt a s (Z.of_nat n) false) = Returned parts /\ Forall2 holds parts (SP eqb sep [] (skipn n l)).
Proof.
  induction m as [|m IH]; intros n fuel Hm Hn Hf; (destruct fuel as [|fuel]; [lia|]); cbn [collect_parts];
    destruct (array_next_ok n Hn) as (part & it & q & R & Hq & D); rewrite R; cbn [bind fst snd].
  - destruct D as [[D F]|(p' & D1 & D2 & D3)]; [|lia]. destruct fuel as [|fuel]; [lia|]. cbn [collect_parts]. unfold array_next at 1. rewrite F. cbn [bind fst].
    eexists. split; [reflexivity|]. rewrite D. constructor; [exact Hq|constructor].
  - destruct D as [[D F]|(p' & D1 & D2 & D3)].
    + destruct fuel as [|fuel]; [lia|]. cbn [collect_parts]. unfold array_next at 1. rewrite F. cbn [bind fst]. eexists. split; [reflexivity|]. rewrite D. constructor; [exact Hq|constructor].
    + subst it. destruct (IH p' fuel) as (parts & -> & HF); try lia. cbn [bind]. eexists. split; [reflexivity|]. rewrite D1. constructor; auto.
Qed.

Lemma split_array_ok : exists parts, split_array eqb a s = Returned parts /\ Forall2 holds parts (list_split eqb sep l).
Proof.
  unfold split_array, split_array_iterator, array_len. pose proof Ha as (_ & _ & La & _). pose proof Hs as (_ & _ & Ls & _). rewrite La, Ls.
  destruct (Z.eqb_spec (Z.of_nat (length sep)) 0); [destruct sep; [congruence|simpl in *; lia]|]. cbn [bind]. rewrite Nat2Z.id.
  destruct (collect_array_ok (length l) 0 (S (S (length l)))) as (parts & E & F); try lia. exists parts. split; [exact E|]. exact F.
Qed.
End Arr.

Lemma split_array_empty_separator : forall (a s : array A), holds s [] -> split_array eqb a s = Panic.
Proof. intros a s (_ & _ & Ls & _). unfold split_array, split_array_iterator, array_len. rewrite Ls. auto. Qed.

Section Elem.
Variables (a : array A) (s : A) (l : list A).
Hypothesis (Ha : holds a l).

Lemma element_loop_ok : forall fuel n p, (n <= p <= length l)%nat -> (length l - p < fuel)%nat ->
  exists part it q, element_loop eqb fuel (mkElementIt a s (Z.of_nat n) false) (Z.of_nat (length l)) (Z.of_nat p) = Returned (part, it) /\
    holds part q /\
    ((SP eqb [s] (sublist l n p) (skipn p l) = [q] /\ e_finished it = true) \/
     exists p', SP eqb [s] (sublist l n p) (skipn p l) = q :: SP eqb [s] [] (skipn p' l) /\ (p < p' <= length l)%nat /\ it = mkElementIt a s (Z.of_nat p') false).
Proof.
  assert (Ns : [s] <> []) by discriminate.
  induction fuel as [|fuel IH]; intros n p Hn Hf; [lia|]. cbn [element_loop e_array e_separator e_next_start e_finished].
  pose proof (holds_le a l Ha) as HB. rewrite max_slots_eq in HB.
  destruct (Z.leb_spec (Z.of_nat (length l)) (Z.of_nat p)).
  - destruct (slice_pos a l n (length l) Ha) as (r & -> & Hr); try lia. cbn [bind]. do 3 eexists. split; [reflexivity|]. split; [exact Hr|]. left. split; auto.
    rewrite SP_short by (auto; rewrite skipn_length; simpl; lia). rewrite sublist_end by lia. auto.
  - destruct (nth_error l p) as [x|] eqn:X; [|apply nth_error_None in X; lia].
    rewrite !add_ok by (unfold small; lia). rewrite (at_index a l p x) by auto. cbn [bind]. rewrite (skipn_S _ _ _ _ X).
    replace (Z.of_nat p + 1) with (Z.of_nat (S p)) by lia.
    assert (EQ : starts_with eqb [s] (x :: skipn (S p) l) = eqb x s) by (simpl; rewrite andb_true_r; auto).
    destruct (eqb x s) eqn:E.
    + destruct (slice_pos a l n p Ha) as (r & -> & Hr); try lia. cbn [bind]. do 3 eexists. split; [reflexivity|]. split; [exact Hr|]. right. exists (S p).
      rewrite SP_sep by auto. split; auto. split; auto. lia.
    + destruct (IH n (S p)) as (part & it & q & R & Hq & D); try lia. exists part, it, q. split; auto. split; auto. rewrite SP_cons by auto. rewrite (sublist_snoc l n p x) by (auto; lia).
      destruct D as [D|(p' & D1 & D2 & D3)]; [left; auto|right; exists p'; split; auto; split; auto; lia].
Qed.

Lemma element_next_ok : forall n, (n <= length l)%nat ->
  exists part it q, element_next eqb (mkElementIt a s (Z.of_nat n) false) = Returned (Some part, it) /\ holds part q /\
    ((SP eqb [s] [] (skipn n l) = [q] /\ e_finished it = true) \/
     exists p', SP eqb [s] [] (skipn n l) = q :: SP eqb [s] [] (skipn p' l) /\ (n < p' <= length l)%nat /\ it = mkElementIt a s (Z.of_nat p') false).
Proof.
  intros n Hn. unfold element_next. cbn [e_finished e_array e_separator e_next_start]. unfold array_len.
  pose proof Ha as (_ & _ & La & _). rewrite La, Nat2Z.id. destruct (element_loop_ok (S (length l)) n n) as (part & it & q & R & Hq & D); try lia. rewrite R. cbn [bind fst snd].
  exists part, it, q. split; auto. split; auto. rewrite (sublist_nil l n n) in D by lia. auto.
Qed.

Lemma collect_element_ok : forall m n fuel, (length l - n <= m)%nat -> (n <= length l)%nat -> (S m < fuel)%nat ->
  exists parts, collect_parts (element_next eqb) fuel (mkElementIt a s (Z.of_nat n) false) = Returned parts /\ Forall2 holds parts (SP eqb [s] [] (skipn n l)).
Proof.
  induction m as [|m IH]; intros n fuel Hm Hn Hf; (destruct fuel as [|fuel]; [lia|]); cbn [collect_parts];
    destruct (element_next_ok n Hn) as (part & it & q & R & Hq & D); rewrite R; cbn [bind fst snd].
  - destruct D as [[D F]|(p' & D1 & D2 & D3)]; [|lia]. destruct fuel as [|fuel]; [lia|]. cbn [collect_parts]. unfold element_next at 1. rewrite F. cbn [bind fst].
    eexists. split; [reflexivity|]. rewrite D. constructor; [exact Hq|constructor].
  - destruct D as [[D F]|(p' & D1 & D2 & D3)].
    + destruct fuel as [|fuel]; [lia|]. cbn [collect_parts]. unfold element_next at 1. rewrite F. cbn [bind fst]. eexists. split; [reflexivity|]. rewrite D. constructor; [exact Hq|constructor].
    + subst it. destruct (IH p' fuel) as (parts & -> & HF); try lia. cbn [bind]. eexists. split; [reflexivity|]. rewrite D1. constructor; auto.
Qed.

Lemma split_element_ok : exists parts, split_element eqb a s = Returned parts /\ Forall2 holds parts (list_split eqb [s] l).
Proof.
  unfold split_element, split_element_iterator, array_len. pose proof Ha as (_ & _ & La & _). rewrite La, Nat2Z.id.
  destruct (collect_element_ok (length l) 0 (S (S (length l)))) as (parts & E & F); try lia. exists parts. split; [exact E|]. exact F.
Qed.
End Elem.

(** ** Join *)
Lemma join_loop_ok : forall rest lrest (acc s : array A) lacc sep, holds acc lacc -> holds s sep -> Forall2 holds rest lrest ->
  Z.of_nat (length (list_join sep (lacc :: lrest))) <= limit ->
  exists r, join_loop acc s rest = Returned r /\ holds r (list_join sep (lacc :: lrest)).
Proof.
  induction rest as [|e rest IH]; intros lrest acc s lacc sep H1 H2 HF HL; inversion HF; subst; cbn [join_loop].
  - exists acc. auto.
  - change (list_join sep (lacc :: y :: l')) with (lacc ++ sep ++ list_join sep (y :: l')) in *.
    assert (EQ : lacc ++ sep ++ list_join sep (y :: l') = list_join sep (((lacc ++ sep) ++ y) :: l')).
    { destruct l'; simpl; rewrite <- ?app_assoc; auto. }
    rewrite EQ in *.
    assert (L2 : (length ((lacc ++ sep) ++ y) <= length (list_join sep (((lacc ++ sep) ++ y) :: l')))%nat).
    { destruct l'; simpl; [lia|]. rewrite (app_length (_ ++ y)). lia. }
    destruct (concat_ok acc s lacc sep H1 H2) as (x & -> & Hx); [rewrite app_length in L2; lia|]. cbn [bind].
    destruct (concat_ok x e _ y Hx H3) as (acc' & -> & Ha'); [lia|]. cbn [bind]. apply IH; auto.
Qed.

Lemma join_ok : forall seq lseq (s : array A) sep, Forall2 holds seq lseq -> holds s sep ->
  Z.of_nat (length (list_join sep lseq)) <= limit -> exists r, join seq s = Returned r /\ holds r (list_join sep lseq).
Proof.
  intros seq lseq s sep HF H HL. inversion HF; subst; cbn [join].
  - apply empty_ok.
  - apply join_loop_ok; auto.
Qed.

Lemma list_join_split : (forall x y, eqb x y = true -> x = y) -> forall sep l, sep <> [] -> list_join sep (list_split eqb sep l) = l.
Proof. intros EQ sep l N. apply (join_split eqb EQ l sep [] N). Qed.

Lemma list_split_clean : forall sep l, sep <> [] -> Forall (fun p => ~ occurs eqb sep p) (list_split eqb sep l).
Proof. intros sep l N. apply (pieces_clean eqb l sep []); auto. intros l1 l2 E N2. destruct l1, l2; simpl in *; congruence. Qed.

Lemma split_then_join : (forall x y, eqb x y = true -> x = y) -> forall (a s : array A) l sep, holds a l -> holds s sep -> sep <> [] -> Z.of_nat (length l) <= limit ->
  exists parts r, split_array eqb a s = Returned parts /\ join parts s = Returned r /\ holds r l.
Proof.
  intros EQ a s l sep Ha Hs N L. destruct (split_array_ok a s l sep Ha Hs N) as (parts & E & F).
  destruct (join_ok parts _ s sep F Hs) as (r & R & Hr); [rewrite list_join_split; auto|]. rewrite list_join_split in Hr by auto. eauto.
Qed.
End Iter.
