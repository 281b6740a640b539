From Coq Require Import ZArith List Bool Arith Lia Permutation Sorted.
From Verif Require Import ListUtil MachInt IntModel IntProofs ArrayModel ArraySpec ArrayProofs SortModel SortSpec.
Import ListNotations.
Open Scope Z_scope.

Section Proofs.
Context {A : Type} (cmp : A -> A -> comparison).
Notation arr := (array A).

(** ** The functional merge sort *)
Fixpoint merge (l : list A) : list A -> list A :=
  fix inner (r : list A) : list A :=
    match l, r with
    | [], _ => r
    | _, [] => l
    | x :: l', y :: r' => if not_greater (cmp x y) then x :: merge l' r else y :: inner r'
    end.

Lemma merge_nil_r : forall l, merge l [] = l. Proof. destruct l; auto. Qed.
Lemma merge_nil_l : forall l, merge [] l = l. Proof. destruct l; auto. Qed.
Lemma merge_cons : forall x l y r, merge (x :: l) (y :: r) = if not_greater (cmp x y) then x :: merge l (y :: r) else y :: merge (x :: l) r.
Proof. reflexivity. Qed.

Lemma merge_length : forall l r, length (merge l r) = (length l + length r)%nat.
Proof.
  induction l as [|x l IHl]; intros r; [rewrite merge_nil_l; auto|]. induction r as [|y r IHr]; [rewrite merge_nil_r; simpl; lia|].
  rewrite merge_cons. destruct (not_greater (cmp x y)); cbn [length]; [rewrite IHl|rewrite IHr]; cbn [length]; lia.
Qed.

Lemma merge_perm : forall l r, Permutation (l ++ r) (merge l r).
Proof.
  induction l as [|x l IHl]; intros r; [rewrite merge_nil_l; auto|]. induction r as [|y r IHr]; [rewrite merge_nil_r, app_nil_r; auto|].
  rewrite merge_cons. destruct (not_greater (cmp x y)).
  - simpl. constructor. apply IHl.
  - apply Permutation_sym, Permutation_cons_app, Permutation_sym, IHr.
Qed.

Inductive msorted : list A -> list A -> Prop :=
| ms_short : forall l, (length l <= 1)%nat -> msorted l l
| ms_merge : forall l r ml mr, msorted l ml -> msorted r mr -> msorted (l ++ r) (merge ml mr).

Lemma msorted_perm : forall l m, msorted l m -> Permutation l m.
Proof.
  induction 1; auto. eapply perm_trans; [|apply merge_perm]. apply Permutation_app; auto.
Qed.
Lemma msorted_length : forall l m, msorted l m -> length m = length l.
Proof. intros. symmetry. apply Permutation_length. apply msorted_perm. auto. Qed.

Section Preorder.
Hypothesis TP : total_preorder cmp.

Lemma greater_le : forall x y, cmp x y = Gt -> cmp y x <> Gt.
Proof. intros x y H. rewrite (proj1 TP), H. discriminate. Qed.

Lemma merge_forall : forall P l r, Forall P l -> Forall P r -> Forall P (merge l r).
Proof. intros P l r Hl Hr. eapply Permutation_Forall; [apply merge_perm|]. apply Forall_app. auto. Qed.

Lemma merge_ordered : forall l r, ordered cmp l -> ordered cmp r -> ordered cmp (merge l r).
Proof.
  unfold ordered. induction l as [|x l IHl]; intros r Hl Hr; [rewrite merge_nil_l; auto|]. induction r as [|y r IHr]; [rewrite merge_nil_r; auto|].
  rewrite merge_cons. pose proof (StronglySorted_inv Hl) as [Sl Fl]. pose proof (StronglySorted_inv Hr) as [Sr Fr]. destruct (cmp x y) eqn:E; cbn [not_greater].
  - constructor; [apply IHl; auto|]. apply merge_forall; auto. assert (L : cmp x y <> Gt) by congruence. constructor; auto.
    eapply Forall_impl; [|exact Fr]. intros z Hz. eapply (proj2 TP); eauto.
  - constructor; [apply IHl; auto|]. apply merge_forall; auto. assert (L : cmp x y <> Gt) by congruence. constructor; auto.
    eapply Forall_impl; [|exact Fr]. intros z Hz. eapply (proj2 TP); eauto.
  - constructor; [apply IHr; auto|]. apply greater_le in E. apply merge_forall; auto. constructor; auto.
    eapply Forall_impl; [|exact Fl]. intros z Hz. eapply (proj2 TP); eauto.
Qed.

Lemma merge_stable : forall x l r, ordered cmp l -> class_of cmp x (merge l r) = class_of cmp x l ++ class_of cmp x r.
Proof.
  intros z. induction l as [|x l IHl]; intros r Hl; [rewrite merge_nil_l; auto|]. induction r as [|y r IHr]; [rewrite merge_nil_r; unfold class_of at 3; simpl; rewrite app_nil_r; auto|].
  rewrite merge_cons. pose proof (StronglySorted_inv Hl) as [Sl Fl]. destruct (cmp x y) eqn:E; cbn [not_greater].
  1,2: unfold class_of in *; cbn [filter]; rewrite IHl by auto; cbn [filter]; destruct (cmp z x); auto.
  unfold class_of in *. cbn [filter]. cbn [filter] in IHr. rewrite IHr. destruct (cmp z y) eqn:Ey; auto.
  (* nothing on the left is equal to y *)
  assert (N : forall w, cmp y w = Lt -> cmp z w <> Eq).
  { intros w Hw Q. assert (cmp w z <> Gt) by (rewrite (proj1 TP), Q; discriminate). assert (cmp z y <> Gt) by congruence.
    pose proof (proj2 TP _ _ _ H H0) as W. rewrite (proj1 TP), Hw in W. apply W. auto. }
  assert (X : forall w, cmp x w <> Gt -> cmp y w = Lt).
  { intros w Hw. destruct (cmp y w) eqn:Q; auto; exfalso.
    - assert (cmp w y <> Gt) by (rewrite (proj1 TP), Q; discriminate). apply (proj2 TP _ _ _ Hw H E).
    - assert (cmp w y <> Gt) by (rewrite (proj1 TP), Q; discriminate). apply (proj2 TP _ _ _ Hw H E). }
  assert (F : filter (fun w => match cmp z w with Eq => true | _ => false end) (x :: l) = []).
  { assert (G : Forall (fun w => cmp x w <> Gt) (x :: l)). { constructor; auto. pose proof (proj1 TP x x) as R. destruct (cmp x x); simpl in R; congruence. }
    clear - G N X. induction G; auto. simpl. destruct (cmp z x0) eqn:Q; auto. exfalso. eapply N; eauto. }
  cbn [filter] in F. rewrite F. auto.
Qed.

Lemma msorted_ordered : forall l m, msorted l m -> ordered cmp m.
Proof.
  induction 1.
  - destruct l as [|x [|y l]]; [constructor|repeat constructor|simpl in H; lia].
  - apply merge_ordered; auto.
Qed.

Lemma msorted_stable : forall l m, msorted l m -> stable cmp l m.
Proof.
  induction 1; intros x; auto. rewrite merge_stable by (eapply msorted_ordered; eauto). rewrite IHmsorted1, IHmsorted2.
  unfold class_of. rewrite filter_app. auto.
Qed.
End Preorder.

(** ** The array implementation *)
Lemma at_index : forall (a : arr) l i v, holds a l -> nth_error l i = Some v -> array_get a (Z.of_nat i) = Returned v.
Proof.
  intros a l i v H E. assert (L : (i < length l)%nat) by (apply nth_error_Some; congruence).
  rewrite (get_ok a l _ H) by (eapply small_index; eauto; lia). rewrite denotes_pos, E by auto. auto.
Qed.

Lemma put_index : forall (a : arr) l i v, holds a l -> (i < length l)%nat -> exists a', array_set a (Z.of_nat i) v = Returned a' /\ holds a' (replace l i v).
Proof.
  intros a l i v H L. pose proof (set_ok a l (Z.of_nat i) v H ltac:(eapply small_index; eauto; lia)) as S. rewrite denotes_pos in S by auto. auto.
Qed.

Lemma firstn_replace : forall (l : list A) i v, (i < length l)%nat -> firstn (S i) (replace l i v) = firstn i l ++ [v].
Proof.
  intros l i v L. unfold replace. assert (F : length (firstn i l) = i) by (rewrite firstn_length; lia).
  change (v :: skipn (S i) l) with ([v] ++ skipn (S i) l). rewrite app_assoc. rewrite firstn_app.
  assert (G : length (firstn i l ++ [v]) = S i) by (rewrite app_length, F; simpl; lia).
  rewrite G, Nat.sub_diag. simpl firstn at 2. rewrite app_nil_r. rewrite firstn_all2; auto. lia.
Qed.

Lemma skipn_replace : forall (l : list A) i e v, (i < e)%nat -> (i < length l)%nat -> skipn e (replace l i v) = skipn e l.
Proof.
  intros l i e v L LL. apply nth_ext_eq.
  - rewrite !skipn_length, replace_len by auto. auto.
  - intros k Hk. assert (G : forall (l : list A) k m, nth_error (skipn k l) m = nth_error l (k + m)) by (clear; induction l; intros [|k] m; simpl; auto; destruct m; auto).
    rewrite !G, replace_nth by auto. destruct (Nat.eqb_spec i (e + k)); [lia|auto].
Qed.

Lemma sublist_cons : forall (l : list A) s e v, (s < e)%nat -> nth_error l s = Some v -> sublist l s e = v :: sublist l (S s) e.
Proof. intros l s e v L E. unfold sublist. rewrite (skipn_S _ _ _ _ E). replace (e - s)%nat with (S (e - S s)) by lia. auto. Qed.
Lemma sublist_nil : forall (l : list A) s e, (e <= s)%nat -> sublist l s e = [].
Proof. intros. unfold sublist. replace (e - s)%nat with 0%nat by lia. auto. Qed.

Lemma merge_loop_ok : forall count (a b : arr) la lb middle e left right index,
  holds a la -> holds b lb -> length lb = length la -> (left <= middle <= right)%nat -> (right <= e <= length la)%nat ->
  count = (e - index)%nat -> (middle - left + (e - right) = count)%nat -> (index <= e)%nat ->
  exists b', merge_loop cmp count a b (Z.of_nat middle) (Z.of_nat e) (Z.of_nat left) (Z.of_nat right) (Z.of_nat index) = Returned b' /\
    holds b' (firstn index lb ++ merge (sublist la left middle) (sublist la right e) ++ skipn e lb).
Proof.
  induction count as [|count IH]; intros a b la lb middle e left right index Ha Hb HL Hlm Hre Ec Es Hi; cbn [merge_loop].
  - exists b. split; auto. rewrite !sublist_nil by lia. rewrite merge_nil_l. simpl. replace index with e by lia. rewrite firstn_skipn. auto.
  - pose proof (holds_le a la Ha) as HB. rewrite max_slots_eq in HB.
    rewrite !add_ok by (unfold small; lia).
    replace (Z.of_nat left + 1) with (Z.of_nat (S left)) by lia. replace (Z.of_nat right + 1) with (Z.of_nat (S right)) by lia. replace (Z.of_nat index + 1) with (Z.of_nat (S index)) by lia.
    assert (TL : forall v b', (left < middle)%nat -> nth_error la left = Some v -> holds b' (replace lb index v) ->
      exists b'', merge_loop cmp count a b' (Z.of_nat middle) (Z.of_nat e) (Z.of_nat (S left)) (Z.of_nat right) (Z.of_nat (S index)) = Returned b'' /\
        holds b'' (firstn index lb ++ (v :: merge (sublist la (S left) middle) (sublist la right e)) ++ skipn e lb)).
    { intros v b' Hlt Ev Hb'. destruct (IH a b' la _ middle e (S left) right (S index) Ha Hb') as (b'' & E & H); try lia; try (rewrite replace_len; lia).
      exists b''. split; auto. rewrite firstn_replace, skipn_replace in H by lia. rewrite <- app_assoc in H. auto. }
    assert (TR : forall v b', (right < e)%nat -> nth_error la right = Some v -> holds b' (replace lb index v) ->
      exists b'', merge_loop cmp count a b' (Z.of_nat middle) (Z.of_nat e) (Z.of_nat left) (Z.of_nat (S right)) (Z.of_nat (S index)) = Returned b'' /\
        holds b'' (firstn index lb ++ (v :: merge (sublist la left middle) (sublist la (S right) e)) ++ skipn e lb)).
    { intros v b' Hlt Ev Hb'. destruct (IH a b' la _ middle e left (S right) (S index) Ha Hb') as (b'' & E & H); try lia; try (rewrite replace_len; lia).
      exists b''. split; auto. rewrite firstn_replace, skipn_replace in H by lia. rewrite <- app_assoc in H. auto. }
    destruct (Z.ltb_spec (Z.of_nat left) (Z.of_nat middle)).
    + destruct (nth_error la left) as [x|] eqn:Ex; [|apply nth_error_None in Ex; lia]. rewrite (at_index a la left x) by auto. cbn [bind].
      rewrite (sublist_cons la left middle x) by (auto; lia).
      destruct (put_index b lb index x Hb ltac:(lia)) as (bx & Px & Hx).
      destruct (Z.leb_spec (Z.of_nat e) (Z.of_nat right)).
      * rewrite Px. cbn [bind]. rewrite (sublist_nil la right e) by lia. destruct (TL x bx ltac:(lia) eq_refl Hx) as (b'' & -> & H1). exists b''. split; auto.
        rewrite (sublist_nil la right e), !merge_nil_r in * by lia. auto.
      * destruct (nth_error la right) as [y|] eqn:Ey; [|apply nth_error_None in Ey; lia]. rewrite (at_index a la right y) by auto. cbn [bind].
        rewrite (sublist_cons la right e y) by (auto; lia). rewrite merge_cons. destruct (not_greater (cmp x y)).
        -- rewrite Px. cbn [bind]. destruct (TL x bx ltac:(lia) eq_refl Hx) as (b'' & -> & H1). exists b''. split; auto.
           rewrite (sublist_cons la right e y) in H1 by (auto; lia). auto.
        -- destruct (put_index b lb index y Hb ltac:(lia)) as (by_ & Py & Hy). rewrite Py. cbn [bind].
           destruct (TR y by_ ltac:(lia) eq_refl Hy) as (b'' & -> & H1). exists b''. split; auto.
           rewrite (sublist_cons la left middle x) in H1 by (auto; lia). auto.
    + destruct (nth_error la right) as [y|] eqn:Ey; [|apply nth_error_None in Ey; lia]. rewrite (at_index a la right y) by auto. cbn [bind].
      destruct (put_index b lb index y Hb ltac:(lia)) as (by_ & Py & Hy). rewrite Py. cbn [bind].
      destruct (TR y by_ ltac:(lia) eq_refl Hy) as (b'' & -> & H1). exists b''. split; auto.
      rewrite (sublist_nil la left middle), merge_nil_l in * by lia. rewrite (sublist_cons la right e y) by (auto; lia). auto.
Qed.

Lemma half : forall v, 0 <= v -> shift_right v 1 = v / 2.
Proof. intros v H. unfold shift_right, wrapping_shr. change (clamp_to_u32 1 mod 64) with 1. simpl. rewrite Z.shiftr_div_pow2 by lia. auto. Qed.

Lemma sublist_split : forall (l : list A) s m e, (s <= m <= e)%nat -> sublist l s e = sublist l s m ++ sublist l m e.
Proof.
  intros l s m e H. unfold sublist. replace (skipn m l) with (skipn (m - s) (skipn s l)).
  - replace (e - s)%nat with (m - s + (e - m))%nat by lia. clear H. generalize (skipn s l) as k. intros k. revert k. induction (m - s)%nat as [|n IH]; intros k; auto. destruct k; simpl; [rewrite firstn_nil; auto|]. rewrite IH. auto.
  - assert (G : forall a b (k : list A), skipn a (skipn b k) = skipn (b + a) k).
    { induction b; intros k; auto. destruct k; simpl; auto. rewrite skipn_nil. auto. }
    rewrite G. f_equal. lia.
Qed.

Lemma firstn_firstn_le : forall (l : list A) s m, (s <= m)%nat -> firstn s (firstn m l) = firstn s l.
Proof. intros. rewrite firstn_firstn. f_equal. lia. Qed.

Lemma sublist_of_skipn : forall (l r : list A) m e, skipn m l = skipn m r -> sublist l m e = sublist r m e.
Proof. intros. unfold sublist. rewrite H. auto. Qed.
Lemma skipn_more : forall (l r : list A) m e, (m <= e)%nat -> skipn m l = skipn m r -> skipn e l = skipn e r.
Proof.
  intros l r m e H E. assert (G : forall a b (k : list A), skipn a (skipn b k) = skipn (b + a) k).
  { induction b; intros k; auto. destruct k; simpl; auto. rewrite skipn_nil. auto. }
  replace e with (m + (e - m))%nat by lia. rewrite <- !G, E. auto.
Qed.

Lemma sub_of_frame : forall (l m r : list A) s e, length l = s -> (s + length m = e)%nat -> sublist (l ++ m ++ r) s e = m.
Proof.
  intros l m r s e <- <-. unfold sublist. rewrite skipn_app, Nat.sub_diag, skipn_all2 by auto. simpl. replace (length l + length m - length l)%nat with (length m) by lia.
  rewrite firstn_app, Nat.sub_diag, firstn_all2 by auto. simpl. rewrite app_nil_r. auto.
Qed.
Lemma firstn_frame : forall (l k : list A) s, (s <= length l)%nat -> firstn s (l ++ k) = firstn s l.
Proof. intros. rewrite firstn_app. replace (s - length l)%nat with 0%nat by lia. simpl. rewrite app_nil_r. auto. Qed.
Lemma skipn_frame : forall (l m r : list A) e, (length l + length m = e)%nat -> skipn e (l ++ m ++ r) = r.
Proof. intros l m r e <-. rewrite app_assoc. replace (length l + length m)%nat with (length (l ++ m)) by (rewrite app_length; auto). rewrite skipn_app, Nat.sub_diag, skipn_all2 by auto. auto. Qed.

Lemma app_inj_length : forall (l1 l2 r1 r2 : list A), l1 ++ r1 = l2 ++ r2 -> length l1 = length l2 -> l1 = l2 /\ r1 = r2.
Proof. induction l1; intros [|x l2] r1 r2 H L; simpl in *; try lia; auto. injection H as -> H. destruct (IHl1 _ _ _ H ltac:(lia)) as [-> ->]. auto. Qed.

Lemma split_merge_ok : forall fuel (a b : arr) la lb s e, holds a la -> holds b lb -> length la = length lb -> (s <= e <= length lb)%nat ->
  sublist la s e = sublist lb s e -> (e - s < fuel)%nat ->
  exists a' b' la' m, array_split_merge_by cmp fuel a b (Z.of_nat s) (Z.of_nat e) = Returned (a', b') /\
    holds a' la' /\ length la' = length la /\ firstn s la' = firstn s la /\ skipn e la' = skipn e la /\
    holds b' (firstn s lb ++ m ++ skipn e lb) /\ msorted (sublist lb s e) m.
Proof.
  induction fuel as [|fuel IH]; intros a b la lb s e Ha Hb HL Hse HE Hf; [lia|]. cbn [array_split_merge_by].
  pose proof (holds_le a la Ha) as HB. rewrite max_slots_eq in HB. rewrite sub_ok by (unfold small; lia).
  destruct (Z.ltb_spec 1 (Z.of_nat e - Z.of_nat s)).
  2:{ exists a, b, la, (sublist lb s e). split; auto. split; auto. split; auto. split; auto. split; auto. split.
    - replace (firstn s lb ++ sublist lb s e ++ skipn e lb) with lb; auto. rewrite <- (firstn_skipn s lb) at 1. f_equal.
      unfold sublist. rewrite <- (firstn_skipn (e - s) (skipn s lb)) at 1. f_equal.
      assert (G : forall a b (k : list A), skipn a (skipn b k) = skipn (b + a) k).
      { induction b0; intros k; auto. destruct k; simpl; auto. rewrite skipn_nil. auto. }
      rewrite G. f_equal. lia.
    - constructor. rewrite sublist_len by lia. lia. }
  rewrite add_ok, half by (try (unfold small); lia). set (mid := ((s + e) / 2)%nat).
  assert (EM : (Z.of_nat s + Z.of_nat e) / 2 = Z.of_nat mid) by (unfold mid; rewrite Nat2Z.inj_div, Nat2Z.inj_add; auto).
  rewrite EM. assert (HM : (s < mid < e)%nat).
  { unfold mid. pose proof (Nat.div_mod (s + e) 2 ltac:(lia)) as D. pose proof (Nat.mod_upper_bound (s + e) 2 ltac:(lia)). lia. }
  clearbody mid. clear EM.
  rewrite (sublist_split la s mid e), (sublist_split lb s mid e) in HE by lia.
  apply app_inj_length in HE. 2: rewrite !sublist_len by lia; auto. destruct HE as [HE1 HE2].
  destruct (IH b a lb la s mid Hb Ha) as (b1 & a1 & lb1 & m1 & R1 & Hb1 & Lb1 & Fb1 & Sb1 & Ha1 & M1); try lia; auto.
  rewrite R1. cbn [bind].
  pose proof (msorted_length _ _ M1) as LM1. rewrite sublist_len in LM1 by lia.
  set (la1 := firstn s la ++ m1 ++ skipn mid la) in *.
  assert (LF1 : length (firstn s la) = s) by (rewrite firstn_length; lia).
  assert (La1 : length la1 = length la) by (unfold la1; rewrite !app_length, skipn_length; lia).
  assert (Sa1 : skipn mid la1 = skipn mid la) by (unfold la1; apply skipn_frame; lia).
  destruct (IH b1 a1 lb1 la1 mid e Hb1 Ha1) as (b2 & a2 & lb2 & m2 & R2 & Hb2 & Lb2 & Fb2 & Sb2 & Ha2 & M2); try lia.
  { rewrite (sublist_of_skipn _ _ _ _ Sb1), (sublist_of_skipn _ _ _ _ Sa1). auto. }
  rewrite R2. cbn [bind]. pose proof (msorted_length _ _ M2) as LM2. rewrite sublist_len in LM2 by lia.
  set (la2 := firstn mid la1 ++ m2 ++ skipn e la1) in *.
  assert (LF2 : length (firstn mid la1) = mid) by (rewrite firstn_length; lia).
  assert (La2 : length la2 = length la) by (unfold la2; rewrite !app_length, skipn_length; lia).
  unfold array_merge_ranges_by. replace (Z.to_nat (Z.of_nat e - Z.of_nat s)) with (e - s)%nat by lia.
  destruct (merge_loop_ok (e - s) a2 b2 la2 lb2 mid e s mid s Ha2 Hb2) as (b3 & R3 & H3); try lia.
  rewrite R3. cbn [bind]. exists a2, b3, la2, (merge m1 m2). split; auto. split; auto. split; auto.
  assert (E1 : sublist la2 s mid = m1).
  { assert (sublist la2 s mid = sublist la1 s mid).
    { unfold sublist. unfold la2. rewrite <- (firstn_skipn mid la1) at 3. rewrite !skipn_app. rewrite !firstn_app.
      assert (length (skipn s (firstn mid la1)) = (mid - s)%nat) by (rewrite skipn_length; lia). rewrite H0, Nat.sub_diag. auto. }
    rewrite H0. unfold la1. apply sub_of_frame; lia. }
  assert (E2 : sublist la2 mid e = m2) by (unfold la2; apply sub_of_frame; lia).
  rewrite E1, E2 in H3. split; [|split; [|split]].
  - rewrite <- (firstn_firstn_le la2 s mid) by lia. unfold la2. rewrite firstn_frame by lia. rewrite !firstn_firstn_le by lia. unfold la1. rewrite firstn_frame by lia. apply firstn_firstn_le. lia.
  - unfold la2. rewrite skipn_frame by lia. apply (skipn_more _ _ mid); [lia|auto].
  - replace (firstn s lb) with (firstn s lb2); [replace (skipn e lb) with (skipn e lb2); auto|].
    + rewrite Sb2. apply (skipn_more _ _ mid); [lia|auto].
    + rewrite <- (firstn_firstn_le lb2 s mid), Fb2, firstn_firstn_le by lia. auto.
  - rewrite (sublist_split lb s mid e) by lia. rewrite <- HE1, <- HE2. constructor; auto. rewrite (sublist_of_skipn la la1 mid e); auto.
Qed.

Lemma sort_msorted : forall (a : arr) l, holds a l -> exists a' m, array_sort_by cmp a = Returned a' /\ holds a' m /\ msorted l m.
Proof.
  intros a l H. unfold array_sort_by, array_merge_sort_by, array_len. pose proof H as (_ & _ & Hl & _). rewrite Hl.
  destruct (Z.ltb_spec 1 (Z.of_nat (length l))).
  - destruct (clone_ok a l H) as (c & -> & Hc). cbn [bind]. rewrite Nat2Z.id. change 0 with (Z.of_nat 0).
    destruct (split_merge_ok (S (length l)) c a l l 0 (length l) Hc H) as (c' & a' & lc & m & R & _ & _ & _ & _ & Ha & M); auto; try lia.
    rewrite R. cbn [bind snd]. exists a', m. split; auto. rewrite sublist_all in M. rewrite skipn_all in Ha. simpl firstn in Ha. rewrite app_nil_r in Ha. auto.
  - exists a, l. split; auto. split; auto. constructor. lia.
Qed.

Lemma sort_correct : forall (a : arr) l, holds a l -> total_preorder cmp ->
  exists a' m, array_sort_by cmp a = Returned a' /\ holds a' m /\ Permutation l m /\ ordered cmp m /\ stable cmp l m.
Proof.
  intros a l H TP. destruct (sort_msorted a l H) as (a' & m & R & H' & M). exists a', m. split; auto. split; auto.
  split; [apply msorted_perm; auto|]. split; [eapply msorted_ordered; eauto|eapply msorted_stable; eauto].
Qed.

Lemma sort_any_comparison : forall (a : arr) l, holds a l ->
  exists a' m, array_sort_by cmp a = Returned a' /\ holds a' m /\ Permutation l m.
Proof. intros a l H. destruct (sort_msorted a l H) as (a' & m & R & H' & M). exists a', m. split; auto. split; auto. apply msorted_perm. auto. Qed.

Lemma sorted_correct : forall (a : arr) l, holds a l -> total_preorder cmp ->
  exists a' m, array_sorted_by cmp a = Returned a' /\ holds a' m /\ Permutation l m /\ ordered cmp m /\ stable cmp l m.
Proof. intros a l H TP. unfold array_sorted_by. destruct (clone_ok a l H) as (c & -> & Hc). cbn [bind]. apply sort_correct; auto. Qed.

(** The result is determined: an ordered stable permutation is unique. *)
Lemma stable_perm_unique : forall (m1 m2 : list A), total_preorder cmp -> Permutation m1 m2 -> ordered cmp m1 -> ordered cmp m2 -> stable cmp m1 m2 -> m1 = m2.
Proof.
  intros m1 m2 TP. revert m2. induction m1 as [|x m1 IH]; intros m2 HP O1 O2 HS.
  - apply Permutation_nil in HP. auto.
  - assert (RX : forall z, cmp z z = Eq). { intros z. pose proof (proj1 TP z z) as R. destruct (cmp z z); simpl in R; congruence. }
    destruct m2 as [|y m2]; [apply Permutation_sym, Permutation_nil in HP; discriminate|].
    apply StronglySorted_inv in O1. apply StronglySorted_inv in O2. destruct O1 as [S1 F1], O2 as [S2 F2].
    assert (XY : cmp x y <> Gt).
    { assert (I : In y (x :: m1)) by (eapply Permutation_in; [apply Permutation_sym; eauto|left; auto]). destruct I as [->|I]; [rewrite RX; discriminate|]. eapply Forall_forall in F1; eauto. }
    assert (YX : cmp y x <> Gt).
    { assert (I : In x (y :: m2)) by (eapply Permutation_in; [eauto|left; auto]). destruct I as [->|I]; [rewrite RX; discriminate|]. eapply Forall_forall in F2; eauto. }
    assert (E : cmp x y = Eq). { pose proof (proj1 TP x y) as R. destruct (cmp x y); simpl in R; congruence. }
    pose proof (HS x) as C. unfold class_of in C. cbn [filter] in C. rewrite RX, E in C. injection C as -> C'. f_equal.
    apply IH; auto.
    + eapply Permutation_cons_inv; eauto.
    + intros z. pose proof (HS z) as Q. unfold class_of in *. cbn [filter] in Q. destruct (cmp z x); auto. injection Q. auto.
Qed.
End Proofs.
