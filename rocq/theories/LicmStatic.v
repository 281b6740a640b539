(** Facts on what the pass computes: sites, roots, writes. *)
From Coq Require Import List Bool Arith Lia.
From Verif Require Import LicmModel LicmSpec.
Import ListNotations.

Lemma in_block_sites : forall l b i s op, In (s, op) (block_sites b i l) <->
  exists k, s = (b, i + k) /\ nth_error l k = Some op.
Proof.
  induction l as [|a l IH]; intros b i s op; cbn [block_sites In].
  - split; [intros []|]. intros (k & _ & E). destruct k; discriminate.
  - rewrite IH. split.
    + intros [E|(k & -> & E)]; [injection E as <- <-; exists 0; rewrite Nat.add_0_r; auto|].
      exists (S k). split; [f_equal; lia|exact E].
    + intros ([|k] & -> & E); [left; injection E as ->; rewrite Nat.add_0_r; reflexivity|].
      right. exists k. split; [f_equal; lia|exact E].
Qed.

Lemma in_sites_from : forall f b s op, In (s, op) (sites_from b f) <->
  exists k bl j, s = (b + k, j) /\ nth_error f k = Some bl /\ nth_error (ops bl) j = Some op.
Proof.
  induction f as [|a f IH]; intros b s op; cbn [sites_from].
  - split; [intros []|]. intros (k & bl & j & _ & E & _). destruct k; discriminate.
  - rewrite in_app_iff, in_block_sites, IH. split.
    + intros [(j & -> & E)|(k & bl & j & -> & E & F)].
      * exists 0, a, j. rewrite Nat.add_0_r. auto.
      * exists (S k), bl, j. split; [f_equal; lia|auto].
    + intros ([|k] & bl & j & -> & E & F).
      * left. exists j. injection E as ->. rewrite Nat.add_0_r. auto.
      * right. exists k, bl, j. split; [f_equal; lia|auto].
Qed.

Lemma in_sites : forall f s op, In (s, op) (sites f) <-> operation_at f s op.
Proof.
  intros f s op. unfold sites. rewrite in_sites_from. unfold operation_at. split.
  - intros (k & bl & j & -> & E & F). exists bl. auto.
  - intros (bl & E & F). exists (fst s), bl, (snd s). destruct s. auto.
Qed.

Lemma in_all_ops : forall f op, In op (all_ops f) <-> exists s, operation_at f s op.
Proof.
  intros f op. unfold all_ops. rewrite in_map_iff. split.
  - intros ((s & op') & <- & J). exists s. apply in_sites. exact J.
  - intros (s & J). exists (s, op). split; [reflexivity|apply in_sites; exact J].
Qed.

(** ** One definition *)

Lemma NoDup_right : forall (A : Type) (a b : list A), NoDup (a ++ b) -> NoDup b.
Proof. intros A a b. induction a as [|x a IH]; cbn; [auto|]. intros N. apply NoDup_cons_iff in N. apply IH, N. Qed.

Lemma flat_map_nth_unique : forall (A B : Type) (g : A -> list B) l i j x y z, NoDup (flat_map g l) ->
  nth_error l i = Some x -> nth_error l j = Some y -> In z (g x) -> In z (g y) -> i = j.
Proof.
  intros A B g l. induction l as [|a l IH]; intros i j x y z N Ei Ej Jx Jy; [destruct i; discriminate|].
  cbn [flat_map] in N. assert (D : forall w k, nth_error l k = Some w -> In z (g a) -> ~ In z (g w)).
  { intros w k E Ja Jw. revert N Ja. induction (g a) as [|u v IHv]; [intros _ []|]. cbn. intros N Ja.
    apply NoDup_cons_iff in N. destruct N as [N1 N2]. destruct Ja as [->|Ja]; [|apply IHv; assumption].
    apply N1. apply in_or_app. right. apply in_flat_map. exists w. split; [apply nth_error_In in E; exact E|exact Jw]. }
  assert (N' : NoDup (flat_map g l)) by (apply NoDup_right in N; exact N).
  destruct i as [|i], j as [|j]; cbn in Ei, Ej; auto.
  - injection Ei as ->. exfalso. eapply D; eauto.
  - injection Ej as ->. exfalso. eapply D; eauto.
  - f_equal. eapply IH; eauto.
Qed.

Lemma flat_map_nth_NoDup : forall (A B : Type) (g : A -> list B) l i x, NoDup (flat_map g l) ->
  nth_error l i = Some x -> NoDup (g x).
Proof.
  intros A B g l. induction l as [|a l IH]; intros i x N E; [destruct i; discriminate|]. cbn [flat_map] in N.
  destruct i as [|i]; cbn in E.
  - injection E as ->. revert N. induction (g x) as [|u v IHv]; [constructor|]. cbn. intros N.
    apply NoDup_cons_iff in N. constructor; [|apply IHv; apply N]. intros J. apply (proj1 N). apply in_or_app. auto.
  - eapply IH; [|exact E]. apply NoDup_right in N. exact N.
Qed.

Definition defines (op : operation) : list reg := match result op with Some r => [r] | None => [] end.
Definition inner (bl : block) : list operation := ops bl ++ match term bl with Invoke op _ _ => [op] | _ => [] end.

Lemma one_definition : forall f r b i bl op b' i' bl' op', NoDup (results f) ->
  nth_error f b = Some bl -> nth_error (inner bl) i = Some op -> result op = Some r ->
  nth_error f b' = Some bl' -> nth_error (inner bl') i' = Some op' -> result op' = Some r -> b = b' /\ i = i'.
Proof.
  intros f r b i bl op b' i' bl' op' N E F R E' F' R'.
  assert (X : forall w k o, nth_error (inner w) k = Some o -> result o = Some r -> In r (flat_map defines (inner w))).
  { intros w k o A B. apply in_flat_map. exists o. split; [apply nth_error_In in A; exact A|]. unfold defines. rewrite B. left. reflexivity. }
  change (results f) with (flat_map (fun bl => flat_map defines (inner bl)) f) in N.
  assert (Q : b = b').
  { apply (flat_map_nth_unique _ _ _ f b b' bl bl' r N E E'); [eapply X; [exact F|exact R]|eapply X; [exact F'|exact R']]. }
  subst b'. split; [reflexivity|]. rewrite E in E'. injection E' as <-.
  apply (flat_map_nth_NoDup _ _ _ f b bl N) in E.
  apply (flat_map_nth_unique _ _ defines (inner bl) i i' op op' r E F F'); unfold defines; [rewrite R|rewrite R']; left; reflexivity.
Qed.

Lemma op_inner : forall bl i op, nth_error (ops bl) i = Some op -> nth_error (inner bl) i = Some op.
Proof. intros bl i op E. unfold inner. rewrite nth_error_app1; [exact E|]. apply nth_error_Some. congruence. Qed.

Lemma one_site : forall f r s op s' op', NoDup (results f) -> operation_at f s op -> result op = Some r ->
  operation_at f s' op' -> result op' = Some r -> s = s' /\ op = op'.
Proof.
  intros f r [b i] op [b' i'] op' N (bl & E & F) R (bl' & E' & F') R'. cbn [fst snd] in *.
  destruct (one_definition f r b i bl op b' i' bl' op' N E (op_inner _ _ _ F) R E' (op_inner _ _ _ F') R') as [-> ->].
  split; [reflexivity|]. congruence.
Qed.

Lemma definition_at : forall f r s, definition f r = Some s -> exists op, operation_at f s op /\ result op = Some r.
Proof.
  intros f r s H. unfold definition in H. destruct (find _ (sites f)) as [so|] eqn:F; [|discriminate].
  injection H as <-. apply find_some in F. destruct F as [J R]. exists (snd so). split.
  - apply in_sites. destruct so. exact J.
  - destruct (result (snd so)) as [x|]; [|discriminate]. apply Nat.eqb_eq in R. congruence.
Qed.

Lemma allocation_at : forall f r s ty st, allocation f r = Some (s, ty, st) ->
  exists op, operation_at f s op /\ result op = Some r /\ okind op = Alloca ty /\ (st = true -> operands op = []).
Proof.
  intros f r s ty st H. unfold allocation in H. destruct (find _ (sites f)) as [[s' op]|] eqn:F; [|discriminate].
  destruct (okind op) eqn:K; try discriminate. injection H as -> -> <-. apply find_some in F. destruct F as [J R].
  exists op. split; [apply in_sites; exact J|]. cbn in R. split.
  - destruct (result op); [|discriminate]. apply Nat.eqb_eq in R. congruence.
  - split; [exact K|]. destruct (operands op); [reflexivity|discriminate].
Qed.

Lemma mem_In : forall x l, mem x l = true <-> In x l.
Proof.
  intros x l. unfold mem. rewrite existsb_exists. split.
  - intros (y & J & E). apply Nat.eqb_eq in E. subst. exact J.
  - intros J. exists x. split; [exact J|apply Nat.eqb_refl].
Qed.

Lemma root_eqb_eq : forall a b, root_eqb a b = true <-> a = b.
Proof.
  intros a b. destruct a, b; cbn; rewrite ?Nat.eqb_eq; split; intros H; try discriminate; congruence.
Qed.

(** ** Written operands *)

Lemma split_last : forall (A : Type) (l : list A) n, n < length l -> exists a b, l = a ++ b /\ length a = n.
Proof. intros A l n H. exists (firstn n l), (skipn n l). split; [symmetry; apply firstn_skipn|]. apply firstn_length_le. lia. Qed.

Lemma call_shape : forall c l k, call_operands c l = Some k ->
  exists args, l = callee k :: extras k ++ args ++ [output k] /\ length args = length (conventions c) /\
    arguments k = combine args (conventions c).
Proof.
  intros c l k H. unfold call_operands in H. destruct (length l <? length (conventions c) + 2) eqn:L; [discriminate|].
  apply Nat.ltb_ge in L. injection H as <-. cbn [callee extras arguments output]. destruct l as [|g l]; [cbn in L; lia|].
  cbn [length] in L. cbn [skipn nth]. set (n := length (conventions c)) in *.
  set (e := length (g :: l) - (n + 2)) in *. assert (Le : length l = e + n + 1) by (unfold e; cbn [length]; lia).
  exists (firstn n (skipn e l)). change (skipn (1 + e) (g :: l)) with (skipn e l).
  change (nth (1 + e + n) (g :: l) (Constant 0)) with (nth (e + n) l (Constant 0)).
  split; [|split; [|reflexivity]].
  - f_equal. rewrite <- (firstn_skipn e l) at 1. f_equal. rewrite <- (firstn_skipn n (skipn e l)) at 1. f_equal.
    assert (LL : length (skipn n (skipn e l)) = 1) by (rewrite !skipn_length; lia).
    assert (NN : nth (e + n) l (Constant 0) = nth 0 (skipn n (skipn e l)) (Constant 0)).
    { rewrite <- (firstn_skipn e l) at 1. rewrite app_nth2 by (rewrite firstn_length; lia).
      rewrite firstn_length, Nat.min_l by lia. replace (e + n - e) with n by lia.
      rewrite <- (firstn_skipn n (skipn e l)) at 1. rewrite app_nth2 by (rewrite firstn_length, skipn_length; lia).
      f_equal. rewrite firstn_length, skipn_length. lia. }
    rewrite NN. destruct (skipn n (skipn e l)) as [|z [|w r]]; cbn in *; try lia. reflexivity.
  - apply firstn_length_le. rewrite skipn_length. lia.
Qed.

Lemma call_shape_inv : forall c g hidden args out, length args = length (conventions c) ->
  call_operands c (g :: hidden ++ args ++ [out]) =
    Some {| callee := g; extras := hidden; arguments := combine args (conventions c); output := out |}.
Proof.
  intros c g hidden args out L. destruct (call_operands c (g :: hidden ++ args ++ [out])) as [k|] eqn:K.
  - pose proof (call_shape _ _ _ K) as (args' & E & L' & A). destruct k as [g' h' a' o']. cbn in *. injection E as -> E.
    assert (Q : hidden = h' /\ args = args' /\ out = o').
    { rewrite !app_assoc in E. apply app_inj_tail in E. destruct E as [E ->].
      assert (LH : length hidden = length h').
      { apply (f_equal (@length _)) in E. rewrite !app_length in E. lia. }
      assert (X : forall (p q r s : list operand), length p = length q -> p ++ r = q ++ s -> p = q /\ r = s).
      { induction p; destruct q; cbn; intros r s Y Z; try discriminate; [auto|]. injection Z as -> Z.
        destruct (IHp q r s) as [-> ->]; auto. }
      destruct (X _ _ _ _ LH E) as [-> ->]. auto. }
    destruct Q as (-> & -> & ->). subst a'. reflexivity.
  - exfalso. unfold call_operands in K. destruct (length _ <? _) eqn:B in K; [|discriminate]. apply Nat.ltb_lt in B.
    cbn [length] in B. rewrite !app_length in B. cbn in B. lia.
Qed.

Lemma combine_nth_error : forall (A B : Type) (l : list A) (m : list B) i a b,
  nth_error (combine l m) i = Some (a, b) <-> nth_error l i = Some a /\ nth_error m i = Some b.
Proof.
  intros A B l. induction l as [|x l IH]; intros [|y m] [|i] a b; cbn; try (split; [discriminate|intros [X Y]; discriminate]).
  - split; [intros H; injection H as -> ->; auto|]. intros [H1 H2]. congruence.
  - apply IH.
Qed.

Lemma written_iff : forall op o, In o (written_operands op) <-> written op o.
Proof.
  intros op o. unfold written_operands. destruct (okind op) as [ty| | | |n|c|n| |n| |n| | |n] eqn:K.
  1-5, 12-14: split; [intros []|]; intros W; destruct W; congruence.
  - destruct (call_operands c (operands op)) as [k|] eqn:Q.
    + pose proof (call_shape _ _ _ Q) as (args & E & L & A). cbn [In]. rewrite in_app_iff, in_map_iff, in_flat_map. split.
      * intros [<-|[((a & v) & <- & J)|(i & J & H)]].
        -- eapply written_result; eauto.
        -- apply filter_In in J. destruct J as [J Z]. cbn in Z. destruct v; [discriminate|]. rewrite A in J.
           apply In_nth_error in J. destruct J as (i & J). apply combine_nth_error in J. destruct J as [J1 J2].
           eapply written_argument; eauto.
        -- rewrite A in H. destruct (nth_error (combine args (conventions c)) i) as [[a v]|] eqn:Y; [|destruct H].
           cbn in H. destruct H as [<-|[]]. apply combine_nth_error in Y. destruct Y as [Y1 Y2].
           eapply written_argument; eauto.
      * intros W. destruct W as [| | | | |c' g h a K' E' L'|c' g h a out i K' E' L' N' M'|c' K' E' J'];
          try congruence; assert (c' = c) by congruence; subst c'.
        -- left. rewrite E', (call_shape_inv c g h a o L') in Q. injection Q as <-. reflexivity.
        -- right. rewrite E', (call_shape_inv c g h a out L') in Q. injection Q as <-. cbn [arguments].
           destruct (nth_error (conventions c) i) as [v|] eqn:V.
           2:{ apply nth_error_None in V. assert (i < length a) by (apply nth_error_Some; congruence). lia. }
           assert (Y : nth_error (combine a (conventions c)) i = Some (o, v)) by (apply combine_nth_error; auto).
           destruct M' as [M'|M'].
           ++ left. exists (o, v). split; [reflexivity|]. apply filter_In. split; [apply nth_error_In in Y; exact Y|].
              injection M' as ->. reflexivity.
           ++ right. exists i. split; [exact M'|]. rewrite Y. left. reflexivity.
        -- exfalso. assert (X : length (operands op) = S (length (extras k ++ args ++ [output k]))) by (rewrite E; reflexivity).
           rewrite !app_length in X. cbn in X. lia.
    + assert (B : length (operands op) < length (conventions c) + 2).
      { unfold call_operands in Q. destruct (length _ <? _) eqn:B in Q; [apply Nat.ltb_lt; exact B|discriminate]. }
      split; [intros J; eapply written_unknown; eauto|]. intros W.
      destruct W as [| | | | |c' g h a K' E' L'|c' g h a out i K' E' L' N' M'|c' K' E' J']; try congruence;
        assert (c' = c) by congruence; subst c'; exfalso; rewrite E' in B; cbn [length] in B; rewrite !app_length in B; cbn in B; lia.
  - destruct (nth_error (operands op) 1) as [p|] eqn:N; cbn.
    + split; [intros [<-|[]]; eapply written_put; eauto|]. intros W. destruct W; try congruence. left. congruence.
    + split; [intros []|]. intros W. destruct W; congruence.
  - split.
    + intros J. apply In_nth_error in J. destruct J as (i & J). destruct (operands op) as [|a [|b l]] eqn:O; cbn in J.
      * destruct i; discriminate.
      * destruct i as [|i]; [|destruct i; discriminate]. apply (written_move op o 0); [exact K|lia|rewrite O; exact J].
      * destruct i as [|[|i]]; [| |destruct i; discriminate].
        -- apply (written_move op o 0); [exact K|lia|rewrite O; exact J].
        -- apply (written_move op o 1); [exact K|lia|rewrite O; exact J].
    + intros W. destruct W as [|i K' L' N'| | | | | |]; try congruence.
      destruct (operands op) as [|a [|b l]]; destruct i as [|[|i]]; cbn in *; try discriminate; try lia; injection N' as ->; auto.
  - split.
    + intros J. destruct (operands op) as [|a l] eqn:O; cbn in J; [destruct J|]. destruct J as [<-|[]].
      eapply written_clear; [exact K|rewrite O; reflexivity].
    + intros W. destruct W as [| |n' K' N'| | | | |]; try congruence. destruct (operands op); [discriminate|].
      injection N' as ->. left. reflexivity.
  - split.
    + intros J. destruct (rev (operands op)) as [|a l] eqn:O; cbn in J; [destruct J|]. destruct J as [<-|[]].
      apply (written_array op a (rev l)); [exact K|]. rewrite <- (rev_involutive (operands op)), O. reflexivity.
    + intros W. destruct W as [| | |l K' N'| | | |]; try congruence. rewrite N', rev_app_distr. left. reflexivity.
  - split; [intros J; eapply written_open; eauto|]. intros W. destruct W; try congruence.
Qed.
