(** The passes one after the other. *)
From Coq Require Import List Arith Bool Lia.
From Verif Require Import CopiesModel CopiesSpec CopiesSim CopiesRewrite CopiesPrune CopiesShare CopiesNarrow.
Import ListNotations.

Lemma alike_reads : forall (R : fid -> fid -> Prop) f f' i, alike R f f' -> reads f' i -> reads f i.
Proof.
  intros R f f' i A [(o' & O & I) | (b' & Ib & H)].
  - destruct (alike_operations R f f' o' A O) as (o & Oo & [_ _ _ V]).
    destruct (Forall2_right _ _ _ _ V I) as (v & Iv & Hv). left. exists o. split; [assumption |].
    inversion Hv; subst; assumption.
  - destruct A as [_ _ _ A]. destruct (Forall2_right _ _ _ _ A Ib) as (b & Ib' & [_ _ B3]).
    right. exists b. split; [assumption |].
    destruct H as [(y & n & T) | (r & T)]; rewrite T in B3; [left | right]; inversion B3; eauto.
Qed.

Definition evidence_ok (a : artifacts) : Prop :=
  evidence_first a /\ evidence_unread a /\ evidence_passed a /\ calls_have_callees a.

Section Rewritten.
  Variables (a : artifacts) (survives : nat -> option nat) (a' : artifacts).
  Hypothesis W : well_named a.
  Hypothesis E : rewrite a survives = Some a'.
  Hypothesis Full : forall f i, kept_body a survives f -> names f (copy_id a i) -> survives i <> None.
  Hypothesis Compat : forall i j s t, survives i = Some j -> nth_error (a_copies a) i = Some s ->
    nth_error (a_copies a) j = Some t -> f_parameters (s_body s) = f_parameters (s_body t).

  Lemma rewritten_own : forall f', own_body a' f' -> exists f, own_body a f /\ kept_body a survives f /\
    alike (fun x y => remap_of a survives x = Some y) f f'.
  Proof.
    intros f' O'. destruct (rewritten_body a survives a' W E f' O') as (f & O & Ko & H).
    exists f. split; [assumption |]. split; [assumption |].
    apply (rewrite_alike a); auto.
    - intros g Og. now apply remap_outside.
    - now apply (wn_callee _ W).
  Qed.

  Lemma rewritten_copy : forall s', In s' (a_copies a') -> exists s, In s (a_copies a) /\
    alike (fun x y => remap_of a survives x = Some y) (s_body s) (s_body s').
  Proof.
    intros s' I. destruct (rewrite_shape a survives W a' E) as (_ & _ & Ec).
    destruct (Forall2_right _ _ _ _ Ec I) as (s & I' & H).
    unfold rewrite_copy in H. apply bind_inv in H as (f1 & H & H1). injection H1 as <-. cbn [s_body].
    apply retained_In in I' as (p & _ & N); [| symmetry; apply kept_length].
    exists s. split; [exact (nth_error_In _ _ N) |].
    apply (rewrite_alike a); auto.
    - intros g Og. now apply remap_outside.
    - apply (wn_callee _ W). exact (own_copy a p s N).
  Qed.

  Lemma rewritten_evidence : evidence_ok a -> evidence_ok a'.
  Proof.
    intros (E1 & E2 & E3 & E4). split; [| split; [| split]].
    - intros s' I. destruct (rewritten_copy s' I) as (s & Is & A). rewrite <- (al_parameters _ _ _ A). exact (E1 s Is).
    - intros s' i I R. destruct (rewritten_copy s' I) as (s & Is & A). rewrite <- (al_parameters _ _ _ A).
      exact (E2 s i Is (alike_reads _ _ _ i A R)).
    - intros f' o' v r callee args c t' O' Io' K Eo Ec Nt'.
      destruct (rewritten_own f' O') as (f & O & Ko & A).
      destruct (alike_operations _ f f' o' A Io') as (o & Io & [_ _ K' V]).
      rewrite Eo in V. inversion V as [|x y l l' Hx Hl Ex El]; subst.
      inversion Hx as [g g' Hg F1 F2 | w Nw F1 F2]; subst; [| destruct (Nw _ eq_refl)].
      rewrite (rewritten_id a survives a' W E) in Hg.
      assert (Ng : names f g).
      { apply (names_operand f g o Io). rewrite <- Ex. now left. }
      destruct (remap_into a survives g _ Hg) as [(Eg & Hn) | (i & j & c' & -> & Ec' & Hi & Sj & Cj)].
      { destruct (Full f c Ko).
        - rewrite Eg. exact Ng.
        - apply Hn. now symmetry. }
      apply copy_id_inj in Ec'. subst c'.
      destruct (nth_error (a_copies a) i) as [s|] eqn:Ns; [| apply nth_error_None in Ns; lia].
      destruct (rewrite_shape a survives W a' E) as (_ & _ & Ec).
      destruct (compaction_nth _ _ _ _ _ Cj) as (_ & _ & Rt).
      specialize (Rt _ (a_copies a) (eq_sym (kept_length a survives))). rewrite Nat.sub_0_r in Rt.
      pose proof (Forall2_nth_error _ _ _ c Ec) as H. rewrite Nt', Rt in H.
      destruct (nth_error (a_copies a) j) as [t|] eqn:Nt; [| contradiction].
      unfold rewrite_copy in H. apply bind_inv in H as (f1 & H & H1). injection H1 as <-. cbn [s_body].
      assert (Pt : f_parameters f1 = f_parameters (s_body s)).
      { rewrite (Compat i j s t Sj Ns Nt). unfold rewrite_body in H.
        apply bind_inv in H as (bs1 & _ & H). apply bind_inv in H as (bs2 & _ & H). injection H as <-. reflexivity. }
      rewrite Pt.
      destruct (E3 f o v r _ l i s O Io ltac:(congruence) (eq_sym Ex) eq_refl Ns)
        as (hd & vs & L1 & L2 & L3 & L4). subst l.
      apply Forall2_app_inv_l in Hl as (hd' & vs' & Fh & Fv & ->).
      exists hd', vs'. split; [reflexivity |].
      rewrite <- (Forall2_length' _ _ _ Fh), <- (Forall2_length' _ _ _ Fv).
      split; [assumption |]. split; [assumption |].
      intros x Ix. destruct (Forall2_right _ _ _ _ Fh Ix) as (x0 & Ix0 & Hx0).
      destruct (L4 x0 Ix0) as (dd & ->). inversion Hx0; subst. eauto.
    - intros f' o' v r O' Io' K Eo.
      destruct (rewritten_own f' O') as (f & O & _ & A).
      destruct (alike_operations _ f f' o' A Io') as (o & Io & [_ _ K' V]).
      rewrite Eo in V. inversion V as [Ex|]; subst. apply (E4 f o v r O Io); congruence.
  Qed.
End Rewritten.

Lemma share_evidence : forall digest a a', well_named a -> share digest a = Some a' ->
  evidence_ok a -> evidence_ok a'.
Proof.
  intros digest a a' W E. unfold share in E. destruct (length (a_copies a) <? 2) eqn:Sz.
  - injection E as <-. auto.
  - destruct (rounds_ok a digest W (S (length (a_copies a))) (seq 0 (length (a_copies a))) (Inv_start a))
      as (merged & Eg & I & _).
    { pose proof (roots_le (seq 0 (length (a_copies a))) 0) as R. rewrite seq_length in R. lia. }
    unfold group in E. rewrite Eg in E. cbn [bind] in E. apply bind_inv in E as (into & T & E).
    apply (rewritten_evidence a _ a' W E).
    + intros f i Kf Nf.
      assert (Hi : i < length (a_copies a)).
      { apply (copy_in_range a W f i); [| assumption]. destruct Kf as [If | (u & Iu & <-)]; [now left |].
        apply retained_In in Iu as (p & _ & Np); [| symmetry; apply kept_length]. exact (own_copy a p u Np). }
      apply nth_error_Some. apply traverse_inv in T. apply Forall2_length' in T. rewrite seq_length in T. lia.
    + intros i j s t Sj Ns Nt.
      assert (Hi : i < length (a_copies a)) by (apply nth_error_Some; congruence).
      apply (survives_Res a merged into I T i j Hi) in Sj.
      destruct (Inv_resolved a merged I i j s Sj Ns) as (t' & Nt' & _ & A).
      rewrite Nt in Nt'. injection Nt' as <-. exact (al_parameters _ _ _ A).
Qed.

Lemma prune_preserves : forall a a' d, well_named a -> prune a = Some (a', d) ->
  well_named a' /\ (evidence_ok a -> evidence_ok a') /\ (forall g, is_copy a' g <-> is_copy a g).
Proof.
  intros a a' d W E. unfold prune in E. destruct (length (a_copies a) =? 0) eqn:Z.
  - injection E as <- _. split; [assumption |]. split; [auto |]. reflexivity.
  - destruct (reachable_ok a W) as (live & El & Len & A). rewrite El in E. cbn [bind] in E.
    apply bind_inv in E as (a1 & E & E1). injection E1 as -> _.
    change (fun index : nat => match nth_error live index with Some true => Some index | _ => None end)
      with (keeps live) in E.
    assert (Full : forall f i, kept_body a (keeps live) f -> names f (copy_id a i) -> keeps live i <> None).
    { intros f i Kf Nf.
      assert (Ri : reached a i).
      { destruct Kf as [If | (u & Iu & <-)]; [exact (reached_declared a f i If Nf) |].
        apply retained_In in Iu as (p & Kp & Np); [| symmetry; apply kept_length]. cbn in Kp.
        apply (reached_copy a p u i); auto. apply A.
        assert (Hp : p < length (a_copies a)) by (apply nth_error_Some; congruence).
        rewrite kept_nth in Kp by assumption. injection Kp as Kp. now apply keeps_self in Kp. }
      rewrite (keeps_reached a live A i Ri). discriminate. }
    split; [exact (rewritten_well_named a _ a' W E Full) |].
    split; [| exact (rewritten_copies a _ a' W E)].
    apply (rewritten_evidence a _ a' W E Full).
    intros i j s t Sj Ns Nt. apply keeps_self in Sj as (<- & _). congruence.
Qed.

Lemma same_behaviour_trans : forall a b c, (forall g, is_copy b g <-> is_copy a g) ->
  same_behaviour a b -> same_behaviour b c -> same_behaviour a c.
Proof.
  intros a b c H S1 S2 B L G M Fo f args stored g n O St.
  rewrite <- (S1 B L G M Fo f args stored g n O St).
  apply (S2 B L G M).
  - intros h bd Hb x Nx Cx. apply H in Cx. exact (Fo h bd Hb x Nx Cx).
  - intros Cf. apply O. now apply H.
  - intros h Ih Ch. apply (St h Ih). now apply H.
Qed.

Lemma share_copies : forall digest a a', well_named a -> share digest a = Some a' ->
  forall g, is_copy a' g <-> is_copy a g.
Proof.
  intros digest a a' W E. unfold share in E. destruct (length (a_copies a) <? 2).
  - injection E as <-. reflexivity.
  - apply bind_inv in E as (merged & _ & E). apply bind_inv in E as (into & _ & E).
    exact (rewritten_copies a _ a' W E).
Qed.

Theorem pipeline_ok : forall digest a, well_named a -> evidence_ok a ->
  exists a1 a2 dropped a3, share digest a = Some a1 /\ prune a1 = Some (a2, dropped) /\
    narrow a2 = Some a3 /\ same_behaviour a a3 /\ well_named a3 /\
    (forall s, In s (a_copies a3) -> evidence (f_parameters (s_body s)) = 0) /\ evidence_passed a3.
Proof.
  intros digest a W Ev.
  destruct (share_ok digest a W) as (a1 & E1 & W1 & S1 & _).
  pose proof (share_evidence digest a a1 W E1 Ev) as Ev1.
  destruct (prune_ok a1 W1) as (a2 & d & E2 & S2 & _).
  destruct (prune_preserves a1 a2 d W1 E2) as (W2 & Ev2 & C2). specialize (Ev2 Ev1).
  destruct Ev2 as (F1 & F2 & F3 & F4).
  destruct (narrow_total a2 F1 F2 F3 F4) as (a3 & E3).
  exists a1, a2, d, a3. split; [assumption |]. split; [assumption |]. split; [assumption |].
  split; [| split; [| split]].
  - apply (same_behaviour_trans a a1 a3 (share_copies digest a a1 W E1) S1).
    apply (same_behaviour_trans a1 a2 a3 C2 S2). exact (narrow_behaviour a2 W2 F1 a3 E3).
  - exact (narrow_well_named a2 W2 F1 a3 E3).
  - intros s Is. exact (narrow_result_plain a2 W2 F1 a3 s E3 Is).
  - exact (narrow_calls a2 W2 F1 F3 a3 E3).
Qed.
