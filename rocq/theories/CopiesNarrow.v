(** Dropping evidence. *)
From Coq Require Import List Arith Bool Lia.
From Verif Require Import CopiesModel CopiesSpec CopiesSim CopiesRewrite CopiesPrune CopiesShare.
Import ListNotations.

Lemma some_inj : forall {A} (x y : A), Some x = Some y -> x = y.
Proof. congruence. Qed.

Lemma evidence_count : forall ps, length (filter is_dictionary ps) = evidence ps.
Proof.
  induction ps as [|p ps IH]; cbn; [reflexivity |].
  unfold is_dictionary at 1. destruct (p_kind p); cbn; auto.
Qed.

Lemma evidence_split : forall ds ps, (forall p, In p ds -> p_kind p = PDictionary) ->
  (forall p, In p ps -> p_kind p <> PDictionary) ->
  evidence (ds ++ ps) = length ds /\
  filter (fun p => negb (is_dictionary p)) (ds ++ ps) = ps /\
  skipn (length ds) (ds ++ ps) = ps.
Proof.
  intros ds ps H1 H2. induction ds as [|d ds IH]; cbn.
  - split; [| split; [| reflexivity]].
    + induction ps as [|p ps IH]; cbn; [reflexivity |].
      destruct (p_kind p) eqn:K; try (apply IH; intros q Iq; apply H2; now right).
      destruct (H2 p (or_introl eq_refl) K).
    + induction ps as [|p ps IH]; cbn; [reflexivity |].
      unfold is_dictionary at 1.
      destruct (p_kind p) eqn:K; cbn; try (f_equal; apply IH; intros q Iq; apply H2; now right).
      destruct (H2 p (or_introl eq_refl) K).
  - rewrite (H1 d (or_introl eq_refl)). unfold is_dictionary at 1. rewrite (H1 d (or_introl eq_refl)). cbn.
    destruct IH as (I1 & I2 & I3); [intros p Ip; apply H1; now right |]. auto.
Qed.

Lemma renumbering_plain : forall ps next i, (forall p, In p ps -> p_kind p <> PDictionary) ->
  nth_error (renumbering is_dictionary ps next) i
  = if i <? length ps then Some (Some (next + i)) else None.
Proof.
  induction ps as [|p ps IH]; intros next i H; cbn [renumbering length].
  - destruct i; reflexivity.
  - assert (D : is_dictionary p = false).
    { unfold is_dictionary. destruct (p_kind p) eqn:K; auto. destruct (H p (or_introl eq_refl) K). }
    rewrite D. destruct i as [|i]; cbn [nth_error].
    + rewrite Nat.add_0_r. reflexivity.
    + rewrite IH by (intros q Iq; apply H; now right). rewrite <- plus_n_Sm. reflexivity.
Qed.

Lemma renumbering_nth : forall ds ps next i, (forall p, In p ds -> p_kind p = PDictionary) ->
  (forall p, In p ps -> p_kind p <> PDictionary) ->
  nth_error (renumbering is_dictionary (ds ++ ps) next) i
  = if i <? length ds then Some None
    else if i - length ds <? length ps then Some (Some (next + (i - length ds))) else None.
Proof.
  induction ds as [|d ds IH]; intros ps next i H1 H2; cbn [app length].
  - rewrite Nat.sub_0_r. cbn. apply renumbering_plain. exact H2.
  - cbn [renumbering]. unfold is_dictionary at 1. rewrite (H1 d (or_introl eq_refl)).
    destruct i as [|i]; cbn [nth_error]; [reflexivity |].
    rewrite IH; [reflexivity | intros p Ip; apply H1; now right | exact H2].
Qed.

Section Narrow.
  Variable a : artifacts.
  Hypothesis W : well_named a.
  Hypothesis First : evidence_first a.
  Notation m := (a_module a).
  Notation first := (length (a_functions a)).
  Notation copies := (a_copies a).

  Definition dropped : list nat := map (fun s => dictionary_parameters (s_body s)) copies.
  Notation at_ := (dropped_at m first dropped).

  Definition fewer (f : fid) : nat :=
    match index_of m first f with
    | Some i => match nth_error dropped i with Some n => n | None => 0 end
    | None => 0
    end.

  Lemma at_fewer : forall f, at_ (VFunction f) = match fewer f with 0 => None | S n => Some (S n) end.
  Proof.
    intros f. unfold dropped_at, fewer. destruct (index_of m first f) as [i|]; [| reflexivity].
    destruct (nth_error dropped i) as [[|n]|]; reflexivity.
  Qed.

  Lemma fewer_copy : forall i s, nth_error copies i = Some s ->
    fewer (copy_id a i) = evidence (f_parameters (s_body s)).
  Proof.
    intros i s N. unfold fewer. rewrite (proj2 (index_of_copy a (copy_id a i) i) eq_refl).
    unfold dropped. rewrite nth_error_map, N. cbn. apply evidence_count.
  Qed.

  Lemma fewer_outside : forall f, ~ is_copy a f -> fewer f = 0.
  Proof. intros f O. unfold fewer. now rewrite (proj2 (index_of_none a f) O). Qed.

  (** The relation the renumbering establishes. *)
  Definition moved (d : nat) (v v' : value) : Prop := above d v /\ v' = shift d v.

  Lemma moved_0 : forall v, moved 0 v v.
  Proof. intros v. split; [destruct v; cbn; auto using Nat.le_0_l |]. destruct v; cbn; now rewrite ?Nat.sub_0_r. Qed.

  Record moved_operation (d : nat) (o o' : operation value) : Prop := {
    mo_result : o_result o = o_result o';
    mo_span : o_span o = o_span o';
    mo_kind : o_kind o = o_kind o';
    mo_operands : Forall2 (moved d) (o_operands o) (o_operands o')
  }.

  Inductive moved_term (d : nat) : term_kind value -> term_kind value -> Prop :=
  | moved_goto t : moved_term d (TGoto t) (TGoto t)
  | moved_cond v v' y n : moved d v v' -> moved_term d (TCond v y n) (TCond v' y n)
  | moved_invoke o o' n e : moved_operation d o o' -> moved_term d (TInvoke o n e) (TInvoke o' n e)
  | moved_yield v v' r : moved d v v' -> moved_term d (TYield v r) (TYield v' r)
  | moved_return : moved_term d TReturn TReturn
  | moved_propagate : moved_term d TPropagate TPropagate
  | moved_cleanup : moved_term d TCleanupFailure TCleanupFailure.

  Record moved_block (d : nat) (b b' : block value) : Prop := {
    mb_operations : Forall2 (moved_operation d) (b_operations b) (b_operations b');
    mb_term : moved_term d (t_kind (b_terminator b)) (t_kind (b_terminator b'))
  }.

  Lemma moved_operation_0 : forall o, moved_operation 0 o o.
  Proof. intros o. constructor; auto. induction (o_operands o); constructor; auto using moved_0. Qed.

  Lemma moved_block_0 : forall b, moved_block 0 b b.
  Proof.
    intros b. constructor.
    - induction (b_operations b); constructor; auto using moved_operation_0.
    - destruct (t_kind (b_terminator b)); constructor; auto using moved_0, moved_operation_0.
  Qed.

  Lemma map_block_moved : forall d (g : value -> option value), (forall v v', g v = Some v' -> moved d v v') ->
    forall b b', map_block g b = Some b' -> moved_block d b b'.
  Proof.
    intros d g Hg b b' E. unfold map_block in E.
    apply bind_inv in E as (os & O & E). apply bind_inv in E as (t & T & E). injection E as <-.
    assert (Op : forall o o', map_operation g o = Some o' -> moved_operation d o o').
    { intros o o' H. unfold map_operation in H. apply bind_inv in H as (vs & V & H). injection H as <-.
      constructor; cbn; auto. apply traverse_inv in V.
      refine (Forall2_impl_in _ _ _ _ _ V). intros x y _ _. apply Hg. }
    constructor; cbn.
    - apply traverse_inv in O. refine (Forall2_impl_in _ _ _ _ _ O). intros x y _ _. apply Op.
    - unfold map_terminator in T. apply bind_inv in T as (k & K & T). injection T as <-. cbn.
      destruct (t_kind (b_terminator b)); try (injection K as <-; constructor).
      + apply bind_inv in K as (c' & V & E). injection E as <-. constructor. now apply Hg.
      + apply bind_inv in K as (c' & V & E). injection E as <-. constructor. now apply Op.
      + apply bind_inv in K as (c' & V & E). injection E as <-. constructor. now apply Hg.
  Qed.

  (** One call. *)
  Lemma narrow_operation_rel : forall f d o o1 o2, operations f o -> callee_only a f ->
    moved_operation d o o1 -> narrow_operation at_ o1 = Some o2 ->
    op_rel a (fun _ => True) (fun g => g) fewer d o o2.
  Proof.
    intros f d o o1 o2 Io C [M1 M2 M3 M4] E.
    assert (Vs : forall vs vs1, Forall2 (moved d) vs vs1 -> Forall (above d) vs /\ vs1 = map (shift d) vs).
    { intros vs vs1 F. induction F as [|v v1 vs vs1 (A & ->) F (IH1 & ->)]; split; auto. }
    destruct (Vs _ _ M4) as (Ab & Eo).
    destruct o as [res sp vs k], o1 as [res1 sp1 vs1 k1]; cbn in *. subst res1 sp1 k1 vs1.
    assert (D : direct (Op res sp vs k) \/ ~ direct (Op res sp vs k)).
    { destruct k; [| right; intros D; inversion D | right; intros D; inversion D].
      destruct vs as [|[g|g|g|g] vs]; [right; intros D; inversion D | left; constructor | | | ];
        right; intros D; inversion D. }
    destruct D as [D | D].
    - inversion D as [r0 s0 v n g args]; subst. cbn in Ab.
      assert (Av : Forall (above d) args) by (inversion Ab; assumption).
      unfold narrow_operation in E. cbn [o_kind o_operands o_result o_span map shift] in E.
      rewrite at_fewer in E. destruct (fewer g) as [|c] eqn:Dg.
      + injection E as <-. 
        pose proof (rel_direct a (fun _ => True) (fun h => h) fewer d res sp v n g args) as R.
        rewrite Dg in R. cbn [firstn skipn] in R. apply R; auto.
      + cbn [length] in E. rewrite map_length in E.
        destruct (v + 1 <? S (length args)) eqn:Lt; [| discriminate E]. apply Nat.ltb_lt in Lt.
        destruct (negb (S (length args) - (v + 1) - 1 =? S c)) eqn:Cc; [discriminate E |].
        apply negb_false_iff, Nat.eqb_eq in Cc.
        match type of E with (if negb ?b then _ else _) = _ => destruct b eqn:Hd; cbn [negb] in E; [| discriminate E] end.
        apply some_inj in E. subst o2. rewrite Cc in Hd. cbn [skipn] in Hd.
        replace (S (length args) - (v + 1)) with (S (S c)) by lia. cbn [skipn].
        assert (Cn : Forall constant_value (firstn (S c) args)).
        { clear - Hd. rewrite forallb_forall in Hd. apply Forall_forall. intros x Ix.
          destruct x as [x|x|i|x]; cbn; auto.
          assert (I' : In (VParameter (i - d)) (firstn (S c) (map (shift d) args))).
          { rewrite firstn_map. apply in_map_iff. exists (VParameter i). split; [reflexivity | assumption]. }
          specialize (Hd _ I'). discriminate Hd. }
        pose proof (rel_direct a (fun _ => True) (fun h => h) fewer d res sp v n g args) as R.
        rewrite Dg in R.
        rewrite <- skipn_map in R. apply R; auto. clear - Av. revert args Av. generalize (S c) as q.
        induction q as [|q IH]; intros args Av; cbn [skipn]; [assumption |].
        destruct Av; [constructor | auto].
    - assert (E2 : o2 = Op res sp (map (shift d) vs) k).
      { unfold narrow_operation in E. cbn [o_kind o_operands o_result o_span] in E.
        destruct k as [v n|g n|n]; [| congruence | congruence].
        destruct vs as [|x vs]; [discriminate E |].
        destruct x as [g|x|x|x]; [destruct D; constructor | | |]; cbn in E |- *; congruence. }
      subst o2. apply rel_other; auto.
      + intros g Ig Cg. apply In_nth_error in Ig as (i & Ig).
        destruct (co_operand _ _ C _ i g Io Ig Cg) as (-> & v & r & Ek). cbn in Ek, Ig. subst k.
        destruct vs as [|x vs]; [discriminate Ig |]. cbn in Ig. injection Ig as ->. apply D. constructor.
      + intros g n Ek. exact (co_closure _ _ C _ g n Io Ek).
  Qed.

  Lemma narrow_blocks_rel : forall f d bs1 bs2, callee_only a f ->
    Forall2 (moved_block d) (f_blocks f) bs1 -> traverse (narrow_block at_) bs1 = Some bs2 ->
    Forall2 (block_rel a (fun _ => True) (fun g => g) fewer d) (f_blocks f) bs2.
  Proof.
    intros f d bs1 bs2 C F E. apply traverse_inv in E.
    pose proof (Forall2_comp _ _ _ _ _ F E) as F2. refine (Forall2_impl_in _ _ _ _ _ F2).
    intros b b2 Ib _ (b1 & [B1 B2] & E1). unfold narrow_block in E1.
    apply bind_inv in E1 as (os & O & E1). apply bind_inv in E1 as (k & K & E1). injection E1 as <-.
    constructor; cbn.
    - apply traverse_inv in O. pose proof (Forall2_comp _ _ _ _ _ B1 O) as Fo.
      refine (Forall2_impl_in _ _ _ _ _ Fo). intros o o2 Io _ (o1 & Mo & Eo).
      apply (narrow_operation_rel f d o o1 o2); auto. exists b; auto.
    - assert (Inv : forall o n e, t_kind (b_terminator b) = TInvoke o n e -> operations f o).
      { intros o n e T. exists b. split; [assumption |]. right; eauto. }
      destruct B2 as [t | v v' y n (A & ->) | o o1 n e Mo | v v' r (A & ->) | | |].
      all: try (injection K as <-; constructor; assumption).
      all: try (injection K as <-; constructor).
      apply bind_inv in K as (o2 & Eo & K). injection K as <-. constructor.
      apply (narrow_operation_rel f d o o1 o2); auto. exact (Inv o n e eq_refl).
  Qed.

  (** A call that is not narrowed is left alone, so the early exit changes
      nothing. *)
  Lemma calls_narrowed_false : forall f, calls_narrowed at_ f = Some false ->
    traverse (narrow_block at_) (f_blocks f) = Some (f_blocks f).
  Proof.
    intros f E. unfold calls_narrowed in E. revert E.
    set (step := fun o rest => _). set (ops := fun b : block value => _). intros E.
    assert (App : forall l l', fold_right step (Some false) (l ++ l') = Some false ->
      (forall o, In o l -> narrow_operation at_ o = Some o) /\ fold_right step (Some false) l' = Some false).
    { induction l as [|o l IH]; intros l' H; [split; [intros o [] | exact H] |].
      cbn in H. unfold step at 1 in H.
      assert (X : narrow_operation at_ o = Some o /\ fold_right step (Some false) (l ++ l') = Some false).
      { unfold narrow_operation. destruct (o_kind o); auto.
        destruct (o_operands o) as [|c vs]; [discriminate H |].
        destruct (dropped_at m first dropped c); [discriminate H | auto]. }
      destruct X as (X1 & X2). destruct (IH l' X2) as (I1 & I2). split; [| exact I2].
      intros o' [<- | I']; auto. }
    induction (f_blocks f) as [|b bs IH]; [reflexivity |].
    cbn [flat_map] in E. destruct (App _ _ E) as (H1 & H2).
    cbn [traverse]. rewrite (IH H2).
    assert (B : narrow_block at_ b = Some b).
    { unfold narrow_block. rewrite traverse_same.
      - cbn [bind]. destruct b as [os [sp k]]; cbn in *. destruct k; try reflexivity.
        rewrite (H1 o); [reflexivity |]. unfold ops. cbn. apply in_or_app. right. now left.
      - intros o Io. apply H1. unfold ops. apply in_or_app. now left. }
    rewrite B. reflexivity.
  Qed.

  (** What becomes of a body that loses [own] parameters. *)
  Definition own_evidence (f : function) (own : nat) : Prop :=
    own = 0 \/ own = dictionary_parameters f /\ exists ds ps, f_parameters f = ds ++ ps /\
      (forall p, In p ds -> p_kind p = PDictionary) /\ (forall p, In p ps -> p_kind p <> PDictionary).

  Lemma narrow_body_rel : forall f own f', callee_only a f -> own_evidence f own ->
    narrow_body own at_ f = Some f' ->
    body_rel a (fun _ => True) (fun g => g) fewer own f f' /\
    f_parameters f' = (if own =? 0 then f_parameters f else plain_parameters f).
  Proof.
    intros f own f' C Ev E. unfold narrow_body in E. destruct own as [|own]; cbn [Nat.eqb] in *.
    - assert (X : exists bs, traverse (narrow_block at_) (f_blocks f) = Some bs /\ f' = with_blocks f bs).
      { apply bind_inv in E as ([|] & N & E); cbn [bind] in E.
        - apply bind_inv in E as (bs & T & E). injection E as <-. eauto.
        - injection E as <-. exists (f_blocks f). split; [now apply calls_narrowed_false | destruct f; reflexivity]. }
      destruct X as (bs & T & ->). split; [| reflexivity]. constructor; cbn; [reflexivity | reflexivity | reflexivity | reflexivity |].
      apply (narrow_blocks_rel f 0 (f_blocks f) bs C); [| exact T].
      assert (Rf : forall l, Forall2 (moved_block 0) l l) by (induction l; constructor; auto using moved_block_0).
      apply Rf.
    - cbn [bind] in E. apply bind_inv in E as (g & Rm & E). apply bind_inv in E as (bs & T & E).
      injection E as <-. destruct Ev as [Ev | (Eo & ds & ps & Ep & H1 & H2)]; [discriminate Ev |].
      destruct (evidence_split ds ps H1 H2) as (S1 & S2 & S3).
      unfold dictionary_parameters in Eo. rewrite evidence_count, Ep, S1 in Eo.
      unfold remove_parameters in Rm. apply bind_inv in Rm as (bs1 & Rm & Eg). injection Eg as <-.
      assert (Pl : forall h : function, f_parameters h = filter (fun p => negb (is_dictionary p)) (f_parameters f) ->
                plain_parameters f = plain_parameters h /\ f_parameters h = plain_parameters f).
      { intros h Eh. unfold plain_parameters.
        assert (X : forall l, filter (fun p => negb (is_evidence p)) l = filter (fun p => negb (is_dictionary p)) l) by reflexivity.
        rewrite !X, Eh, Ep, S2. split; [| reflexivity].
        destruct (evidence_split [] ps) as (_ & S4 & _); [intros p [] | assumption | symmetry; exact S4]. }
      destruct (Pl (with_blocks (Body (f_name f) (f_convention f)
        (filter (fun p => negb (is_dictionary p)) (f_parameters f)) (f_constants f) bs1) bs) eq_refl) as (P1 & P2).
      split; [| exact P2]. constructor; cbn [f_convention f_parameters f_constants f_blocks with_blocks]; auto.
      + rewrite Ep, S2, Eo. symmetry. exact S3.
      + cbn in T. apply (narrow_blocks_rel f (S own) bs1 bs C); [| exact T].
        apply traverse_inv in Rm. refine (Forall2_impl_in _ _ _ _ _ Rm). intros b b1 _ _.
        apply map_block_moved. intros v v' Hv. unfold renumber in Hv. destruct v; try (injection Hv as <-; split; cbn; auto).
        rewrite Ep, (renumbering_nth ds ps 0 i H1 H2), <- Eo in Hv.
        destruct (i <? S own) eqn:Lt; [discriminate Hv |]. apply Nat.ltb_ge in Lt.
        destruct (i - S own <? length ps); [| discriminate Hv]. injection Hv as <-. split; cbn; auto.
  Qed.

  (** The table. *)
  Lemma narrow_shape : forall a', narrow a = Some a' ->
    (a' = a /\ forall n, In n dropped -> n = 0) \/
    (a_module a' = m /\
     Forall2 (fun s s' => rewrite_slot (narrow_body 0 at_) s = Some s') (a_functions a) (a_functions a') /\
     Forall2 (fun s s' => rewrite_copy (narrow_body (dictionary_parameters (s_body s)) at_) s = Some s')
            copies (a_copies a')).
  Proof.
    intros a' E. unfold narrow in E. fold dropped in E.
    destruct (forallb (fun n => n =? 0) dropped) eqn:Z.
    - injection E as <-. left. split; [reflexivity |]. intros n I.
      rewrite forallb_forall in Z. specialize (Z n I). now apply Nat.eqb_eq in Z.
    - right. apply bind_inv in E as (fs & F & E). apply bind_inv in E as (cs & C & E). injection E as <-. cbn.
      split; [reflexivity |]. split; now apply traverse_inv.
  Qed.

  Lemma copy_evidence : forall s, In s copies -> own_evidence (s_body s) (dictionary_parameters (s_body s)).
  Proof.
    intros s I. destruct (First s I) as (ds & ps & E & H1 & H2).
    right. split; [reflexivity |]. exists ds, ps. auto.
  Qed.

  Lemma body_rel_0 : forall f, (forall g, names f g -> ~ is_copy a g) ->
    body_rel a (fun _ => True) (fun g => g) fewer 0 f f.
  Proof.
    intros f N.
    assert (Op : forall o, operations f o -> op_rel a (fun _ => True) (fun g => g) fewer 0 o o).
    { intros o Io. destruct o as [r s vs k].
      assert (D : direct (Op r s vs k) \/ ~ direct (Op r s vs k)).
      { destruct k; [| right; intros D; inversion D | right; intros D; inversion D].
        destruct vs as [|[g|g|g|g] vs]; [right; intros D; inversion D | left; constructor | | | ];
          right; intros D; inversion D. }
      destruct D as [D | D].
      - inversion D as [r0 s0 v n g args]; subst.
        assert (Og : ~ is_copy a g) by (apply N; exact (names_operand f g _ Io (or_introl eq_refl))).
        pose proof (rel_direct a (fun _ => True) (fun h => h) fewer 0 r s v n g args) as R.
        rewrite (fewer_outside g Og) in R. cbn [firstn skipn] in R. rewrite map_shift_0 in R.
        apply R; auto using above_0.
      - rewrite <- (map_shift_0 vs) at 2. apply rel_other; auto using above_0.
        + intros g Ig. apply N. exact (names_operand f g _ Io Ig).
        + intros g n E. apply N. exact (names_closure f g _ n Io E). }
    constructor; auto.
    assert (X : forall bs, (forall b, In b bs -> In b (f_blocks f)) ->
              Forall2 (block_rel a (fun _ => True) (fun g => g) fewer 0) bs bs).
    { induction bs as [|b bs IH]; intros Sub; constructor; [| apply IH; intros c Ic; apply Sub; now right].
      assert (Ib : In b (f_blocks f)) by (apply Sub; now left).
      constructor.
      - assert (Y : forall os, (forall o, In o os -> In o (b_operations b)) ->
          Forall2 (op_rel a (fun _ => True) (fun g => g) fewer 0) os os).
        { induction os as [|o os IHo]; intros So; constructor; [| apply IHo; intros c Ic; apply So; now right].
          apply Op. exists b. split; [assumption |]. left. apply So. now left. }
        apply Y. auto.
      - assert (V : forall v, above 0 v /\ shift 0 v = v).
        { intros v. destruct (moved_0 v) as (A & B). auto. }
        destruct (t_kind (b_terminator b)) as [t|c y n|o n e|p q| | |] eqn:T; try constructor.
        + rewrite <- (proj2 (V c)) at 2. constructor. apply V.
        + apply Op. exists b. split; [assumption |]. right; eauto.
        + rewrite <- (proj2 (V p)) at 2. constructor. apply V. }
    apply X. auto.
  Qed.

  Lemma narrow_behaviour : forall a', narrow a = Some a' -> same_behaviour a a'.
  Proof.
    intros a' E. destruct (narrow_shape a' E) as [(-> & _) | (Em & Ef & Ec)]; [apply same_behaviour_refl |].
    intros B L G M Fo f args stored g n O St.
    apply (simulation a a' (fun _ => True) (fun h => h) fewer B L G M); auto.
    - intros h Oh. split; [exact I |]. split; [reflexivity |]. now apply fewer_outside.
    - clear f args stored g n O St. intros f _.
      assert (Lf : length (a_functions a') = first) by (symmetry; exact (Forall2_length' _ _ _ Ef)).
      destruct (copy_or_not a f) as [(i & ->) | O].
      + unfold lookup, copy_id; cbn. rewrite Em, Nat.eqb_refl, Lf.
        rewrite (proj2 (nth_error_None (a_functions a) (first + i))) by lia.
        rewrite (proj2 (nth_error_None (a_functions a') (first + i))) by lia.
        replace (first + i - first) with i by lia.
        pose proof (Forall2_nth_error _ _ _ i Ec) as N.
        destruct (nth_error copies i) as [s|] eqn:Ns, (nth_error (a_copies a') i) as [s'|] eqn:Ns'; try contradiction.
        * unfold rewrite_copy in N. apply bind_inv in N as (b & N & E1). injection E1 as <-. cbn. constructor.
          change (m, first + i) with (copy_id a i). rewrite (fewer_copy i s Ns).
          rewrite <- evidence_count. change (length (filter is_dictionary (f_parameters (s_body s))))
            with (dictionary_parameters (s_body s)).
          apply (narrow_body_rel (s_body s) (dictionary_parameters (s_body s)) b); auto.
          -- apply (wn_callee _ W). exact (own_copy a i s Ns).
          -- apply copy_evidence. exact (nth_error_In _ _ Ns).
        * constructor.
      + rewrite (fewer_outside f O). unfold lookup. rewrite Em. destruct (fst f =? m) eqn:Mf.
        * apply Nat.eqb_eq in Mf.
          assert (Hf : snd f < first).
          { destruct (le_lt_dec first (snd f)); auto. exfalso; apply O; split; auto. }
          pose proof (Forall2_nth_error _ _ _ (snd f) Ef) as N.
          destruct (nth_error (a_functions a) (snd f)) as [[b|]|] eqn:N1.
          -- destruct (nth_error (a_functions a') (snd f)) as [s'|]; [| contradiction].
             cbn in N. apply bind_inv in N as (b' & N2 & N3). injection N3 as <-.
             constructor. apply (narrow_body_rel b 0 b'); auto.
             ++ apply (wn_callee _ W). left. exact (nth_error_In _ _ N1).
             ++ now left.
          -- destruct (nth_error (a_functions a') (snd f)) as [s'|]; [| contradiction].
             cbn in N. injection N as <-. constructor.
          -- apply nth_error_None in N1. lia.
        * destruct (others B L G M f) as [b|] eqn:Ob; [| constructor].
          constructor. apply body_rel_0. exact (Fo f b Ob).
  Qed.

  (** What is left. *)
  Lemma narrow_result : forall a', narrow a = Some a' ->
    Forall2 (fun s s' => s_original s' = s_original s /\ s_name s' = s_name s /\
                         f_parameters (s_body s') = plain_parameters (s_body s)) copies (a_copies a').
  Proof.
    intros a' E. destruct (narrow_shape a' E) as [(-> & Z) | (Em & Ef & Ec)].
    - assert (X : forall l, (forall s, In s l -> In s copies) ->
        Forall2 (fun s s' => s_original s' = s_original s /\ s_name s' = s_name s /\
                         f_parameters (s_body s') = plain_parameters (s_body s)) l l).
      { induction l as [|s l IH]; intros Sub; constructor; [| apply IH; intros t It; apply Sub; now right].
        split; [reflexivity |]. split; [reflexivity |].
        assert (Is : In s copies) by (apply Sub; now left).
        assert (Zs : dictionary_parameters (s_body s) = 0).
        { apply Z. unfold dropped. apply in_map_iff. eauto. }
        unfold dictionary_parameters in Zs. unfold plain_parameters. clear - Zs.
        induction (f_parameters (s_body s)) as [|p ps IH]; [reflexivity |]. cbn in *.
        change is_evidence with is_dictionary in *. destruct (is_dictionary p); [discriminate Zs |].
        cbn. f_equal. auto. }
      apply X. auto.
    - refine (Forall2_impl_in _ _ _ _ _ Ec). intros s s' Is _ H.
      unfold rewrite_copy in H. apply bind_inv in H as (b & H & E1). injection E1 as <-. cbn.
      split; [reflexivity |]. split; [reflexivity |].
      destruct (narrow_body_rel (s_body s) (dictionary_parameters (s_body s)) b) as (_ & Hp); auto.
      + apply (wn_callee _ W). right. eauto.
      + now apply copy_evidence.
      + rewrite Hp. destruct (dictionary_parameters (s_body s) =? 0) eqn:Z; [| reflexivity].
        apply Nat.eqb_eq in Z. unfold dictionary_parameters in Z. unfold plain_parameters. clear - Z.
        induction (f_parameters (s_body s)) as [|p ps IH]; [reflexivity |]. cbn in *.
        change is_evidence with is_dictionary in *. destruct (is_dictionary p); [discriminate Z |].
        cbn. f_equal. auto.
  Qed.

  Lemma narrow_result_plain : forall a' s', narrow a = Some a' -> In s' (a_copies a') ->
    evidence (f_parameters (s_body s')) = 0.
  Proof.
    intros a' s' E I. destruct (Forall2_right _ _ _ _ (narrow_result a' E) I) as (s & Is & _ & _ & Hp).
    rewrite Hp. unfold plain_parameters. clear. induction (f_parameters (s_body s)) as [|p ps IH]; [reflexivity |].
    cbn. unfold is_evidence at 1. destruct (p_kind p) eqn:K; cbn; try rewrite K; auto.
  Qed.

  Lemma body_rel_operations : forall d f f' o', body_rel a (fun _ => True) (fun g => g) fewer d f f' ->
    operations f' o' -> exists o, operations f o /\ op_rel a (fun _ => True) (fun g => g) fewer d o o'.
  Proof.
    intros d f f' o' [_ _ _ _ F] (b' & Ib' & H).
    destruct (Forall2_right _ _ _ _ F Ib') as (b & Ib & [B1 B2]).
    destruct H as [Io | (n & e & T)].
    - destruct (Forall2_right _ _ _ _ B1 Io) as (o & Io' & R). exists o. split; [exists b; auto | assumption].
    - rewrite T in B2. inversion B2 as [| | o o1 n1 e1 R E1 E2 | | | |]; subst.
      exists o. split; [| assumption]. exists b. split; [assumption |]. right. exists n, e. now symmetry.
  Qed.

  Lemma narrow_body_of : forall a' f', narrow a = Some a' -> own_body a' f' -> (a' = a /\ forall n, In n dropped -> n = 0) \/
    exists d f, own_body a f /\ body_rel a (fun _ => True) (fun g => g) fewer d f f'.
  Proof.
    intros a' f' E O. destruct (narrow_shape a' E) as [Z | (Em & Ef & Ec)]; [now left |]. right.
    destruct O as [I | (s' & I & <-)].
    - destruct (Forall2_right _ _ _ _ Ef I) as ([f|] & I' & H); cbn in H; [| discriminate H].
      apply bind_inv in H as (f1 & H & H1). injection H1 as ->. exists 0, f. split; [now left |].
      apply (narrow_body_rel f 0 f'); auto; [| now left]. apply (wn_callee _ W). now left.
    - destruct (Forall2_right _ _ _ _ Ec I) as (s & I' & H).
      unfold rewrite_copy in H. apply bind_inv in H as (f1 & H & H1). injection H1 as <-. cbn [s_body].
      exists (dictionary_parameters (s_body s)), (s_body s). split; [right; eauto |].
      apply (narrow_body_rel (s_body s) _ f1); auto.
      + apply (wn_callee _ W). right; eauto.
      + now apply copy_evidence.
  Qed.

  Lemma narrow_calls : evidence_passed a -> forall a', narrow a = Some a' -> evidence_passed a'.
  Proof.
    intros Ps a' E f' o' v r callee args i s' Of Oo K Eo Ec Ns'.
    pose proof (narrow_result a' E) as Fr.
    pose proof (Forall2_nth_error _ _ _ i Fr) as Ni. rewrite Ns' in Ni.
    destruct (nth_error copies i) as [s|] eqn:Ns; [| contradiction].
    rewrite (narrow_result_plain a' s' E (nth_error_In _ _ Ns')).
    destruct (narrow_body_of a' f' E Of) as [(Ea & Z) | (d & f & Ob & Rb)].
    - rewrite Ea in Of, Ec. destruct (Ps f' o' v r callee args i s Of Oo K Eo Ec Ns) as (hd & vs & E1 & E2 & E3 & E4).
      assert (Zs : dictionary_parameters (s_body s) = 0).
      { apply Z. unfold dropped. apply in_map_iff. exists s. split; [reflexivity | exact (nth_error_In _ _ Ns)]. }
      unfold dictionary_parameters in Zs. rewrite evidence_count in Zs. rewrite Zs in E2.
      exists hd, vs. auto.
    - assert (Cid : copy_id a' i = copy_id a i).
      { destruct (narrow_shape a' E) as [(-> & _) | (Em & Ef & _)]; [reflexivity |].
        unfold copy_id. rewrite Em. now rewrite (Forall2_length' _ _ _ Ef). }
      destruct (body_rel_operations d f f' o' Rb Oo) as (o & Io & R).
      rewrite Cid in Ec. subst callee.
      destruct R as [r0 s0 v0 n0 g args0 _ Cn Av | r0 s0 vs k Nd Av _ _]; cbn in K, Eo.
      + injection K as -> ->. injection Eo as -> Eo.
        destruct (Ps f _ v r (VFunction (copy_id a i)) args0 i s Ob Io eq_refl eq_refl eq_refl Ns)
          as (hd & vs & E1 & E2 & E3 & E4).
        rewrite (fewer_copy i s Ns), <- E2 in Eo. subst args0.
        rewrite skipn_app, Nat.sub_diag, skipn_all in Eo. cbn in Eo. subst args.
        exists [], (map (shift d) vs). split; [reflexivity |]. split; [reflexivity |].
        rewrite map_length. split; [assumption |]. intros x [].
      + subst k. destruct vs as [|x vs]; [discriminate Eo |]. cbn in Eo. injection Eo as Ex Eo.
        destruct x; cbn in Ex; try discriminate Ex. destruct Nd. constructor.
  Qed.

  (** The names that are left. *)
  Lemma body_rel_names : forall d f f' g, body_rel a (fun _ => True) (fun h => h) fewer d f f' ->
    names f' g -> names f g.
  Proof.
    intros d f f' g Rb [o' O I | o' r O K | b' y n Ib T | b' r Ib T].
    - destruct (body_rel_operations d f f' o' Rb O) as (o & Io & R).
      destruct R as [r0 s0 v0 n0 h args0 _ Cn Av | r0 s0 vs k Nd Av _ _]; cbn in I.
      + destruct I as [I | I].
        * injection I as ->. exact (names_operand f g _ Io (or_introl eq_refl)).
        * apply in_map_iff in I as (x & Ex & I). destruct x; cbn in Ex; try discriminate Ex. injection Ex as ->.
          apply (names_operand f g _ Io). right. rewrite <- (firstn_skipn (fewer h) args0). apply in_or_app. now right.
      + apply in_map_iff in I as (x & Ex & I). destruct x; cbn in Ex; try discriminate Ex. injection Ex as ->.
        exact (names_operand f g _ Io I).
    - destruct (body_rel_operations d f f' o' Rb O) as (o & Io & R).
      destruct R as [r0 s0 v0 n0 h args0 _ Cn Av | r0 s0 vs k Nd Av _ _]; cbn in K; [discriminate K |].
      subst k. exact (names_closure f g _ r Io eq_refl).
    - destruct Rb as [_ _ _ _ F]. destruct (Forall2_right _ _ _ _ F Ib) as (b & Ib' & [_ B2]).
      rewrite T in B2. inversion B2 as [| v y0 n0 Av E1 E2 | | | | |]; subst.
      match goal with H : shift _ v = VFunction _ |- _ =>
        destruct v; cbn in H; try discriminate H; injection H as -> end.
      exact (names_condition f g b y n Ib' (eq_sym E1)).
    - destruct Rb as [_ _ _ _ F]. destruct (Forall2_right _ _ _ _ F Ib) as (b & Ib' & [_ B2]).
      rewrite T in B2. inversion B2 as [| | | v r0 Av E1 E2 | | |]; subst.
      match goal with H : shift _ v = VFunction _ |- _ =>
        destruct v; cbn in H; try discriminate H; injection H as -> end.
      exact (names_yield f g b r Ib' (eq_sym E1)).
  Qed.

  Lemma body_rel_callee : forall d f f', body_rel a (fun _ => True) (fun h => h) fewer d f f' ->
    callee_only a f -> callee_only a f'.
  Proof.
    intros d f f' Rb C. constructor.
    - intros o' i g O N Cg. destruct (body_rel_operations d f f' o' Rb O) as (o & Io & R).
      destruct R as [r0 s0 v0 n0 h args0 _ Cn Av | r0 s0 vs k Nd Av Nf _]; cbn in N |- *.
      + destruct i as [|i]; [split; [reflexivity | eauto] |]. cbn in N. exfalso.
        rewrite nth_error_map in N.
        destruct (nth_error (skipn (fewer h) args0) i) as [x|] eqn:Nx; [| discriminate N].
        cbn in N. injection N as N. destruct x; cbn in N; try discriminate N. injection N as ->.
        assert (I : In (VFunction g) args0).
        { rewrite <- (firstn_skipn (fewer h) args0). apply in_or_app. right. exact (nth_error_In _ _ Nx). }
        apply In_nth_error in I as (j & I).
        destruct (co_operand _ _ C _ (S j) g Io I Cg) as (X & _). discriminate X.
      + exfalso. rewrite nth_error_map in N.
        destruct (nth_error vs i) as [x|] eqn:Nx; [| discriminate N].
        cbn in N. injection N as N. destruct x; cbn in N; try discriminate N. injection N as ->.
        exact (Nf g (nth_error_In _ _ Nx) Cg).
    - intros o' g r O K. destruct (body_rel_operations d f f' o' Rb O) as (o & Io & R).
      destruct R as [r0 s0 v0 n0 h args0 _ Cn Av | r0 s0 vs k Nd Av _ _]; cbn in K; [discriminate K |].
      subst k. exact (co_closure _ _ C _ g r Io eq_refl).
    - intros b' g y n Ib T. destruct Rb as [_ _ _ _ F]. destruct (Forall2_right _ _ _ _ F Ib) as (b & Ib' & [_ B2]).
      rewrite T in B2. inversion B2 as [| v y0 n0 Av E1 E2 | | | | |]; subst.
      match goal with H : shift _ v = VFunction _ |- _ =>
        destruct v; cbn in H; try discriminate H; injection H as -> end.
      exact (co_condition _ _ C b g y n Ib' (eq_sym E1)).
    - intros b' g r Ib T. destruct Rb as [_ _ _ _ F]. destruct (Forall2_right _ _ _ _ F Ib) as (b & Ib' & [_ B2]).
      rewrite T in B2. inversion B2 as [| | | v r0 Av E1 E2 | | |]; subst.
      match goal with H : shift _ v = VFunction _ |- _ =>
        destruct v; cbn in H; try discriminate H; injection H as -> end.
      exact (co_yield _ _ C b g r Ib' (eq_sym E1)).
  Qed.

  Lemma narrow_well_named : forall a', narrow a = Some a' -> well_named a'.
  Proof.
    intros a' E.
    assert (Sh : a_module a' = m /\ length (a_functions a') = first /\ length (a_copies a') = length copies).
    { destruct (narrow_shape a' E) as [(-> & _) | (Em & Ef & Ec)]; auto.
      rewrite (Forall2_length' _ _ _ Ef), (Forall2_length' _ _ _ Ec). auto. }
    destruct Sh as (S1 & S2 & S3).
    assert (Cp : forall g, is_copy a' g <-> is_copy a g) by (intros g; unfold is_copy; now rewrite S1, S2).
    constructor.
    - intros f' O. destruct (narrow_body_of a' f' E O) as [(-> & _) | (d & f & Ob & Rb)]; [now apply (wn_callee _ W) |].
      destruct (body_rel_callee d f f' Rb (wn_callee _ W f Ob)) as [C1 C2 C3 C4].
      constructor.
      + intros o i g Io N Cg. apply Cp in Cg. exact (C1 o i g Io N Cg).
      + intros o g r Io K Cg. apply Cp in Cg. exact (C2 o g r Io K Cg).
      + intros b g y n Ib T Cg. apply Cp in Cg. exact (C3 b g y n Ib T Cg).
      + intros b g r Ib T Cg. apply Cp in Cg. exact (C4 b g r Ib T Cg).
    - intros f' g O N Cg. apply Cp in Cg. rewrite S2, S3.
      destruct (narrow_body_of a' f' E O) as [(Ea & _) | (d & f & Ob & Rb)].
      + subst a'. exact (wn_range _ W f' g O N Cg).
      + exact (wn_range _ W f g Ob (body_rel_names d f f' g Rb N) Cg).
  Qed.

  (** No panic. *)
  Section Total.
    Hypothesis Unread : evidence_unread a.
    Hypothesis Passed : evidence_passed a.
    Hypothesis Callees : calls_have_callees a.

    Lemma narrow_operation_total : forall f d o o1, own_body a f -> operations f o ->
      moved_operation d o o1 -> exists o2, narrow_operation at_ o1 = Some o2.
    Proof.
      intros f d o o1 Ob Io [_ _ M3 M4]. unfold narrow_operation. rewrite <- M3.
      destruct (o_kind o) as [v r|g r|r] eqn:K; eauto.
      destruct (o_operands o) as [|c args] eqn:Eo; [destruct (Callees f o v r Ob Io K Eo) |].
      assert (Vs : forall vs vs1, Forall2 (moved d) vs vs1 -> vs1 = map (shift d) vs).
      { intros vs vs1 F. induction F as [|x x1 vs vs1 (A & ->) F IH]; [reflexivity | cbn; now rewrite IH]. }
      rewrite (Vs _ _ M4). cbn [map].
      destruct c as [g|x|x|x]; cbn [shift]; [| cbn; eauto | cbn; eauto | cbn; eauto].
      rewrite at_fewer. destruct (fewer g) as [|c] eqn:Fg; [eauto |].
      destruct (copy_or_not a g) as [(i & ->) | Og].
      2: { rewrite (fewer_outside g Og) in Fg. discriminate Fg. }
      destruct (nth_error copies i) as [s|] eqn:Ns.
      2: { unfold fewer in Fg. rewrite (proj2 (index_of_copy a (copy_id a i) i) eq_refl) in Fg.
           unfold dropped in Fg. rewrite nth_error_map, Ns in Fg. discriminate Fg. }
      destruct (Passed f o v r _ args i s Ob Io K Eo eq_refl Ns) as (hd & vs & E1 & E2 & E3 & E4).
      rewrite <- (fewer_copy i s Ns), Fg in E2. subst args.
      cbn [length]. rewrite map_length, app_length, E2, E3.
      rewrite (proj2 (Nat.ltb_lt _ _)) by lia.
      replace (S (S c + S v) - (v + 1) - 1) with (S c) by lia. rewrite Nat.eqb_refl. cbn [negb].
      replace (firstn (S c) (skipn 1 (VFunction (copy_id a i) :: map (shift d) (hd ++ vs))))
        with (map (shift d) hd).
      - assert (Hd : forallb is_dictionary_value (map (shift d) hd) = true).
        { apply forallb_forall. intros x Ix. apply in_map_iff in Ix as (y & <- & Iy).
          destruct (E4 y Iy) as (dd & ->). reflexivity. }
        rewrite Hd. cbn [negb]. eauto.
      - cbn [skipn]. rewrite map_app, <- E2.
        replace (length hd) with (length (map (shift d) hd)) by apply map_length.
        rewrite firstn_app, Nat.sub_diag, firstn_all. cbn [firstn]. now rewrite app_nil_r.
    Qed.

    Lemma narrow_blocks_total : forall f d bs1, own_body a f -> Forall2 (moved_block d) (f_blocks f) bs1 ->
      exists bs, traverse (narrow_block at_) bs1 = Some bs.
    Proof.
      intros f d bs1 Ob F. apply traverse_total. intros b1 I1.
      destruct (Forall2_right _ _ _ _ F I1) as (b & Ib & [B1 B2]). unfold narrow_block.
      destruct (traverse_total (narrow_operation at_) (b_operations b1)) as (os & ->).
      { intros o1 Io1. destruct (Forall2_right _ _ _ _ B1 Io1) as (o & Io & Mo).
        apply (narrow_operation_total f d o o1 Ob); auto. exists b; auto. }
      cbn [bind].
      assert (Inv : forall o n e, t_kind (b_terminator b) = TInvoke o n e -> operations f o).
      { intros o n e T. exists b. split; [assumption |]. right; eauto. }
      destruct B2 as [t | v v' y n M0 | o o1 n e Mo | v v' r M0 | | |]; cbn [bind]; eauto.
      destruct (narrow_operation_total f d o o1 Ob (Inv o n e eq_refl) Mo) as (o2 & ->). cbn; eauto.
    Qed.

    Lemma calls_narrowed_total : forall f, own_body a f -> exists b, calls_narrowed at_ f = Some b.
    Proof.
      intros f Ob. unfold calls_narrowed.
      assert (X : forall l, (forall o, In o l -> operations f o) -> exists b, fold_right
        (fun o rest => match o_kind o with
           | KCall _ _ => match o_operands o with
               | [] => None
               | callee :: _ => match at_ callee with Some _ => Some true | None => rest end
               end
           | _ => rest
           end) (Some false) l = Some b).
      { induction l as [|o l IH]; intros Sub; cbn [fold_right]; [eauto |].
        destruct IH as (b & ->); [intros o' I'; apply Sub; now right |].
        destruct (o_kind o) as [v r|g r|r] eqn:K; eauto.
        destruct (o_operands o) as [|c args] eqn:Eo.
        - destruct (Callees f o v r Ob (Sub o (or_introl eq_refl)) K Eo).
        - destruct (dropped_at m first dropped c); eauto. }
      apply X. intros o I. apply in_flat_map in I as (b & Ib & I). exists b. split; [assumption |].
      apply in_app_or in I as [I | I]; [now left |]. right.
      destruct (t_kind (b_terminator b)) eqn:T; try destruct I as [<- | []]; try destruct I. eauto.
    Qed.

    Lemma narrow_body_total : forall f own, own_body a f -> own_evidence f own ->
      (own <> 0 -> forall i, reads f i -> exists p, nth_error (f_parameters f) i = Some p /\ p_kind p <> PDictionary) ->
      exists f', narrow_body own at_ f = Some f'.
    Proof.
      intros f own Ob Ev Rd. unfold narrow_body. destruct own as [|own]; cbn [Nat.eqb].
      - destruct (calls_narrowed_total f Ob) as ([|] & ->); cbn [bind]; [| eauto].
        destruct (narrow_blocks_total f 0 (f_blocks f) Ob) as (bs & ->); [| cbn; eauto].
        induction (f_blocks f); constructor; auto using moved_block_0.
      - cbn [bind]. destruct Ev as [Ev | (Eo & ds & ps & Ep & H1 & H2)]; [discriminate Ev |].
        destruct (evidence_split ds ps H1 H2) as (S1 & S2 & S3).
        unfold dictionary_parameters in Eo. rewrite evidence_count, Ep, S1 in Eo.
        specialize (Rd (Nat.neq_succ_0 own)).
        unfold remove_parameters. set (g := renumber (renumbering is_dictionary (f_parameters f) 0)).
        assert (Vt : forall v, (forall i, v = VParameter i -> reads f i) -> exists v', g v = Some v' /\ moved (S own) v v').
        { intros v Hv. destruct v as [x|x|i|x]; cbn; try (eexists; split; [reflexivity |]; split; cbn; auto; fail).
          destruct (Rd i (Hv i eq_refl)) as (p & Np & Kp).
          rewrite Ep, (renumbering_nth ds ps 0 i H1 H2), <- Eo.
          rewrite Ep in Np.
          destruct (i <? S own) eqn:Lt.
          - apply Nat.ltb_lt in Lt. rewrite nth_error_app1 in Np by lia.
            destruct (Kp (H1 p (nth_error_In _ _ Np))).
          - apply Nat.ltb_ge in Lt. rewrite nth_error_app2 in Np by lia.
            assert (Hl : i - length ds < length ps) by (apply nth_error_Some; congruence).
            rewrite <- Eo in Hl. rewrite (proj2 (Nat.ltb_lt _ _) Hl). cbn.
            eexists; split; [reflexivity |]. split; cbn; auto. }
        assert (Op : forall o, operations f o -> exists o1, map_operation g o = Some o1).
        { intros o Io. unfold map_operation.
          destruct (traverse_total g (o_operands o)) as (vs & ->); [| cbn; eauto].
          intros v Iv. destruct (Vt v) as (v' & E & _); [| eauto]. intros i ->. left. eauto. }
        destruct (traverse_total (map_block g) (f_blocks f)) as (bs1 & E1).
        { intros b Ib. unfold map_block.
          destruct (traverse_total (map_operation g) (b_operations b)) as (os & ->).
          { intros o Io. apply Op. exists b; auto. }
          cbn [bind]. unfold map_terminator.
          destruct (t_kind (b_terminator b)) as [t|c y n|o n e|p q| | |] eqn:T; cbn [bind]; eauto.
          - destruct (Vt c) as (c' & -> & _); [| cbn; eauto]. intros i ->. right. exists b. split; [assumption |]. left; eauto.
          - destruct (Op o) as (o1 & ->); [| cbn; eauto]. exists b. split; [assumption |]. right; eauto.
          - destruct (Vt p) as (c' & -> & _); [| cbn; eauto]. intros i ->. right. exists b. split; [assumption |]. right; eauto. }
        rewrite E1. cbn [bind f_blocks].
        destruct (narrow_blocks_total f (S own) bs1 Ob) as (bs & ->); [| cbn; eauto].
        apply traverse_inv in E1. refine (Forall2_impl_in _ _ _ _ _ E1). intros b b1 _ _.
        apply map_block_moved. intros v v' Hv. unfold g, renumber in Hv.
        destruct v; try (injection Hv as <-; split; cbn; auto).
        rewrite Ep, (renumbering_nth ds ps 0 i H1 H2), <- Eo in Hv.
        destruct (i <? S own) eqn:Lt; [discriminate Hv |]. apply Nat.ltb_ge in Lt.
        destruct (i - S own <? length ps); [| discriminate Hv]. injection Hv as <-. split; cbn; auto.
    Qed.

    Lemma narrow_total : exists a', narrow a = Some a'.
    Proof.
      unfold narrow. fold dropped. destruct (forallb (fun n => n =? 0) dropped); [eauto |].
      destruct (traverse_total (rewrite_slot (narrow_body 0 at_)) (a_functions a)) as (fs & ->).
      { intros [f|] I; cbn; [| eauto].
        destruct (narrow_body_total f 0) as (f' & ->); [now left | now left | congruence | cbn; eauto]. }
      cbn [bind].
      destruct (traverse_total (fun s => rewrite_copy (narrow_body (dictionary_parameters (s_body s)) at_) s) copies)
        as (cs & ->).
      { intros s I. unfold rewrite_copy.
        destruct (narrow_body_total (s_body s) (dictionary_parameters (s_body s))) as (f' & ->).
        - right; eauto.
        - now apply copy_evidence.
        - intros _ i Ri. exact (Unread s i I Ri).
        - cbn; eauto. }
      cbn; eauto.
    Qed.
  End Total.
End Narrow.
