(** The rewriting of boolean branches finds and straightens every diamond. *)
From Coq Require Import List Arith Bool Lia.
From Verif Require Import ListUtil MirModel TermSpec WillReturnSpec SimSpec EditSpec RegModel
  PeepholeSpec GraphModel WillReturnModel EditModel PeepholeModel SimProofs EditProofs EditMerge PeepholeSim.
Import ListNotations.

Lemma literal_eqb_spec : forall a b, reflect (a = b) (literal_eqb a b).
Proof.
  intros [a|a|a] [b|b|b]; cbn; try (constructor; congruence).
  - destruct (Bool.eqb_spec a b); constructor; congruence.
  - destruct (Nat.eqb_spec a b); constructor; congruence.
  - destruct (Nat.eqb_spec a b); constructor; congruence.
Qed.
Lemma operand_eqb_spec : forall a b, reflect (a = b) (operand_eqb a b).
Proof.
  intros [a|a|a|a|a] [b|b|b|b|b]; cbn; try (constructor; congruence);
    try (destruct (literal_eqb_spec a b); constructor; congruence);
    (destruct (Nat.eqb_spec a b); constructor; congruence).
Qed.

Section Find.
Context {code : Type}.
Notation function := (function (instruction code) operand).
Notation operation := (operation (instruction code)).

Lemma rd_ok : forall A (l : list A) i x, nth_error l i = Some x -> rd l i = Val x.
Proof. intros A l i x H. unfold rd. rewrite H. reflexivity. Qed.

Lemma single_bool_store_ok : forall (fn : function) b, b < length fn ->
  exists r, single_bool_store fn b = Val r /\
  forall v dst j, r = Some (v, dst, j) <-> stores_bool fn b v dst j.
Proof.
  intros fn b L. destruct (nth_error fn b) as [blk|] eqn:N; [|apply nth_error_None in N; lia].
  unfold single_bool_store. rewrite (rd_ok _ _ _ _ N). cbn [bind].
  eexists. split; [reflexivity|]. intros v dst j.
  destruct blk as [ops t]. cbn [operations term].
  assert (NO : (forall lit r, Some (Block ops t) <> Some (Block [OPlain (Instruction KStore [lit; dst] r)] (Goto j))) ->
               None = Some (v, dst, j) <-> stores_bool fn b v dst j).
  { intros H. split; [discriminate|]. intros (lit & r & _ & N'). rewrite N in N'. destruct (H lit r N'). }
  destruct ops as [|o [|o2 os]];
    [apply NO; discriminate| |destruct o; apply NO; discriminate].
  destruct o as [| |i|h i|i|q i|q i]; try (apply NO; discriminate).
  destruct i as [k os rs]. cbn [kind RegModel.operands].
  destruct k; try (apply NO; discriminate).
  destruct os as [|lit [|dst' [|x os]]]; try (apply NO; discriminate).
  destruct t; try (apply NO; discriminate).
  destruct lit as [[w| |]|[w| |]| | |]; cbn [bool_value];
    try (split; [discriminate|]; intros (lit & r & E & N'); destruct E as [->| ->]; congruence).
  - split.
    + intros E. injection E as -> -> ->. exists (OConst (LBool v)), rs. auto.
    + intros (lit & r & E & N'). rewrite N in N'. injection N' as <- -> _ ->. destruct E as [E|E]; congruence.
  - split.
    + intros E. injection E as -> -> ->. exists (OPattern (LBool v)), rs. auto.
    + intros (lit & r & E & N'). rewrite N in N'. injection N' as <- -> _ ->. destruct E as [E|E]; congruence.
Qed.

Definition plan_of (fn : function) (b : nat) (p : rewrite_plan) : Prop :=
  at_block p = b /\ diamond fn b (on_condition p) (stored_when_true p) (destination p) (join p).

Lemma plan_ok : forall (fn : function) b, well_formed_body fn -> b < length fn ->
  exists r, plan_boolean_materialization fn b = Val r /\ forall p, r = Some p <-> plan_of fn b p.
Proof.
  intros fn b (_ & WF) L. destruct (nth_error fn b) as [blk|] eqn:N; [|apply nth_error_None in N; lia].
  unfold plan_boolean_materialization. rewrite (rd_ok _ _ _ _ N). cbn [bind].
  destruct blk as [ops t]. cbn [term].
  assert (NO : (forall q t' e, t <> CondBr q t' e) -> forall p, None = Some p <-> plan_of fn b p).
  { intros H p. split; [discriminate|]. intros (_ & ops' & t' & e & N' & _). rewrite N in N'.
    injection N' as _ E. destruct (H _ _ _ E). }
  destruct t as [x|q t e|o x y|i x| | |]; try (eexists; split; [reflexivity|]; apply NO; discriminate).
  assert (FT : flows fn b t) by (eexists; split; [exact N|cbn; auto]).
  assert (FE : flows fn b e) by (eexists; split; [exact N|cbn; auto]).
  destruct (single_bool_store_ok fn t (WF _ _ FT)) as (r1 & E1 & S1).
  destruct (single_bool_store_ok fn e (WF _ _ FE)) as (r2 & E2 & S2).
  assert (SHAPE : forall p, plan_of fn b p -> stores_bool fn t (stored_when_true p) (destination p) (join p) /\
    stores_bool fn e (negb (stored_when_true p)) (destination p) (join p) /\ on_condition p = q).
  { intros p (_ & ops' & t' & e' & N' & A & B). rewrite N in N'. injection N' as <- <- <- <-. auto. }
  destruct (Nat.eqb_spec t e) as [->|NE].
  { eexists. split; [reflexivity|]. intros p. split; [discriminate|]. intros H.
    destruct (SHAPE p H) as (A & B & _). apply S2 in A. apply S2 in B.
    rewrite A in B. injection B as B. destruct (stored_when_true p); discriminate. }
  rewrite E1. cbn [bind].
  destruct r1 as [[[v dst] j]|].
  2:{ eexists. split; [reflexivity|]. intros p. split; [discriminate|]. intros H.
      destruct (SHAPE p H) as (A & B & _). apply S1 in A. discriminate. }
  rewrite E2. cbn [bind].
  destruct r2 as [[[v' dst'] j']|].
  2:{ eexists. split; [reflexivity|]. intros p. split; [discriminate|]. intros H.
      destruct (SHAPE p H) as (A & B & _). apply S2 in B. discriminate. }
  pose proof (proj1 (S1 v dst j) eq_refl) as T1. pose proof (proj1 (S2 v' dst' j') eq_refl) as T2.
  assert (DEC : (v' = negb v /\ dst' = dst /\ j' = j) <->
     negb (j =? j') || negb (operand_eqb dst dst') || Bool.eqb v v' = false).
  { destruct (Nat.eqb_spec j j') as [->|NJ], (operand_eqb_spec dst dst') as [->|ND];
      cbn [negb orb]; (split; [intros (A & B & C); subst|]); try congruence; try discriminate;
      try (destruct v, v'; cbn; auto; discriminate). destruct v; reflexivity. }
  destruct (negb (j =? j') || negb (operand_eqb dst dst') || Bool.eqb v v').
  - eexists. split; [reflexivity|]. intros p. split; [discriminate|]. intros H.
    destruct (SHAPE p H) as (A & B & _). apply S1 in A. apply S2 in B.
    injection A as -> -> ->. injection B as -> -> ->. destruct DEC as (DEC & _). discriminate DEC. auto.
  - destruct DEC as (_ & DEC). destruct (DEC eq_refl) as (-> & -> & ->).
    eexists. split; [reflexivity|]. intros p. split.
    + intros E. injection E as <-. split; [reflexivity|]. cbn. exists ops, t, e. auto.
    + intros H. pose proof H as (HB & _). destruct (SHAPE p H) as (A & B & C). apply S1 in A.
      injection A as -> -> ->. destruct p as [pb pc ps pd pj]. cbn in *. congruence.
Qed.

Lemma plans_ok : forall (fn : function) bs, well_formed_body fn -> NoDup bs -> (forall b, In b bs -> b < length fn) ->
  exists ps, plans fn bs = Val ps /\ NoDup (map at_block ps) /\
  forall p, In p ps <-> In (at_block p) bs /\ plan_of fn (at_block p) p.
Proof.
  intros fn bs WF. induction bs as [|b bs IH]; intros ND R; cbn [plans].
  - exists []. split; [reflexivity|]. split; [constructor|]. intros p. cbn. tauto.
  - inversion ND as [|? ? NI ND']; subst.
    destruct (plan_ok fn b WF) as (r & E & S); [apply R; left; reflexivity|].
    destruct IH as (ps & EP & NP & SP); [exact ND'|intros x I; apply R; right; exact I|].
    rewrite E. cbn [bind]. rewrite EP. cbn [bind]. destruct r as [p|].
    + pose proof (proj1 (S p) eq_refl) as (HB & HD).
      exists (p :: ps). split; [reflexivity|]. split.
      * cbn [map]. constructor; [|exact NP]. rewrite HB. intros I. apply in_map_iff in I.
        destruct I as (p' & EB & I). apply SP in I. destruct I as (I & _). rewrite EB in I. contradiction.
      * intros p'. cbn [In]. split.
        -- intros [<-|I]; [split; [left; auto|rewrite HB; split; auto]|].
           apply SP in I. destruct I. auto.
        -- intros ([EB|I] & H); [left|right; apply SP; auto].
           rewrite <- EB in H. apply S in H. congruence.
    + exists ps. split; [reflexivity|]. split; [exact NP|]. intros p'. rewrite SP. cbn [In]. split.
      * tauto.
      * intros ([EB|I] & H); [|auto]. rewrite <- EB in H. apply S in H. discriminate.
Qed.

(** ** Fresh registers *)
Lemma above_le : forall n o, n <= above n (o : operation).
Proof. intros n o. unfold above. destruct (result_id o); lia. Qed.

Lemma fold_above : forall (os : list operation) n, n <= fold_left above os n /\
  forall o r, In o os -> result_id o = Some r -> r < fold_left above os n.
Proof.
  induction os as [|o os IH]; intros n; cbn [fold_left].
  - split; [lia|]. intros o r [].
  - destruct (IH (above n o)) as (A & B). pose proof (above_le n o). split; [lia|].
    intros o' r [<-|I] E; [|apply (B o' r I E)].
    unfold above in *. rewrite E in *. lia.
Qed.

Lemma fresh_above : forall (fn : function) r, next_value_index fn <= r -> ~ defined fn r.
Proof.
  intros fn r L (blk & o & I & J & D). unfold next_value_index in L.
  destruct (fold_above (concat (map block_operations fn)) 0) as (_ & B).
  specialize (B o r). assert (r < r); [|lia].
  eapply Nat.lt_le_trans; [apply B|exact L].
  - apply in_concat. exists (block_operations blk). split; [apply in_map, I|]. exact J.
  - destruct o; cbn in D |- *; try contradiction; congruence.
Qed.

(** ** Applying the plans *)
Lemma apply_plan_ok : forall p (fn : function) next blk, nth_error fn (at_block p) = Some blk ->
  apply_plan p fn next = Val (upd fn (at_block p)
    (Block (operations blk ++ straight_store (on_condition p) (stored_when_true p) (destination p) next) (Goto (join p))),
    if stored_when_true p then next else S next).
Proof.
  intros p fn next blk N. unfold apply_plan. rewrite (rd_ok _ _ _ _ N). cbn [bind].
  assert (L : at_block p <? length fn = true) by (apply Nat.ltb_lt, nth_error_Some; congruence).
  unfold wr. rewrite L. destruct (stored_when_true p); reflexivity.
Qed.

Lemma apply_plans_ok : forall ps (fn : function) next, NoDup (map at_block ps) ->
  (forall p, In p ps -> at_block p < length fn) ->
  exists mid (fresh : nat -> nat), apply_plans ps fn next = Val mid /\ length mid = length fn /\
    (forall b, next <= fresh b) /\
    (forall p p', In p ps -> In p' ps -> at_block p <> at_block p' ->
       stored_when_true p = false -> stored_when_true p' = false -> fresh (at_block p) <> fresh (at_block p')) /\
    (forall b, ~ In b (map at_block ps) -> nth_error mid b = nth_error fn b) /\
    (forall p blk, In p ps -> nth_error fn (at_block p) = Some blk ->
       nth_error mid (at_block p) = Some (Block (operations blk ++
         straight_store (on_condition p) (stored_when_true p) (destination p) (fresh (at_block p))) (Goto (join p)))).
Proof.
  induction ps as [|p ps IH]; intros fn next ND R; cbn [apply_plans].
  - exists fn, (fun _ => next). split; [reflexivity|]. split; [reflexivity|]. split; [auto|].
    split; [intros p p' []|]. split; [auto|]. intros p blk [].
  - cbn [map] in ND. inversion ND as [|? ? NI ND']; subst.
    assert (LP : at_block p < length fn) by (apply R; left; reflexivity).
    destruct (nth_error fn (at_block p)) as [blk|] eqn:N; [|apply nth_error_None in N; lia].
    rewrite (apply_plan_ok p fn next blk N). cbn [bind].
    set (fn1 := upd fn (at_block p) _). set (next1 := if stored_when_true p then next else S next).
    assert (LE : next <= next1) by (unfold next1; destruct (stored_when_true p); lia).
    destruct (IH fn1 next1) as (mid & fresh & E & LEN & FN & FD & KEEP & NEW); [exact ND'| |].
    { intros p' I. unfold fn1. rewrite upd_length. apply R. right. exact I. }
    assert (OTHER : forall p', In p' ps -> at_block p' <> at_block p).
    { intros p' I EB. apply NI. rewrite <- EB. apply in_map, I. }
    exists mid, (fun b => if b =? at_block p then next else fresh b).
    split; [exact E|]. split; [rewrite LEN; apply upd_length|]. split; [|split; [|split]].
    + intros b. destruct (b =? at_block p); [lia|]. specialize (FN b). lia.
    + intros p1 p2 [<-|I1] [<-|I2] NE B1 B2; try congruence.
      * rewrite Nat.eqb_refl. destruct (Nat.eqb_spec (at_block p2) (at_block p)); [congruence|].
        specialize (FN (at_block p2)). unfold next1 in FN. rewrite B1 in FN. lia.
      * rewrite Nat.eqb_refl. destruct (Nat.eqb_spec (at_block p1) (at_block p)); [congruence|].
        specialize (FN (at_block p1)). unfold next1 in FN. rewrite B2 in FN. lia.
      * destruct (Nat.eqb_spec (at_block p1) (at_block p)); [destruct (OTHER p1 I1); auto|].
        destruct (Nat.eqb_spec (at_block p2) (at_block p)); [destruct (OTHER p2 I2); auto|]. auto.
    + intros b NB. cbn [map In] in NB. rewrite KEEP by tauto. unfold fn1.
      apply nth_error_upd_other. tauto.
    + intros p1 blk1 [<-|I1] N1.
      * rewrite Nat.eqb_refl. rewrite KEEP by exact NI. unfold fn1.
        rewrite nth_error_upd_same by exact LP. congruence.
      * destruct (Nat.eqb_spec (at_block p1) (at_block p)) as [EB|_]; [destruct (OTHER p1 I1); auto|].
        apply NEW; auto. unfold fn1. rewrite nth_error_upd_other; auto.
        intros EB. destruct (OTHER p1 I1); auto.
Qed.

Lemma straightened_well_formed : forall fn mid : function, well_formed_body fn -> straightened fn mid ->
  well_formed_body mid.
Proof.
  intros fn mid (NE & WF) ST. pose proof ST as (LEN & KEEP & fresh & _ & _ & NEW). split.
  - destruct fn; [congruence|]. intros ->. discriminate.
  - intros b b' (blk' & N' & I). rewrite LEN.
    destruct (nth_error fn b) as [blk|] eqn:N.
    2:{ apply nth_error_None in N. assert (H : b < length mid) by (apply nth_error_Some; congruence). lia. }
    assert (DD : (exists q v dst j, diamond fn b q v dst j) \/ nth_error mid b = nth_error fn b).
    { destruct (diamond_dec fn b) as [D|ND]; [left; exact D|right; apply KEEP, ND]. }
    destruct DD as [(q & v & dst & j & D)|E].
    + rewrite (NEW b blk q v dst j D N) in N'. injection N' as <-. cbn in I. destruct I as [<-|[]].
      destruct D as (ops & t & e & _ & (lit & r & _ & NT) & _). apply (WF t). eexists. split; [exact NT|cbn; auto].
    + apply (WF b). exists blk'. split; [congruence|exact I].
Qed.
End Find.

(** ** The pass *)
Theorem materialize_keeps : forall d bodies0 bodies f (fn : function (instruction (code d)) operand),
  well_formed_body fn -> closed fn ->
  (materialize_boolean_results fn = Val None /\ forall b q v dst j, ~ diamond fn b q v dst j) \/
  exists fn' mid fn1, materialize_boolean_results fn = Val (Some fn') /\
    (exists b q v dst j, diamond fn b q v dst j) /\
    straightened fn mid /\ remove_unreachable_blocks mid = Val fn1 /\ merge_blocks_into_predecessors fn1 = Val fn' /\
    refines effect_event (register_machine d bodies0) (with_body bodies f fn) (with_body bodies f fn') /\
    well_formed_body fn' /\ (forall b, b < length fn' -> reachable_block fn' b) /\
    (forall p s, ~ mergeable fn' p s).
Proof.
  intros d bodies0 bodies f fn WF CL.
  destruct (plans_ok fn (seq 0 (length fn)) WF) as (ps & EP & NP & SP).
  { apply seq_NoDup. }
  { intros b I. apply in_seq in I. lia. }
  assert (RANGE : forall b q v dst j, diamond fn b q v dst j -> b < length fn).
  { intros b q v dst j (ops & t & e & N & _). apply nth_error_Some. congruence. }
  assert (FIND : forall b q v dst j, diamond fn b q v dst j <-> In (Plan b q v dst j) ps).
  { intros b q v dst j. rewrite SP. cbn [at_block]. unfold plan_of. cbn. split.
    - intros D. split; [|auto]. apply in_seq. pose proof (RANGE b q v dst j D). lia.
    - intros (_ & _ & D). exact D. }
  unfold materialize_boolean_results. rewrite EP. cbn [bind].
  destruct ps as [|p0 ps0].
  { left. split; [reflexivity|]. intros b q v dst j D. apply FIND in D. exact D. }
  right. set (ps := p0 :: ps0) in *.
  destruct (apply_plans_ok ps fn (next_value_index fn) NP) as (mid & fresh & EA & LEN & FN & FD & KEEP & NEW).
  { intros p I. apply SP in I. destruct I as (I & _). apply in_seq in I. lia. }
  assert (ST : straightened fn mid).
  { split; [exact LEN|]. split.
    - intros b ND. apply KEEP. intros I. apply in_map_iff in I. destruct I as (p & EB & I).
      apply SP in I. destruct I as (_ & _ & D). rewrite EB in D. apply (ND _ _ _ _ D).
    - exists fresh. split; [|split].
      + intros b. apply fresh_above, FN.
      + intros b b' q q' dst dst' j j' NB D D'. apply FIND in D. apply FIND in D'.
        exact (FD _ _ D D' NB eq_refl eq_refl).
      + intros b blk q v dst j D N. apply FIND in D. exact (NEW _ blk D N). }
  pose proof (straightened_well_formed fn mid WF ST) as WM.
  pose proof (straightened_refines d bodies0 bodies f fn mid CL ST) as R1.
  destruct (removal_keeps (register_machine d bodies0) bodies f mid WM)
    as (fn1 & order & E1 & _ & _ & _ & W1 & RE1 & Q1).
  destruct (merge_ok (register_machine d bodies0) bodies f fn1 W1) as (fn2 & E2 & Q2 & W2 & _ & RE2).
  destruct (RE2 RE1) as (RE & NM).
  exists fn2, mid, fn1. rewrite EA. cbn [bind]. split.
  { match goal with |- bind ?a _ = _ => change a with (@remove_unreachable_blocks (payload (register_machine d bodies0)) (cond (register_machine d bodies0)) mid) end.
    rewrite E1. cbn [bind].
    match goal with |- bind ?a _ = _ => change a with (@merge_blocks_into_predecessors (payload (register_machine d bodies0)) (cond (register_machine d bodies0)) fn1) end.
    rewrite E2. reflexivity. }
  split. { destruct p0 as [b q v dst j]. exists b, q, v, dst, j. apply FIND. left. reflexivity. }
  split; [exact ST|]. split; [exact E1|]. split; [exact E2|]. split; [|auto].
  eapply refines_trans; [exact R1|]. eapply refines_trans; apply equivalent_refines, equivalent_any; [exact Q1|exact Q2].
Qed.
