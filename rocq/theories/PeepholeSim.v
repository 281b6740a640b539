(** Straightened bodies behave the same. *)
From Coq Require Import List Arith Bool Lia.
From Verif Require Import ListUtil MirModel TermSpec TermProofs WillReturnSpec SimSpec EditSpec RegModel
  PeepholeSpec SimProofs EditProofs RegProofs.
Import ListNotations.

Section Known.
Context {code : Type}.
Notation function := (function (instruction code) operand).

Definition registers (fn : function) : list nat :=
  flat_map (fun blk => flat_map (fun o => match o with
    | OPlain i | OCall _ i | OHost i => match result i with Some r => [r] | None => [] end
    | OProject r _ => [r]
    | _ => []
    end) (all_operations blk)) fn.

Lemma registers_defined : forall fn r, In r (registers fn) <-> defined fn r.
Proof.
  intros fn r. unfold registers, defined. rewrite in_flat_map. split.
  - intros (blk & I & J). apply in_flat_map in J. destruct J as (o & J & K). exists blk, o.
    split; auto. split; auto. destruct o as [| |i|h i|i|q i|q i]; cbn in *; try contradiction;
      try (destruct (result i); cbn in K; [destruct K as [<-|[]]; reflexivity|contradiction]);
      try (destruct K as [->|[]]; reflexivity).
  - intros (blk & o & I & J & K). exists blk. split; auto. apply in_flat_map. exists o. split; auto.
    destruct o as [| |i|h i|i|q i|q i]; cbn in *; try contradiction; try (rewrite K; left; reflexivity).
Qed.

Definition known (fn : function) (k : key) : bool :=
  match k with KParam _ => true | KReg r => existsb (Nat.eqb r) (registers fn) end.

Lemma known_reg : forall fn r, known fn (KReg r) = true <-> defined fn r.
Proof.
  intros fn r. cbn. rewrite existsb_exists, <- registers_defined. split.
  - intros (x & I & E). apply Nat.eqb_eq in E. congruence.
  - intros I. exists r. split; auto. apply Nat.eqb_refl.
Qed.

Lemma known_fresh : forall fn r, ~ defined fn r -> known fn (KReg r) = false.
Proof.
  intros fn r H. destruct (known fn (KReg r)) eqn:E; [|reflexivity].
  apply known_reg in E. contradiction.
Qed.
Lemma diamond_dec : forall (fn : function) b, (exists q v dst j, diamond fn b q v dst j) \/ (forall q v dst j, ~ diamond fn b q v dst j).
Proof.
  intros fn.
  assert (SD : forall b, (exists v dst j, stores_bool fn b v dst j) \/ forall v dst j, ~ stores_bool fn b v dst j).
  { intros b. destruct (nth_error fn b) as [blk|] eqn:N;
      [|right; intros v dst j (lit & r & _ & N'); congruence].
    destruct blk as [ops t].
    destruct ops as [|o [|o2 os]];
      [right; intros v dst j (lit & r & _ & N'); congruence| |right; intros v dst j (lit & r & _ & N'); congruence].
    destruct o as [| |i|h i|i|q i|q i]; try (right; intros v dst j (lit & r & _ & N'); congruence).
    destruct i as [k os rs].
    destruct k; try (right; intros v dst j (lit & r & _ & N'); congruence).
    destruct os as [|lit [|dst [|x os]]]; try (right; intros v dst' j (lit' & r & _ & N'); congruence).
    destruct t; try (right; intros v dst' j (lit' & r & _ & N'); congruence).
    destruct lit as [[v| |]|[v| |]| | |];
      try (right; intros v' dst' j (lit' & r & L & N');
           destruct L as [->| ->]; congruence).
    - left. exists v, dst, target. exists (OConst (LBool v)), rs. auto.
    - left. exists v, dst, target. exists (OPattern (LBool v)), rs. auto. }
  assert (FUN : forall b v dst j v' dst' j', stores_bool fn b v dst j -> stores_bool fn b v' dst' j' ->
                v = v' /\ dst = dst' /\ j = j').
  { intros b v dst j v' dst' j' (lit & r & L & N) (lit' & r' & L' & N').
    rewrite N in N'. injection N' as -> -> _ ->.
    split; [|auto]. destruct L as [->| ->], L' as [E|E]; congruence. }
  intros b. destruct (nth_error fn b) as [[ops t]|] eqn:N;
    [|right; intros q v dst j (o & t & e & N' & _); congruence].
  destruct t as [x|q t e|o t e|i x| | |];
    try (right; intros q' v dst j (o' & t' & e' & N' & _); congruence).
  destruct (SD t) as [(v & dst & j & S1)|NS];
    [|right; intros q' v dst j (o' & t' & e' & N' & S1 & _);
      assert (t' = t) by congruence; subst; apply (NS v dst j S1)].
  destruct (SD e) as [(v' & dst' & j' & S2)|NS];
    [|right; intros q' w dst' j' (o' & t' & e' & N' & _ & S2);
      assert (e' = e) by congruence; subst; apply (NS _ _ _ S2)].
  assert (DEC : (v' = negb v /\ dst' = dst /\ j' = j) \/ ~ (v' = negb v /\ dst' = dst /\ j' = j)).
  { assert (D1 : {dst' = dst} + {dst' <> dst}) by (repeat decide equality).
    destruct (Bool.bool_dec v' (negb v)), D1, (Nat.eq_dec j' j); tauto. }
  destruct DEC as [(-> & -> & ->)|ND].
  - left. exists q, v, dst, j, ops, t, e. auto.
  - right. intros q' w dw jw (o' & t' & e' & N' & T1 & T2).
    assert (t' = t) by congruence. assert (e' = e) by congruence. subst t' e'.
    destruct (FUN _ _ _ _ _ _ _ S1 T1) as (-> & -> & ->).
    destruct (FUN _ _ _ _ _ _ _ S2 T2) as (-> & -> & ->). apply ND. auto.
Qed.

End Known.

Lemma effect_log : forall f c, same_context effect_event c (log (EvOperation f) c).
Proof. intros f c. unfold same_context. cbn. intuition. Qed.

Definition straight_context (f : fid) (v : bool) (c : context) : context :=
  if v then log (EvOperation f) c else log (EvOperation f) (log (EvOperation f) c).
Lemma straight_context_same : forall f v c, same_context effect_event c (straight_context f v c).
Proof. intros f [|] c; [apply effect_log|eapply same_context_trans; apply effect_log]. Qed.

Section Straight.
Variable d : dialect.
Variable bodies0 : fid -> option (function (instruction (code d)) operand).
Notation M := (register_machine d bodies0).
Notation function := (function (instruction (code d)) operand).
Notation slots := (slots (loc d) (other d)).
Notation sc := (same_context effect_event).

Lemma run_store : forall z run f pd v dst r g l ps c,
  run_operations (with_bodies M z) run f pd [OPlain (Instruction KStore [v; dst] r)] g l ps c =
  match store_operand d l v with
  | None => BExit (Panicked (log (EvOperation f) c))
  | Some (w, l1) =>
      match place_operand d l1 dst with
      | None => BExit (Panicked (log (EvOperation f) c))
      | Some p =>
          match write d g p w with
          | None => BExit (Panicked (log (EvOperation f) c))
          | Some g1 => BDone g1 l1 ps (log (EvOperation f) c)
          end
      end
  end.
Proof.
  intros z run f pd v dst r g l ps c.
  cbn [run_operations]. unfold exec_operation. cbn [operation_drive with_bodies plain register_machine].
  unfold exec_plain. cbn [kind operands]. unfold exec_store.
  destruct (store_operand d l v) as [(w & l1)|]; [|reflexivity].
  destruct (place_operand d l1 dst) as [p|]; [|reflexivity].
  destruct (write d g p w) as [g1|]; reflexivity.
Qed.

Lemma store_bool_constant : forall l v, store_operand d l (OConst (LBool v)) = Some (VBool v, l).
Proof. reflexivity. Qed.

Lemma store_inspected : forall l q b, inspect d l q = Some (VBool b) -> store_operand d l q = Some (VBool b, l).
Proof.
  intros l q b H. unfold store_operand, value_operand, inspect in *.
  destruct (operand_key q) as [k|]; [|rewrite H; reflexivity].
  destruct (get d l k) as [[p|p|v|n|n|t]|]; try discriminate. injection H as ->. reflexivity.
Qed.

Variable kn : key -> bool.

Definition straight_slots (v : bool) (r : nat) (b : bool) (l : slots) : slots :=
  if v then l else set d l (KReg r) (BValue (VBool (Bool.eqb false b))).
Lemma straight_slots_agree : forall v r b l, kn (KReg r) = false -> agree d kn l (straight_slots v r b l).
Proof. intros [|] r b l K; [apply agree_refl|apply agree_sym, set_unknown, K]. Qed.

(** The straight code stores the condition, or its opposite. *)
Lemma run_straight : forall z run f pd q v dst r g l ps c b,
  kn (KReg r) = false -> fine kn dst -> inspect d l q = Some (VBool b) ->
  run_operations (with_bodies M z) run f pd (straight_store q v dst r) g l ps c =
  match place_operand d l dst with
  | None => BExit (Panicked (straight_context f v c))
  | Some p =>
      match write d g p (VBool (Bool.eqb b v)) with
      | None => BExit (Panicked (straight_context f v c))
      | Some g1 => BDone g1 (straight_slots v r b l) ps (straight_context f v c)
      end
  end.
Proof.
  intros z run f pd q v dst r g l ps c b K F H. unfold straight_store. destruct v.
  - rewrite run_store, (store_inspected l q b H). destruct b; reflexivity.
  - set (l1 := set d l (KReg r) (BValue (VBool (Bool.eqb false b)))).
    set (c0 := log (EvOperation f) c).
    assert (E : run_operations (with_bodies M z) run f pd
      [OPlain (Instruction KCompareEqual [q; OPattern (LBool false)] (Some r));
       OPlain (Instruction KStore [OReg r; dst] None)] g l ps c =
      run_operations (with_bodies M z) run f pd [OPlain (Instruction KStore [OReg r; dst] None)] g l1 ps c0).
    { cbn [run_operations]. unfold exec_operation at 1. cbn [operation_drive with_bodies plain register_machine].
      unfold exec_plain at 1. cbn [kind operands result]. unfold exec_compare_equal. rewrite H. reflexivity. }
    etransitivity; [exact E|]. rewrite run_store.
    unfold store_operand, value_operand. cbn [operand_key]. unfold l1. rewrite get_set. cbn [copies].
    fold l1.
    assert (EP : place_operand d l1 dst = place_operand d l dst).
    { apply place_operand_agree with (known := kn); auto. apply set_unknown, K. }
    rewrite EP. destruct b; reflexivity.
Qed.
End Straight.

Section Straightened.
Variable d : dialect.
Variables bodies0 bodies : fid -> option (function (instruction (code d)) operand).
Notation M := (register_machine d bodies0).
Notation function := (function (instruction (code d)) operand).
Notation operation := (operation (instruction (code d))).
Notation terminator := (terminator (instruction (code d)) operand).
Notation sc := (same_context effect_event).

Variable f : fid.
Variables fn mid : function.
Hypothesis CL : closed fn.
Hypothesis ST : straightened fn mid.

Notation kn := (known fn).
Definition kns (h : fid) : key -> bool := if fid_eqb h f then kn else fun _ => true.
Definition LR (h : fid) (l l' : bindings M) : Prop := agree d (kns h) l l'.
Definition P (h : fid) (b b' : nat) : Prop := b = b'.

Lemma kns_f : kns f = kn.
Proof. unfold kns. destruct (fid_eqb_spec f f); congruence. Qed.

Lemma used_fine : forall o, (forall r, o = OReg r -> used fn r) -> fine kn o.
Proof.
  intros o H k E. destruct o as [v|v|n|n|n]; cbn in E; try discriminate; injection E as <-; [reflexivity|].
  apply known_reg, CL, H. reflexivity.
Qed.

Lemma block_fine : forall blk, In blk fn ->
  (forall o, In o (operations blk) -> operation_fine d kn o) /\ terminator_fine d kn (term blk).
Proof.
  intros blk I.
  assert (OF : forall o, In o (all_operations blk) -> operation_fine d kn o).
  { intros o J.
    assert (U : forall r, operation_uses o r -> used fn r).
    { intros r H. exists blk. split; auto. left. eauto. }
    destruct o as [| |i|h i|i|q i|q i]; cbn [operation_fine]; auto;
      try (intros w J1; apply used_fine; intros r ->; apply U; exact J1).
    split.
    - apply known_reg, CL, U. left. reflexivity.
    - intros w J1; apply used_fine; intros r ->; apply U; right; exact J1. }
  split.
  - intros o J. apply OF, in_or_app. auto.
  - destruct (term blk) as [b|q t e|o n e|i b| | |] eqn:E; cbn [terminator_fine]; auto.
    + apply used_fine. intros r ->. exists blk. split; auto. right. left. eauto.
    + apply OF. unfold all_operations. rewrite E. apply in_or_app. right. left. reflexivity.
    + intros q J. apply used_fine. intros r ->. exists blk. split; auto. right. right. eauto.
Qed.

(** The code of a diamond and of its replacement. *)
Definition rewritten (ops : list operation) (t : terminator) (ops' : list operation) (t' : terminator) : Prop :=
  exists q v dst j tt te r,
    t = CondBr q tt te /\ ops' = ops ++ straight_store q v dst r /\ t' = Goto j /\
    stores_bool fn tt v dst j /\ stores_bool fn te (negb v) dst j /\
    kn (KReg r) = false /\ fine kn q /\ fine kn dst.

Definition Same (h : fid) (ops : list operation) (t : terminator) : Prop :=
  (forall o, In o ops -> operation_fine d (kns h) o) /\ terminator_fine d (kns h) t.

Definition Code (h : fid) (ops : list operation) (t : terminator) (ops' : list operation) (t' : terminator) : Prop :=
  (forall o, In o ops -> operation_fine d (kns h) o) /\
  ((ops' = ops /\ t' = t /\ terminator_fine d (kns h) t) \/ (h = f /\ rewritten ops t ops' t')).

Lemma fine_all : forall o, operation_fine d (fun _ => true) o.
Proof.
  intros o. destruct o; cbn; auto; try (intros q _ k _; reflexivity).
  split; auto. intros q _ k _. reflexivity.
Qed.

Lemma stores_fine : forall b v dst j, stores_bool fn b v dst j -> fine kn dst.
Proof.
  intros b v dst j (lit & r & _ & N). apply used_fine. intros x ->.
  eexists. split; [eapply nth_error_In, N|]. left. eexists. split; [left; reflexivity|]. cbn. auto.
Qed.

Lemma P_code : forall h b fn1 fn2,
  with_body bodies f fn h = Some fn1 -> with_body bodies f mid h = Some fn2 ->
  (nth_error fn1 b = None /\ nth_error fn2 b = None) \/
  exists ops t ops' t', chain M fn1 b ops t /\ chain M fn2 b ops' t' /\ Code h ops t ops' t'.
Proof.
  intros h b fn1 fn2 E1 E2. unfold with_body in E1, E2.
  destruct (fid_eqb_spec h f) as [->|NE].
  - injection E1 as <-. injection E2 as <-.
    destruct ST as (LEN & KEEP & fresh & FR & _ & REW).
    destruct (nth_error fn b) as [blk|] eqn:N.
    + right. destruct (block_fine blk (nth_error_In _ _ N)) as (OF & TF).
      destruct (diamond_dec fn b) as [(q & v & dst & j & D)|ND].
      * pose proof (REW b blk q v dst j D N) as N'.
        exists (operations blk), (term blk). eexists. eexists.
        split; [apply ChainBlock, N|]. split; [eapply (ChainBlock M), N'|].
        split; [rewrite kns_f; exact OF|]. right. split; [reflexivity|].
        destruct D as (ops & t & e & N2 & S1 & S2). rewrite N in N2. injection N2 as ->.
        exists q, v, dst, j, t, e, (fresh b). cbn [term operations].
        repeat (split; [reflexivity|]). split; [exact S1|]. split; [exact S2|].
        split; [apply known_fresh, FR|]. split; [exact TF|apply (stores_fine _ _ _ _ S1)].
      * exists (operations blk), (term blk), (operations blk), (term blk).
        split; [apply ChainBlock, N|]. split; [apply ChainBlock; etransitivity; [exact (KEEP b ND)|exact N]|].
        split; [rewrite kns_f; exact OF|]. left. rewrite kns_f. auto.
    + left. split; auto. apply nth_error_None in N. apply nth_error_None. lia.
  - assert (fn2 = fn1) by congruence. subst fn2.
    destruct (nth_error fn1 b) as [blk|] eqn:N; [right|left; auto].
    exists (operations blk), (term blk), (operations blk), (term blk).
    split; [apply ChainBlock, N|]. split; [apply ChainBlock, N|].
    unfold Code. assert (EK : kns h = fun _ => true) by (unfold kns; destruct (fid_eqb_spec h f); congruence).
    rewrite EK. split; [intros; apply fine_all|]. left. split; auto. split; auto.
    destruct (term blk); cbn; auto; try apply fine_all; try (intros k _; reflexivity). intros q _ k _. reflexivity.
Qed.

Lemma same_ops : forall h ex ey ops, (forall o, In o ops -> operation_fine d (kns h) o) ->
  Forall2 (oprels M ex ey LR h) ops ops.
Proof.
  intros h ex ey ops H. induction ops as [|o ops IH]; constructor.
  - apply operation_rel with (known := kns h); [intros; reflexivity|]. apply H. left. reflexivity.
  - apply IH. intros o' I. apply H. right. exact I.
Qed.

Notation B1 := (with_body bodies f fn).
Notation B2 := (with_body bodies f mid).

Lemma natives : forall h, B1 h = None <-> B2 h = None.
Proof. intros h. unfold with_body. destruct (fid_eqb h f); [split; discriminate|tauto]. Qed.

Ltac use E := match type of E with ?a = _ => match goal with |- match ?e with _ => _ end = _ => change e with a end end; rewrite E.

(** What the branch of a diamond does. *)
Lemma run_arm : forall b v dst j, stores_bool fn b v dst j ->
  (forall n pd cf l ps g c, run_loop (with_bodies M B1) (S n) f b pd cf (Frame l ps) g c = Panicked (log (EvOperation f) c)) \/
  (forall n pd cf l ps g c, run_loop (with_bodies M B1) (S n) f b pd cf (Frame l ps) g c =
  match place_operand d l dst with
  | None => Panicked (log (EvOperation f) c)
  | Some p =>
      match write d g p (VBool v) with
      | None => Panicked (log (EvOperation f) c)
      | Some g1 => run_loop (with_bodies M B1) n f j pd cf (Frame l ps) g1 (log (EvOperation f) c)
      end
  end).
Proof.
  intros b v dst j (lit & r & L & N).
  assert (E : forall n pd cf l ps g c, run_loop (with_bodies M B1) (S n) f b pd cf (Frame l ps) g c =
    exec M B1 n f pd cf [OPlain (Instruction KStore [lit; dst] r)] (Goto j) g l ps c).
  { intros. exact (run_loop_exec M B1 n f b fn _ pd cf l ps g c (with_body_same _ _ _ _ _) N). }
  destruct L as [->| ->].
  - right. intros n pd cf l ps g c. etransitivity; [exact (E n pd cf l ps g c)|]. unfold exec.
    pose proof (run_store d bodies0 B1 (run_at (with_bodies M B1) n) f pd (OConst (LBool v)) dst r g l ps c) as RS.
    use RS. rewrite store_bool_constant.
    destruct (place_operand d l dst) as [p|]; [|reflexivity].
    destruct (write d g p (VBool v)) as [g1|]; reflexivity.
  - left. intros n pd cf l ps g c. exact (E n pd cf l ps g c).
Qed.

Lemma condition_inspect : forall q g l b, condition M q g l = Some b <-> inspect d l q = Some (VBool b).
Proof.
  intros q g l b. cbn [condition register_machine]. destruct (inspect d l q) as [[v| | |]|]; split; congruence.
Qed.

Lemma arm_value : forall (b v : bool), (if b then v else negb v) = Bool.eqb b v.
Proof. intros [|] [|]; reflexivity. Qed.

Lemma natives_back : forall h, B2 h = None <-> B1 h = None.
Proof. intros h. split; apply natives. Qed.
Lemma LR_refl : forall h l, LR h l l.
Proof. reflexivity. Qed.
Lemma P_refl : forall h b, P h b b.
Proof. reflexivity. Qed.
Local Hint Resolve natives natives_back LR_refl P_refl : core.

Lemma forward : forall n h args k g c, covers M true false (same_answer effect_event)
  (run_entry (with_bodies M B1) n h args k g c) (fun n' => run_entry (with_bodies M B2) n' h args k g c).
Proof.
  intros n h args k g c.
  apply entry_sim with (LR := LR) (P := P) (Code := Code).
  - exact natives.
  - intros; reflexivity.
  - reflexivity.
  - intros h0 b b' fn1 fn2 HP. unfold P in HP. subst b'. apply P_code.
  - intros n0 SIM h0 ops t ops' t' (OF & [(-> & -> & TF)|(-> & RW)]) pd cf g0 l l' ps ps' c0 c' HL HP HC.
    + apply exec_same_sim with (LR := LR) (P := P); auto.
      * apply same_ops, OF.
      * apply terminator_rel with (known := kns h0); auto; intros; reflexivity.
    + destruct RW as (q & v & dst & j & tt & te & r & -> & -> & -> & S1 & S2 & K & Fq & Fd).
      replace ops with (ops ++ []) at 1 by apply app_nil_r.
      apply exec_prefix_sim with (LR := LR) (P := P); auto; [apply same_ops, OF|].
      clear g0 l l' ps ps' c0 c' HL HP HC.
      intros g0 l l' ps ps' c0 c' HL HP HC NU.
      unfold LR in HL. rewrite kns_f in HL.
      unfold exec in NU |- *. cbn [run_operations run_term] in NU |- *.
      change (condition (with_bodies M B1) q g0 l) with (condition M q g0 l) in NU |- *.
      destruct (condition M q g0 l) as [b|] eqn:EC; [|left; split; [reflexivity|eexists; reflexivity]].
      apply condition_inspect in EC.
      destruct n0 as [|n0]; [exfalso; apply NU; eexists; reflexivity|].
      assert (SB : stores_bool fn (if b then tt else te) (Bool.eqb b v) dst j).
      { rewrite <- arm_value. destruct b; assumption. }
      unfold next_of in NU |- *.
      destruct (run_arm _ _ _ _ SB) as [E|E]; specialize (E n0 pd cf l ps g0 c0).
      { left. split; [reflexivity|]. eexists. exact E. }
      assert (EI : inspect d l' q = Some (VBool b)).
      { rewrite <- EC. symmetry. apply inspect_agree with (known := kn); auto. }
      assert (EP : place_operand d l' dst = place_operand d l dst).
      { symmetry. apply place_operand_agree with (known := kn); auto. }
      match type of NU with ~ unfinished ?o => match type of E with _ = ?z => change (o = z) in E end end.
      rewrite E in NU |- *.
      destruct (place_operand d l dst) as [p|]; [|left; split; [reflexivity|eexists; reflexivity]].
      destruct (write d g0 p (VBool (Bool.eqb b v))) as [g1|] eqn:EW; [|left; split; [reflexivity|eexists; reflexivity]].
      (* the new program after its store *)
      set (l1 := straight_slots d v r b l'). set (c1 := straight_context f v c').
      assert (Y : forall n',
        exec M B2 n' f pd cf (straight_store q v dst r) (Goto j) g0 l' ps' c' =
        run_loop (with_bodies M B2) n' f j pd cf (Frame l1 ps') g1 c1).
      { intros n'.
        pose proof (run_straight d bodies0 kn B2 (run_at (with_bodies M B2) n') f pd q v dst r g0 l' ps' c' b K Fd EI) as E2.
        unfold exec.
        match type of E2 with ?a = _ => match goal with |- match ?e with _ => _ end = _ => change e with a end end.
        rewrite E2, EP, EW. reflexivity. }
      assert (EM : run_loop (with_bodies M B1) (S n0) f j pd cf (Frame l ps) g1 (log (EvOperation f) c0) =
                   run_loop (with_bodies M B1) n0 f j pd cf (Frame l ps) g1 (log (EvOperation f) c0)).
      { apply run_loop_mono; [lia|]. intros O. apply NU. apply (out_unfinished M), O. }
      match type of NU with ~ unfinished ?o => match type of EM with ?z = _ => change (z = o) in EM end end.
      rewrite <- EM in NU |- *.
      destruct (SIM f j j pd cf (Frame l ps) (Frame l1 ps') g1 (log (EvOperation f) c0) c1) as [A|(o' & (n1 & EV) & R)];
        [reflexivity| | |exact NU|left; exact A|right; exists o'; split; [|exact R]].
      * constructor; [|exact HP]. unfold LR. rewrite kns_f. unfold agree in *. rewrite HL.
        apply straight_slots_agree, K.
      * eapply same_context_trans; [apply same_context_sym, effect_log|].
        eapply same_context_trans; [exact HC|apply straight_context_same].
      * exists n1. intros n' Hn. etransitivity; [exact (Y n')|]. apply EV, Hn.
  - apply same_context_refl.
Qed.

Lemma backward : forall n h args k g c, covers M false true (same_answer effect_event)
  (run_entry (with_bodies M B2) n h args k g c) (fun n' => run_entry (with_bodies M B1) n' h args k g c).
Proof.
  intros n h args k g c.
  apply entry_sim with (LR := LR) (P := P) (Code := fun h a b a' b' => Code h a' b' a b).
  - intros h0. split; apply natives.
  - intros; reflexivity.
  - reflexivity.
  - intros h0 b b' fn1 fn2 HP E1 E2. unfold P in HP. subst b'.
    destruct (P_code h0 b fn2 fn1 E2 E1) as [(A & B)|(ops & t & ops' & t' & A & B & C)]; [left; auto|].
    right. exists ops', t', ops, t. auto.
  - intros n0 SIM h0 ops' t' ops t (OF & [(-> & -> & TF)|(-> & RW)]) pd cf g0 l l' ps ps' c0 c' HL HP HC.
    + apply exec_same_sim with (LR := LR) (P := P); auto.
      * apply same_ops, OF.
      * apply terminator_rel with (known := kns h0); auto; intros; reflexivity.
    + destruct RW as (q & v & dst & j & tt & te & r & -> & -> & -> & S1 & S2 & K & Fq & Fd).
      assert (EX : forall n', exec M B1 n' f pd cf ops (CondBr q tt te) g0 l' ps' c' =
                              exec M B1 n' f pd cf (ops ++ []) (CondBr q tt te) g0 l' ps' c')
        by (intros; rewrite app_nil_r; reflexivity).
      assert (GOAL : covers M false true (orel M effect_event LR P f)
        (exec M B2 n0 f pd cf (ops ++ straight_store q v dst r) (Goto j) g0 l ps c0)
        (fun n' => exec M B1 n' f pd cf (ops ++ []) (CondBr q tt te) g0 l' ps' c'));
        [|intros NU; destruct (GOAL NU) as [A|(o' & (n1 & EV) & R)]; [left; exact A|right];
          exists o'; split; [exists n1; intros n' Hn; rewrite EX; apply EV, Hn|exact R]].
      apply exec_prefix_sim with (LR := LR) (P := P); auto; [apply same_ops, OF|].
      clear g0 l l' ps ps' c0 c' HL HP HC EX.
      intros g0 l l' ps ps' c0 c' HL HP HC NU. right.
      unfold LR in HL. rewrite kns_f in HL.
      destruct (condition M q g0 l') as [b|] eqn:EC.
      2:{ exists (Panicked c'). split; [|split; [intros (? & ?); discriminate|left; split; auto; eexists; reflexivity]].
          exists 0. intros n' _. unfold exec. cbn [run_operations run_term].
          change (condition (with_bodies M B1) q g0 l') with (condition M q g0 l'). rewrite EC. reflexivity. }
      assert (SB : stores_bool fn (if b then tt else te) (Bool.eqb b v) dst j).
      { rewrite <- arm_value. destruct b; assumption. }
      assert (X : forall n', exec M B1 n' f pd cf [] (CondBr q tt te) g0 l' ps' c' =
                  run_loop (with_bodies M B1) n' f (if b then tt else te) pd cf (Frame l' ps') g0 c').
      { intros n'. unfold exec. cbn [run_operations run_term].
        change (condition (with_bodies M B1) q g0 l') with (condition M q g0 l'). rewrite EC. reflexivity. }
      apply condition_inspect in EC.
      assert (EI : inspect d l q = Some (VBool b)).
      { rewrite <- EC. apply inspect_agree with (known := kn); auto. }
      assert (EP : place_operand d l dst = place_operand d l' dst).
      { apply place_operand_agree with (known := kn); auto. }
      assert (Y : exec M B2 n0 f pd cf (straight_store q v dst r) (Goto j) g0 l ps c0 =
        match place_operand d l' dst with
        | None => Panicked (straight_context f v c0)
        | Some p =>
            match write d g0 p (VBool (Bool.eqb b v)) with
            | None => Panicked (straight_context f v c0)
            | Some g1 => run_loop (with_bodies M B2) n0 f j pd cf (Frame (straight_slots d v r b l) ps) g1 (straight_context f v c0)
            end
        end).
      { pose proof (run_straight d bodies0 kn B2 (run_at (with_bodies M B2) n0) f pd q v dst r g0 l ps c0 b K Fd EI) as E2.
        unfold exec.
        match type of E2 with ?a = _ => match goal with |- match ?e with _ => _ end = _ => change e with a end end.
        rewrite E2, EP. destruct (place_operand d l' dst) as [p|]; [|reflexivity].
        destruct (write d g0 p (VBool (Bool.eqb b v))); reflexivity. }
      assert (CC : sc (straight_context f v c0) (log (EvOperation f) c')).
      { eapply same_context_trans; [apply same_context_sym, straight_context_same|].
        eapply same_context_trans; [exact HC|apply effect_log]. }
      assert (PAN : (forall n', run_loop (with_bodies M B1) (S n') f (if b then tt else te) pd cf (Frame l' ps') g0 c' =
                     Panicked (log (EvOperation f) c')) ->
         forall o, exists o', ev (fun n' => exec M B1 n' f pd cf [] (CondBr q tt te) g0 l' ps' c') o' /\ ~ unfinished o' /\
           ((true = true /\ panicked o') \/ orel M effect_event LR P f o o')).
      { intros H o. exists (Panicked (log (EvOperation f) c')).
        split; [|split; [intros (? & ?); discriminate|left; split; [reflexivity|eexists; reflexivity]]].
        exists 1. intros [|n'] Hn; [lia|]. etransitivity; [apply X|]. exact (H n'). }
      destruct (run_arm _ _ _ _ SB) as [E|E]; [apply PAN; intros n'; apply E|].
      rewrite Y in NU |- *.
      destruct (place_operand d l' dst) as [p|] eqn:EPl;
        [|apply PAN; intros n'; etransitivity; [exact (E n' pd cf l' ps' g0 c')|]; rewrite EPl; reflexivity].
      destruct (write d g0 p (VBool (Bool.eqb b v))) as [g1|] eqn:EW;
        [|apply PAN; intros n'; etransitivity; [exact (E n' pd cf l' ps' g0 c')|]; rewrite EPl, EW; reflexivity].
      destruct (SIM f j j pd cf (Frame (straight_slots d v r b l) ps) (Frame l' ps') g1 (straight_context f v c0)
                  (log (EvOperation f) c')) as [(A & _)|(o' & (n1 & EV) & R)];
        [reflexivity| |exact CC|exact NU|discriminate A|exists o'; split; [|exact R]].
      * constructor; [|exact HP]. unfold LR. rewrite kns_f. unfold agree in *. rewrite <- HL. symmetry.
        apply straight_slots_agree, K.
      * exists (S n1). intros [|n'] Hn; [lia|]. etransitivity; [apply X|].
        etransitivity; [exact (E n' pd cf l' ps' g0 c')|]. rewrite EPl, EW. apply EV. lia.
  - apply same_context_refl.
Qed.

Theorem straightened_refines : refines effect_event M B1 B2.
Proof. apply refines_intro; [exact forward|exact backward]. Qed.


End Straightened.
