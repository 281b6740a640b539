(** C72: moving a call out of a loop keeps the behaviour. *)
From Coq Require Import List Bool Arith Lia.
From Verif Require Import LicmModel LicmSpec LicmStatic LicmRoots LicmLoops LicmFind LicmProofs LicmToy.
Import ListNotations.

(** One move keeps the events and the storage of the caller of every run that makes sense, for every machine.
    Missing: that what the call reads is there at its new place, and that its cell is empty if it stays where it
    is, is not looked at by the pass; it is asked for here ([prepared]). *)
Theorem C72_behaviour_partial :
  forall (dominates : nat -> nat -> bool) (reachable will_return trivial : nat -> bool)
    (order : list natural_loop -> list natural_loop) (f : func) (h : hoist)
    (V E : Type) (M : machine V E) (regs : registers V) (c : cells V) (n : nat),
  (forall ls l, In l (order ls) -> In l ls) -> dominance_right f dominates -> verified f ->
  honest V E M will_return trivial f ->
  find_hoist dominates reachable will_return trivial order f = Some h ->
  prepared V E M will_return trivial f h regs c ->
  snd (run V E M n f 0 regs c) <> Stuck V ->
  same_run V E M n f (apply_hoist f h) regs c.
Proof.
  intros dominates reachable will_return trivial order f h V E M regs c n O D VF H F P N.
  destruct (find_ok dominates reachable will_return trivial order O f (proj1 VF) h F) as (l & op & aop & ins & r & a & ty & K).
  exact (same_behaviour dominates will_return trivial f h l op aop ins r a ty VF D K V E M H regs c P n N).
Qed.
Print Assumptions C72_behaviour_partial.

(** The call stands in a set of blocks that is entered from its new place only; and a return to a mark in these
    blocks does not take back what is made at the new place, for the mark is set later. *)
Theorem C72_before_marks :
  forall (dominates : nat -> nat -> bool) (reachable will_return trivial : nat -> bool)
    (order : list natural_loop -> list natural_loop) (f : func) (h : hoist),
  (forall ls l, In l (order ls) -> In l ls) -> verified f ->
  find_hoist dominates reachable will_return trivial order f = Some h ->
  exists loop : list nat, In (fst (call_site h)) loop /\ ~ In (target h) loop /\
    (forall x y, edge f x y -> ~ In x loop -> In y loop -> x = target h) /\
    (forall s op m rest d save, In (fst s) loop -> operation_at f s op -> okind op = StackRestore ->
      operands op = Reg m :: rest -> operation_at f d save -> result save = Some m ->
      In (fst d) loop \/ (fst d = target h /\ insertion h <= snd d)).
Proof.
  intros dominates reachable will_return trivial order f h O VF F.
  destruct (find_ok dominates reachable will_return trivial order O f (proj1 VF) h F) as (l & op & aop & ins & r & a & ty & K).
  pose proof (k_loop _ _ _ _ _ _ _ _ _ _ _ _ K) as G. pose proof (k_target _ _ _ _ _ _ _ _ _ _ _ _ K) as T.
  exists (blocks l). split; [exact (k_in _ _ _ _ _ _ _ _ _ _ _ _ K)|]. split; [rewrite T; apply (g_outside _ _ G)|]. split.
  - intros x y Ed Nx Jy. rewrite T. destruct (Nat.eq_dec y (header l)) as [->|N]; [eapply g_entry; eauto|].
    exfalso. apply Nx. eapply g_closed; eauto.
  - intros s o m rest d save J (bl & B & N) Kr Om A R.
    destruct (k_marks _ _ _ _ _ _ _ _ _ _ _ _ K (fst s) bl o J B (nth_error_In _ _ N) Kr) as (m' & rest' & d' & Om' & D & X).
    rewrite Om in Om'. injection Om' as <- _. apply definition_at in D. destruct D as (op' & A' & R').
    destruct (one_site _ _ _ _ _ _ (proj1 VF) A R A' R') as [-> _]. exact X.
Qed.
Print Assumptions C72_before_marks.

(** ** Examples *)

Definition pure_info : call_info := {| effects_empty := true; value_result := true; result_type := 0; conventions := [Let]; owned := [] |}.
Definition the_call : operation := mkOp (Call pure_info) [Function 0; Reg 0; Reg 1] None.
Definition make (r : reg) : operation := mkOp (Alloca 0) [] (Some r).

(** Twice: a call of what is set before the loop, and its result is shown. *)
Definition twice : func := [
  mkBlock [make 0; mkOp (Put 4) [Constant 0; Reg 0] None; make 2; mkOp (Put 2) [Constant 0; Reg 2] None] (Goto 1);
  mkBlock [mkOp (Reading 0) [Reg 2] (Some 3)] (CondBr (Reg 3) 2 3);
  mkBlock [make 1; the_call; mkOp (Reading 1) [Reg 1] None; mkOp (Put 0) [Reg 2; Reg 2] None] (Goto 1);
  mkBlock [] Return].
(** The call is in the loop, but the loop is not gone into, and nothing is set. *)
Definition never : func := [
  mkBlock [make 0] (Goto 1);
  mkBlock [] (CondBr (Constant 0) 2 3);
  mkBlock [make 1; the_call] (Goto 1);
  mkBlock [] Return].
(** The entry comes before every other block, the header before the body and the end. *)
Definition comes_before (a b : nat) : bool := (a <? b) && (a <? 2).
Definition twice_hoist : hoist := {| call_site := (2, 1); alloca_site := Some (2, 0); target := 0; insertion := 4 |}.
Definition find (f : func) : option hoist := find_hoist comes_before (fun _ => true) (fun _ => true) (fun _ => true) (fun l => l) f.
Definition no_regs : registers nat := fun _ => None.
Definition no_cells : cells nat := fun _ => 0.

Example C72_example_found : find twice = Some twice_hoist /\
  apply_hoist twice twice_hoist = [
    mkBlock [make 0; mkOp (Put 4) [Constant 0; Reg 0] None; make 2; mkOp (Put 2) [Constant 0; Reg 2] None; make 1; the_call] (Goto 1);
    mkBlock [mkOp (Reading 0) [Reg 2] (Some 3)] (CondBr (Reg 3) 2 3);
    mkBlock [mkOp (Reading 1) [Reg 1] None; mkOp (Put 0) [Reg 2; Reg 2] None] (Goto 1);
    mkBlock [] Return].
Proof. split; reflexivity. Qed.
Example C72_example_run : fst (run nat nat (toy twice) 10 twice 0 no_regs no_cells) = [15; 15] /\
  fst (run nat nat (toy twice) 10 (apply_hoist twice twice_hoist) 0 no_regs no_cells) = [15; 15] /\
  (exists c, snd (run nat nat (toy twice) 10 twice 0 no_regs no_cells) = Returned nat c).
Proof. split; [reflexivity|]. split; [reflexivity|]. eexists. reflexivity. Qed.

(** Both have the shape of the blocks 0, 1, 2, 3. *)
Definition shaped (f : func) : Prop := exists a b c d o, f = [mkBlock a (Goto 1); mkBlock b (CondBr o 2 3); mkBlock c (Goto 1); mkBlock d Return].
Lemma shaped_edges : forall f x y, shaped f -> edge f x y -> (x = 0 /\ y = 1) \/ (x = 1 /\ (y = 2 \/ y = 3)) \/ (x = 2 /\ y = 1).
Proof.
  intros f x y (a & b & c & d & o & ->) (bl & B & J). destruct x as [|[|[|[|x]]]]; cbn in B; try (destruct x; discriminate);
    injection B as <-; cbn in J; intuition lia.
Qed.
Lemma shaped_walk : forall f w y, shaped f -> walk f 0 w y -> y <> 0 -> In 0 w /\ (y = 2 \/ y = 3 -> In 1 w).
Proof.
  intros f w y S W. induction W as [|w b c W IH E]; intros N; [congruence|]. rewrite !in_app_iff. cbn [In].
  destruct (shaped_edges f _ _ S E) as [[-> ->]|[[-> Q]|[-> ->]]].
  - split; [auto|]. lia.
  - split; [left; apply IH; lia|auto].
  - split; [left; apply IH; lia|lia].
Qed.
Lemma shaped_dominance : forall f, shaped f -> dominance_right f comes_before.
Proof.
  intros f S x y N D w W. unfold comes_before in D. apply andb_true_iff in D. destruct D as [D1 D2]. apply Nat.ltb_lt in D1, D2.
  assert (Q : y = 1 \/ y = 2 \/ y = 3). { inversion W as [|w' b c W' E]; subst; [lia|]. destruct (shaped_edges f _ _ S E); lia. }
  destruct (shaped_walk f w y S W ltac:(lia)) as [H0 H1]. destruct x as [|[|x]]; [exact H0|apply H1; lia|lia].
Qed.
Lemma shaped_before : forall f i u, shaped f -> fst u <> 0 -> before f (0, i) u.
Proof. intros f i u S N. right. cbn. split; [congruence|]. intros w W. apply (shaped_walk f w _ S W N). Qed.

Lemma verified_by : forall f, NoDup (results f) -> (forall s op, operation_at f s op -> forall c, okind op = Call c -> result op = None) ->
  (forall s op r, operation_at f s op -> result op = Some r -> forall u op', operation_at f u op' -> In (Reg r) (operands op') -> before f s u) ->
  (forall s op r, operation_at f s op -> result op = Some r -> forall b bl, nth_error f b = Some bl -> In (Reg r) (term_operands (term bl)) ->
     before f s (b, length (ops bl))) -> verified f.
Proof.
  intros f H1 H2 H3 H4. split; [exact H1|]. split; [intros s op c A K _; eapply H2; eauto|].
  intros r s op u A R U. destruct U as [u op' A' J|b bl B J]; [eapply H3; eauto|eapply H4; eauto].
Qed.

Ltac each A := apply in_sites in A; cbn in A; repeat (destruct A as [A|A]; [injection A as <- <-|]); try contradiction.
Ltac placed := first [left; cbn; split; [reflexivity|lia] | apply shaped_before; [|cbn; lia]].
Lemma twice_shaped : shaped twice.
Proof. do 5 eexists. reflexivity. Qed.
Lemma never_shaped : shaped never.
Proof. do 5 eexists. reflexivity. Qed.
Lemma twice_verified : verified twice.
Proof.
  pose proof twice_shaped as Sh. apply verified_by.
  - cbn. repeat constructor; cbn; intuition lia.
  - intros s op A. each A; cbn; intros c K; try discriminate; reflexivity.
  - intros s op r A R u op' A' J. each A; cbn in R; try discriminate; injection R as <-; each A'; cbn in J;
      try (exfalso; intuition discriminate); placed; exact Sh.
  - intros s op r A R b bl B J. destruct b as [|[|[|[|b]]]]; cbn in B; try (destruct b; discriminate); injection B as <-; cbn in J; try contradiction.
    destruct J as [J|[]]. injection J as <-. each A; cbn in R; try discriminate. placed.
Qed.
Lemma never_verified : verified never.
Proof.
  pose proof never_shaped as Sh. apply verified_by.
  - cbn. repeat constructor; cbn; intuition lia.
  - intros s op A. each A; cbn; intros c K; try discriminate; reflexivity.
  - intros s op r A R u op' A' J. each A; cbn in R; try discriminate; injection R as <-; each A'; cbn in J;
      try (exfalso; intuition discriminate); placed; exact Sh.
  - intros s op r A R b bl B J. destruct b as [|[|[|[|b]]]]; cbn in B; try (destruct b; discriminate); injection B as <-; cbn in J; try contradiction.
    destruct J as [J|[]]. discriminate.
Qed.

Lemma twice_prepared : prepared nat nat (toy twice) (fun _ => true) (fun _ => true) twice twice_hoist no_regs no_cells.
Proof.
  intros op ins r bl regs c t regs1 c1 A P Ar B X. split; [|discriminate].
  assert (E : regs = no_regs /\ c = no_cells).
  { cbn [target twice_hoist] in Ar. inversion Ar as [|b ? ? bl0 ? ? ? ? ? ? ? _ B0 _ L]; [auto|]. exfalso. subst.
    destruct (shaped_edges twice b 0 twice_shaped); [eapply leave_edge; eauto|lia|lia]. }
  destruct E as [-> ->]. cbn in B. injection B as <-. cbn in X. injection X as _ _ <-.
  destruct A as (bl' & B' & N'). cbn in B'. injection B' as <-. cbn in N'. injection N' as <-.
  destruct P as (ci & g & _ & _ & _ & _ & _ & _ & _ & O & _). cbn in O. injection O as _ O.
  change [Reg 0; Reg 1] with ([Reg 0] ++ [Reg 1]) in O. apply app_inj_tail in O. destruct O as [<- _].
  intros o x [<-|[]] R. apply (root_of_iff twice (proj1 twice_verified)) in R. cbn in R. injection R as <-. cbn. discriminate.
Qed.

(** All that is asked for can be met. *)
Example C72_example : forall n, snd (run nat nat (toy twice) n twice 0 no_regs no_cells) <> Stuck nat ->
  same_run nat nat (toy twice) n twice (apply_hoist twice twice_hoist) no_regs no_cells.
Proof.
  intros n. eapply (C72_behaviour_partial comes_before (fun _ => true) (fun _ => true) (fun _ => true) (fun l => l)).
  - auto.
  - apply shaped_dominance, twice_shaped.
  - apply twice_verified.
  - apply toy_honest, twice_verified.
  - reflexivity.
  - apply twice_prepared.
Qed.

(** A function whose loop is not gone into does not set what the call reads; the moved call reads it. *)
Theorem C72_unset_input_refuted :
  ~ (forall (dominates : nat -> nat -> bool) (reachable will_return trivial : nat -> bool)
       (order : list natural_loop -> list natural_loop) (f : func) (h : hoist)
       (V E : Type) (M : machine V E) (regs : registers V) (c : cells V) (n : nat),
     (forall ls l, In l (order ls) -> In l ls) -> dominance_right f dominates -> verified f ->
     honest V E M will_return trivial f ->
     find_hoist dominates reachable will_return trivial order f = Some h ->
     snd (run V E M n f 0 regs c) <> Stuck V ->
     same_run V E M n f (apply_hoist f h) regs c).
Proof.
  intros H. destruct (H comes_before (fun _ => true) (fun _ => true) (fun _ => true) (fun l => l) never
    {| call_site := (2, 1); alloca_site := Some (2, 0); target := 0; insertion := 1 |} nat nat (toy never) no_regs no_cells 3) as [_ X].
  - auto.
  - apply shaped_dominance, never_shaped.
  - apply never_verified.
  - apply toy_honest, never_verified.
  - reflexivity.
  - cbn. discriminate.
  - cbn in X. exact X.
Qed.
Print Assumptions C72_unset_input_refuted.
