(** C68: removing unused computations does not change what a function does. *)
From Coq Require Import List Bool Arith Lia Permutation.
From Verif Require Import DceModel DceSpec DceSim DceProofs DceJust DceStorage DcePass DceMachine.
Import ListNotations.

Lemma after_some f o g : o = Some g -> after f o = g.
Proof. intros ->. reflexivity. Qed.

(** For every machine that keeps the contract of the operations, every function and every order of the hash
    maps: without the comparisons, loads and tags nobody reads, the function has the same events, result and
    effects on the cells of its caller, for every number of blocks executed; and what is left reads no register
    whose definition is gone. *)
Theorem C68_results_same :
  forall V E (M : machine V E) shuffle f g, honest V E M -> (forall l, Permutation (shuffle l) l) -> well_formed f ->
    remove_dead_trivial_results shuffle f = Some g ->
    same_behaviour V E M f g /\ well_formed g /\ still_defined f g.
Proof.
  intros V E M shuffle f g HN SH WF Q. destruct (trivial_pass shuffle f SH (proj1 WF)) as [R [DR [A [J _]]]].
  rewrite (after_some _ _ _ Q) in A. subst g. split; [|split].
  - eapply justified_same; eauto. apply WF.
  - now apply retain_well_formed.
  - eapply justified_defined; eauto.
Qed.
Print Assumptions C68_results_same.

(** The same for calls without effects that return. *)
Theorem C68_calls_same :
  forall V E (M : machine V E) shuffle f g, honest V E M -> (forall l, Permutation (shuffle l) l) -> well_formed f ->
    remove_dead_proven_calls shuffle f = Some g ->
    same_behaviour V E M f g /\ well_formed g /\ still_defined f g.
Proof.
  intros V E M shuffle f g HN SH WF Q. destruct (call_pass shuffle f SH WF) as [R [X [A [J _]]]].
  rewrite (after_some _ _ _ Q) in A. subst g. split; [|split].
  - eapply justified_same; eauto. apply WF.
  - now apply retain_well_formed.
  - eapply justified_defined; eauto.
Qed.
Print Assumptions C68_calls_same.

(** The same for storage, in its narrow and its wide form. *)
Theorem C68_storage_same :
  forall V E (M : machine V E) shuffle wide f g, honest V E M -> (forall l, Permutation (shuffle l) l) -> well_formed f ->
    remove_dead_storage shuffle wide f = Some g ->
    same_behaviour V E M f g /\ well_formed g /\ still_defined f g.
Proof.
  intros V E M shuffle wide f g HN SH WF Q. destruct (storage_pass shuffle wide f SH WF) as [R [DR [X [A [J _]]]]].
  rewrite (after_some _ _ _ Q) in A. subst g. split; [|split].
  - eapply justified_same; eauto. apply WF.
  - now apply retain_well_formed.
  - eapply justified_defined; eauto.
Qed.
Print Assumptions C68_storage_same.

(** And so for the passes in any order, any number of times. *)
Inductive passes (shuffle : list reg -> list reg) : func -> func -> Prop :=
| no_pass f : passes shuffle f f
| by_results f g h : passes shuffle f g -> remove_dead_trivial_results shuffle g = Some h -> passes shuffle f h
| by_calls f g h : passes shuffle f g -> remove_dead_proven_calls shuffle g = Some h -> passes shuffle f h
| by_storage wide f g h : passes shuffle f g -> remove_dead_storage shuffle wide g = Some h -> passes shuffle f h.

Definition shrinks (f g : func) : Prop :=
  (forall r, In r (results g) -> In r (results f)) /\ (forall r, local g r -> local f r).

Lemma same_trans V E (M : machine V E) f g h : same_behaviour V E M f g -> shrinks f g -> same_behaviour V E M g h ->
  same_behaviour V E M f h.
Proof.
  intros A [S1 S2] B n regs c EN NS. destruct (A n regs c EN NS) as [T1 O1].
  assert (EG : entry V E M g regs c).
  { destruct EN as [E1 E2]. split.
    - intros r v Q. destruct (E1 r v Q) as [X Y]. split; [auto|]. intros x L. apply Y. auto.
    - intros r x L. apply E2. auto. }
  assert (NG : snd (run V E M n g 0 regs c) <> Stuck _).
  { intros Q. rewrite Q in O1. destruct (snd (run V E M n f 0 regs c)); exact O1. }
  destruct (B n regs c EG NG) as [T2 O2]. split; [congruence|].
  destruct (snd (run V E M n f 0 regs c)), (snd (run V E M n g 0 regs c)), (snd (run V E M n h 0 regs c)); cbn in *; try contradiction; auto;
    intros r NL; rewrite (O1 r NL); apply O2; auto.
Qed.
Lemma same_refl V E (M : machine V E) f : same_behaviour V E M f f.
Proof.
  intros n regs c _ NS. split; [reflexivity|]. destruct (snd (run V E M n f 0 regs c)); cbn; auto; try congruence; intros r _; reflexivity.
Qed.
Lemma retain_shrinks R f : shrinks f (retain R f).
Proof. split; intros r I; [eapply sub_in; [apply results_sub|exact I]|eapply retain_local; eauto]. Qed.

Theorem C68_sequence :
  forall V E (M : machine V E) shuffle f g, honest V E M -> (forall l, Permutation (shuffle l) l) -> well_formed f ->
    passes shuffle f g -> same_behaviour V E M f g /\ well_formed g.
Proof.
  intros V E M shuffle f g HN SH WF P.
  assert (G : same_behaviour V E M f g /\ well_formed g /\ shrinks f g); [|tauto].
  induction P as [f|f g h P IH Q|f g h P IH Q|wide f g h P IH Q].
  - split; [apply same_refl|]. split; [exact WF|]. split; auto.
  - destruct (IH WF) as [S1 [W1 [H1 H2]]]. destruct (C68_results_same V E M shuffle g h HN SH W1 Q) as [S2 [W2 _]].
    split; [eapply same_trans; eauto; split; auto|]. split; [exact W2|].
    destruct (trivial_pass shuffle g SH (proj1 W1)) as [R [DR [A _]]]. rewrite (after_some _ _ _ Q) in A. subst h.
    destruct (retain_shrinks R g). split; auto.
  - destruct (IH WF) as [S1 [W1 [H1 H2]]]. destruct (C68_calls_same V E M shuffle g h HN SH W1 Q) as [S2 [W2 _]].
    split; [eapply same_trans; eauto; split; auto|]. split; [exact W2|].
    destruct (call_pass shuffle g SH W1) as [R [X [A _]]]. rewrite (after_some _ _ _ Q) in A. subst h.
    destruct (retain_shrinks R g). split; auto.
  - destruct (IH WF) as [S1 [W1 [H1 H2]]]. destruct (C68_storage_same V E M shuffle wide g h HN SH W1 Q) as [S2 [W2 _]].
    split; [eapply same_trans; eauto; split; auto|]. split; [exact W2|].
    destruct (storage_pass shuffle wide g SH W1) as [R [DR [X [A _]]]]. rewrite (after_some _ _ _ Q) in A. subst h.
    destruct (retain_shrinks R g). split; auto.
Qed.
Print Assumptions C68_sequence.

(** ** Nothing of what they look for is left *)

(** What a pass leaves: its result, or the function itself if it finds nothing. *)
Definition leaves (f : func) (o : option func) (g : func) : Prop := o = Some g \/ (o = None /\ g = f).
Lemma leaves_after f o g : leaves f o g -> g = after f o.
Proof. intros [->|[-> ->]]; reflexivity. Qed.

(** Every comparison, load and tag that is left is used, chains included: one pass is enough. *)
Theorem C68_results_complete :
  forall shuffle f g, (forall l, Permutation (shuffle l) l) -> well_formed f ->
    leaves f (remove_dead_trivial_results shuffle f) g ->
    forall b i op r, operation_at g b i op -> okind op = CompareEqual \/ okind op = Load \/ okind op = ExtractTag ->
      result op = Some r -> exists w, used g r w.
Proof.
  intros shuffle f g SH WF L b i op r A K RS. apply leaves_after in L.
  destruct (trivial_pass shuffle f SH (proj1 WF)) as [R [DR [Q [_ C]]]]. rewrite Q in L. subst g.
  destruct (retained_at _ _ _ _ _ A) as [k [S1 MS]]. apply used_some. rewrite count_retain. eapply C; eauto.
  destruct K as [->|[->| ->]]; reflexivity.
Qed.
Print Assumptions C68_results_complete.

(** Every harmless call that is left, whose result is in a local cell, has a result that is used elsewhere. *)
Theorem C68_calls_complete :
  forall shuffle f g, (forall l, Permutation (shuffle l) l) -> well_formed f ->
    leaves f (remove_dead_proven_calls shuffle f) g ->
    forall b i op c arguments r, operation_at g b i op -> okind op = Call c -> harmless c ->
      operands op = arguments ++ [Reg r] -> local f r ->
      exists w, used g r w /\ w <> AtOp b i (length arguments).
Proof.
  intros shuffle f g SH WF L b i op c args r A K HL OP LO. apply leaves_after in L.
  destruct (call_pass shuffle f SH WF) as [R [X [Q [_ C]]]]. rewrite Q in L. subst g.
  destruct (retained_at _ _ _ _ _ A) as [k [S1 MS]]. apply used_other. rewrite count_retain. eapply C; eauto.
  apply call_key_spec. eauto.
Qed.
Print Assumptions C68_calls_complete.

(** An allocation goes exactly if nobody reads it. *)
Theorem C68_storage_exact :
  forall shuffle wide f g, (forall l, Permutation (shuffle l) l) -> well_formed f ->
    leaves f (remove_dead_storage shuffle wide f) g ->
    forall r, local g r <-> local f r /\ ~ unneeded wide f r.
Proof.
  intros shuffle wide f g SH WF L r. apply leaves_after in L.
  destruct (storage_pass shuffle wide f SH WF) as [R [DR [X [Q [_ [_ C]]]]]]. rewrite Q in L. subst g. split.
  - intros LO. apply local_at in LO. destruct LO as [[b i] [op [I [K RS]]]]. apply sites_in in I.
    destruct (retained_at _ _ _ _ _ I) as [k [S1 MS]]. split; [apply local_at; eauto|]. intros U. apply (C _ _ _ S1 K RS) in U. congruence.
  - intros [LO NU]. apply local_at in LO. destruct LO as [s [op [I [K RS]]]].
    assert (MS : mem_site s R = false) by (apply not_true_is_false; intros MS; apply NU; apply (C _ _ _ I K RS); exact MS).
    destruct (retained_in _ _ _ _ I MS) as [j J]. apply local_at. exists (fst s, j), op. split; [now apply sites_in|auto].
Qed.
Print Assumptions C68_storage_exact.

(** Every place derived from another that is left is used. *)
Theorem C68_places_complete :
  forall shuffle wide f g, (forall l, Permutation (shuffle l) l) -> well_formed f ->
    leaves f (remove_dead_storage shuffle wide f) g ->
    forall b i op n r, operation_at g b i op -> okind op = Subfield n \/ okind op = DictEntry n ->
      result op = Some r -> exists w, used g r w.
Proof.
  intros shuffle wide f g SH WF L b i op n r A K RS. apply leaves_after in L.
  destruct (storage_pass shuffle wide f SH WF) as [R [DR [X [Q [_ [C _]]]]]]. rewrite Q in L. subst g.
  destruct (retained_at _ _ _ _ _ A) as [k [S1 MS]]. apply used_some. rewrite count_retain. eapply C; eauto.
  destruct K as [->| ->]; reflexivity.
Qed.
Print Assumptions C68_places_complete.

(** ** An example *)

Definition addition : call_info := {|
  effects_empty := true; value_result := true; direct := true; known_total := true; script := false;
  owned_arguments := false; has_extras := false; all_let := false; trivial_result := false; will_return := false; callee := 100 |}.
(** Parameter 0 is a place of the caller. *)
Definition example : func :=
  [ mkBlock
      [ mkOp Alloca [] (Some 10);
        mkOp Store [Constant 5; Reg 10] None;
        mkOp Alloca [] (Some 11);
        mkOp (Call addition) [Function 100; Reg 10; Reg 11] None;
        mkOp Alloca [] (Some 12);
        mkOp (Call addition) [Function 100; Reg 11; Reg 12] None;
        mkOp (Subfield 1) [Reg 10] (Some 13);
        mkOp (Subfield 0) [Reg 13] (Some 14);
        mkOp Load [Reg 14] (Some 15);
        mkOp CompareEqual [Reg 15; Constant 3] (Some 16);
        mkOp Alloca [] (Some 17);
        mkOp (Clone 0) [Reg 10; Reg 17] None;
        mkOp (Other 7 false) [] None;
        mkOp (Drop 0) [Reg 17] None;
        mkOp Store [Constant 9; Reg 0] None ]
      (Goto 1);
    mkBlock [mkOp Load [Reg 0] (Some 20)] Return ].
Definition cleaned : func :=
  [ mkBlock [mkOp (Other 7 false) [] None; mkOp Store [Constant 9; Reg 0] None] (Goto 1);
    mkBlock [] Return ].
(** Two rounds of storage: the first removes the clone, which was the last read of its source. *)
Definition round1 : func := after example (remove_dead_trivial_results (@rev reg) example).
Definition round2 : func := after round1 (remove_dead_proven_calls (@rev reg) round1).
Definition round3 : func := after round2 (remove_dead_storage (@rev reg) false round2).
Example example_passes : passes (@rev reg) example cleaned.
Proof.
  apply (by_storage _ false) with (g := round3); [|vm_compute; reflexivity].
  apply (by_storage _ false) with (g := round2); [|vm_compute; reflexivity].
  apply by_calls with (g := round1); [|vm_compute; reflexivity].
  apply by_results with (g := example); [|vm_compute; reflexivity]. apply no_pass.
Qed.

Example example_well_formed : well_formed example.
Proof.
  split.
  - vm_compute. repeat (constructor; [intros Q; repeat (destruct Q as [Q|Q]; [discriminate Q|]); exact Q|]). constructor.
  - intros bl op [<-|[<-|[]]] I NR; cbn in I; repeat (destruct I as [<-|I]; [cbn in *; try reflexivity; contradiction|]); destruct I.
Qed.
Definition example_registers : registers word := fun r => if r =? 0 then Some (Place 1) else None.
Definition example_cells : cells word := fun r => if r =? 1 then Num 4 else Nothing.
Example example_entry : entry word nat tiny example example_registers example_cells.
Proof.
  split.
  - intros r v Q. unfold example_registers in Q. destruct (r =? 0) eqn:E; [|discriminate Q]. apply Nat.eqb_eq in E. subst r. injection Q as <-. split.
    + vm_compute. intros Q. repeat (destruct Q as [Q|Q]; [discriminate Q|]). exact Q.
    + intros x L Q. injection Q as <-. apply local_result in L. vm_compute in L. repeat (destruct L as [L|L]; [discriminate L|]). exact L.
  - intros r x L Q. unfold example_cells in Q. cbn in Q. destruct (r =? 1); discriminate Q.
Qed.
Example example_runs :
  fst (run word nat tiny 3 example 0 example_registers example_cells) = [7] /\
  match snd (run word nat tiny 3 example 0 example_registers example_cells) with Returned _ c => c 1 = Num 9 | _ => False end /\
  fst (run word nat tiny 3 cleaned 0 example_registers example_cells) = [7] /\
  match snd (run word nat tiny 3 cleaned 0 example_registers example_cells) with Returned _ c => c 1 = Num 9 | _ => False end.
Proof. vm_compute. auto. Qed.
Example example_same : same_behaviour word nat tiny example cleaned.
Proof.
  apply (C68_sequence word nat tiny (@rev reg)); [exact tiny_honest|intros l; apply Permutation_sym, Permutation_rev|exact example_well_formed|exact example_passes].
Qed.
