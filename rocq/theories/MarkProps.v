(** C69: dropping the duplicate marks of the stack changes nothing. *)
From Coq Require Import List Arith Bool Lia.
From Verif Require Import MarkModel MarkSpec MarkLattice MarkMeaning MarkWalk MarkScan MarkSim MarkMachine.
Import ListNotations.

(** The pass ends on every verified function. *)
Theorem C69_ends : forall f, verified f -> remove_redundant_stack_markers f <> Endless.
Proof.
  intros f V. unfold remove_redundant_stack_markers.
  destruct ((count_kind is_save f <? 2) && (count_kind is_restore f <? 2)); [discriminate|].
  destruct (analyze_exact f V) as (e & E & E1 & E2). rewrite E.
  destruct (verdict_ok f V e E1 E2) as (sub & dead & D & _). rewrite D. destruct dead; discriminate.
Qed.
Print Assumptions C69_ends.

(** It removes exactly the saves and restores that are redundant on every walk,
    and changes only which of several equal markers a restore names. *)
Theorem C69_removes_exactly_the_redundant : forall f g, verified f ->
  remove_redundant_stack_markers f = Rewritten g -> without_redundant f g.
Proof.
  intros f g V E. unfold remove_redundant_stack_markers in E.
  destruct ((count_kind is_save f <? 2) && (count_kind is_restore f <? 2)); [discriminate|].
  destruct (analyze_exact f V) as (e & A & E1 & E2). rewrite A in E.
  destruct (verdict_ok f V e E1 E2) as (sub & dead & D & Vd). rewrite D in E.
  destruct dead as [|x dead]; [discriminate|]. inversion E; subst. exact (without_ok f V sub _ Vd).
Qed.
Print Assumptions C69_removes_exactly_the_redundant.

(** When it leaves a function with two saves or two restores as it is, nothing in
    it was redundant. *)
Theorem C69_unchanged_has_none : forall f, verified f -> remove_redundant_stack_markers f = Unchanged ->
  2 <= length (filter (fun o => is_save (okind o)) (flat_map ops f)) \/
  2 <= length (filter (fun o => is_restore (okind o)) (flat_map ops f)) ->
  forall p o, op_at f p o -> ~ redundant f p o.
Proof.
  intros f V E M p o O R. unfold remove_redundant_stack_markers, count_kind in E.
  destruct ((length (filter (fun o => is_save (okind o)) (flat_map ops f)) <? 2) &&
            (length (filter (fun o => is_restore (okind o)) (flat_map ops f)) <? 2)) eqn:Q.
  - apply andb_true_iff in Q. destruct Q as [Q1 Q2]. apply Nat.ltb_lt in Q1, Q2. lia.
  - destruct (analyze_exact f V) as (e & A & E1 & E2). rewrite A in E.
    destruct (verdict_ok f V e E1 E2) as (sub & dead & D & Vd). rewrite D in E.
    destruct dead as [|x dead]; [|discriminate].
    apply (v_dead f sub [] Vd p). exists o. auto.
Qed.
Print Assumptions C69_unchanged_has_none.

(** The rewritten function computes the same, and every operation it still has
    finds as many cells as before: the addresses, the peak and the limit on the
    cells are the same.  Functions that yield are covered when the accessor finds
    the frontier it left. *)
Theorem C69_behaviour_same : forall W (m : machine W) f g n c w,
  honest m -> verified f -> in_order f -> ~ yields f \/ steady m ->
  remove_redundant_stack_markers f = Rewritten g ->
  start m f n c w <> Unnested -> start m g n c w = start m f n c w.
Proof.
  intros W m f g n c w Hm V Ho Hy E U. unfold remove_redundant_stack_markers in E.
  destruct ((count_kind is_save f <? 2) && (count_kind is_restore f <? 2)); [discriminate|].
  destruct (analyze_exact f V) as (e & A & E1 & E2). rewrite A in E.
  destruct (verdict_ok f V e E1 E2) as (sub & dead & D & Vd). rewrite D in E.
  destruct dead as [|x dead]; [discriminate|]. inversion E; subst.
  apply (run_same f V sub (x :: dead) Vd m Hm Hy Ho c w n 0 [] _ _); [constructor| |exact U].
  split; [reflexivity|]. split; [reflexivity|]. reflexivity.
Qed.
Print Assumptions C69_behaviour_same.

Example example_rewritten : remove_redundant_stack_markers looping =
  Rewritten [ mkBlock [save 0; alloc 10; work 0; restore 0] (Goto 1);
              mkBlock [alloc 11; restore 0; restore 0] (CondBr (Datum 0) 1 2);
              mkBlock [restore 0] Return ].
Proof. vm_compute. reflexivity. Qed.

Example example_hypotheses : verified looping /\ in_order looping /\ honest (logging 0) /\ steady (logging 0).
Proof.
  split; [exact looping_verified|]. split; [exact looping_in_order|]. split; [exact (logging_honest 0)|].
  intros p c w. cbn. lia.
Qed.

Example example_runs : start (logging 0) looping 20 3 [] = Returned 3 [3; 3; 3; 3; 4; 3].
Proof. vm_compute. reflexivity. Qed.

(** Without the order of the blocks the claim fails: a restore then names a marker
    whose save was removed as well. *)
Theorem C69_block_order_refuted :
  exists f g, verified f /\ honest (logging 0) /\ ~ yields f /\
    remove_redundant_stack_markers f = Rewritten g /\
    start (logging 0) f 3 0 [] = Returned 0 [0; 0] /\ start (logging 0) g 3 0 [] = Stuck.
Proof.
  exists disordered. eexists. split; [exact disordered_verified|]. split; [exact (logging_honest 0)|]. split.
  - intros (b & bl & p & t & H & T). destruct b as [|[|[|b]]]; cbn in H; inversion H; subst; try discriminate.
    destruct b; discriminate.
  - split; [vm_compute; reflexivity|]. split; vm_compute; reflexivity.
Qed.
Print Assumptions C69_block_order_refuted.

(** An accessor that is resumed under the cells of its user: the restore that is
    dropped would have released them, and what follows finds more cells. *)
Theorem C69_accessor_refuted :
  exists f g, verified f /\ in_order f /\ honest (logging 4) /\
    remove_redundant_stack_markers f = Rewritten g /\
    start (logging 4) f 2 0 [] = Returned 0 [0] /\ start (logging 4) g 2 0 [] = Returned 4 [4].
Proof.
  exists accessor. eexists. split; [exact accessor_verified|]. split; [exact accessor_in_order|].
  split; [exact (logging_honest 4)|]. split; [vm_compute; reflexivity|]. split; vm_compute; reflexivity.
Qed.
Print Assumptions C69_accessor_refuted.
