From Coq Require Import NArith ZArith List Bool Lia Arith.
From Verif Require Import MachInt RelModel RelSpec RelRecognize RelLoopSpec RelState RelLoops RelExec RelCheck.
From Verif Require GraphSpec.
Import ListNotations.
Open Scope Z_scope.

(** C31, without overflow.  However symbols are numbered, for every program the analysis settles on: where it removes a bounds
    check, on every execution whose comparisons and ranges do not overflow, the access is the one the check would have let
    through, at the same offset, which is within the array.
    Missing: the executions that overflow, programs where a place is overwritten while facts about its initial contents are
    kept, and the smallest integer as index of an empty array; the theorems below show that there the property is false. *)
Theorem C31_bounds_checks_partial : forall (sid : symbol -> N) (name : N -> symbol), (forall s, name (sid s) = s) ->
  forall escaped types prog entry priority entries exits,
  handled sid name escaped types prog entry ->
  run sid escaped types (recognized sid escaped types prog entry) prog entry priority = Some (entries, exits) ->
  clean_prog sid name escaped types (recognized sid escaped types prog entry) prog entries = true ->
  forall n x l, unchecked sid escaped types prog entry entries (fun m o => no_overflow m o /\ no_wrap m o) n x l ->
  0 <= l -> ~ (x = int_min /\ l = 0) ->
  resolve x l = Some (offset n x l) /\ 0 <= offset n x l < l.
Proof. exact unchecked_sound. Qed.
Print Assumptions C31_bounds_checks_partial.

(** ** Programs *)
Definition arr : place := (Param 0%N, []).
Definition par (n : N) : place := (Param n, []).
Definition tmp (n : N) : place := (Local n, []).
Definition cursor_of (n : N) : place := field (tmp n) range_next.
Definition start_of (n : N) : place := field (field (tmp n) range_range) range_start.
Definition end_of (n : N) : place := field (field (tmp n) range_range) range_end.
Definition const (z : Z) (p : place) : op := Store (Const (Some z)) p.
Definition less (reg : N) (x y t : place) : list op :=
  [Call (Some IntCmp) [(x, false); (y, false)] t; CompareEqual reg (Place t) TagLess].
Definition index_at (i t : place) : op := Call (Some ArrayIndex) [(arr, false); (i, false)] t.
(** Parameter 0, and parameter 3, are arrays; local 10 an iterator. *)
Definition types0 (inclusive : bool) (r : root) : root_type :=
  match r with
  | Param n => if N.eqb n 0 || N.eqb n 3 then ArrayType else OtherType
  | Local n => if N.eqb n 10 then if inclusive then RangeInclusiveIterator else RangeIterator else OtherType
  end.
Definition free (r : root) : bool := false.
Definition solve (incl : bool) (escaped : root -> bool) (prog : list block) : option (states * states) :=
  run sid0 escaped (types0 incl) (recognized sid0 escaped (types0 incl) prog 0) prog 0 (fun b => b).
Definition solution (incl : bool) (escaped : root -> bool) (prog : list block) : states :=
  match solve incl escaped prog with Some (entries, _) => entries | None => [] end.
(** What the pass decides at operation [i] of block [b]. *)
Definition decision (incl : bool) (escaped : root -> bool) (prog : list block) (b i : nat) : option (normalization * place * place) :=
  match get_state (solution incl escaped prog) b, nth_error (all_ops (block_at prog b)) i with
  | Some st, Some o =>
      decide sid0 escaped (types0 incl)
        (state_before sid0 escaped (types0 incl) (recognized sid0 escaped (types0 incl) prog 0) b (block_at prog b) i st) o
  | _, _ => None
  end.
(** Memory before: lengths of the two arrays and the values of parameters 1 and 2. *)
Definition memory0 (len0 len3 v1 v2 : Z) : mem := fun p =>
  match p with
  | (Param 0%N, [2%N]) => Num len0
  | (Param 3%N, [2%N]) => Num len3
  | (Param 1%N, []) => Num v1
  | (Param 2%N, []) => Num v2
  | _ => Junk
  end.
Definition no_regs : regs := fun _ _ => Junk.
(** After [steps] steps from memory [m], with each operation [allowed]: the access that is not checked. *)
Definition seen (allowed : mem -> op -> bool) (incl : bool) (escaped : root -> bool) (prog : list block) (steps : nat) (m : mem)
  : option (normalization * Z * Z) :=
  match execute (types0 incl) prog allowed steps (begin 0 m no_regs) with
  | Some p =>
      match decision incl escaped prog (at_block p) (at_op p) with
      | Some (n, index, len) => Some (n, num (memory p index), num (memory p len))
      | None => None
      end
  | None => None
  end.
Lemma seen_unchecked : forall allowed (quiet : mem -> op -> Prop) incl escaped prog steps m n x l, (forall m o, allowed m o = true -> quiet m o) ->
  seen allowed incl escaped prog steps m = Some (n, x, l) ->
  unchecked sid0 escaped (types0 incl) prog 0 (solution incl escaped prog) quiet n x l.
Proof.
  intros allowed quiet incl escaped prog steps m n x l AQ. unfold seen. destruct (execute _ prog _ steps _) as [p|] eqn:X; [|discriminate].
  destruct (decision incl escaped prog (at_block p) (at_op p)) as [[[k index] len]|] eqn:D; [|discriminate]. intros [= -> <- <-].
  unfold decision in D. destruct (get_state _ (at_block p)) as [st|] eqn:G; [|discriminate]. destruct (nth_error _ (at_op p)) as [o|] eqn:O; [|discriminate].
  exists (visited p), (at_block p), (at_op p), (memory p), (registers p), o, st, index, len.
  split; [|repeat split; assumption].
  apply (execute_ok escaped (types0 incl) prog 0 allowed quiet AQ steps _ p (begin_ok escaped (types0 incl) prog 0 quiet m no_regs) X).
Qed.
Lemma types0_range : forall incl r, types0 incl r = RangeIterator \/ types0 incl r = RangeInclusiveIterator -> r = Local 10%N.
Proof.
  intros incl [n|n] H; cbn [types0] in H.
  - destruct (N.eqb n 0 || N.eqb n 3); destruct H; discriminate.
  - destruct (N.eqb_spec n 10) as [E|E]; [rewrite E; reflexivity|]. destruct H; discriminate.
Qed.
Definition anything (m : mem) (o : op) : bool := true.
Definition clean (incl : bool) (escaped : root -> bool) (prog : list block) : bool :=
  clean_prog sid0 name0 escaped (types0 incl) (recognized sid0 escaped (types0 incl) prog 0) prog (solution incl escaped prog).
Definition settles (incl : bool) (escaped : root -> bool) (prog : list block) : Prop :=
  exists exits, solve incl escaped prog = Some (solution incl escaped prog, exits).
Lemma settles_ok : forall incl escaped prog, match solve incl escaped prog with Some _ => true | None => false end = true -> settles incl escaped prog.
Proof. intros incl escaped prog H. unfold settles, solution. destruct (solve incl escaped prog) as [[e x]|]; [exists x; reflexivity|discriminate]. Qed.

(** [for k in 0..len(a) { a[k] }] *)
Definition ex_loop : list block := [
  Block [Alloca 10%N; Subfield arr array_len; Call (Some ArrayLen) [(arr, false)] (tmp 2); const 0 (cursor_of 10); const 0 (start_of 10); Memcpy (tmp 2) (end_of 10)] (Jump [1%nat]);
  Block [Call (Some RangeNext) [(tmp 10, true)] (tmp 11); CompareEqual 0 (Place (tmp 11)) TagSome] (CondBr (Reg 0) 2 4);
  Block [Load 5 (field (tmp 11) 0); Store (Reg 5) (tmp 12)] (Invoke (index_at (tmp 12) (tmp 13)) 1 3);
  Block [] (Jump []);
  Block [] (Jump [])].

(** The check goes, all that the theorem asks for holds, and so does its conclusion. *)
Example C31_ex : handled sid0 name0 free (types0 false) ex_loop 0 /\ settles false free ex_loop /\ clean false free ex_loop = true /\
  unchecked sid0 free (types0 false) ex_loop 0 (solution false free ex_loop) (fun m o => no_overflow m o /\ no_wrap m o) NonNegative 1 3 /\
  resolve 1 3 = Some 1.
Proof.
  split; [apply handledb_ok; [apply types0_range|vm_compute; reflexivity]|]. split; [apply settles_ok; vm_compute; reflexivity|].
  split; [vm_compute; reflexivity|]. split; [|reflexivity].
  apply (seen_unchecked calm _ false free ex_loop 18 (memory0 3 0 0 0) NonNegative 1 3 calm_ok). vm_compute. reflexivity.
Qed.

(** [if j <= i { if i - j < len(a) { a[i - j] } }] *)
Definition ex_guard : list block := [
  Block (less 0 (par 1) (par 2) (tmp 0)) (CondBr (Reg 0) 3 1);
  Block ([Call (Some IntSub) [(par 1, false); (par 2, false)] (tmp 1); Call (Some ArrayLen) [(arr, false)] (tmp 2)] ++ less 1 (tmp 1) (tmp 2) (tmp 3)) (CondBr (Reg 1) 2 3);
  Block [] (Invoke (index_at (tmp 1) (tmp 4)) 3 4);
  Block [] (Jump []);
  Block [] (Jump [])].
(** C31 fails with wraparound: the guard [j <= i] is taken to mean [0 <= i - j]; for the largest [i] and the smallest [j] the access is at -1. *)
Theorem C31_guard_overflow_refuted : exists prog, handled sid0 name0 free (types0 false) prog 0 /\ settles false free prog /\ clean false free prog = true /\
  exists n x l, unchecked sid0 free (types0 false) prog 0 (solution false free prog) (fun _ _ => True) n x l /\ 0 <= l /\
  ~ 0 <= offset n x l < l.
Proof.
  exists ex_guard.
  split; [apply handledb_ok; [apply types0_range|vm_compute; reflexivity]|].
  split; [apply settles_ok; vm_compute; reflexivity|].
  split; [vm_compute; reflexivity|].
  exists NonNegative, (-1), 3. split; [|cbn [offset]; split; unfold int_min, two63; lia].
  apply (seen_unchecked anything (fun _ _ => True) false free ex_guard 8 (memory0 3 0 int_max int_min) NonNegative (-1) 3 (fun _ _ _ => I)). vm_compute. reflexivity.
Qed.
Print Assumptions C31_guard_overflow_refuted.

(** [[][-9223372036854775808]] *)
Definition ex_min : list block := [
  Block [BuildArray 0 arr; const int_min (tmp 1)] (Invoke (index_at (tmp 1) (tmp 4)) 1 2);
  Block [] (Jump []);
  Block [] (Jump [])].
(** C31 fails without any overflowing operation of the program: the smallest integer as index of an empty array. *)
Theorem C31_smallest_index_refuted : exists prog, handled sid0 name0 free (types0 false) prog 0 /\ settles false free prog /\ clean false free prog = true /\
  exists n x l, unchecked sid0 free (types0 false) prog 0 (solution false free prog) (fun _ _ => True) n x l /\ 0 <= l /\
  ~ 0 <= offset n x l < l.
Proof.
  exists ex_min.
  split; [apply handledb_ok; [apply types0_range|vm_compute; reflexivity]|].
  split; [apply settles_ok; vm_compute; reflexivity|].
  split; [vm_compute; reflexivity|].
  exists NonNegative, int_min, 0. split; [|cbn [offset]; split; unfold int_min, two63; lia].
  apply (seen_unchecked anything (fun _ _ => True) false free ex_min 2 (memory0 3 0 0 0) NonNegative int_min 0 (fun _ _ _ => I)). vm_compute. reflexivity.
Qed.
Print Assumptions C31_smallest_index_refuted.

(** [if 0 <= i { if i < len(a) { a = b; a[i] } }] *)
Definition ex_stale : list block := [
  Block ([const 0 (tmp 0)] ++ less 0 (par 1) (tmp 0) (tmp 1)) (CondBr (Reg 0) 3 1);
  Block ([Call (Some ArrayLen) [(arr, false)] (tmp 2)] ++ less 1 (par 1) (tmp 2) (tmp 3)) (CondBr (Reg 1) 2 3);
  Block [Memcpy (par 3) arr] (Invoke (index_at (par 1) (tmp 4)) 3 4);
  Block [] (Jump []);
  Block [] (Jump [])].
(** C31 fails when an array is replaced: its length is named as on entry again, and what was known of the old length is applied to the new one. *)
Theorem C31_stale_length_refuted : exists prog, handled sid0 name0 free (types0 false) prog 0 /\ settles false free prog /\ 
  exists n x l, unchecked sid0 free (types0 false) prog 0 (solution false free prog) (fun _ _ => True) n x l /\ 0 <= l /\
  ~ 0 <= offset n x l < l.
Proof.
  exists ex_stale.
  split; [apply handledb_ok; [apply types0_range|vm_compute; reflexivity]|].
  split; [apply settles_ok; vm_compute; reflexivity|].
  exists NonNegative, 3, 2. split; [|cbn [offset]; split; unfold int_min, two63; lia].
  apply (seen_unchecked anything (fun _ _ => True) false free ex_stale 9 (memory0 5 2 3 0) NonNegative 3 2 (fun _ _ _ => I)). vm_compute. reflexivity.
Qed.
Print Assumptions C31_stale_length_refuted.

(** [for k in 9223372036854775807..=9223372036854775807 { if k < len(a) { a[k] } }] *)
Definition ex_wrap : list block := [
  Block [Alloca 10%N; const int_max (cursor_of 10); const int_max (start_of 10); const int_max (end_of 10)] (Jump [1%nat]);
  Block [Call (Some RangeInclusiveNext) [(tmp 10, true)] (tmp 11); CompareEqual 0 (Place (tmp 11)) TagSome] (CondBr (Reg 0) 2 4);
  Block ([Load 5 (field (tmp 11) 0); Store (Reg 5) (tmp 12); Call (Some ArrayLen) [(arr, false)] (tmp 13)] ++ less 1 (tmp 12) (tmp 13) (tmp 14)) (CondBr (Reg 1) 3 1);
  Block [] (Invoke (index_at (tmp 12) (tmp 15)) 1 4);
  Block [] (Jump [])].
(** C31 fails on an inclusive range that ends at the largest integer: its cursor wraps around, still taken to be at least the start. *)
Theorem C31_inclusive_wrap_refuted : exists prog, handled sid0 name0 free (types0 true) prog 0 /\ settles true free prog /\ clean true free prog = true /\
  exists n x l, unchecked sid0 free (types0 true) prog 0 (solution true free prog) (fun _ _ => True) n x l /\ 0 <= l /\
  ~ 0 <= offset n x l < l.
Proof.
  exists ex_wrap.
  split; [apply handledb_ok; [apply types0_range|vm_compute; reflexivity]|].
  split; [apply settles_ok; vm_compute; reflexivity|].
  split; [vm_compute; reflexivity|].
  exists NonNegative, int_min, 3. split; [|cbn [offset]; split; unfold int_min, two63; lia].
  apply (seen_unchecked anything (fun _ _ => True) true free ex_wrap 23 (memory0 3 0 0 0) NonNegative int_min 3 (fun _ _ _ => I)). vm_compute. reflexivity.
Qed.
Print Assumptions C31_inclusive_wrap_refuted.

(** an iterator stepped, then rebuilt in the same block *)
Definition ex_rebuilt : list block := [
  Block [Alloca 10%N; const (-5) (cursor_of 10); const (-5) (start_of 10); const 10 (end_of 10);
         Call (Some RangeNext) [(tmp 10, true)] (tmp 11); const 0 (cursor_of 10); const 0 (start_of 10);
         CompareEqual 0 (Place (tmp 11)) TagSome] (CondBr (Reg 0) 1 3);
  Block ([Load 5 (field (tmp 11) 0); Store (Reg 5) (tmp 12); Call (Some ArrayLen) [(arr, false)] (tmp 13)] ++ less 1 (tmp 12) (tmp 13) (tmp 14)) (CondBr (Reg 1) 2 3);
  Block [] (Invoke (index_at (tmp 12) (tmp 15)) 3 4);
  Block [] (Jump []);
  Block [] (Jump [])].
(** C31 fails on an iterator that is stepped and then rebuilt in one block: the step is taken to count from where the second construction starts. *)
Theorem C31_rebuilt_iterator_refuted : exists prog, settles false free prog /\ clean false free prog = true /\
  exists n x l, unchecked sid0 free (types0 false) prog 0 (solution false free prog) (fun _ _ => True) n x l /\ 0 <= l /\
  ~ 0 <= offset n x l < l.
Proof.
  exists ex_rebuilt.
  split; [apply settles_ok; vm_compute; reflexivity|].
  split; [vm_compute; reflexivity|].
  exists NonNegative, (-5), 3. split; [|cbn [offset]; split; unfold int_min, two63; lia].
  apply (seen_unchecked anything (fun _ _ => True) false free ex_rebuilt 15 (memory0 3 0 0 0) NonNegative (-5) 3 (fun _ _ _ => I)). vm_compute. reflexivity.
Qed.
Print Assumptions C31_rebuilt_iterator_refuted.

(** [if 0 <= n { if n < len(a) { n = 7; a[n] } }] for a parameter that escapes *)
Definition ex_escaped : list block := [
  Block ([const 0 (tmp 0)] ++ less 0 (par 1) (tmp 0) (tmp 1)) (CondBr (Reg 0) 3 1);
  Block ([Call (Some ArrayLen) [(arr, false)] (tmp 2)] ++ less 1 (par 1) (tmp 2) (tmp 3)) (CondBr (Reg 1) 2 3);
  Block [const 7 (par 1)] (Invoke (index_at (par 1) (tmp 4)) 3 4);
  Block [] (Jump []);
  Block [] (Jump [])].
Definition esc1 (r : root) : bool := match r with Param 1%N => true | _ => false end.
(** C31 fails on a parameter that escapes: as an operand it is read as if nothing could have written it. *)
Theorem C31_escaped_parameter_refuted : exists prog, settles false esc1 prog /\ clean false esc1 prog = true /\
  exists n x l, unchecked sid0 esc1 (types0 false) prog 0 (solution false esc1 prog) (fun _ _ => True) n x l /\ 0 <= l /\
  ~ 0 <= offset n x l < l.
Proof.
  exists ex_escaped.
  split; [apply settles_ok; vm_compute; reflexivity|].
  split; [vm_compute; reflexivity|].
  exists NonNegative, 7, 3. split; [|cbn [offset]; split; unfold int_min, two63; lia].
  apply (seen_unchecked anything (fun _ _ => True) false esc1 ex_escaped 9 (memory0 3 0 2 0) NonNegative 7 3 (fun _ _ _ => I)). vm_compute. reflexivity.
Qed.
Print Assumptions C31_escaped_parameter_refuted.

