(** C54: testing a boolean where it was computed, instead of where it was
    stored or negated, does not change what a program does. *)
From Coq Require Import List Arith Bool Lia.
From Verif Require Import FrameModel FrameSpec FrameProofs FrameExample.
From Verif Require Import NegationModel NegationSpec NegationProofs NegationRuns NegationEnds.
Import ListNotations.

(** Every call that does not panic ends as before the pass, in the same number
    of blocks: on every machine with booleans, for all parameters and worlds,
    provided no load goes through a loaded address. *)
Theorem C54_same_calls_partial : forall (other world : Type) (m : machine other world) p p',
  boolean_machine m -> single_definitions p -> definitions_first p -> targets_exist p ->
  loads_no_address p -> forward_boolean_negations p = Some (Some p') -> same_calls m p p'.
Proof.
  intros other world m p p' Hb H1 H2 H3 H4 E. exact (pass_same_calls m p Hb H1 H2 H3 H4 p' E).
Qed.
Print Assumptions C54_same_calls_partial.

(** The body after the pass. *)
Definition with_forwarded_conditions (p : body) : body :=
  match forward_boolean_negations p with Some (Some p') => p' | _ => p end.

(** A whole program, each function rewritten: every call of a function that
    ends, ends the same. *)
Theorem C54_same_program_partial : forall (other world : Type) (base : machine other world) enters result
    bodies,
  boolean_machine base ->
  (forall f, single_definitions (bodies f) /\ definitions_first (bodies f) /\
     targets_exist (bodies f) /\ loads_no_address (bodies f)) ->
  same_program base enters result bodies (fun f => with_forwarded_conditions (bodies f)).
Proof.
  intros other world base enters result bodies Hb H. apply program_same_on. intros n depth f.
  unfold with_forwarded_conditions. destruct (H f) as (H1 & H2 & H3 & H4).
  destruct (forward_boolean_negations (bodies f)) as [[p'|]|] eqn:E;
    try (intros k params w _; reflexivity).
  apply same_calls_ends. eapply C54_same_calls_partial; eauto. now apply program_boolean.
Qed.
Print Assumptions C54_same_program_partial.

(** The walk back from a condition always ends. *)
Theorem C54_walks_end : forall p,
  definitions_first p -> targets_exist p -> all_reachable p ->
  forward_boolean_negations p <> None.
Proof. exact pass_ends. Qed.
Print Assumptions C54_walks_end.

(** A branch on the negation of a register that a load or a comparison defines
    is rewritten to test another register. *)
Theorem C54_negation_skipped : forall p b bl r yes no d s q d' o',
  single_definitions p -> definitions_first p -> targets_exist p -> all_reachable p ->
  nth_error p b = Some bl -> term bl = TCondBr (OReg r) yes no ->
  next_operation p d (Op KCompareEqual [OReg s; OPattern (LBool q)] (Some r)) ->
  next_operation p d' o' -> op_result o' = Some s -> (op_kind o' = KLoad \/ op_kind o' = KCompareEqual) ->
  exists p' bl' s', forward_boolean_negations p = Some (Some p') /\ nth_error p' b = Some bl' /\ s' <> r /\
    (term bl' = TCondBr (OReg s') yes no \/ term bl' = TCondBr (OReg s') no yes).
Proof. intros. eapply pass_skips_negation; eauto. Qed.
Print Assumptions C54_negation_skipped.

Definition equal_to (r : nat) (s : operand) (b : bool) : operation :=
  Op KCompareEqual [s; OPattern (LBool b)] (Some r).

(** [let n = not c; if n { if not n … } …], through a cell. *)
Definition twice (forwarded : bool) : body :=
  [ Block [alloca 0 7; equal_to 1 (OParam 0) true; equal_to 2 (OReg 1) false;
           store (OReg 2) (OReg 0); load 3 (OReg 0)]
      (if forwarded then TCondBr (OReg 1) 2 1 else TCondBr (OReg 3) 1 2);
    Block [if forwarded then equal_to 4 (OReg 1) true else equal_to 4 (OReg 0) false]
      (TCondBr (OReg (if forwarded then 1 else 4)) 3 2);
    Block [sum_into (number 1) (number 2) (OParam 1)] TReturn;
    Block [sum_into (number 3) (number 4) (OParam 1)] TReturn ].

Lemma small_boolean : boolean_machine small.
Proof. intros b. split; reflexivity. Qed.

Lemma edges_reach : forall p, (forall b, 0 < b -> b < length p -> exists a bl, a < b /\ nth_error p a = Some bl /\ In b (successors (term bl))) ->
  all_reachable p.
Proof.
  intros p H b. induction b as [b IH] using (well_founded_induction Nat.lt_wf_0). intros Hb.
  destruct (Nat.eq_dec b 0) as [-> |Hn]; [constructor|].
  destruct (H b ltac:(lia) Hb) as (a & bl & Ha & Eb & Hi).
  assert (G := IH a Ha ltac:(lia)).
  assert (K : forall i, i <= length (operations bl) -> avoiding p (fun _ => False) (a, i)).
  { induction i as [|i IHi]; auto. intros Hl. destruct (nth_error (operations bl) i) as [o|] eqn:Eo.
    - apply (avoiding_next p _ a i o); [apply IHi; lia| |easy]. exists bl. auto.
    - apply nth_error_None in Eo. lia. }
  eapply avoiding_jump; [apply (K (length (operations bl))); auto| |exact Hi]. exists bl. auto.
Qed.

Lemma twice_shape : single_definitions (twice false) /\ definitions_first (twice false) /\
  targets_exist (twice false) /\ loads_no_address (twice false) /\ all_reachable (twice false).
Proof.
  split; [|split; [|split; [|split]]].
  - unfold single_definitions. cbn. repeat (constructor; [cbn; lia|]). constructor.
  - apply ordered_first. reflexivity.
  - intros bl c Hb Hc. cbn in Hb. repeat (destruct Hb as [<- |Hb]; [cbn in Hc; cbn; lia|]). easy.
  - intros o o' r Ho Hk Hr Ho' Er. cbn in Ho.
    repeat (destruct Ho as [<- |Ho]; [try discriminate Hk|]); try easy.
    cbn in Hr. destruct Hr as [Hr|[]]. inversion Hr; subst r. cbn in Ho'.
    repeat (destruct Ho' as [<- |Ho']; [try discriminate Er; now split|]); try easy.
  - apply edges_reach. intros b H0 Hb. cbn in Hb.
    destruct b as [|[|[|[|]]]]; try lia; [exists 0|exists 0|exists 1]; eexists; (split; [lia|]);
      (split; [reflexivity|]); cbn; auto.
Qed.

Example C54_twice_example :
  forward_boolean_negations (twice false) = Some (Some (twice true)) /\
  forward_boolean_negations (twice true) = Some None /\
  (forall b, call small 9 (twice false) [VOther 0; VOther 1] [Some (VBool b); None]
     = Returned [Some (VBool b); Some (VOther 3)]) /\
  same_calls small (twice false) (twice true).
Proof.
  split; [vm_compute; reflexivity|]. split; [vm_compute; reflexivity|].
  split; [intros [|]; vm_compute; reflexivity|].
  destruct twice_shape as (H1 & H2 & H3 & H4 & _).
  apply C54_same_calls_partial; auto using small_boolean.
Qed.

(** A cell written twice, a cell read before its store, a cell given to a call,
    and one read in a block its store does not dominate, are not looked
    through. *)
Definition written_twice : body :=
  [ Block [alloca 0 7; equal_to 1 (OParam 0) true; store (OReg 1) (OReg 0); load 2 (OReg 0);
           store (OReg 1) (OReg 0)] (TCondBr (OReg 2) 1 1);
    Block [] TReturn ].
Definition read_early : body :=
  [ Block [alloca 0 7; store (OConst (LBool true)) (OReg 0); equal_to 1 (OParam 0) true]
      (TGoto 1);
    Block [load 2 (OReg 3)] (TCondBr (OReg 2) 2 2);
    Block [alloca 3 7; load 4 (OReg 3); store (OReg 1) (OReg 3)] (TCondBr (OReg 4) 1 1) ].
Definition lent : body :=
  [ Block [alloca 0 7; equal_to 1 (OParam 0) true; store (OReg 1) (OReg 0);
           sum_into (OReg 0) (number 2) (OParam 1); load 2 (OReg 0)] (TCondBr (OReg 2) 1 1);
    Block [] TReturn ].
Definition one_arm : body :=
  [ Block [alloca 0 7; equal_to 1 (OParam 0) true; equal_to 3 (OParam 1) true] (TCondBr (OReg 3) 1 2);
    Block [store (OReg 1) (OReg 0)] (TGoto 2);
    Block [load 2 (OReg 0)] (TCondBr (OReg 2) 3 3);
    Block [] TReturn ].

Example C54_left_alone :
  map forward_boolean_negations [written_twice; read_early; lent; one_arm]
  = repeat (Some None) 4.
Proof. vm_compute. reflexivity. Qed.

(** The full statement does not hold: a load through a loaded address is taken
    for a load of a boolean, and the branch is made to test the address.
    Block 0 is the code of [if a[i] { … }], where [a[i]] is a call that gives
    back the place of its result: [%0] is the storage of the place, the call
    writes it, [%1] is the place and [%2] the boolean. *)
Definition pointer_slot (forwarded : bool) : body :=
  [ Block [Op (KOther false 2) [] (Some 0); sum_into (number 1) (number 0) (OReg 0);
           load 1 (OReg 0); load 2 (OReg 1); equal_to 3 (OParam 0) true]
      (TCondBr (OReg (if forwarded then 1 else 2)) 1 2);
    Block [sum_into (number 1) (number 2) (OParam 0)] TReturn;
    Block [sum_into (number 3) (number 4) (OParam 0)] TReturn ].

Theorem C54_loaded_address_refuted : exists p p',
  boolean_machine small /\ single_definitions p /\ definitions_first p /\ targets_exist p /\
  all_reachable p /\ forward_boolean_negations p = Some (Some p') /\
  exists n params w, ends (call small n p params w) /\ call small n p' params w = Panicked.
Proof.
  exists (pointer_slot false), (pointer_slot true). split; [exact small_boolean|].
  split; [|split; [|split; [|split; [|split]]]].
  - unfold single_definitions. cbn. repeat (constructor; [cbn; lia|]). constructor.
  - apply ordered_first. reflexivity.
  - intros bl c Hb Hc. cbn in Hb. repeat (destruct Hb as [<- |Hb]; [cbn in Hc; cbn; lia|]). easy.
  - apply edges_reach. intros b H0 Hb. cbn in Hb.
    destruct b as [|[|[|]]]; try lia; exists 0; eexists; (split; [lia|]);
      (split; [reflexivity|]); cbn; auto.
  - vm_compute. reflexivity.
  - exists 9, [VOther 0], [Some (VBool true); Some (VBool true); None]. split.
    + vm_compute. exact I.
    + vm_compute. reflexivity.
Qed.
Print Assumptions C54_loaded_address_refuted.
