(** C55: keeping one of several equal blocks, and jumping over empty ones, does
    not change what a program does. *)
From Coq Require Import List Arith Bool Lia Relations.
From Verif Require Import FrameModel FrameSpec NegationSpec FrameProofs FrameExample.
From Verif Require Import TailMergeModel TailMergeSpec TailMergeProofs TailMergeEnds TailMergeEqual.
From Verif Require NegationEnds.
Import ListNotations.

(** Calls that do not panic go through the same answers after the pass, at
    least as fast: on every machine, for all hash functions, parameters and
    worlds, provided blocks that look alike keep their results to themselves. *)
Theorem C55_same_runs_partial : forall (other world : Type) (m : machine other world) hash p q,
  single_definitions p -> gives_results m p ->
  (forall b b', alike p b b' -> keeps_results p b) ->
  simplify_tails hash p = Some (Some q) -> same_runs m p q.
Proof. intros other world m hash p q. exact (simplify_alike m hash p q). Qed.
Print Assumptions C55_same_runs_partial.

(** In a body without loops nothing has to be assumed of the blocks that look
    alike: a definition comes before its uses. *)
Theorem C55_same_runs_loop_free : forall (other world : Type) (m : machine other world) hash p q,
  single_definitions p -> gives_results m p -> definitions_first p -> targets_exist p -> loop_free p ->
  simplify_tails hash p = Some (Some q) -> same_runs m p q.
Proof. exact simplify_loop_free. Qed.
Print Assumptions C55_same_runs_loop_free.

(** The body after the pass. *)
Definition with_simplified_tails (hash : list (kind * list hashed) -> hashed_end -> nat) (p : body) : body :=
  match simplify_tails hash p with Some (Some q) => q | _ => p end.

(** A whole program, each function rewritten: every call of a function that
    ends, ends the same. *)
Theorem C55_same_program_partial : forall (other world : Type) (base : machine other world) enters result
    hash bodies,
  (forall n depth f, gives_results (program_machine base enters result bodies n depth) (bodies f)) ->
  (forall f, single_definitions (bodies f) /\
     ((forall b b', alike (bodies f) b b' -> keeps_results (bodies f) b) \/
      (definitions_first (bodies f) /\ targets_exist (bodies f) /\ loop_free (bodies f)))) ->
  same_program base enters result bodies (fun f => with_simplified_tails hash (bodies f)).
Proof.
  intros other world base enters result hash bodies Hg H. apply program_same_on. intros n depth f.
  unfold with_simplified_tails. destruct (H f) as (H1 & H2).
  destruct (simplify_tails hash (bodies f)) as [[p'|]|] eqn:E; try (intros k params w _; reflexivity).
  apply same_runs_ends. destruct H2 as [H2|(H2 & H3 & H4)].
  - eapply C55_same_runs_partial; eauto.
  - eapply C55_same_runs_loop_free; eauto.
Qed.
Print Assumptions C55_same_program_partial.

(** Of two blocks that are equal up to the registers they define, and that lead
    to the same later blocks, one is not reached any more. *)
Theorem C55_equal_blocks_merged : forall hash p b b' bl bl', single_definitions p -> targets_exist p ->
  b <> b' -> b <> 0 -> b' <> 0 -> visited p b -> visited p b' ->
  nth_error p b = Some bl -> nth_error p b' = Some bl' -> same_block bl bl' ->
  (forall c, In c (successors (term bl)) -> b < c /\ b' < c) ->
  exists q, simplify_tails hash p = Some (Some q) /\ (~ visited q b \/ ~ visited q b').
Proof. exact equal_blocks_merged. Qed.
Print Assumptions C55_equal_blocks_merged.

(** The search for the blocks control may reach ends, and finds just these. *)
Theorem C55_search_exact : forall p, targets_exist p -> p <> [] ->
  exists reached, reachable_blocks p = Some reached /\ forall b, In b reached <-> visited p b.
Proof.
  intros p Ht Hp. destruct (search_ends p Ht Hp) as (reached & E). exists reached. split; auto.
  exact (search_exact p reached E).
Qed.
Print Assumptions C55_search_exact.

Definition no_hash : list (kind * list hashed) -> hashed_end -> nat := fun _ _ => 0.
Definition made (r n : nat) : operation := Op (KOther false n) [] (Some r).

Lemma small_gives : forall p, forallb (fun o => match op_result o, op_kind o with
    | None, _ | _, KAlloca _ | _, KStackSave | _, KLoad | _, KCompareEqual | _, KOther _ _ => true
    | _, _ => false
    end) (body_operations p) = true -> gives_results small p.
Proof.
  intros p H o Ho Hr. rewrite forallb_forall in H. specialize (H o Ho).
  destruct (op_result o) as [r|]; [|easy]. destruct (op_kind o) eqn:K; auto; try discriminate.
  intros vs w w' g E. cbn in E. inversion E; subst. discriminate.
Qed.

(** [if a { f(); x } else { f(); x }], the arms of two blocks each; the entry
    of the last block is an empty block. *)
Definition arms (simplified : bool) : body :=
  [ Block [] (if simplified then TGoto 3 else TCondBr (OParam 0) 1 3);
    Block [made 1 7; sum_into (OReg 1) (number 1) (OParam 1)] (TGoto (if simplified then 4 else 2));
    Block [made 2 8; sum_into (OReg 2) (number 2) (OParam 2)] (if simplified then TReturn else TGoto 5);
    Block [made 3 7; sum_into (OReg 3) (number 1) (OParam 1)] (TGoto 4);
    Block [made 4 8; sum_into (OReg 4) (number 2) (OParam 2)] (if simplified then TReturn else TGoto 5);
    Block [] (if simplified then TReturn else TGoto 6);
    Block [] TReturn ].

Lemma arms_shape : single_definitions (arms false) /\ gives_results small (arms false) /\
  definitions_first (arms false) /\ targets_exist (arms false) /\ loop_free (arms false).
Proof.
  split; [|split; [|split; [|split]]].
  - unfold single_definitions. cbn. repeat (constructor; [cbn; lia|]). constructor.
  - apply small_gives. reflexivity.
  - apply NegationEnds.ordered_first. reflexivity.
  - intros bl c Hb Hc. cbn in Hb. repeat (destruct Hb as [<- |Hb]; [cbn in Hc; cbn; lia|]). easy.
  - exists (fun b => 9 - b). intros b c (bl & E & Hc).
    do 7 (destruct b as [|b]; [cbn in E; inversion E; subst; cbn in Hc; lia|]). destruct b; discriminate E.
Qed.

Example C55_arms_example :
  simplify_tails no_hash (arms false) = Some (Some (arms true)) /\
  same_runs small (arms false) (arms true) /\
  (forall b, call small 9 (arms false) [VOther 0; VOther 1; VOther 2] [Some (VBool b); None; None]
     = Returned [Some (VBool b); Some (VOther 8); Some (VOther 10)]) /\
  forall b, call small 3 (arms true) [VOther 0; VOther 1; VOther 2] [Some (VBool b); None; None]
     = Returned [Some (VBool b); Some (VOther 8); Some (VOther 10)].
Proof.
  split; [vm_compute; reflexivity|]. split.
  - destruct arms_shape as (H1 & H2 & H3 & H4 & H5).
    apply (C55_same_runs_loop_free _ _ small no_hash); auto.
  - split; intros [|]; vm_compute; reflexivity.
Qed.

Example C55_equal_example : exists bl bl', nth_error (arms false) 2 = Some bl /\
  nth_error (arms false) 4 = Some bl' /\ same_block bl bl' /\ visited (arms false) 2 /\ visited (arms false) 4.
Proof.
  eexists. eexists. split; [reflexivity|]. split; [reflexivity|]. split; [|split].
  - exists [(2, 4)]. split; [|reflexivity]. cbn.
    eapply same_one; [reflexivity|constructor|reflexivity|].
    eapply same_one; [reflexivity| |reflexivity|constructor].
    repeat (constructor; cbn; auto).
  - eapply Relation_Operators.rtn1_trans with 1; [eexists; split; [reflexivity|cbn; auto]|].
    eapply Relation_Operators.rtn1_trans with 0; [eexists; split; [reflexivity|cbn; auto]|constructor].
  - eapply Relation_Operators.rtn1_trans with 3; [eexists; split; [reflexivity|cbn; auto]|].
    eapply Relation_Operators.rtn1_trans with 0; [eexists; split; [reflexivity|cbn; auto]|constructor].
Qed.

(** Blocks that differ in an operation, in an operand, in the register of
    another block they use, in their order of results, in their terminator or
    its targets; blocks that end in an invoked operation; and a block with an
    equal but unreachable one: left as they are. *)
Definition differ (a b : block) : body :=
  [ Block [made 1 7; made 2 8] (TCondBr (OParam 0) 1 2); a; b;
    Block [sum_into (OReg 1) (number 1) (OParam 1)] TReturn;
    Block [sum_into (OReg 2) (number 1) (OParam 1)] TReturn ].

Example C55_left_alone :
  map (simplify_tails no_hash)
    [ differ (Block [made 3 7] (TGoto 3)) (Block [made 4 8] (TGoto 3));
      differ (Block [sum_into (OReg 1) (number 1) (OParam 1)] (TGoto 3))
             (Block [sum_into (OReg 1) (number 2) (OParam 1)] (TGoto 3));
      differ (Block [sum_into (OReg 1) (number 1) (OParam 1)] (TGoto 3))
             (Block [sum_into (OReg 1) (number 1) (OParam 2)] (TGoto 3));
      differ (Block [sum_into (OReg 1) (number 1) (OParam 1)] (TGoto 3))
             (Block [sum_into (OReg 2) (number 1) (OParam 1)] (TGoto 3));
      differ (Block [made 3 7; made 4 7; sum_into (OReg 3) (OReg 4) (OParam 1)] (TGoto 3))
             (Block [made 5 7; made 6 7; sum_into (OReg 6) (OReg 5) (OParam 1)] (TGoto 3));
      differ (Block [made 3 7; sum_into (OReg 3) (OReg 3) (OParam 1)] (TGoto 3))
             (Block [made 4 7; sum_into (OReg 4) (OReg 1) (OParam 1)] (TGoto 3));
      differ (Block [made 3 7] (TGoto 3)) (Block [made 4 7] (TGoto 4));
      differ (Block [made 3 7] (TGoto 3)) (Block [made 4 7] TReturn);
      differ (Block [made 3 7] TPropagateError) (Block [made 4 7] TReturn);
      differ (Block [made 3 7] (TCondBr (OParam 0) 3 4)) (Block [made 4 7] (TCondBr (OParam 0) 4 3));
      differ (Block [made 3 7] (TCondBr (OParam 0) 3 4)) (Block [made 4 7] (TCondBr (OParam 1) 3 4));
      differ (Block [made 3 7] (TYield (OParam 0) 3)) (Block [made 4 7] (TYield (OParam 0) 4));
      differ (Block [made 3 7] (TYield (OParam 0) 3)) (Block [made 4 7] (TYield (OParam 1) 3));
      differ (Block [] (TInvoke (made 3 7) 3 4)) (Block [] (TInvoke (made 4 7) 3 4));
      [ Block [] (TCondBr (OParam 0) 1 2); Block [made 1 7] TReturn; Block [made 2 8] TReturn;
        Block [made 3 7] TReturn ];
      [ Block [made 1 7] (TCondBr (OParam 0) 1 0); Block [made 2 7] TReturn ];
      [ Block [] TReturn ] ]
  = repeat (Some None) 17.
Proof. vm_compute. reflexivity. Qed.

(** Branches both sides of which lead to the same block, empty blocks that
    lead to one another for ever, invoked operations and yields. *)
Example C55_jumps :
  simplify_tails no_hash
    [ Block [made 1 7] (TCondBr (OParam 0) 1 1); Block [made 2 8] (TCondBr (OParam 0) 2 3);
      Block [] (TGoto 4); Block [] (TInvoke (made 3 9) 2 5); Block [] (TYield (OParam 0) 5);
      Block [] (TGoto 6); Block [] (TGoto 5); Block [] TFailureDuringCleanup ]
  = Some (Some
    [ Block [made 1 7] (TGoto 1); Block [made 2 8] (TCondBr (OParam 0) 4 3);
      Block [] (TGoto 4); Block [] (TInvoke (made 3 9) 4 5); Block [] (TYield (OParam 0) 5);
      Block [] (TGoto 6); Block [] (TGoto 5); Block [] TFailureDuringCleanup ]).
Proof. vm_compute. reflexivity. Qed.

(** The full statement does not hold with loops: the block before a loop and
    the block at its end are equal, the result of the first is used in the
    loop, and the second is kept. *)
Definition before_loop (merged : bool) : body :=
  [ Block [] (TCondBr (OParam 0) (if merged then 3 else 1) 4);
    Block [made 0 7; sum_into (OReg 0) (number 2) (OParam 1)] (TGoto 2);
    Block [sum_into (OReg 0) (number 1) (OParam 1)] (TCondBr (OParam 2) 3 4);
    Block [made 1 7; sum_into (OReg 1) (number 2) (OParam 1)] (TGoto 2);
    Block [] TReturn ].

Theorem C55_loop_refuted : exists p q,
  single_definitions p /\ gives_results small p /\ definitions_first p /\ targets_exist p /\
  simplify_tails no_hash p = Some (Some q) /\
  exists n params w, ends (call small n p params w) /\ call small n q params w = Panicked.
Proof.
  exists (before_loop false), (before_loop true).
  split; [|split; [|split; [|split; [|split]]]].
  - unfold single_definitions. cbn. repeat (constructor; [cbn; lia|]). constructor.
  - apply small_gives. reflexivity.
  - intros [b i] o r [x j] (bl & Eb & Eo) Er Hu. cbn [fst snd] in *.
    assert (Hd : (b = 1 /\ i = 0 /\ r = 0) \/ (b = 3 /\ i = 0 /\ r = 1)).
    { destruct b as [|[|[|[|[|b]]]]]; cbn in Eb; try (destruct b; discriminate Eb); injection Eb as <-;
        cbn in Eo; destruct i as [|[|i]]; cbn in Eo; try (destruct i; discriminate Eo); try discriminate Eo;
        injection Eo as <-; cbn in Er; try discriminate Er; injection Er as <-; auto. }
    assert (Hx : (r = 0 -> (x = 1 /\ j = 1) \/ x = 2) /\ (r = 1 -> x = 3 /\ j = 1)).
    { destruct Hu as [(o' & (xl & Ex & Eo') & Hin)|(t & (xl & Ex & Ej & ->) & Hin)]; cbn [fst snd] in *;
        destruct x as [|[|[|[|[|x]]]]]; cbn in Ex; try (destruct x; discriminate Ex); injection Ex as <-;
        try (cbn in Eo'; destruct j as [|[|j]]; cbn in Eo'; try (destruct j; discriminate Eo');
             try discriminate Eo'; injection Eo' as <-); cbn in Hin; split; intros ->; auto;
        repeat (destruct Hin as [Hin|Hin]; [discriminate Hin|]); easy. }
    destruct Hd as [(-> & -> & ->)|(-> & -> & ->)].
    + intros A. assert (G : forall y, avoiding (before_loop false) (eq (1, 0)) y ->
        fst y = 0 \/ y = (1, 0) \/ fst y = 4).
      { intros y H. induction H as [|b i o' H IH (yl & Ey & Eoy) Hn|b i t c H IH (yl & Ey & Ei & ->) Hc]; cbn in *; auto.
        - destruct IH as [-> |[E| ->]]; auto. now destruct Hn.
        - destruct IH as [-> |[E| ->]].
          + inversion Ey; subst. cbn in Hc. destruct Hc as [<-|[<-|[]]]; auto.
          + injection E as -> ->. injection Ey as <-. discriminate Ei.
          + inversion Ey; subst. easy. }
      destruct Hx as [Hx _]. destruct (Hx eq_refl) as [(-> & ->)| ->];
        destruct (G _ A) as [E|[E|E]]; discriminate E.
    + intros A. destruct Hx as [_ Hx]. destruct (Hx eq_refl) as [-> ->].
      inversion A as [|b i o' H Ho Hn|]; subst. now apply Hn.
  - intros bl c Hb Hc. cbn in Hb. repeat (destruct Hb as [<- |Hb]; [cbn in Hc; cbn; lia|]). easy.
  - vm_compute. reflexivity.
  - exists 9, [VOther 0; VOther 1; VOther 2], [Some (VBool true); None; Some (VBool false)].
    split; vm_compute; [exact I|reflexivity].
Qed.
Print Assumptions C55_loop_refuted.
