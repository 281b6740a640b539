(** C63: merging, dropping and narrowing the specialized copies of a module
    changes nothing that can be seen. *)
From Coq Require Import List Arith Bool Lia Sorted.
From Verif Require Import CopiesModel CopiesSpec CopiesSim CopiesRewrite CopiesPrune CopiesShare CopiesNarrow
  CopiesPipeline.
Import ListNotations.

(** Merging: it ends without a panic, whatever the digest of a body; the module
    behaves as before; and no two copies of what is left are duplicates. *)
Theorem C63_share : forall digest a, well_named a ->
  exists a', share digest a = Some a' /\ well_named a' /\ same_behaviour a a' /\
    (forall i j, i <> j -> i < length (a_copies a') -> j < length (a_copies a') -> ~ duplicates a' i j) /\
    length (a_copies a') <= length (a_copies a).
Proof. exact share_ok. Qed.
Print Assumptions C63_share.

(** Dropping: exactly the copies the declared functions reach are kept, in
    order, under their names, and all are still reached; what is announced as
    dropped is what went. *)
Theorem C63_prune : forall a, well_named a ->
  exists a' dropped, prune a = Some (a', dropped) /\ same_behaviour a a' /\
    (forall i, i < length (a_copies a') -> reached a' i) /\
    dropped + length (a_copies a') = length (a_copies a) /\
    exists keep, StronglySorted lt keep /\ (forall i, In i keep <-> reached a i) /\
      map (fun s => Some (s_original s, s_name s)) (a_copies a')
      = map (fun i => option_map (fun s => (s_original s, s_name s)) (nth_error (a_copies a) i)) keep.
Proof. exact prune_ok. Qed.
Print Assumptions C63_prune.

(** Narrowing: where copies read no evidence and every call passes the evidence
    as constants, it does not panic; copies keep their place, their name and the
    parameters that are not evidence; calls pass no evidence any more. *)
Theorem C63_narrow : forall a, well_named a -> evidence_first a -> evidence_unread a ->
  evidence_passed a -> calls_have_callees a ->
  exists a', narrow a = Some a' /\ well_named a' /\ same_behaviour a a' /\
    Forall2 (fun s s' => s_original s' = s_original s /\ s_name s' = s_name s /\
                         f_parameters (s_body s') = plain_parameters (s_body s))
            (a_copies a) (a_copies a') /\
    (forall s, In s (a_copies a') -> evidence (f_parameters (s_body s)) = 0) /\
    evidence_passed a'.
Proof.
  intros a W F U P C. destruct (narrow_total a F U P C) as (a' & E). exists a'.
  split; [assumption |]. split; [exact (narrow_well_named a W F a' E) |].
  split; [exact (narrow_behaviour a W F a' E) |]. split; [exact (narrow_result a W F a' E) |].
  split; [| exact (narrow_calls a W F P a' E)].
  intros s I. exact (narrow_result_plain a W F a' s E I).
Qed.
Print Assumptions C63_narrow.

(** Narrowing never changes what is seen, even where a call does not pass its
    evidence as constants: then it panics. *)
Theorem C63_narrow_safe : forall a a', well_named a -> evidence_first a -> narrow a = Some a' ->
  same_behaviour a a'.
Proof. intros a a' W F. exact (narrow_behaviour a W F a'). Qed.
Print Assumptions C63_narrow_safe.

(** The three in the order they run: each leaves what the next one needs. *)
Theorem C63_pipeline : forall digest a, well_named a -> evidence_first a -> evidence_unread a ->
  evidence_passed a -> calls_have_callees a ->
  exists a1 a2 dropped a3, share digest a = Some a1 /\ prune a1 = Some (a2, dropped) /\
    narrow a2 = Some a3 /\ same_behaviour a a3 /\ well_named a3 /\
    (forall s, In s (a_copies a3) -> evidence (f_parameters (s_body s)) = 0) /\ evidence_passed a3.
Proof.
  intros digest a W F U P C. apply pipeline_ok; [assumption |]. split; [assumption |]. auto.
Qed.
Print Assumptions C63_pipeline.

(** * Examples *)

Lemma operations_list : forall f o, operations f o <->
  In o (flat_map (fun b => b_operations b ++ match t_kind (b_terminator b) with TInvoke o _ _ => [o] | _ => [] end)
          (f_blocks f)).
Proof.
  intros f o. rewrite in_flat_map. split.
  - intros (b & Ib & H). exists b. split; [assumption |]. apply in_or_app.
    destruct H as [H | (n & e & H)]; [now left | right; rewrite H; now left].
  - intros (b & Ib & H). exists b. split; [assumption |]. apply in_app_or in H as [H | H]; [now left |]. right.
    destruct (t_kind (b_terminator b)); try destruct H as [<- | []]; try destruct H. eauto.
Qed.

(** A closed body without conditions or yields that names [copies] as callees. *)
Definition plain_block (os : list (operation value)) : block value := Block os (Term 0 TReturn).

(** The function 0 of the module 9 calls two copies of the function 5 of module
    8, which call themselves and are the same, and a third copy is not called. *)
Definition call_copy (i span : nat) (x y : value) : operation value :=
  Op None span [VFunction (9, 1 + i); VDictionary 7; x; y] (KCall 1 0).
Definition copy_body (name i : nat) : function :=
  Body name 0 [Param 0 PDictionary; Param 1 (PParameter 0); Param 2 PReturn] [3]
    [plain_block [call_copy i 4 (VParameter 1) (VParameter 2)]].
Definition example : artifacts :=
  Artifacts 9
    [Some (Body 100 0 [Param 2 PReturn] []
       [plain_block [call_copy 0 1 (VOther 1) (VOther 2); call_copy 1 2 (VOther 3) (VOther 4)]])]
    [Specialization (8, 5) 200 (copy_body 200 0);
     Specialization (8, 5) 201 (copy_body 201 1);
     Specialization (8, 6) 202 (copy_body 202 2)].

Ltac bodies O :=
  destruct O as [O | (? & O & <-)]; cbn in O;
  repeat (destruct O as [O | O]; [try (injection O as <-); try subst |]); try contradiction.

Ltac each H := cbn in H; repeat (destruct H as [<- | H]); try contradiction.

Lemma example_named : well_named example.
Proof.
  constructor.
  - intros f O. constructor.
    + intros o i g Io N Cg. apply operations_list in Io. bodies O; each Io; cbn in *;
        (destruct i as [|i]; [split; [reflexivity | eauto] |]);
        (do 3 (destruct i as [|i]; cbn in N; [discriminate N |])); destruct i; discriminate N.
    + intros o g r Io K. apply operations_list in Io. bodies O; each Io; discriminate K.
    + intros b g y n Ib T. bodies O; each Ib; discriminate T.
    + intros b g r Ib T. bodies O; each Ib; discriminate T.
  - intros f g O N C. apply function_ids_names in N. bodies O; each N; cbn; lia.
Qed.

Lemma example_evidence : evidence_first example /\ evidence_unread example /\ evidence_passed example /\
  calls_have_callees example.
Proof.
  split; [| split; [| split]].
  - intros s I. exists [Param 0 PDictionary], [Param 1 (PParameter 0); Param 2 PReturn].
    each I; (split; [reflexivity |]); split; intros p Ip; each Ip; try reflexivity; discriminate.
  - intros s i I [(o & Io & Iv) | (b & Ib & H)].
    + apply operations_list in Io. each I; each Io; cbn in Iv;
        destruct Iv as [Iv | [Iv | [Iv | [Iv | []]]]]; try discriminate Iv; injection Iv as <-;
        cbn; eexists; (split; [reflexivity |]); cbn; discriminate.
    + each I; each Ib; destruct H as [(y & n & T) | (r & T)]; discriminate T.
  - intros f o v r callee args i s O Io K Eo Ec Ns. apply operations_list in Io.
    bodies O; each Io; cbn in K, Eo; inversion K; inversion Eo; subst;
      cbn in Ns; injection Ns as <-; eexists [_], [_; _];
      (split; [reflexivity |]); (split; [reflexivity |]); (split; [reflexivity |]);
      intros x Ix; each Ix; eauto.
  - intros f o v r O Io K. apply operations_list in Io. bodies O; each Io; discriminate.
Qed.

(** The duplicates are merged and the third copy dropped. *)
Example C63_share_example :
  option_map (fun a => (map s_name (a_copies a), declared_ids (a_functions a))) (share (fun _ => 0) example)
  = Some ([200; 202], [(9, 1); (9, 1)]).
Proof. vm_compute. reflexivity. Qed.

Example C63_prune_example :
  match share (fun _ => 0) example with
  | Some a => option_map (fun p => (map s_name (a_copies (fst p)), snd p)) (prune a)
  | None => None
  end = Some ([200], 1).
Proof. vm_compute. reflexivity. Qed.

Example C63_narrow_example :
  option_map (fun a => map (fun s => (f_parameters (s_body s),
                map (fun b => map o_operands (b_operations b)) (f_blocks (s_body s)))) (a_copies a)) (narrow example)
  = Some (map (fun i => ([Param 1 (PParameter 0); Param 2 PReturn],
                         [[[VFunction (9, 1 + i); VParameter 0; VParameter 1]]])) [0; 1; 2]).
Proof. vm_compute. reflexivity. Qed.

Example C63_narrow_safe_example : same_behaviour example
  match narrow example with Some a => a | None => example end.
Proof.
  destruct (narrow example) as [a|] eqn:E; [| discriminate E].
  exact (C63_narrow_safe example a example_named (proj1 example_evidence) E).
Qed.

Example C63_pipeline_example : exists a1 a2 dropped a3, share (fun _ => 0) example = Some a1 /\
  prune a1 = Some (a2, dropped) /\ narrow a2 = Some a3 /\ same_behaviour example a3 /\ length (a_copies a3) = 1.
Proof.
  destruct example_evidence as (F & U & P & C).
  destruct (C63_pipeline (fun _ => 0) example example_named F U P C) as (a1 & a2 & d & a3 & E1 & E2 & E3 & S & _).
  exists a1, a2, d, a3. split; [assumption |]. split; [assumption |]. split; [assumption |].
  split; [assumption |]. vm_compute in E1. injection E1 as <-. vm_compute in E2. injection E2 as <- <-.
  vm_compute in E3. injection E3 as <-. reflexivity.
Qed.

(** * What merging misses

    The module documentation says the repeated rounds close the mutually
    recursive case.  They do not: a round reads a body through the merges
    already decided, so each of two pairs waits for the other. *)
Definition pair_body (name i : nat) : function :=
  Body name 0 [] [] [plain_block [Op None 0 [VFunction (9, 1 + i)] (KCall 0 0)]].
Definition pairs : artifacts :=
  Artifacts 9
    [Some (Body 100 0 [] [] [plain_block [Op None 0 [VFunction (9, 1)] (KCall 0 0);
                                          Op None 0 [VFunction (9, 3)] (KCall 0 0)]])]
    [Specialization (8, 5) 200 (pair_body 200 1);
     Specialization (8, 6) 201 (pair_body 201 0);
     Specialization (8, 5) 202 (pair_body 202 3);
     Specialization (8, 6) 203 (pair_body 203 2)].

Theorem C63_mutual_refuted : ~ (forall digest a a', well_named a -> share digest a = Some a' ->
  forall i j, i <> j -> ~ mergeable a' i j).
Proof.
  intros H.
  assert (W : well_named pairs).
  { constructor.
    - intros f O. constructor.
      + intros o i g Io N Cg. apply operations_list in Io. bodies O; each Io; cbn in *;
          (destruct i as [|i]; [split; [reflexivity | eauto] |]); destruct i; discriminate N.
      + intros o g r Io K. apply operations_list in Io. bodies O; each Io; discriminate K.
      + intros b g y n Ib T. bodies O; each Ib; discriminate T.
      + intros b g r Ib T. bodies O; each Ib; discriminate T.
    - intros f g O N C. apply function_ids_names in N. bodies O; each N; cbn; lia. }
  apply (H (fun _ => 0) pairs pairs W eq_refl 0 2); [discriminate |].
  exists (fun f g => f = g \/ (f = (9, 1) /\ g = (9, 3)) \/ (f = (9, 2) /\ g = (9, 4))).
  split; [right; left; auto |].
  intros f g [-> | [(-> & ->) | (-> & ->)]]; [now left | right | right].
  - exists 0, 2. eexists; eexists. split; [reflexivity |]. split; [reflexivity |].
    split; [reflexivity |]. split; [reflexivity |]. split; [reflexivity |].
    constructor; cbn; auto. constructor; [| constructor].
    constructor; cbn; [| reflexivity | apply alike_same; discriminate]. constructor; [| constructor].
    constructor; cbn; auto. constructor; [| constructor]. apply alike_function. auto.
  - exists 1, 3. eexists; eexists. split; [reflexivity |]. split; [reflexivity |].
    split; [reflexivity |]. split; [reflexivity |]. split; [reflexivity |].
    constructor; cbn; auto. constructor; [| constructor].
    constructor; cbn; [| reflexivity | apply alike_same; discriminate]. constructor; [| constructor].
    constructor; cbn; auto. constructor; [| constructor]. apply alike_function. auto.
Qed.
Print Assumptions C63_mutual_refuted.

(** Merging leaves the two pairs as they are, even when every digest collides. *)
Example C63_mutual_example : share (fun _ => 0) pairs = Some pairs.
Proof. vm_compute. reflexivity. Qed.
