(** C51: a match runs the arm of the value. *)
From Coq Require Import List Arith Bool Lia.
From Verif Require Import MatchModel MatchSpec MatchProofs MatchVariants MatchAccept.
Import ListNotations.

(** The values a match on literals has to cover are exactly the values of the
    type, each listed once. *)
Theorem C51_values : forall t l, all_values t = Some l ->
  NoDup l /\ forall v, In v l <-> has_type v t.
Proof. exact all_values_ok. Qed.
Print Assumptions C51_values.

Example C51_values_example :
  all_values (TTuple [TBool; TRecord [(3, TUnit); (5, TBool)]]) =
  Some [VTuple [VBool false; VTuple [VUnit; VBool false]];
        VTuple [VBool false; VTuple [VUnit; VBool true]];
        VTuple [VBool true; VTuple [VUnit; VBool false]];
        VTuple [VBool true; VTuple [VUnit; VBool true]]].
Proof. vm_compute; reflexivity. Qed.

(** A match on literals runs the arm whose literal is the value; there is only
    one; if there is none, the default runs, which must have been written.
    Missing for the full property: patterns are assumed to denote values of the
    type, which the compiler does not check for records
    ([C51_record_literal_refuted]). *)
Theorem C51_literals_partial : forall t arms d c v,
  well_formed t -> arms <> [] -> (forall p, In p arms -> exists u, literal_arm t u p) ->
  infer_match t arms d = Ok c -> has_type v t ->
  (exists k p, nth_error arms k = Some p /\ literal_arm t v p /\ run c v = Ran k [] /\
     forall k' p', nth_error arms k' = Some p' -> literal_arm t v p' -> k' = k) \/
  (d = true /\ (forall p, In p arms -> ~ literal_arm t v p) /\ run c v = Ran (length arms) []).
Proof. exact literals_ok. Qed.
Print Assumptions C51_literals_partial.

(** At types without records the compiler does check it. *)
Theorem C51_literals_typed : forall t arms d c, no_record t ->
  (exists q rest, arms = PLiteral q :: rest) ->
  infer_match t arms d = Ok c -> uninhabited t = false ->
  forall p, In p arms -> exists u, literal_arm t u p.
Proof. exact literals_denote. Qed.
Print Assumptions C51_literals_typed.

(** A match without default that has one arm for each value is accepted, for
    types whose values can be enumerated. *)
Theorem C51_literals_accepted : forall t arms all, well_formed t -> all_values t = Some all ->
  uninhabited t = false -> arms <> [] ->
  (forall p, In p arms -> exists u, literal_arm t u p) ->
  (forall q, In (PLiteral q) arms -> literal_value q <> None) ->
  distinct_literals t arms ->
  (forall v, has_type v t -> exists p, In p arms /\ literal_arm t v p) ->
  exists c, infer_match t arms false = Ok c.
Proof. exact literals_accepted. Qed.
Print Assumptions C51_literals_accepted.

Definition pair_arms : list pattern :=
  [PLiteral (LTuple [LBool true; LRecord [(5, LBool true); (3, LUnit)]]);
   PLiteral (LTuple [LBool false; LRecord [(3, LUnit); (5, LBool true)]]);
   PLiteral (LTuple [LBool true; LRecord [(3, LUnit); (5, LBool false)]]);
   PLiteral (LTuple [LBool false; LRecord [(5, LBool false); (3, LUnit)]])].

Definition pair_ty : ty := TTuple [TBool; TRecord [(3, TUnit); (5, TBool)]].

Example C51_literals_example :
  (exists c, infer_match pair_ty pair_arms false = Ok c /\
     run c (VTuple [VBool true; VTuple [VUnit; VBool false]]) = Ran 2 [] /\
     run c (VTuple [VBool false; VTuple [VUnit; VBool false]]) = Ran 3 []) /\
  infer_match pair_ty (removelast pair_arms) false = Err NonExhaustivePattern /\
  (exists c, infer_match pair_ty (removelast pair_arms) true = Ok c /\
     run c (VTuple [VBool false; VTuple [VUnit; VBool false]]) = Ran 3 []) /\
  infer_match (TAtom 0) [PLiteral (LAtom 0 7)] false = Err ValuesCannotBeEnumerated /\
  infer_match TBool [PLiteral (LBool true); PLiteral (LBool true)] true = Err DuplicatedLiteralPattern /\
  infer_match TBool [PLiteral (LAtom 0 7)] true = Err TypeMismatch.
Proof. vm_compute. repeat apply conj; eauto; eexists; repeat apply conj; reflexivity. Qed.

Example C51_literals_example_hyps :
  well_formed pair_ty /\ forall p, In p pair_arms -> exists u, literal_arm pair_ty u p.
Proof.
  split.
  - unfold pair_ty. constructor. intros t [<-|[<-|[]]]; constructor.
    + cbn; intuition (subst; auto; try lia; try contradiction).
    + intros f t [[= <- <-]|[[= <- <-]|[]]]; constructor.
  - assert (H : forall a b q, In (5, LBool b) q -> In (3, LUnit) q -> length q = 2 ->
      literal_arm pair_ty (VTuple [VBool a; VTuple [VUnit; VBool b]]) (PLiteral (LTuple [LBool a; LRecord q]))).
    { intros a b q I I' L. eexists; split; [reflexivity|]. constructor. constructor; [constructor|].
      constructor; [|constructor]. constructor; [easy|].
      apply (denote_field q 3 LUnit); [easy|constructor|].
      apply (denote_field q 5 (LBool b)); [easy|constructor|constructor]. }
    intros p [<-|[<-|[<-|[<-|[]]]]]; eexists; apply H; cbn; auto.
Qed.

(** A match on variants runs the arm of the tag of the value and binds each
    name to its element or field; there is only one such arm; if there is none,
    the default runs, which must have been written. Missing for the full
    property: record patterns are assumed to name fields that exist, which the
    compiler does not always check ([C51_record_variant_refuted]). *)
Theorem C51_variants_partial : forall declared variants arms d c v,
  well_formed (TEnum declared variants) ->
  (exists tag tuple vars rest, arms = PVariant tag tuple vars :: rest) ->
  (forall p, In p arms -> fields_exist variants p) ->
  infer_match (TEnum declared variants) arms d = Ok c -> has_type v (TEnum declared variants) ->
  (exists k p env, nth_error arms k = Some p /\ selects variants p v env /\ run c v = Ran k env /\
     forall k' p', nth_error arms k' = Some p' -> tag_of p' = value_tag v -> k' = k) \/
  (d = true /\ (forall p, In p arms -> tag_of p <> value_tag v) /\ run c v = Ran (length arms) []).
Proof. exact variants_ok. Qed.
Print Assumptions C51_variants_partial.

(** A match with one fitting arm for each tag that has values, or with a
    default, is accepted. *)
Theorem C51_variants_accepted : forall declared variants arms d,
  well_formed (TEnum declared variants) -> uninhabited (TEnum declared variants) = false ->
  arms <> [] -> (forall p, In p arms -> arm_right variants p) -> NoDup (map tag_of arms) ->
  (d = true \/
   forall tag t, In (tag, t) variants ->
     In (Some tag) (map tag_of arms) \/ (declared = true /\ uninhabited t = true)) ->
  exists c, infer_match (TEnum declared variants) arms d = Ok c.
Proof. exact variants_accepted. Qed.
Print Assumptions C51_variants_accepted.

(** [enum Shape { 1, 2(bool, int), 3 {10: int, 11: bool}, 4(never) }] *)
Definition shape : list (nat * ty) :=
  [(1, TUnit); (2, TTuple [TBool; TAtom 0]); (3, TRecord [(10, TAtom 0); (11, TBool)]);
   (4, TTuple [TNever])].

Example C51_variants_example :
  (exists c, infer_match (TEnum true shape)
     [PVariant 3 false [Named 11; Named 10]; PVariant 2 true [Named 20; Named 21]; PVariant 1 true []]
     false = Ok c /\
     run c (VVariant 3 (VTuple [VAtom 0 7; VBool true])) = Ran 0 [(11, VBool true); (10, VAtom 0 7)] /\
     run c (VVariant 2 (VTuple [VBool false; VAtom 0 8])) = Ran 1 [(20, VBool false); (21, VAtom 0 8)] /\
     run c (VVariant 1 VUnit) = Ran 2 []) /\
  (exists c, infer_match (TEnum true shape) [PVariant 3 false [Named 11; Wildcard]] true = Ok c /\
     run c (VVariant 3 (VTuple [VAtom 0 7; VBool true])) = Ran 0 [(11, VBool true)] /\
     run c (VVariant 1 VUnit) = Ran 1 []) /\
  infer_match (TEnum true shape)
    [PVariant 2 true [Named 20; Named 21]; PVariant 1 true []] false = Err TypeMismatch /\
  infer_match (TEnum false shape)
    [PVariant 3 false [Named 11; Named 10]; PVariant 2 true [Named 20; Named 21]; PVariant 1 true []]
    false = Err TypeMismatch /\
  infer_match (TEnum true shape) [PVariant 2 true [Named 20]] true = Err TypeMismatch /\
  infer_match (TEnum true shape) [PVariant 2 true [Named 20; Named 20]] true = Err IdentifierBoundMoreThanOnce /\
  infer_match (TEnum true shape) [PVariant 1 true []; PVariant 1 true []] true = Err DuplicatedVariant /\
  infer_match (TEnum true shape) [PVariant 1 true []; PLiteral LUnit] true = Err InconsistentPattern /\
  infer_match (TEnum true [(4, TTuple [TNever])]) [] false = Ok OnlyScrutinee /\
  infer_match (TEnum true shape) [] false = Err EmptyMatchBody.
Proof. vm_compute. repeat apply conj; try reflexivity; eexists; repeat apply conj; reflexivity. Qed.

Example C51_variants_example_hyps :
  well_formed (TEnum true shape) /\
  forall p, In p [PVariant 3 false [Named 11; Named 10]; PVariant 2 true [Named 20; Named 21];
                  PVariant 1 true []] ->
    fields_exist shape p /\ arm_right shape p.
Proof.
  split.
  - unfold shape. constructor.
    + cbn; intuition (subst; auto; try lia; try contradiction).
    + intros tag t [[= <- <-]|[[= <- <-]|[[= <- <-]|[[= <- <-]|[]]]]]; constructor.
      * intros t [<-|[<-|[]]]; constructor.
      * cbn; intuition (subst; auto; try lia; try contradiction).
      * intros f t [[= <- <-]|[[= <- <-]|[]]]; constructor.
      * intros t [<-|[]]; constructor.
  - intros p [<-|[<-|[<-|[]]]]; cbn; (split; [try exact I|]).
    + right. intros fs x [H|[H|[H|[H|[]]]]] Hx; try discriminate. injection H as <-.
      cbn; intuition (subst; auto).
    + split; [repeat constructor; cbn; intuition congruence|].
      exists (TRecord [(10, TAtom 0); (11, TBool)]). split; [auto|].
      split; [easy|]. split; [discriminate|]. left. split; [easy|]. cbn; intuition.
    + split; [repeat constructor; cbn; intuition congruence|].
      exists (TTuple [TBool; TAtom 0]). split; [auto|]. repeat split; discriminate.
    + split; [constructor|]. exists TUnit; auto.
Qed.

(** [match e { _ => d }] does not evaluate [e]. *)
Theorem C51_scrutinee_refuted : forall t,
  exists c, infer_match t [] true = Ok c /\ evaluates c = false.
Proof. intros t; exists (OnlyDefault 0); split; reflexivity. Qed.
Print Assumptions C51_scrutinee_refuted.

(** Every other accepted match evaluates it. *)
Theorem C51_scrutinee : forall t arms d c, infer_match t arms d = Ok c ->
  arms <> [] \/ d = false -> evaluates c = true.
Proof. exact scrutinee_ok. Qed.
Print Assumptions C51_scrutinee.

Example C51_scrutinee_example :
  exists c, infer_match (TEnum true shape) [PVariant 1 true []] true = Ok c /\ evaluates c = true.
Proof. eexists; split; reflexivity. Qed.

(** An arm for a tag that the enumeration does not have is accepted. *)
Theorem C51_unknown_tag_refuted :
  exists variants arms c,
    well_formed (TEnum true variants) /\ infer_match (TEnum true variants) arms false = Ok c /\
    exists p tag, In p arms /\ tag_of p = Some tag /\ ~ In tag (map fst variants).
Proof.
  exists [(1, TUnit); (2, TUnit)], [PVariant 1 true []; PVariant 9 true []; PVariant 2 true []].
  eexists; repeat split.
  - constructor; [cbn; intuition (subst; auto; try contradiction)|].
    intros tag t [[= <- <-]|[[= <- <-]|[]]]; constructor.
  - exists (PVariant 9 true []), 9; repeat split; [right; now left|].
    cbn; intuition discriminate.
Qed.
Print Assumptions C51_unknown_tag_refuted.

(** A record pattern may name a field that the payload does not have: the match
    is accepted and reads past the end of the payload. *)
Theorem C51_record_variant_refuted :
  exists variants arms c v,
    well_formed (TEnum true variants) /\ infer_match (TEnum true variants) arms false = Ok c /\
    has_type v (TEnum true variants) /\ run c v = Stuck.
Proof.
  exists [(1, TRecord [(10, TBool)])], [PVariant 1 false [Named 10; Named 11]].
  eexists; exists (VVariant 1 (VTuple [VBool true])); repeat split.
  - constructor; [cbn; intuition|]. intros tag t [[= <- <-]|[]]. constructor; [cbn; intuition|].
    intros f t [[= <- <-]|[]]; constructor.
  - apply (in_enum _ _ 1 (TRecord [(10, TBool)])); [now left|]. constructor.
    repeat constructor.
Qed.
Print Assumptions C51_record_variant_refuted.

(** A record literal that lacks a field is accepted and cannot be compared. *)
Theorem C51_record_literal_refuted :
  exists t arms c v, well_formed t /\ infer_match t arms true = Ok c /\
    has_type v t /\ run c v = Stuck.
Proof.
  exists (TRecord [(1, TBool); (2, TBool)]), [PLiteral (LRecord [(1, LBool true)])].
  eexists; exists (VTuple [VBool true; VBool true]); repeat split.
  - constructor; [cbn; intuition (subst; auto; try contradiction)|].
    intros f t [[= <- <-]|[[= <- <-]|[]]]; constructor.
  - repeat constructor.
Qed.
Print Assumptions C51_record_literal_refuted.

(** A record literal that repeats a field makes the compiler panic. *)
Theorem C51_repeated_field_refuted :
  exists t arms, well_formed t /\ infer_match t arms true = Err CompilerPanic.
Proof.
  exists (TRecord [(1, TBool)]), [PLiteral (LRecord [(1, LBool true); (1, LBool false)])].
  split; [|reflexivity].
  constructor; [cbn; intuition|]. intros f t [[= <- <-]|[]]; constructor.
Qed.
Print Assumptions C51_repeated_field_refuted.

(** It is the only panic. *)
Theorem C51_no_panic : forall t arms d,
  (forall q, In (PLiteral q) arms -> literal_value q <> None) ->
  well_formed t -> infer_match t arms d <> Err CompilerPanic.
Proof. exact no_panic. Qed.
Print Assumptions C51_no_panic.

Example C51_no_panic_example :
  infer_match (TAtom 0) [PVariant 1 true [Named 3]] true = Err TypeMismatch.
Proof. reflexivity. Qed.

(** [Foo {..}] is refused for a variant whose payload is a record. *)
Theorem C51_wildcard_refuted :
  exists variants tag fs, In (tag, TRecord fs) variants /\
    infer_match (TEnum true variants) [PVariant tag false [Wildcard]] true = Err TypeMismatch.
Proof. exists shape, 3, [(10, TAtom 0); (11, TBool)]; split; [cbn; auto|reflexivity]. Qed.
Print Assumptions C51_wildcard_refuted.
