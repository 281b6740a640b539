(** C33: match arms may be left out only for types without values. *)
From Coq Require Import List Bool Arith Lia.
From Verif Require Import GraphModel InhabitModel InhabitSpec InhabitProofs.
Import ListNotations.

(** A match without arms is accepted or rejected, for every type of a finite type graph, recursive
    ones included; it is accepted only if the scrutinee has no value, and exactly if
    that can be seen in finitely many steps. *)
Theorem C33_empty_match : forall T t, well_formed T -> t < length T ->
  exists accepted,
    empty_match_accepted T t = Val accepted /\
    (accepted = true -> forall v, ~ has_type T v t) /\
    (accepted = true <-> evidently_empty T t).
Proof. exact empty_match_lemma. Qed.
Print Assumptions C33_empty_match.

(** For types that are not recursive the answer is exact: accepted exactly if there is no value. *)
Theorem C33_not_recursive : forall T t, well_formed T -> t < length T -> not_recursive T t ->
  exists accepted, empty_match_accepted T t = Val accepted /\ (accepted = true <-> forall v, ~ has_type T v t).
Proof. exact not_recursive_lemma. Qed.
Print Assumptions C33_not_recursive.

(** Arms of a match on a named enum may be left out only if no value needs them: if the match with
    arms for the tags of [covered] is taken as complete, every value of the scrutinee has one
    of these tags; the variants are all reported, with the payload type of the arm or of the enum. *)
Theorem C33_omitted_arms : forall T t params shape variants covered,
  well_formed T -> nth_error T t = Some (TNamed params shape) -> nth_error T shape = Some (TVariant variants) ->
  exists r, named_enum_variant_tys_with_uninhabited_omissions T t covered = Val r /\
    match r with
    | Some l =>
        (forall v, has_type T v t -> exists tag payload, v = VVariant tag payload /\ In tag (map fst covered)) /\
        map fst l = map fst variants /\
        (forall i tag p, nth_error variants i = Some (tag, p) ->
           nth_error (map snd l) i = Some (match lookup tag covered with Some c => c | None => p end))
    | None => exists tag p, In (tag, p) variants /\ ~ In tag (map fst covered) /\ ~ evidently_empty T p
    end.
Proof. exact omitted_arms_lemma. Qed.
Print Assumptions C33_omitted_arms.

(** No other type is treated as a named enum. *)
Theorem C33_only_named_enums : forall T t covered l, named_enum_variant_tys_with_uninhabited_omissions T t covered = Val (Some l) ->
  exists params shape variants, nth_error T t = Some (TNamed params shape) /\ nth_error T shape = Some (TVariant variants).
Proof. exact only_named_enums_lemma. Qed.
Print Assumptions C33_only_named_enums.

(** 0: [!]; 1: [int]; 2: [enum E { A(int), B(int, !), C(D) }]; 6: the recursive [enum D { X(D, !), Y(!, D) }];
    9: the recursive list [enum L { Nil(()), Cons((int, L)) }]; 13: [struct S { s: S }] *)
Definition types : table :=
  [ TNever; TNative [];
    TNamed [] 3; TVariant [(10, 1); (11, 4); (12, 6)]; TTuple [1; 0]; TTuple [];
    TNamed [] 7; TVariant [(20, 8); (21, 14)]; TTuple [6; 0];
    TNamed [] 10; TVariant [(30, 5); (31, 11)]; TTuple [1; 9];
    TRecord [(40, 13)]; TNamed [] 12; TTuple [0; 6] ].

Example C33_example_well_formed : well_formed types.
Proof.
  intros t k p. do 15 (destruct t as [|t]; [intros [= <-]; cbn; intuition lia|]). destruct t; discriminate.
Qed.

Example C33_example :
  map (empty_match_accepted types) [0; 1; 2; 6; 9; 13] = [Val true; Val false; Val false; Val true; Val false; Val false] /\
  named_enum_variant_tys_with_uninhabited_omissions types 2 [(10, 5)] = Val (Some [(10, 5); (11, 4); (12, 6)]) /\
  named_enum_variant_tys_with_uninhabited_omissions types 2 [(11, 4)] = Val None.
Proof. vm_compute. auto. Qed.

(** The hypotheses of [C33_not_recursive] hold for a type with an empty component. *)
Example C33_example_not_recursive : not_recursive types 4.
Proof.
  apply (nr types 4 (TTuple [1; 0])); [reflexivity|]. cbn [held].
  intros p [<-|[<-|[]]]; eapply nr; try reflexivity; cbn [held]; easy.
Qed.

(** The test is not exact for recursive types: [struct S { s: S }] has no finite value, but a match
    without arms on it is rejected.  This is the safe direction. *)
Example C33_recursive_conservative :
  empty_match_accepted types 13 = Val false /\ forall v, ~ has_type types v 13.
Proof. split; [vm_compute; reflexivity|]. exact (self_struct types 13 12 40 eq_refl eq_refl). Qed.
