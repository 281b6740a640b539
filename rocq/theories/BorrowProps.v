(** C32: places passed by mutable reference occupy disjoint storage. *)
From Coq Require Import List Bool Arith ZArith Lia.
From Verif Require Import GraphModel BorrowModel BorrowSpec BorrowProofs.
Import ListNotations.
Open Scope Z_scope.

(** If the checker accepts a call, any two arguments passed by mutable reference stand for disjoint
    storage, whatever the run-time values of the indices, for indexing that behaves as that of arrays. *)
Theorem C32_exclusive_partial : forall select arguments env i j n m l l',
  array_like select -> disjoint_locals env ->
  check_elaborated_arguments arguments = Val None ->
  i <> j -> nth_error arguments i = Some (Argument MutableRef n) -> nth_error arguments j = Some (Argument MutableRef m) ->
  well_placed n -> well_placed m ->
  place_of select env n l -> place_of select env m l' -> disjoint l l'.
Proof. exact accepted_disjoint. Qed.
Print Assumptions C32_exclusive_partial.

(** Hence the assumption on the locals is kept by calls: the locals of the callee stand for
    disjoint storage as well. *)
Theorem C32_callee_partial : forall select arguments env env' fresh,
  array_like select -> disjoint_locals env ->
  check_elaborated_arguments arguments = Val None ->
  (forall n, In (Argument MutableRef n) arguments -> well_placed n) ->
  entered select env env' arguments fresh -> disjoint_locals env'.
Proof. exact callee_disjoint. Qed.
Print Assumptions C32_callee_partial.

(** A shared argument that is not reported (and so is not copied before the call) is disjoint
    from the arguments passed by mutable reference. *)
Theorem C32_shared_partial : forall select arguments env pairs i j n m l l',
  array_like select -> disjoint_locals env ->
  let_arguments_overlapping_mutable arguments = Val pairs ->
  nth_error arguments i = Some (Argument Let n) -> nth_error arguments j = Some (Argument MutableRef m) ->
  ~ In (i, j) pairs -> well_placed n -> well_placed m ->
  place_of select env n l -> place_of select env m l' -> disjoint l l'.
Proof. exact shared_disjoint. Qed.
Print Assumptions C32_shared_partial.

(** The check gives an answer for all elaborated arguments. *)
Theorem C32_total : forall arguments,
  (forall n, In (Argument MutableRef n) arguments -> elaborated n) ->
  exists r, check_elaborated_arguments arguments = Val r.
Proof. exact check_total. Qed.
Print Assumptions C32_total.

(** A rejection names two different mutable arguments that start from the same local. *)
Theorem C32_rejected : forall arguments i j, check_elaborated_arguments arguments = Val (Some (i, j)) ->
  i <> j /\ exists n m x, nth_error arguments i = Some (Argument MutableRef n) /\ nth_error arguments j = Some (Argument MutableRef m) /\
    root_of n x /\ root_of m x.
Proof. exact rejected_same_root. Qed.
Print Assumptions C32_rejected.

(** Calls whose mutable arguments are evidently apart are accepted. *)
Theorem C32_accepted : forall arguments,
  (forall n, In (Argument MutableRef n) arguments -> elaborated n) ->
  (forall i j n m, i <> j -> nth_error arguments i = Some (Argument MutableRef n) ->
     nth_error arguments j = Some (Argument MutableRef m) -> evidently_apart n m) ->
  check_elaborated_arguments arguments = Val None.
Proof. exact accepted_lemma. Qed.
Print Assumptions C32_accepted.

(** ** Indexing of arrays *)

(** Arrays of [len] elements, with negative indices counted from the end. *)
Definition of_array (len : Z) : selection :=
  fun _ v s => exists i, v = Some i /\ s = [SElem (if i <? 0 then i + len else i)].

Lemma of_array_like : forall len, array_like (of_array len).
Proof.
  intros len f g i j a b Hi Hj [i' [E ->]] [j' [E' ->]]. injection E as <-. injection E' as <-.
  destruct (Z.ltb_spec i 0); [lia|]. destruct (Z.ltb_spec j 0); [lia|].
  destruct (Z.eq_dec i j) as [->|N]; [left; now split|right]. now exists [], (SElem i), (SElem j), [], [].
Qed.

Definition root_env : nat -> location := fun x => (x, []).
Definition at_ (f : nat) (base : node) (i : Z) : node :=
  Apply f true [Argument Let Evidence; Argument MutableRef base; Argument Let (Immediate (LInt i))].
Definition at_var (f : nat) (base index : node) : node :=
  Apply f true [Argument Let Evidence; Argument MutableRef base; Argument Let index].

(** [swap(a[0].1, a[1].1)] with [let i], and [swap(a[0], a[i])]. *)
Example C32_example_accepted :
  check_elaborated_arguments [Argument MutableRef (Project (at_ 0 (LoadLocal 3) 0) 1); Argument Let (LoadLocal 4);
                              Argument MutableRef (Project (at_ 0 (LoadLocal 3) 1) 1)] = Val None /\
  well_placed (Project (at_ 0 (LoadLocal 3) 0) 1) /\
  place_of (of_array 5) root_env (Project (at_ 0 (LoadLocal 3) 0) 1) (3%nat, [SElem 0; SProj 1]) /\
  array_like (of_array 5) /\ disjoint_locals root_env.
Proof.
  split; [reflexivity|]. split.
  { apply wp_chain, ch_project. apply (ch_apply 0 [Argument Let Evidence] MutableRef (LoadLocal 3)); [|discriminate|constructor].
    intros a [<-|[]]. reflexivity. }
  split.
  { apply (po_project _ root_env _ 1 3 [SElem 0]).
    apply (po_apply _ root_env 0 [Argument Let Evidence] MutableRef (LoadLocal 3) [Argument Let (Immediate (LInt 0))] (Some 0) 3 [] [SElem 0]).
    - intros a [<-|[]]. reflexivity.
    - discriminate.
    - constructor.
    - constructor.
    - now exists 0. }
  split; [apply of_array_like|]. intros x y H. now left.
Qed.

Example C32_example_rejected :
  check_elaborated_arguments [Argument MutableRef (at_ 0 (LoadLocal 3) 0); Argument MutableRef (LoadLocal 2);
                              Argument MutableRef (at_var 0 (LoadLocal 3) (LoadLocal 4))] = Val (Some (0%nat, 2%nat)) /\
  check_elaborated_arguments [Argument MutableRef (LoadLocal 3); Argument MutableRef (Project (LoadLocal 3) 0)] = Val (Some (0%nat, 1%nat)) /\
  check_elaborated_arguments [Argument MutableRef (at_ 0 (LoadLocal 3) (-1)); Argument MutableRef (at_ 0 (LoadLocal 3) 4)] = Val (Some (0%nat, 1%nat)).
Proof. repeat split; reflexivity. Qed.

(** [f(a[0], a[i])] with the first argument shared: it is reported and copied. *)
Example C32_example_shared :
  let_arguments_overlapping_mutable [Argument Let (at_ 0 (LoadLocal 3) 0); Argument Let (Project (LoadLocal 3) 1); Argument Let (LoadLocal 5);
                                     Argument MutableRef (at_var 0 (LoadLocal 3) (LoadLocal 4)); Argument Owned (LoadLocal 3)]
  = Val [(0%nat, 3%nat); (1%nat, 3%nat)].
Proof. reflexivity. Qed.

(** A call that passes [a[0]] by mutable reference; the caller has one array. *)
Example C32_example_callee :
  entered (of_array 5) (fun x => ((2 * x)%nat, [])) (fun y => match y with O => (6%nat, [SElem 0]) | S _ => ((2 * y + 1)%nat, []) end)
    [Argument MutableRef (at_ 0 (LoadLocal 3) 0); Argument Let (LoadLocal 4)] (fun y => (2 * y + 1)%nat).
Proof.
  split; [intros x y H; lia|]. split; [intros x y; cbn [fst]; lia|].
  intros [|y]; [left|right; reflexivity].
  exists (at_ 0 (LoadLocal 3) 0). split; [reflexivity|].
  apply (po_apply _ _ 0 [Argument Let Evidence] MutableRef (LoadLocal 3) [Argument Let (Immediate (LInt 0))] (Some 0) 6 [] [SElem 0]).
  - intros a [<-|[]]. reflexivity.
  - discriminate.
  - apply (po_local _ (fun x => ((2 * x)%nat, []))).
  - constructor.
  - now exists 0.
Qed.

(** ** User-defined subscripts *)

(** A subscript that selects the same element for different indices, such as
    [subscript at(values: &mut [int], i: int) -> int { ref mut { values[i % 2] } }]. *)
Definition modulo : selection := fun _ v s => exists i, v = Some i /\ s = [SElem (Z.modulo i 2)].

Theorem C32_user_subscript_refuted :
  ~ (forall select arguments env i j n m l l',
       disjoint_locals env -> check_elaborated_arguments arguments = Val None ->
       i <> j -> nth_error arguments i = Some (Argument MutableRef n) -> nth_error arguments j = Some (Argument MutableRef m) ->
       well_placed n -> well_placed m ->
       place_of select env n l -> place_of select env m l' -> disjoint l l').
Proof.
  intros H.
  assert (W : forall z, well_placed (at_ 0 (LoadLocal 3) z)).
  { intros z. apply wp_chain, (ch_apply 0 [Argument Let Evidence] MutableRef (LoadLocal 3)); [|discriminate|constructor].
    intros a [<-|[]]. reflexivity. }
  assert (P : forall z, place_of modulo root_env (at_ 0 (LoadLocal 3) z) (3%nat, [SElem (Z.modulo z 2)])).
  { intros z. apply (po_apply _ root_env 0 [Argument Let Evidence] MutableRef (LoadLocal 3) [Argument Let (Immediate (LInt z))] (Some z) 3 [] _).
    - intros a [<-|[]]. reflexivity.
    - discriminate.
    - constructor.
    - constructor.
    - now exists z. }
  specialize (H modulo [Argument MutableRef (at_ 0 (LoadLocal 3) 0); Argument MutableRef (at_ 0 (LoadLocal 3) 2)] root_env
    0%nat 1%nat _ _ _ _ ltac:(intros x y N; now left) eq_refl ltac:(discriminate) eq_refl eq_refl (W 0) (W 2) (P 0) (P 2)).
  destruct H as [H|[p [x [y [a [b [E1 [E2 E3]]]]]]]]; [now apply H|]. cbn in E1, E2.
  destruct p as [|u p]; cbn [app] in E1, E2.
  - injection E1 as <- <-. injection E2 as <- <-. now apply E3.
  - injection E1 as _ E1. destruct p; discriminate.
Qed.
Print Assumptions C32_user_subscript_refuted.

(** Two subscripts, each of which selects separate parts for different indices, such as
    [whole(i)] for [values[i]] and [first(i)] for [values[i].0]: [whole(0).0] and [first(0).1]. *)
Definition two_subscripts : selection :=
  fun f v s => exists i, v = Some i /\ s = match f with O => [SElem i] | _ => [SElem i; SProj 0] end.

Theorem C32_two_subscripts_refuted :
  ~ (forall (select : selection) arguments env i j n m l l',
       (forall f a b s t, 0 <= a -> 0 <= b -> select f (Some a) s -> select f (Some b) t -> (a = b /\ s = t) \/ separate s t) ->
       disjoint_locals env -> check_elaborated_arguments arguments = Val None ->
       i <> j -> nth_error arguments i = Some (Argument MutableRef n) -> nth_error arguments j = Some (Argument MutableRef m) ->
       well_placed n -> well_placed m ->
       place_of select env n l -> place_of select env m l' -> disjoint l l').
Proof.
  intros H.
  assert (W : forall f k, well_placed (Project (at_ f (LoadLocal 3) 0) k)).
  { intros f k. apply wp_chain, ch_project, (ch_apply f [Argument Let Evidence] MutableRef (LoadLocal 3)); [|discriminate|constructor].
    intros a [<-|[]]. reflexivity. }
  assert (P : forall f k, place_of two_subscripts root_env (Project (at_ f (LoadLocal 3) 0) k)
     (3%nat, match f with O => [SElem 0] | _ => [SElem 0; SProj 0] end ++ [SProj k])).
  { intros f k. apply po_project.
    apply (po_apply _ root_env f [Argument Let Evidence] MutableRef (LoadLocal 3) [Argument Let (Immediate (LInt 0))] (Some 0) 3 [] _).
    - intros a [<-|[]]. reflexivity.
    - discriminate.
    - constructor.
    - constructor.
    - now exists 0. }
  assert (S : forall f a b s t, 0 <= a -> 0 <= b -> two_subscripts f (Some a) s -> two_subscripts f (Some b) t -> (a = b /\ s = t) \/ separate s t).
  { intros f a b s t _ _ [a' [E ->]] [b' [E' ->]]. injection E as <-. injection E' as <-.
    destruct (Z.eq_dec a b) as [->|N]; [now left|right].
    destruct f; [exists [], (SElem a), (SElem b), [], []|exists [], (SElem a), (SElem b), [SProj 0], [SProj 0]]; auto. }
  specialize (H two_subscripts [Argument MutableRef (Project (at_ 0 (LoadLocal 3) 0) 0); Argument MutableRef (Project (at_ 1 (LoadLocal 3) 0) 1)] root_env
    0%nat 1%nat _ _ _ _ S ltac:(intros x y N; now left) eq_refl ltac:(discriminate) eq_refl eq_refl (W 0%nat 0%nat) (W 1%nat 1%nat) (P 0%nat 0%nat) (P 1%nat 1%nat)).
  destruct H as [H|[p [x [y [a [b [E1 [E2 E3]]]]]]]]; [now apply H|]. cbn in E1, E2.
  destruct p as [|u [|v p]]; cbn [app] in E1, E2.
  - injection E1 as <- <-. injection E2 as <- <-. now apply E3.
  - injection E1 as _ <- <-. injection E2 as _ <- <-. now apply E3.
  - injection E1 as _ _ E1. destruct p; discriminate.
Qed.
Print Assumptions C32_two_subscripts_refuted.

(** A literal index that is not an integer, [values->[pick](true)], makes the check panic. *)
Theorem C32_literal_index_refuted :
  ~ (forall arguments, (forall n, In (Argument MutableRef n) arguments -> chain n) ->
       exists r, check_elaborated_arguments arguments = Val r).
Proof.
  intros H.
  destruct (H [Argument MutableRef (Apply 0 true [Argument MutableRef (LoadLocal 3); Argument Let (Immediate LOther)])]) as [r E].
  - intros n [E|[]]. injection E as <-. apply (ch_apply 0 [] MutableRef (LoadLocal 3)); [easy|discriminate|constructor].
  - discriminate.
Qed.
Print Assumptions C32_literal_index_refuted.
