(** C48: type inference solves a program's type equalities. *)
From Coq Require Import List Bool Arith Lia.
From Verif Require Import UnifyModel UnifySpec UnifyBasics UnifyState UnifyProofs UnifySound UnifyMgu.
Import ListNotations.

(** [int], [string], arrays. *)
Definition Int := TNative 0 [].
Definition Str := TNative 1 [].
Definition Arr t := TNative 2 [t].
Definition older_is_root (_ : state) (a b : nat) : bool := Nat.leb a b.

(** When a program's equalities are accepted, each pair of types agrees once the variables are replaced by what they stand
    for, and nothing is left to replace.  Partial: only when no list of field names of a record type of the program begins with
    another; see [C48_record_refuted]. *)
Theorem C48_sound_partial : forall first_is_root native_arity def_arity shapes n l s,
  prefix_free shapes ->
  Forall (fun x => formed native_arity def_arity shapes (fst (snd x)) /\ formed native_arity def_arity shapes (snd (snd x))) l ->
  solve first_is_root n l empty = Unified s ->
  Forall (fun x => exists c e, resolves s (fst (snd x)) c /\ resolves s (snd (snd x)) e /\ resolves s c c /\ resolves s e e /\ agrees (fst x) c e) l.
Proof.
  intros r na da sh n l s Hp Hl H. pose proof (solve_fine na da sh Hp r n l Hl empty (good_empty na da sh)) as Hf. rewrite H in Hf. destruct Hf as ((Hw & _) & _ & Hf).
  eapply Forall_impl; [|exact Hf]. cbn beta. intros x Hx. exists (res s (fst (snd x))), (res s (snd (snd x))).
  assert (Hi : forall t, resolves s (res s t) (res s t)).
  { intros t. rewrite <- (solution_res _ _ s t (solution_self s Hw)) at 2. now apply (resolves_ok s (res s t)). }
  split; [now apply resolves_ok|]. split; [now apply resolves_ok|]. split; [apply Hi|]. split; [apply Hi|exact Hx].
Qed.
Print Assumptions C48_sound_partial.

(** Types asked to be the same are equal, when they mention neither never nor a subscript. *)
Theorem C48_equal_partial : forall first_is_root native_arity def_arity shapes n l s c e c' e',
  prefix_free shapes ->
  Forall (fun x => formed native_arity def_arity shapes (fst (snd x)) /\ formed native_arity def_arity shapes (snd (snd x))) l ->
  solve first_is_root n l empty = Unified s -> In (SameType, (c, e)) l -> resolves s c c' -> resolves s e e' -> ordinary c' -> ordinary e' -> c' = e'.
Proof.
  intros r na da sh n l s c e c' e' Hp Hl H Hin Hc He Oc Oe. pose proof (solve_fine na da sh Hp r n l Hl empty (good_empty na da sh)) as Hf. rewrite H in Hf. destruct Hf as ((Hw & _) & _ & Hf).
  rewrite Forall_forall in Hf. specialize (Hf _ Hin). cbn [fst snd] in Hf. rewrite (resolves_only s c c' Hw Hc) in *. rewrite (resolves_only s e e' Hw He) in *. now apply (agrees_equal _ _ Oc Oe).
Qed.
Print Assumptions C48_equal_partial.

(** If some types for the variables make all the pairs equal, the equalities are accepted, and the types found are the most
    general: those types are an instance of them. *)
Theorem C48_most_general : forall first_is_root tv mv l,
  Forall (fun x => apply tv mv (fst (snd x)) = apply tv mv (snd (snd x))) l ->
  exists n s, (forall f, n <= f -> solve first_is_root f l empty = Unified s) /\ forall t t', resolves s t t' -> apply tv mv t' = apply tv mv t.
Proof. exact program_most_general. Qed.
Print Assumptions C48_most_general.

(** Inference always ends, and never fails an assertion. *)
Theorem C48_ends : forall first_is_root l, exists n r, r <> NoFuel /\ forall f, n <= f -> solve first_is_root f l empty = r.
Proof. exact program_ends. Qed.
Print Assumptions C48_ends.

Theorem C48_no_panic_partial : forall first_is_root native_arity def_arity shapes n l,
  prefix_free shapes ->
  Forall (fun x => formed native_arity def_arity shapes (fst (snd x)) /\ formed native_arity def_arity shapes (snd (snd x))) l ->
  solve first_is_root n l empty <> Panics.
Proof.
  intros r na da sh n l Hp Hl H. pose proof (solve_fine na da sh Hp r n l Hl empty (good_empty na da sh)) as Hf. now rewrite H in Hf.
Qed.
Print Assumptions C48_no_panic_partial.

(** Non-vacuity: [v0 -> v1] is [int -> [v2]], and [v1] is [[string]]. *)
Definition program : list constraint :=
  [(SubType, (TFunction [(MVal false, TVar 0)] (TVar 1), TFunction [(MVal true, Int)] (Arr (TVar 2)))); (SameType, (TVar 1, Arr Str))].
Example C48_program_accepted : exists s, solve older_is_root 9 program empty = Unified s /\ normalize 9 s (TVar 2) = Some Str /\ normalize 9 s (TVar 0) = Some Int.
Proof. eexists. split; [vm_compute; reflexivity|]. split; vm_compute; reflexivity. Qed.
Definition arity (n : nat) : nat := match n with 2 => 1 | _ => 0 end.
Example C48_program_formed : prefix_free (fun l => l = [0; 1]) /\
  Forall (fun x => formed arity arity (fun l => l = [0; 1]) (fst (snd x)) /\ formed arity arity (fun l => l = [0; 1]) (snd (snd x))) program.
Proof.
  split.
  - intros a b -> H. destruct b; [reflexivity|]. apply (f_equal (@length nat)) in H. rewrite app_length in H. cbn in H. lia.
  - repeat constructor.
Qed.
Example C48_program_solvable : Forall (fun x : constraint => apply (fun v => match v with 0 => Int | 1 => Arr Str | _ => Str end) (fun _ => MVal true) (fst (snd x)) =
    apply (fun v => match v with 0 => Int | 1 => Arr Str | _ => Str end) (fun _ => MVal true) (snd (snd x))) [(SameType, (TVar 1, Arr (TVar 2))); (SubType, (TVar 0, Int))].
Proof. repeat constructor. Qed.
(** What has no solution is rejected. *)
Example C48_rejects : solve older_is_root 9 [(SameType, (TTuple [TVar 0; TVar 0], TTuple [Int; Str]))] empty = Mismatch /\
  solve older_is_root 9 [(SameType, (TVar 0, Arr (TVar 0)))] empty = Recursive 0 (Arr (TVar 0)).
Proof. split; vm_compute; reflexivity. Qed.

(** A record with fewer fields is accepted where one with more is expected. *)
Theorem C48_record_refuted : forall first_is_root, exists s,
  solve first_is_root 9 [(SameType, (TRecord [(0, Int)], TRecord [(0, Int); (1, Int)]))] empty = Unified s /\
  resolves s (TRecord [(0, Int)]) (TRecord [(0, Int)]) /\ resolves s (TRecord [(0, Int); (1, Int)]) (TRecord [(0, Int); (1, Int)]) /\
  ~ agrees SameType (TRecord [(0, Int)]) (TRecord [(0, Int); (1, Int)]).
Proof.
  intros r. exists empty. split; [vm_compute; reflexivity|]. split; [apply (resolves_ok empty); split; constructor|]. split; [apply (resolves_ok empty); split; constructor|].
  intros H. inversion H as [| | | | | |? ? F| | |]; subst. inversion F as [|? ? ? ? ? F2]; subst. inversion F2.
Qed.
Print Assumptions C48_record_refuted.

(** [int] is accepted where [never] is expected, so a function that returns is accepted where one that never does is. *)
Theorem C48_never_refuted : forall first_is_root m,
  solve first_is_root 9 [(m, (TFunction [] Int, TFunction [] TNever))] empty = Unified empty.
Proof. intros r []; vm_compute; reflexivity. Qed.
Print Assumptions C48_never_refuted.

(** Subscript types asked to be the same may differ. *)
Theorem C48_subscript_refuted : forall first_is_root,
  solve first_is_root 9 [(SameType, (TSubscript [] Int (Some YieldedOnce) (Some YieldedOnce), TSubscript [] Int (Some YieldedOnce) None))] empty = Unified empty.
Proof. intros r; vm_compute; reflexivity. Qed.
Print Assumptions C48_subscript_refuted.

(** Two mutabilities of which one must be at least the other are made equal, so that solvable demands are rejected: the
    first mutable, the second constant. *)
Definition with_arg (m : mut_ty) : ty := TFunction [(m, Int)] Int.
Definition demands : list constraint :=
  [(SubType, (with_arg (MVar 1), with_arg (MVar 0))); (SubType, (with_arg (MVal true), with_arg (MVar 0))); (SubType, (with_arg (MVar 1), with_arg (MVal false)))].
Theorem C48_mutability_refuted :
  (forall first_is_root, solve first_is_root 9 demands empty = Mismatch) /\
  exists mv, Forall (fun x => agrees (fst x) (apply TVar mv (fst (snd x))) (apply TVar mv (snd (snd x)))) demands.
Proof.
  split.
  - intros r. unfold demands, solve. cbn. destruct (r _ _ _); vm_compute; reflexivity.
  - exists (fun v => match v with 0 => MVal true | _ => MVal false end).
    assert (K : forall a b, fits SubType b a -> agrees SubType (with_arg a) (with_arg b)).
    { intros a b H. apply ag_function; [|apply agrees_refl]. constructor; [|constructor]. split; [exact H|apply agrees_refl]. }
    constructor; [|constructor; [|constructor; [|constructor]]]; apply K; unfold fits; auto.
Qed.
Print Assumptions C48_mutability_refuted.
