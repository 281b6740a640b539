(** What the edits of a function body promise. *)
From Coq Require Import List Arith.
From Verif Require Import MirModel TermSpec WillReturnSpec.
Import ListNotations.

(** The program in which the body of [f] is [fn]. *)
Definition fid_eqb (a b : fid) : bool := (fst a =? fst b) && (snd a =? snd b).
Definition with_body {P C} (bodies : fid -> option (function P C)) (f : fid) (fn : function P C)
  : fid -> option (function P C) :=
  fun h => if fid_eqb h f then Some fn else bodies h.

(** The same terminator, with targets related by [R]. *)
Definition renamed {P C} (R : nat -> nat -> Prop) (t t' : terminator P C) : Prop :=
  match t, t' with
  | Goto a, Goto a' => R a a'
  | CondBr q a b, CondBr q' a' b' => q = q' /\ R a a' /\ R b b'
  | Invoke o a b, Invoke o' a' b' => o = o' /\ R a a' /\ R b b'
  | Yield p a, Yield p' a' => p = p' /\ R a a'
  | Return, Return => True
  | PropagateError, PropagateError => True
  | FailureInCleanup, FailureInCleanup => True
  | _, _ => False
  end.

(** [fn'] consists of the blocks [order] of [fn], in that order, with the
    targets renumbered. *)
Definition rearranged {P C} (fn : function P C) (order : list nat) (fn' : function P C) : Prop :=
  length fn' = length order /\
  forall i b, nth_error order i = Some b ->
  exists blk blk', nth_error fn b = Some blk /\ nth_error fn' i = Some blk' /\
    operations blk' = operations blk /\
    renamed (fun t t' => nth_error order t' = Some t) (term blk) (term blk').

(** Increasing lists. *)
Definition increasing (l : list nat) : Prop :=
  forall i j a b, i < j -> nth_error l i = Some a -> nth_error l j = Some b -> a < b.

(** Every way from the entry to [b] goes through [a]. *)
Definition dominates {P C} (fn : function P C) (a b : nat) : Prop :=
  forall l, walk (flows fn) (entry :: l) -> last (entry :: l) entry = b -> In a (entry :: l).

(** [s] can be appended to [p]: [p] jumps to it and nothing else leads there. *)
Definition mergeable {P C} (fn : function P C) (p s : nat) : Prop :=
  (exists blk, nth_error fn p = Some blk /\ term blk = Goto s) /\
  s <> entry /\ s <> p /\ forall q, flows fn q s -> q = p.
