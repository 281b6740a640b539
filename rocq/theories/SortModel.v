(** Model of sorting arrays, [src/std/prelude/core_impls_dependent.fer] L258-338.

    A comparison is a total function into [comparison] ([Less], [Equal], [Greater]); a comparison that
    panics aborts the program and is not modelled. [&mut] parameters are passed in and returned. *)
From Coq Require Import ZArith List Bool.
From Verif Require Import MachInt IntModel ArrayModel.
Open Scope Z_scope.

Section Sort.
Context {A : Type} (compare : A -> A -> comparison).

Definition not_greater (c : comparison) : bool := match c with Gt => false | _ => true end.

(** L264-284: the loop [for index in start..end]; [count] is the number of indices left. *)
Fixpoint merge_loop (count : nat) (source target : array A) (middle end_ left right index : Z) : outcome (array A) :=
  match count with
  | O => Returned target
  | S count' =>
      if left <? middle then
        if end_ <=? right then
          bind (array_get source left) (fun v =>
          bind (array_set target index v) (fun target =>
          merge_loop count' source target middle end_ (int_add left 1) right (int_add index 1)))
        else
          bind (array_get source left) (fun l =>
          bind (array_get source right) (fun r =>
          if not_greater (compare l r) then
            bind (array_get source left) (fun v =>
            bind (array_set target index v) (fun target =>
            merge_loop count' source target middle end_ (int_add left 1) right (int_add index 1)))
          else
            bind (array_get source right) (fun v =>
            bind (array_set target index v) (fun target =>
            merge_loop count' source target middle end_ left (int_add right 1) (int_add index 1)))))
      else
        bind (array_get source right) (fun v =>
        bind (array_set target index v) (fun target =>
        merge_loop count' source target middle end_ left (int_add right 1) (int_add index 1)))
  end.

(** L260-285. [start <= end] at every call, so the range has [end - start] indices. *)
Definition array_merge_ranges_by (source target : array A) (start middle end_ : Z) : outcome (array A) :=
  merge_loop (Z.to_nat (end_ - start)) source target middle end_ start middle start.

(** L287-294; returns [(source, target)]. *)
Fixpoint array_split_merge_by (fuel : nat) (source target : array A) (start end_ : Z) : outcome (array A * array A) :=
  match fuel with
  | O => Loops
  | S f =>
      if 1 <? int_sub end_ start then
        let middle := shift_right (int_add start end_) 1 in
        bind (array_split_merge_by f target source start middle) (fun r =>
        let '(target, source) := r in
        bind (array_split_merge_by f target source middle end_) (fun r =>
        let '(target, source) := r in
        bind (array_merge_ranges_by source target start middle end_) (fun target => Returned (source, target))))
      else Returned (source, target)
  end.

(** L297-304. *)
Definition array_merge_sort_by (value : array A) : outcome (array A) :=
  let size := array_len value in
  if 1 <? size then
    bind (array_clone value) (fun scratch =>
    bind (array_split_merge_by (S (Z.to_nat size)) scratch value 0 size) (fun r => Returned (snd r)))
  else Returned value.

(** L306-310 [sort_by]; L313-319 [sort] is the same with the default comparison. *)
Definition array_sort_by (value : array A) : outcome (array A) := array_merge_sort_by value.

(** L322-338 [sorted_by], [sorted]: sort a copy. *)
Definition array_sorted_by (value : array A) : outcome (array A) :=
  bind (array_clone value) (fun result => array_sort_by result).
End Sort.
