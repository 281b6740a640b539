(** Model of splitting and joining arrays, [src/std/prelude/core_impls_dependent.fer] L54-212. *)
From Coq Require Import ZArith List Bool.
From Verif Require Import MachInt IntModel ArrayModel.
Import ListNotations.
Open Scope Z_scope.

Section Split.
Context {A : Type} (eqb : A -> A -> bool).

(** L86-95 [ArraySplitElementIterator]. *)
Record element_iterator : Type := mkElementIt { e_array : array A; e_separator : A; e_next_start : Z; e_finished : bool }.

(** L107-120: the loop of [next]; returns the part and the new iterator. *)
Fixpoint element_loop (fuel : nat) (it : element_iterator) (len separator_start : Z) : outcome (array A * element_iterator) :=
  match fuel with
  | O => Loops
  | S f =>
      if len <=? separator_start then
        bind (array_slice (e_array it) (e_next_start it) len) (fun part =>
        Returned (part, mkElementIt (e_array it) (e_separator it) (e_next_start it) true))
      else
        bind (array_get (e_array it) separator_start) (fun v =>
        if eqb v (e_separator it) then
          bind (array_slice (e_array it) (e_next_start it) separator_start) (fun part =>
          Returned (part, mkElementIt (e_array it) (e_separator it) (int_add separator_start 1) (e_finished it)))
        else element_loop f it len (int_add separator_start 1))
  end.

(** L97-122 [next]. *)
Definition element_next (it : element_iterator) : outcome (option (array A) * element_iterator) :=
  if e_finished it then Returned (None, it)
  else
    let len := array_len (e_array it) in
    bind (element_loop (S (Z.to_nat len)) it len (e_next_start it)) (fun r => Returned (Some (fst r), snd r)).

(** L182-194 [split_iterator] for an element separator. *)
Definition split_element_iterator (value : array A) (separator : A) : element_iterator :=
  mkElementIt value separator 0 false.

(** L124-133 [ArraySplitIterator]. *)
Record array_iterator : Type := mkArrayIt { a_array : array A; a_separator : array A; a_next_start : Z; a_finished : bool }.

(** L154-166: the loop of [next]. *)
Fixpoint array_loop (fuel : nat) (it : array_iterator) (array_len separator_len last_candidate separator_start : Z)
  : outcome (array A * array_iterator) :=
  match fuel with
  | O => Loops
  | S f =>
      if last_candidate <? separator_start then
        bind (array_slice (a_array it) (a_next_start it) array_len) (fun part =>
        Returned (part, mkArrayIt (a_array it) (a_separator it) (a_next_start it) true))
      else
        bind (array_slice (a_array it) separator_start (int_add separator_start separator_len)) (fun candidate =>
        bind (array_eq eqb candidate (a_separator it)) (fun same =>
        if same then
          bind (array_slice (a_array it) (a_next_start it) separator_start) (fun part =>
          Returned (part, mkArrayIt (a_array it) (a_separator it) (int_add separator_start separator_len) (a_finished it)))
        else array_loop f it array_len separator_len last_candidate (int_add separator_start 1)))
  end.

(** L135-168 [next]. *)
Definition array_next (it : array_iterator) : outcome (option (array A) * array_iterator) :=
  if a_finished it then Returned (None, it)
  else
    let alen := array_len (a_array it) in
    let separator_len := array_len (a_separator it) in
    if int_sub alen (a_next_start it) <? separator_len then
      bind (array_slice (a_array it) (a_next_start it) alen) (fun part =>
      Returned (Some part, mkArrayIt (a_array it) (a_separator it) (a_next_start it) true))
    else
      let last_candidate := int_sub alen separator_len in
      bind (array_loop (S (Z.to_nat alen)) it alen separator_len last_candidate (a_next_start it)) (fun r =>
      Returned (Some (fst r), snd r)).

(** L196-212 [split_iterator] for an array separator; [Panic] stands for [invalid_argument]. *)
Definition split_array_iterator (value separator : array A) : outcome array_iterator :=
  if array_len separator =? 0 then Panic else Returned (mkArrayIt value separator 0 false).

(** L77-84 [split]: [from_iter] over the iterator; the parts in order. *)
Fixpoint collect_parts {I : Type} (next : I -> outcome (option (array A) * I)) (fuel : nat) (it : I) : outcome (list (array A)) :=
  match fuel with
  | O => Loops
  | S f =>
      bind (next it) (fun r =>
      match fst r with
      | Some part => bind (collect_parts next f (snd r)) (fun rest => Returned (part :: rest))
      | None => Returned []
      end)
  end.
Definition split_element (value : array A) (separator : A) : outcome (list (array A)) :=
  collect_parts element_next (S (S (Z.to_nat (array_len value)))) (split_element_iterator value separator).
Definition split_array (value separator : array A) : outcome (list (array A)) :=
  bind (split_array_iterator value separator) (fun it =>
  collect_parts array_next (S (S (Z.to_nat (array_len value)))) it).

(** L54-73 [join] over a sequence of arrays. *)
Fixpoint join_loop (acc separator : array A) (rest : list (array A)) : outcome (array A) :=
  match rest with
  | [] => Returned acc
  | element :: rest' =>
      bind (array_concat acc separator) (fun x => bind (array_concat x element) (fun acc => join_loop acc separator rest'))
  end.
Definition join (seq : list (array A)) (separator : array A) : outcome (array A) :=
  match seq with
  | [] => array_empty
  | first :: rest => join_loop first separator rest
  end.
End Split.
