(** Model of ranges, iterator adaptors and sequence consumers, [src/std/prelude/core_impls.fer].

    - A computation takes the state [W] of the outside world and returns a value and the new world, or
      fails there ([panic], or a failure of a user function), or runs out of fuel.
    - An iterator over items [T] is a state [S] with a function [next] ([&mut] state in, new state out).
    - User functions (mappers, predicates, folders) are arbitrary effectful computations. *)
From Coq Require Import ZArith List Bool.
From Verif Require Import MachInt IntModel.
Import ListNotations.
Open Scope Z_scope.

Inductive res (W X : Type) : Type :=
| Ok (x : X) (w : W)
| Fail (w : W)
| Diverges.
Arguments Ok {W X} _ _.
Arguments Fail {W X} _.
Arguments Diverges {W X}.

Definition comp (W X : Type) : Type := W -> res W X.
Definition ret {W X : Type} (x : X) : comp W X := fun w => Ok x w.
Definition fail {W X : Type} : comp W X := fun w => Fail w.
Definition diverge {W X : Type} : comp W X := fun _ => Diverges.
Definition bnd {W X Y : Type} (m : comp W X) (f : X -> comp W Y) : comp W Y :=
  fun w => match m w with Ok x w' => f x w' | Fail w' => Fail w' | Diverges => Diverges end.

Definition iterator (W S T : Type) : Type := S -> comp W (option T * S).

(** ** Ranges *)

(** L13-25. *)
Record range : Type := mkRange { range_start : Z; range_end : Z }.
Record range_iterator : Type := mkRangeIt { it_range : range; it_next : Z }.

(** L27-46. *)
Definition range_next {W : Type} : iterator W range_iterator Z := fun it =>
  let next := it_next it in
  let r := it_range it in
  if range_start r <=? range_end r then
    if next <? range_end r then ret (Some next, mkRangeIt r (int_add next 1)) else ret (None, it)
  else
    if range_end r <? next then ret (Some next, mkRangeIt r (int_sub next 1)) else ret (None, it).

(** L48-52; the same for L90-94. *)
Definition range_iter (r : range) : range_iterator := mkRangeIt r (range_start r).

(** L54-58. [checked]: whether the host checks overflow in [abs] (see [IntModel.int_abs]). *)
Definition range_len (checked : bool) (r : range) : outcome Z :=
  int_abs checked (int_sub (range_end r) (range_start r)).

(** L69-88 ([RangeInclusive] has the same fields as [Range]). *)
Definition range_inclusive_next {W : Type} : iterator W range_iterator Z := fun it =>
  let next := it_next it in
  let r := it_range it in
  if range_start r <=? range_end r then
    if next <=? range_end r then ret (Some next, mkRangeIt r (int_add next 1)) else ret (None, it)
  else
    if range_end r <=? next then ret (Some next, mkRangeIt r (int_sub next 1)) else ret (None, it).

(** L96-100. *)
Definition range_inclusive_len (checked : bool) (r : range) : outcome Z :=
  match int_abs checked (int_sub (range_end r) (range_start r)) with
  | Done d => Done (int_add d 1)
  | o => o
  end.

Section Iter.
Context {W : Type}.

(** ** Consumers *)
Section Consumers.
Context {S T : Type} (next : iterator W S T).

(** L118-131 [fold]. *)
Fixpoint fold {A : Type} (fuel : nat) (it : S) (acc : A) (f : A -> T -> comp W A) : comp W A :=
  match fuel with
  | O => diverge
  | Datatypes.S n =>
      bnd (next it) (fun '(o, it) =>
      match o with
      | Some element => bnd (f acc element) (fun acc => fold n it acc f)
      | None => ret acc
      end)
  end.

(** L133-156 [try_fold]. *)
Inductive control_flow (A : Type) : Type := Continue (a : A) | Break.
Arguments Continue {A} _.
Arguments Break {A}.
Fixpoint try_fold {A : Type} (fuel : nat) (it : S) (acc : A) (f : A -> T -> comp W (control_flow A))
  : comp W (control_flow A) :=
  match fuel with
  | O => diverge
  | Datatypes.S n =>
      bnd (next it) (fun '(o, it) =>
      match o with
      | Some element =>
          bnd (f acc element) (fun c =>
          match c with
          | Continue value => try_fold n it value f
          | Break => ret Break
          end)
      | None => ret (Continue acc)
      end)
  end.

Definition is_continue (c : control_flow unit) : bool := match c with Continue _ => true | Break => false end.

(** L158-161 [all], L163-166 [any]. *)
Definition all (fuel : nat) (it : S) (f : T -> comp W bool) : comp W bool :=
  bnd (try_fold fuel it tt (fun _ element => bnd (f element) (fun b => ret (if b then Continue tt else Break))))
      (fun c => ret (is_continue c)).
Definition any (fuel : nat) (it : S) (f : T -> comp W bool) : comp W bool :=
  bnd (try_fold fuel it tt (fun _ element => bnd (f element) (fun b => ret (if b then Break else Continue tt))))
      (fun c => ret (negb (is_continue c))).

(** L168-171 [count]. *)
Definition count (fuel : nat) (it : S) : comp W Z := fold fuel it 0 (fun sum _ => ret (int_add sum 1)).

(** L186-205 [minimum], [maximum], with [min]/[max] of comparison.fer L38-52. *)
Definition min_of (cmp : T -> T -> comparison) (lft rgt : T) : T :=
  match cmp lft rgt with Lt => lft | _ => rgt end.
Definition max_of (cmp : T -> T -> comparison) (lft rgt : T) : T :=
  match cmp lft rgt with Gt => lft | _ => rgt end.
Definition minimum (cmp : T -> T -> comparison) (fuel : nat) (it : S) : comp W T :=
  bnd (next it) (fun '(o, it) =>
  match o with
  | Some first => fold fuel it first (fun a b => ret (min_of cmp a b))
  | None => fail
  end).
Definition maximum (cmp : T -> T -> comparison) (fuel : nat) (it : S) : comp W T :=
  bnd (next it) (fun '(o, it) =>
  match o with
  | Some first => fold fuel it first (fun a b => ret (max_of cmp a b))
  | None => fail
  end).

(** L207-221 [find]. *)
Fixpoint find (fuel : nat) (it : S) (predicate : T -> comp W bool) : comp W (option T) :=
  match fuel with
  | O => diverge
  | Datatypes.S n =>
      bnd (next it) (fun '(o, it) =>
      match o with
      | Some element =>
          bnd (predicate element) (fun b => if b then ret (Some element) else find n it predicate)
      | None => ret None
      end)
  end.

(** L223-240 [position]. *)
Fixpoint position_loop (fuel : nat) (it : S) (index : Z) (predicate : T -> comp W bool) : comp W (option Z) :=
  match fuel with
  | O => diverge
  | Datatypes.S n =>
      bnd (next it) (fun '(o, it) =>
      match o with
      | Some element =>
          bnd (predicate element) (fun b =>
          if b then ret (Some index) else position_loop n it (int_add index 1) predicate)
      | None => ret None
      end)
  end.
Definition position (fuel : nat) (it : S) (predicate : T -> comp W bool) : comp W (option Z) :=
  position_loop fuel it 0 predicate.

(** A [for] loop collecting every item (desugar/expr.rs L445-520), as [collect] does (L254-256). *)
Fixpoint collect (fuel : nat) (it : S) : comp W (list T) :=
  match fuel with
  | O => diverge
  | Datatypes.S n =>
      bnd (next it) (fun '(o, it) =>
      match o with
      | Some element => bnd (collect n it) (fun rest => ret (element :: rest))
      | None => ret []
      end)
  end.

(** core_impls_dependent.fer L41-50 [contains]. *)
Fixpoint contains (eqb : T -> T -> bool) (fuel : nat) (it : S) (element : T) : comp W bool :=
  match fuel with
  | O => diverge
  | Datatypes.S n =>
      bnd (next it) (fun '(o, it) =>
      match o with
      | Some item => if eqb item element then ret true else contains eqb n it element
      | None => ret false
      end)
  end.

(** core_impls_dependent.fer L56-73 [join]. *)
Fixpoint join_loop (concat : T -> T -> T) (fuel : nat) (it : S) (acc separator : T) : comp W T :=
  match fuel with
  | O => diverge
  | Datatypes.S n =>
      bnd (next it) (fun '(o, it) =>
      match o with
      | Some element => join_loop concat n it (concat (concat acc separator) element) separator
      | None => ret acc
      end)
  end.
Definition join (concat : T -> T -> T) (empty : T) (fuel : nat) (it : S) (separator : T) : comp W T :=
  bnd (next it) (fun '(o, it) =>
  match o with
  | Some first => join_loop concat fuel it first separator
  | None => ret empty
  end).
End Consumers.

(** L173-176 [sum], on ints. *)
Definition sum {S : Type} (next : iterator W S Z) (fuel : nat) (it : S) : comp W Z :=
  fold next fuel it 0 (fun acc element => ret (int_add acc element)).

(** ** Adaptors *)
Section Adaptors.
Context {S T : Type} (next : iterator W S T).

(** L259-275. *)
Definition map_next {O : Type} (mapper : T -> comp W O) : iterator W S O := fun it =>
  bnd (next it) (fun '(o, it) =>
  match o with
  | Some data => bnd (mapper data) (fun y => ret (Some y, it))
  | None => ret (None, it)
  end).

(** L287-310. *)
Fixpoint filter_next (fuel : nat) (filter : T -> comp W bool) : iterator W S T := fun it =>
  match fuel with
  | O => diverge
  | Datatypes.S n =>
      bnd (next it) (fun '(o, it) =>
      match o with
      | Some data => bnd (filter data) (fun b => if b then ret (Some data, it) else filter_next n filter it)
      | None => ret (None, it)
      end)
  end.

(** L321-343. *)
Fixpoint filter_map_next {O : Type} (fuel : nat) (filter_map : T -> comp W (option O)) : iterator W S O := fun it =>
  match fuel with
  | O => diverge
  | Datatypes.S n =>
      bnd (next it) (fun '(o, it) =>
      match o with
      | Some data =>
          bnd (filter_map data) (fun r =>
          match r with Some mapped => ret (Some mapped, it) | None => filter_map_next n filter_map it end)
      | None => ret (None, it)
      end)
  end.

(** L384-410; the state is the source's and [index]. *)
Definition enumerate_next : iterator W (S * Z) (Z * T) := fun '(it, index) =>
  bnd (next it) (fun '(o, it) =>
  match o with
  | Some item => ret (Some (index, item), (it, int_add index 1))
  | None => ret (None, (it, index))
  end).
Definition enumerate (it : S) : S * Z := (it, 0).

(** L412-442; the state is the source's and [remaining]. *)
Definition take_next : iterator W (S * Z) T := fun '(it, remaining) =>
  if remaining <=? 0 then ret (None, (it, remaining))
  else
    bnd (next it) (fun '(o, it) =>
    match o with
    | Some item => ret (Some item, (it, int_sub remaining 1))
    | None => ret (None, (it, remaining))
    end).

(** L444-474; the state is the source's and [to_skip]. *)
Fixpoint skip_next (fuel : nat) : iterator W (S * Z) T := fun '(it, to_skip) =>
  match fuel with
  | O => diverge
  | Datatypes.S n =>
      bnd (next it) (fun '(o, it) =>
      match o with
      | None => ret (None, (it, to_skip))
      | Some item =>
          if 0 <? to_skip then skip_next n (it, int_sub to_skip 1) else ret (Some item, (it, to_skip))
      end)
  end.
End Adaptors.

(** L355-382. *)
Definition zip_next {S1 S2 A B : Type} (next1 : iterator W S1 A) (next2 : iterator W S2 B)
  : iterator W (S1 * S2) (A * B) := fun '(lft, rgt) =>
  bnd (next1 lft) (fun '(o, lft) =>
  match o with
  | Some a =>
      bnd (next2 rgt) (fun '(o, rgt) =>
      match o with
      | Some b => ret (Some (a, b), (lft, rgt))
      | None => ret (None, (lft, rgt))
      end)
  | None => ret (None, (lft, rgt))
  end).

(** L476-511; the state is the two sources' and [first_done]. *)
Definition chain_next {S1 S2 T : Type} (next1 : iterator W S1 T) (next2 : iterator W S2 T)
  : iterator W (S1 * S2 * bool) T := fun '(first, second, first_done) =>
  if first_done then
    bnd (next2 second) (fun '(o, second) => ret (o, (first, second, true)))
  else
    bnd (next1 first) (fun '(o, first) =>
    match o with
    | Some item => ret (Some item, (first, second, false))
    | None => bnd (next2 second) (fun '(o, second) => ret (o, (first, second, true)))
    end).
Definition chain {S1 S2 : Type} (first : S1) (second : S2) : S1 * S2 * bool := (first, second, false).
End Iter.
Arguments Continue {A} _.
Arguments Break {A}.
