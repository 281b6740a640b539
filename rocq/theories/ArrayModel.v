(** Model of arrays, [src/std/prelude/array_type.fer] and [src/std/prelude/array.fer], over the buffers
    of [src/std/buffer.rs].

    - [int] fields and indices are 64-bit integers with the wrapping arithmetic of [IntModel.v].
    - A buffer is a list of slots; [None] is an uninitialized slot ([Value::uninit]).
    - Elements have value semantics: reading a slot copies its value ([clone] of the element type),
      taking or moving one leaves the slot uninitialized. Element sizes are not modelled (the
      interpreter ignores them, buffer.rs L199-203).
    - The explicit error outcomes are listed in [outcome]. *)
From Coq Require Import ZArith List Bool.
From Verif Require Import ListUtil MachInt IntModel.
Import ListNotations.
Open Scope Z_scope.

(** [MachInt.outcome] is not used here. *)
Inductive outcome (A : Type) : Type :=
| Returned (a : A)
| Panic          (** the program's own [panic("Array access out of bounds...")] *)
| BadSlot        (** a slot outside the buffer, a read of an uninitialized slot, an initialization of an
                     initialized one, or an assignment to an uninitialized one *)
| AllocFails     (** the host cannot allocate the buffer *)
| Loops.         (** a loop did not end within its fuel *)
Arguments Returned {A} _.
Arguments Panic {A}.
Arguments BadSlot {A}.
Arguments AllocFails {A}.
Arguments Loops {A}.

Definition bind {A B : Type} (x : outcome A) (f : A -> outcome B) : outcome B :=
  match x with
  | Returned a => f a | Panic => Panic | BadSlot => BadSlot | AllocFails => AllocFails | Loops => Loops
  end.

(** The largest buffer: [Vec] refuses more than [isize::MAX] bytes, and a [Value] takes at least 8. *)
Definition max_slots : Z := 2 ^ 60.

Section Array.
Context {A : Type}.

Definition buffer : Type := list (option A).

(** buffer.rs L248-250 [buffer_with_capacity], L79-83 [Buffer::with_capacity]. *)
Definition buffer_with_capacity (capacity : Z) : outcome buffer :=
  let c := Z.max capacity 0 in
  if max_slots <? c then AllocFails else Returned (repeat None (Z.to_nat c)).

(** buffer.rs L97-101, L107-111 [get_signed]: the slot a place ending in [index] denotes. *)
Definition slot (b : buffer) (index : Z) : outcome (option A) :=
  if index <? 0 then BadSlot
  else match nth_error b (Z.to_nat index) with Some s => Returned s | None => BadSlot end.

(** Reading the value in a slot. *)
Definition slot_read (b : buffer) (index : Z) : outcome A :=
  bind (slot b index) (fun s => match s with Some v => Returned v | None => BadSlot end).

(** [builtin::init_place(slot, value)]. *)
Definition slot_init (b : buffer) (index : Z) (v : A) : outcome buffer :=
  bind (slot b index) (fun s =>
  match s with None => Returned (upd b (Z.to_nat index) (Some v)) | Some _ => BadSlot end).

(** [slot = value]: the old value is dropped. *)
Definition slot_assign (b : buffer) (index : Z) (v : A) : outcome buffer :=
  bind (slot b index) (fun s =>
  match s with Some _ => Returned (upd b (Z.to_nat index) (Some v)) | None => BadSlot end).

(** buffer.rs L383-397 [buffer_take]. *)
Definition buffer_take (b : buffer) (index : Z) : outcome (buffer * A) :=
  bind (slot b index) (fun s =>
  match s with Some v => Returned (upd b (Z.to_nat index) None, v) | None => BadSlot end).

(** buffer.rs L291-318 [buffer_move_into]: the moved source slot and the overwritten target slot
    ([discard_storage] does not drop, so the target must be uninitialized). *)
Definition buffer_move_into (source : buffer) (source_index : Z) (target : buffer) (target_index : Z)
  : outcome (buffer * buffer) :=
  bind (buffer_take source source_index) (fun r =>
  bind (slot_init target target_index (snd r)) (fun t => Returned (fst r, t))).

(** array_type.fer L2-9. *)
Record array : Type := mkArray { data : buffer; capacity : Z; alen : Z; start : Z }.

(** array_type.fer L11-13. *)
Definition array_len (a : array) : Z := alen a.

(** array_type.fer L15-21. *)
Definition array_wrap_index (capacity index : Z) : Z :=
  if capacity <=? index then int_sub index capacity else index.

(** array_type.fer L23-29. *)
Definition array_signed_index_to_offset (index len : Z) : Z :=
  if index <? 0 then int_add len index else index.

(** array_type.fer L31-37. *)
Definition array_resolve_index (index len : Z) : outcome Z :=
  let resolved := array_signed_index_to_offset index len in
  if (resolved <? 0) || (len <=? resolved) then Panic else Returned resolved.

(** array_type.fer L39-42. *)
Definition array_physical_index (a : array) (index : Z) : outcome Z :=
  bind (array_resolve_index index (alen a)) (fun resolved =>
  Returned (array_wrap_index (capacity a) (int_add (start a) resolved))).

(** array_type.fer L47-49 and the slot of the subscript L54-63. *)
Definition array_physical_offset_unchecked (a : array) (offset : Z) : Z :=
  array_wrap_index (capacity a) (int_add (start a) offset).

(** Reading [array->[array_offset_unchecked](offset)], array_type.fer L54-63. *)
Definition array_offset_unchecked (a : array) (offset : Z) : outcome A :=
  slot_read (data a) (array_physical_offset_unchecked a offset).

(** Reading [array[index]], array_type.fer L65-76. *)
Definition array_get (a : array) (index : Z) : outcome A :=
  bind (array_resolve_index index (array_len a)) (fun resolved =>
  slot_read (data a) (array_wrap_index (capacity a) (int_add (start a) resolved))).

(** Writing [array[index] = value], array_type.fer L65-76. *)
Definition array_set (a : array) (index : Z) (v : A) : outcome array :=
  bind (array_resolve_index index (array_len a)) (fun resolved =>
  bind (slot_assign (data a) (array_wrap_index (capacity a) (int_add (start a) resolved)) v) (fun d =>
  Returned (mkArray d (capacity a) (alen a) (start a)))).

(** array_type.fer L78-86. *)
Definition array_with_capacity (cap : Z) : outcome array :=
  let cap := if cap <? 0 then 0 else cap in
  bind (buffer_with_capacity cap) (fun d => Returned (mkArray d cap 0 0)).

(** array_type.fer L105-119: the loop of [array_ensure_capacity]. *)
Fixpoint ensure_loop (fuel : nat) (a : array) (new_data : buffer) (i : Z) : outcome buffer :=
  match fuel with
  | O => Loops
  | S f =>
      if i <? alen a then
        bind (buffer_move_into (data a) (array_physical_offset_unchecked a i) new_data i) (fun r =>
        ensure_loop f (mkArray (fst r) (capacity a) (alen a) (start a)) (snd r) (int_add i 1))
      else Returned new_data
  end.

(** array_type.fer L88-123. *)
Definition array_ensure_capacity (a : array) (len : Z) : outcome array :=
  if len <=? capacity a then Returned a
  else
    let new_capacity := if capacity a <=? 0 then 1 else int_mul (capacity a) 2 in
    let new_capacity := if new_capacity <? len then len else new_capacity in
    bind (buffer_with_capacity new_capacity) (fun new_data =>
    bind (ensure_loop (S (Z.to_nat (alen a))) a new_data 0) (fun new_data =>
    Returned (mkArray new_data new_capacity (alen a) 0))).

(** array.fer L110-133. *)
Definition array_peek_back (a : array) : outcome (option A) :=
  let l := array_len a in
  if l <=? 0 then Returned None
  else bind (array_offset_unchecked a (int_sub l 1)) (fun v => Returned (Some v)).
Definition array_peek_front (a : array) : outcome (option A) :=
  let l := array_len a in
  if l <=? 0 then Returned None
  else bind (array_offset_unchecked a 0) (fun v => Returned (Some v)).

(** array.fer L136-144. *)
Definition array_append (a : array) (v : A) : outcome array :=
  bind (array_ensure_capacity a (int_add (alen a) 1)) (fun a =>
  let index := array_wrap_index (capacity a) (int_add (start a) (alen a)) in
  bind (slot_init (data a) index v) (fun d =>
  Returned (mkArray d (capacity a) (int_add (alen a) 1) (start a)))).

(** array.fer L147-161. *)
Definition array_prepend (a : array) (v : A) : outcome array :=
  bind (array_ensure_capacity a (int_add (alen a) 1)) (fun a =>
  let start' :=
    if 0 <? capacity a then (if start a <=? 0 then int_sub (capacity a) 1 else int_sub (start a) 1) else start a in
  bind (slot_init (data a) start' v) (fun d =>
  Returned (mkArray d (capacity a) (int_add (alen a) 1) start'))).

(** array.fer L164-176. *)
Definition array_pop_back (a : array) : outcome (array * option A) :=
  let len := array_len a in
  if len <=? 0 then Returned (a, None)
  else
    let index := array_physical_offset_unchecked a (int_sub len 1) in
    bind (buffer_take (data a) index) (fun r =>
    Returned (mkArray (fst r) (capacity a) (int_sub (alen a) 1) (start a), Some (snd r))).

(** array.fer L179-199. *)
Definition array_pop_front (a : array) : outcome (array * option A) :=
  let len := array_len a in
  if len <=? 0 then Returned (a, None)
  else
    let index := start a in
    let len' := int_sub (alen a) 1 in
    let start' :=
      if len' <=? 0 then 0
      else let s := int_add (start a) 1 in if capacity a <=? s then 0 else s in
    bind (buffer_take (data a) index) (fun r =>
    Returned (mkArray (fst r) (capacity a) len' start', Some (snd r))).

(** The copy loops of [clone] (array.fer L54-71), [array_slice] (L222-236) and [concat] (L248-275):
    while [i < end_], initialize slot [result.len] with element [i] of [source]. *)
Fixpoint copy_loop (fuel : nat) (source result : array) (i end_ : Z) : outcome array :=
  match fuel with
  | O => Loops
  | S f =>
      if i <? end_ then
        bind (slot_read (data source) (array_physical_offset_unchecked source i)) (fun v =>
        bind (slot_init (data result) (alen result) v) (fun d =>
        copy_loop f source (mkArray d (capacity result) (int_add (alen result) 1) (start result)) (int_add i 1) end_))
      else Returned result
  end.

(** array.fer L54-71 [clone]. *)
Definition array_clone (source : array) : outcome array :=
  let len := array_len source in
  bind (array_with_capacity len) (fun target => copy_loop (S (Z.to_nat len)) source target 0 len).

(** array.fer L201-210. *)
Definition array_slice_bound (len index : Z) : Z :=
  let resolved := array_signed_index_to_offset index len in
  if resolved <? 0 then len else if len <? resolved then len else resolved.

(** array.fer L212-238. *)
Definition array_slice (a : array) (start end_ : Z) : outcome array :=
  let len := array_len a in
  let start := array_slice_bound len start in
  let end_ := array_slice_bound len end_ in
  bind (array_with_capacity (int_sub end_ start)) (fun result =>
  if start <? end_ then copy_loop (S (Z.to_nat (end_ - start))) a result start end_ else Returned result).

(** array.fer L240-278 [concat]. *)
Definition array_concat (left right : array) : outcome array :=
  let left_len := array_len left in
  let right_len := array_len right in
  bind (array_with_capacity (int_add left_len right_len)) (fun result =>
  bind (copy_loop (S (Z.to_nat left_len)) left result 0 left_len) (fun result =>
  copy_loop (S (Z.to_nat right_len)) right result 0 right_len)).

(** array.fer L288-301 [next] of the array iterator and L303-310 [iter]; a [for] loop collects the items.
    The iterator owns a copy of the array. *)
Fixpoint iter_loop (fuel : nat) (a : array) (index : Z) : outcome (list A) :=
  match fuel with
  | O => Loops
  | S f =>
      if index <? array_len a then
        bind (array_offset_unchecked a index) (fun v =>
        bind (iter_loop f a (int_add index 1)) (fun rest => Returned (v :: rest)))
      else Returned []
  end.
Definition array_iterate (a : array) : outcome (list A) :=
  bind (array_clone a) (fun copy => iter_loop (S (Z.to_nat (alen a))) copy 0).

(** array.fer L314-330 [from_iter], the items of the iterator given as a list. *)
Fixpoint from_iter_loop (items : list A) (result : array) : outcome array :=
  match items with
  | [] => Returned result
  | x :: rest => bind (array_append result x) (from_iter_loop rest)
  end.
(** array.fer L338-348 [empty], [default]; an array literal [] of length 0 is the same. *)
Definition array_empty : outcome array := array_with_capacity 0.
Definition array_from_iter (items : list A) : outcome array :=
  bind array_empty (from_iter_loop items).

(** array.fer L4-19 [eq]. *)
Fixpoint eq_loop (eqb : A -> A -> bool) (fuel : nat) (left right : array) (l i : Z) : outcome bool :=
  match fuel with
  | O => Loops
  | S f =>
      if l <=? i then Returned true
      else
        bind (array_offset_unchecked left i) (fun x =>
        bind (array_offset_unchecked right i) (fun y =>
        if negb (eqb x y) then Returned false else eq_loop eqb f left right l (int_add i 1)))
  end.
Definition array_eq (eqb : A -> A -> bool) (left right : array) : outcome bool :=
  let l := array_len left in
  if negb (l =? array_len right) then Returned false
  else eq_loop eqb (S (Z.to_nat l)) left right l 0.

(** core_impls_dependent.fer L218-236 [reverse]. *)
Fixpoint reverse_loop (fuel : nat) (a : array) (left right : Z) : outcome array :=
  match fuel with
  | O => Loops
  | S f =>
      if right <=? left then Returned a
      else
        let right := int_sub right 1 in
        if right <=? left then Returned a
        else
          bind (array_get a left) (fun temp =>
          bind (array_get a right) (fun r =>
          bind (array_set a left r) (fun a =>
          bind (array_set a right temp) (fun a => reverse_loop f a (int_add left 1) right))))
  end.
Definition array_reverse (a : array) : outcome array :=
  reverse_loop (S (Z.to_nat (alen a))) a 0 (array_len a).

(** array.fer L74-92 [drop]: takes the elements out one by one; afterwards the buffer must hold none. *)
Fixpoint drop_loop (fuel : nat) (a : array) (dropped : list A) : outcome (array * list A) :=
  match fuel with
  | O => Loops
  | S f =>
      let len := array_len a in
      if len <=? 0 then Returned (a, dropped)
      else
        let index := int_sub len 1 in
        bind (buffer_take (data a) (array_physical_offset_unchecked a index)) (fun r =>
        drop_loop f (mkArray (fst r) (capacity a) (int_sub (alen a) 1) (start a)) (snd r :: dropped))
  end.
Definition array_drop (a : array) : outcome (array * list A) :=
  drop_loop (S (Z.to_nat (alen a))) a [].
End Array.
Arguments array A : clear implicits.
Arguments buffer A : clear implicits.
