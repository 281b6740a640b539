(** Model of the arena-backed doubly linked list, src/list.rs L13-L370.
    Addresses ([NonMaxU32]) are storage indices in [nat]; the 32-bit capacity is explicit. *)
From Coq Require Import NArith List Bool.
From Verif Require Import ListUtil.
Import ListNotations.

(** Outcomes: a value, the "list address space exhausted" panic of Address::new, any other panic. *)
Inductive res (A : Type) := Ok (a : A) | Exhausted | Panicked.
Arguments Ok {A} a. Arguments Exhausted {A}. Arguments Panicked {A}.

Definition bind {A B} (r : res A) (f : A -> res B) : res B :=
  match r with Ok a => f a | Exhausted => Exhausted | Panicked => Panicked end.
Notation "'do' x <- r ; f" := (bind r (fun x => f)) (at level 200, x pattern, r at level 100, f at level 200).

Section ListArena.
Context {T : Type}.

(** src/list.rs L342-L351 Bucket *)
Record bucket := mk_bucket { b_previous : option nat; b_next : option nat; b_element : option T }.

(** src/list.rs L14-L29 List *)
Record llist := mk_llist {
  l_size : nat; l_head : option nat; l_tail : option nat; l_free : option nat; l_storage : list bucket }.

(** src/list.rs L33-L41 new *)
Definition ll_new : llist := mk_llist 0 None None None [].

(** src/list.rs L44-L46 is_empty *)
Definition ll_is_empty (l : llist) : bool := Nat.eqb (l_size l) 0.

(** src/list.rs L49-L51, L59-L66 *)
Definition ll_len (l : llist) : nat := l_size l.
Definition ll_first_address (l : llist) : option nat := l_head l.
Definition ll_last_address (l : llist) : option nat := l_tail l.

(** src/list.rs L200-L204 in_bounds *)
Definition ll_in_bounds (l : llist) (a : nat) : bool :=
  match nth_error (l_storage l) a with
  | Some b => match b_element b with Some _ => true | None => false end
  | None => false
  end.

(** `self.storage[i]` : panics out of range *)
Definition at_index (s : list bucket) (i : nat) : res bucket :=
  match nth_error s i with Some b => Ok b | None => Panicked end.

(** `self.storage[i].next = n`, `self.storage[i].previous = p` *)
Definition set_next (s : list bucket) (i : nat) (n : option nat) : res (list bucket) :=
  do b <- at_index s i; Ok (upd s i (mk_bucket (b_previous b) n (b_element b))).
Definition set_previous (s : list bucket) (i : nat) (p : option nat) : res (list bucket) :=
  do b <- at_index s i; Ok (upd s i (mk_bucket p (b_next b) (b_element b))).

(** src/list.rs L69-L72 address_after and L75-L78 address_before *)
Definition ll_address_after (l : llist) (a : nat) : res (option nat) :=
  if ll_in_bounds l a then do b <- at_index (l_storage l) a; Ok (b_next b) else Panicked.
Definition ll_address_before (l : llist) (a : nat) : res (option nat) :=
  if ll_in_bounds l a then do b <- at_index (l_storage l) a; Ok (b_previous b) else Panicked.

(** src/list.rs L267-L276 Address::CAPACITY and Address::new *)
Definition address_capacity : N := 4294967295.
Definition address_new (offset : nat) : res nat :=
  if N.ltb (N.of_nat offset) address_capacity then Ok offset else Exhausted.

(** src/list.rs L207-L223 allocate_bucket (Bucket::assign L366-L371, Bucket::new L355-L361) *)
Definition ll_allocate_bucket (l : llist) (previous next : option nat) (x : T) : res (llist * nat) :=
  match l_free l with
  | Some address =>
      do b <- at_index (l_storage l) address;
      Ok (mk_llist (l_size l) (l_head l) (l_tail l) (b_next b)
            (upd (l_storage l) address (mk_bucket previous next (Some x))), address)
  | None =>
      do address <- address_new (length (l_storage l));
      Ok (mk_llist (l_size l) (l_head l) (l_tail l) None
            (l_storage l ++ [mk_bucket previous next (Some x)]), address)
  end.

(** src/list.rs L133-L150 insert_before *)
Definition ll_insert_before (l : llist) (a : nat) (x : T) : res (llist * nat) :=
  if ll_in_bounds l a then
    do ba <- at_index (l_storage l) a;
    let previous := b_previous ba in
    do (l1, new_address) <- ll_allocate_bucket l previous (Some a) x;
    do (head, storage) <-
      match previous with
      | Some p => do s <- set_next (l_storage l1) p (Some new_address); Ok (l_head l1, s)
      | None => Ok (Some new_address, l_storage l1)
      end;
    do storage <- set_previous storage a (Some new_address);
    Ok (mk_llist (S (l_size l1)) head (l_tail l1) (l_free l1) storage, new_address)
  else Panicked.

(** src/list.rs L153-L170 insert_after *)
Definition ll_insert_after (l : llist) (a : nat) (x : T) : res (llist * nat) :=
  if ll_in_bounds l a then
    do ba <- at_index (l_storage l) a;
    let next := b_next ba in
    do (l1, new_address) <- ll_allocate_bucket l (Some a) next x;
    do (tail, storage) <-
      match next with
      | Some n => do s <- set_previous (l_storage l1) n (Some new_address); Ok (l_tail l1, s)
      | None => Ok (Some new_address, l_storage l1)
      end;
    do storage <- set_next storage a (Some new_address);
    Ok (mk_llist (S (l_size l1)) (l_head l1) tail (l_free l1) storage, new_address)
  else Panicked.

(** src/list.rs L111-L121 append *)
Definition ll_append (l : llist) (x : T) : res (llist * nat) :=
  if ll_is_empty l then
    do (l1, address) <- ll_allocate_bucket l None None x;
    Ok (mk_llist 1 (Some address) (Some address) (l_free l1) (l_storage l1), address)
  else match l_tail l with
       | Some t => ll_insert_after l t x
       | None => Panicked
       end.

(** src/list.rs L124-L130 prepend *)
Definition ll_prepend (l : llist) (x : T) : res (llist * nat) :=
  if ll_is_empty l then ll_append l x
  else match l_head l with
       | Some h => ll_insert_before l h x
       | None => Panicked
       end.

(** src/list.rs L173-L197 remove *)
Definition ll_remove (l : llist) (a : nat) : res (llist * T) :=
  if ll_in_bounds l a then
    do ba <- at_index (l_storage l) a;
    let previous := b_previous ba in
    let next := b_next ba in
    do (head, s) <-
      match previous with
      | Some p => do s <- set_next (l_storage l) p next; Ok (l_head l, s)
      | None => Ok (next, l_storage l)
      end;
    do (tail, s) <-
      match next with
      | Some n => do s <- set_previous s n previous; Ok (l_tail l, s)
      | None => Ok (previous, s)
      end;
    match l_size l with
    | O => Panicked
    | S size =>
        do s <- set_previous s a None;
        do s <- set_next s a (l_free l);
        do b <- at_index s a;
        match b_element b with
        | None => Panicked
        | Some x => Ok (mk_llist size head tail (Some a) (upd s a (mk_bucket (b_previous b) (b_next b) None)), x)
        end
    end
  else Panicked.

(** src/list.rs L226-L240 Index, IndexMut (a write through the returned reference) *)
Definition ll_get (l : llist) (a : nat) : res T :=
  if ll_in_bounds l a then
    do b <- at_index (l_storage l) a; match b_element b with Some x => Ok x | None => Panicked end
  else Panicked.
Definition ll_set (l : llist) (a : nat) (x : T) : res llist :=
  if ll_in_bounds l a then
    do b <- at_index (l_storage l) a;
    Ok (mk_llist (l_size l) (l_head l) (l_tail l) (l_free l)
          (upd (l_storage l) a (mk_bucket (b_previous b) (b_next b) (Some x))))
  else Panicked.
End ListArena.
Arguments bucket : clear implicits.
Arguments llist : clear implicits.
