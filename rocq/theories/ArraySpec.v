(** Specification of arrays: a program over array variables observes what the same program over lists
    observes. *)
From Coq Require Import ZArith List Bool.
From Verif Require Import MachInt ArrayModel.
Import ListNotations.
Open Scope Z_scope.

Section Spec.
Context {A : Type} (eqb : A -> A -> bool).

Definition var : Type := nat.

(** Statements of a program over array variables. *)
Inductive op : Type :=
| Clear (x : var)                     (** x = [] *)
| Collect (x : var) (l : list A)      (** x = collect(l) *)
| Copy (x y : var)                    (** x = y *)
| Append (x : var) (v : A)
| Prepend (x : var) (v : A)
| PopBack (x : var)
| PopFront (x : var)
| PeekBack (x : var)
| PeekFront (x : var)
| Get (x : var) (i : Z)               (** x[i] *)
| Put (x : var) (i : Z) (v : A)       (** x[i] = v *)
| Slice (x y : var) (s e : Z)         (** x = array_slice(y, s, e) *)
| Concat (x y z : var)                (** x = concat(y, z) *)
| Reverse (x : var)
| Iterate (x : var)                   (** for v in x { ... } *)
| Equal (x y : var)                   (** x == y *)
| Drop (x : var)                      (** drop x, then x = [] *)
| Len (x : var).

Inductive observation : Type :=
| ONothing
| OOption (v : option A)
| OElement (v : A)
| OFailure                            (** the out-of-bounds failure; the statement has no effect *)
| OItems (l : list A)
| OBool (b : bool)
| OInt (n : Z).

(** [a[i]] denotes element i, or element len+i when i is negative. *)
Definition denotes (len : nat) (i : Z) : option nat :=
  let j := if i <? 0 then Z.of_nat len + i else i in
  if (0 <=? j) && (j <? Z.of_nat len) then Some (Z.to_nat j) else None.

(** A slice bound: a negative one counts from the end; one outside the array is its end. *)
Definition bound (len : nat) (i : Z) : nat :=
  let j := if i <? 0 then Z.of_nat len + i else i in
  if (0 <=? j) && (j <=? Z.of_nat len) then Z.to_nat j else len.

Definition sublist (l : list A) (s e : nat) : list A := firstn (e - s) (skipn s l).

Definition replace (l : list A) (i : nat) (v : A) : list A := firstn i l ++ v :: skipn (S i) l.

Fixpoint list_eqb (l r : list A) : bool :=
  match l, r with
  | [], [] => true
  | x :: l', y :: r' => eqb x y && list_eqb l' r'
  | _, _ => false
  end.

Definition env (V : Type) : Type := var -> V.
Definition assign {V : Type} (e : env V) (x : var) (v : V) : env V := fun y => if Nat.eqb x y then v else e y.

(** One statement over lists. *)
Definition list_step (e : env (list A)) (o : op) : env (list A) * observation :=
  match o with
  | Clear x => (assign e x [], ONothing)
  | Collect x l => (assign e x l, ONothing)
  | Copy x y => (assign e x (e y), ONothing)
  | Append x v => (assign e x (e x ++ [v]), ONothing)
  | Prepend x v => (assign e x (v :: e x), ONothing)
  | PopBack x => (assign e x (removelast (e x)), OOption (hd_error (rev (e x))))
  | PopFront x => (assign e x (tl (e x)), OOption (hd_error (e x)))
  | PeekBack x => (e, OOption (hd_error (rev (e x))))
  | PeekFront x => (e, OOption (hd_error (e x)))
  | Get x i =>
      (e, match denotes (length (e x)) i with
          | Some j => match nth_error (e x) j with Some v => OElement v | None => OFailure end
          | None => OFailure
          end)
  | Put x i v =>
      match denotes (length (e x)) i with
      | Some j => (assign e x (replace (e x) j v), ONothing)
      | None => (e, OFailure)
      end
  | Slice x y s t => (assign e x (sublist (e y) (bound (length (e y)) s) (bound (length (e y)) t)), ONothing)
  | Concat x y z => (assign e x (e y ++ e z), ONothing)
  | Reverse x => (assign e x (rev (e x)), ONothing)
  | Iterate x => (e, OItems (e x))
  | Equal x y => (e, OBool (list_eqb (e x) (e y)))
  | Drop x => (assign e x [], OItems (e x))
  | Len x => (e, OInt (Z.of_nat (length (e x))))
  end.

(** The same statement over arrays. *)
Definition update (e : env (array A)) (x : var) (r : outcome (array A)) : outcome (env (array A) * observation) :=
  bind r (fun a => Returned (assign e x a, ONothing)).
Definition array_step (e : env (array A)) (o : op) : outcome (env (array A) * observation) :=
  match o with
  | Clear x => update e x array_empty
  | Collect x l => update e x (array_from_iter l)
  | Copy x y => update e x (array_clone (e y))
  | Append x v => update e x (array_append (e x) v)
  | Prepend x v => update e x (array_prepend (e x) v)
  | PopBack x => bind (array_pop_back (e x)) (fun r => Returned (assign e x (fst r), OOption (snd r)))
  | PopFront x => bind (array_pop_front (e x)) (fun r => Returned (assign e x (fst r), OOption (snd r)))
  | PeekBack x => bind (array_peek_back (e x)) (fun r => Returned (e, OOption r))
  | PeekFront x => bind (array_peek_front (e x)) (fun r => Returned (e, OOption r))
  | Get x i =>
      match array_get (e x) i with
      | Panic => Returned (e, OFailure)
      | r => bind r (fun v => Returned (e, OElement v))
      end
  | Put x i v =>
      match array_set (e x) i v with
      | Panic => Returned (e, OFailure)
      | r => update e x r
      end
  | Slice x y s t => update e x (array_slice (e y) s t)
  | Concat x y z => update e x (array_concat (e y) (e z))
  | Reverse x => update e x (array_reverse (e x))
  | Iterate x => bind (array_iterate (e x)) (fun l => Returned (e, OItems l))
  | Equal x y => bind (array_eq eqb (e x) (e y)) (fun b => Returned (e, OBool b))
  | Drop x =>
      bind (array_drop (e x)) (fun r =>
      bind array_empty (fun a => Returned (assign e x a, OItems (snd r))))
  | Len x => Returned (e, OInt (array_len (e x)))
  end.

(** Indices are 64-bit integers. *)
Definition op_ok (o : op) : Prop :=
  match o with
  | Get _ i | Put _ i _ => in_int i
  | Slice _ _ s t => in_int s /\ in_int t
  | _ => True
  end.

(** No variable ever holds more than [limit] elements. *)
Fixpoint stays_below (limit : Z) (e : env (list A)) (ops : list op) : Prop :=
  (forall x, Z.of_nat (length (e x)) <= limit) /\
  match ops with
  | [] => True
  | o :: rest => stays_below limit (fst (list_step e o)) rest
  end.

Fixpoint list_run (e : env (list A)) (ops : list op) : env (list A) * list observation :=
  match ops with
  | [] => (e, [])
  | o :: rest =>
      let '(e1, r) := list_step e o in
      let '(e2, rs) := list_run e1 rest in (e2, r :: rs)
  end.
Fixpoint array_run (e : env (array A)) (ops : list op) : outcome (env (array A) * list observation) :=
  match ops with
  | [] => Returned (e, [])
  | o :: rest =>
      bind (array_step e o) (fun '(e1, r) =>
      bind (array_run e1 rest) (fun '(e2, rs) => Returned (e2, r :: rs)))
  end.

(** The initial arrays: every variable holds []. *)
Definition no_elements : env (list A) := fun _ => [].
Definition empty_arrays : env (array A) := fun _ => mkArray [] 0 0 0.

(** The elements an array denotes are exactly the initialized slots of its buffer, in ring order from
    [start]. *)
Definition holds (a : array A) (l : list A) : Prop :=
  capacity a = Z.of_nat (length (data a)) /\ capacity a <= max_slots /\ alen a = Z.of_nat (length l) /\
  (length l <= length (data a))%nat /\ 0 <= start a < Z.max 1 (capacity a) /\
  forall i, (i < length (data a))%nat ->
    nth_error (data a) ((Z.to_nat (start a) + i) mod length (data a)) = Some (nth_error l i).
End Spec.
Arguments op A : clear implicits.
Arguments observation A : clear implicits.
