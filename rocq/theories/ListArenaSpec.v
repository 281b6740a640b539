(** Specification of the linked list: a sequence of (address, value) pairs. *)
From Coq Require Import NArith List.
From Verif Require Import ListArenaModel.
Import ListNotations.

Section Spec.
Context {T : Type}.

Inductive op :=
| Append (x : T) | Prepend (x : T) | InsertBefore (a : nat) (x : T) | InsertAfter (a : nat) (x : T)
| Remove (a : nat) | Set_ (a : nat) (x : T).

(** What the caller sees of an operation. *)
Inductive ret := RAddress (a : nat) | RValue (x : T) | RUnit | RExhausted | RPanic.

(** One operation on the implementation; a panic leaves the list as it was (every assertion and
    allocation precedes the first update). *)
Definition step (l : llist T) (o : op) : llist T * ret :=
  let addr r := match r with Ok (l', a) => (l', RAddress a) | Exhausted => (l, RExhausted) | Panicked => (l, RPanic) end in
  match o with
  | Append x => addr (ll_append l x)
  | Prepend x => addr (ll_prepend l x)
  | InsertBefore a x => addr (ll_insert_before l a x)
  | InsertAfter a x => addr (ll_insert_after l a x)
  | Remove a => match ll_remove l a with Ok (l', x) => (l', RValue x) | Exhausted => (l, RExhausted) | Panicked => (l, RPanic) end
  | Set_ a x => match ll_set l a x with Ok l' => (l', RUnit) | Exhausted => (l, RExhausted) | Panicked => (l, RPanic) end
  end.

Fixpoint run (l : llist T) (os : list op) : llist T * list ret :=
  match os with
  | [] => (l, [])
  | o :: os => let '(l1, r) := step l o in let '(l2, rs) := run l1 os in (l2, r :: rs)
  end.

(** The abstract sequence: one step.  New addresses are fresh; other addresses are never changed. *)
Definition fresh (a : nat) (s : list (nat * T)) := ~ In a (map fst s).
Definition full (s : list (nat * T)) := (4294967295 <= N.of_nat (length s))%N.

Inductive astep : list (nat * T) -> op -> list (nat * T) -> ret -> Prop :=
| a_append : forall s x a, fresh a s -> astep s (Append x) (s ++ [(a, x)]) (RAddress a)
| a_prepend : forall s x a, fresh a s -> astep s (Prepend x) ((a, x) :: s) (RAddress a)
| a_before : forall s1 b y s2 x a, fresh a (s1 ++ (b, y) :: s2) ->
    astep (s1 ++ (b, y) :: s2) (InsertBefore b x) (s1 ++ (a, x) :: (b, y) :: s2) (RAddress a)
| a_after : forall s1 b y s2 x a, fresh a (s1 ++ (b, y) :: s2) ->
    astep (s1 ++ (b, y) :: s2) (InsertAfter b x) (s1 ++ (b, y) :: (a, x) :: s2) (RAddress a)
| a_remove : forall s1 b y s2, astep (s1 ++ (b, y) :: s2) (Remove b) (s1 ++ s2) (RValue y)
| a_set : forall s1 b y s2 x, astep (s1 ++ (b, y) :: s2) (Set_ b x) (s1 ++ (b, x) :: s2) RUnit
| a_dead : forall s o b, fresh b s ->
    (exists x, o = InsertBefore b x \/ o = InsertAfter b x \/ o = Set_ b x) \/ o = Remove b ->
    astep s o s RPanic
| a_full : forall s o, full s ->
    (exists x b, o = Append x \/ o = Prepend x \/ o = InsertBefore b x \/ o = InsertAfter b x) ->
    astep s o s RExhausted.

Inductive arun : list (nat * T) -> list op -> list (nat * T) -> list ret -> Prop :=
| arun_nil : forall s, arun s [] s []
| arun_cons : forall s o s1 r os s2 rs, astep s o s1 r -> arun s1 os s2 rs -> arun s (o :: os) s2 (r :: rs).

(** Walking the implementation forwards and backwards through its public navigation functions. *)
Inductive forwards (l : llist T) : option nat -> list (nat * T) -> Prop :=
| fw_end : forwards l None []
| fw_step : forall a x n s, ll_get l a = Ok x -> ll_address_after l a = Ok n -> forwards l n s ->
    forwards l (Some a) ((a, x) :: s).
Inductive backwards (l : llist T) : option nat -> list (nat * T) -> Prop :=
| bw_end : backwards l None []
| bw_step : forall a x n s, ll_get l a = Ok x -> ll_address_before l a = Ok n -> backwards l n s ->
    backwards l (Some a) ((a, x) :: s).
End Spec.
Arguments op : clear implicits.
Arguments ret : clear implicits.
