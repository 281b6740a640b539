(** Histories of a table of named entries. *)
From Coq Require Import List Bool Arith.
From Verif Require Import NamedModel.
Import ListNotations.

Inductive op (T : Type) : Type :=
| Insert (name : nat) (value : T)
| InsertAnonymous (value : T)
| Replace (name : nat) (value : T)
| Truncate (len : nat).
Arguments Insert {T}. Arguments InsertAnonymous {T}. Arguments Replace {T}. Arguments Truncate {T}.

Section Spec.
Context {T : Type}.
Definition step (t : table T) (o : op T) : option (table T) :=
  match o with
  | Insert n v => Some (fst (insert t n v))
  | InsertAnonymous v => Some (fst (insert_anonymous t v))
  | Replace n v => option_map fst (replace t n v)
  | Truncate len => Some (truncate t len)
  end.
Fixpoint run (t : table T) (ops : list (op T)) : option (table T) :=
  match ops with
  | [] => Some t
  | o :: ops' => match step t o with Some t' => run t' ops' | None => None end
  end.
Definition no_truncate (ops : list (op T)) : Prop := forall len, ~ In (Truncate len) ops.

(** What the table should be: the list of named entries alone. *)
Definition last_with_name (l : list (T * option nat)) (name id : nat) : Prop :=
  (exists v, nth_error l id = Some (v, Some name)) /\ forall j v, id < j -> nth_error l j <> Some (v, Some name).
End Spec.
