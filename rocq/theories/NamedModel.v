(** Tables of named entries (definitions of a module, modules of a session), src/module/id.rs L198-320.
    Names are numbers; the hash map is an association list in which a name occurs at most once.
    [from_index] panics past 2^32 entries, which memory rules out. *)
From Coq Require Import List Bool Arith ZArith.
Import ListNotations.

(** L200-203 *)
Record table (T : Type) : Type := mkTable { data : list (T * option nat); name_to_id : list (nat * nat) }.
Arguments mkTable {T}. Arguments data {T}. Arguments name_to_id {T}.

Section Table.
Context {T : Type}.
Notation table := (table T).
(** L205-210 *)
Definition new_table : table := mkTable [] [].

Fixpoint find_name (m : list (nat * nat)) (name : nat) : option nat :=
  match m with
  | [] => None
  | (n, id) :: m' => if n =? name then Some id else find_name m' name
  end.
Definition put_name (m : list (nat * nat)) (name id : nat) : list (nat * nat) := (name, id) :: filter (fun b => negb (fst b =? name)) m.

(** L215-220 [insert] *)
Definition insert (t : table) (name : nat) (value : T) : table * nat :=
  let id := length (data t) in
  (mkTable (data t ++ [(value, Some name)]) (put_name (name_to_id t) name id), id).
(** L223-227 [insert_anonymous] *)
Definition insert_anonymous (t : table) (value : T) : table * nat :=
  (mkTable (data t ++ [(value, None)]) (name_to_id t), length (data t)).
Fixpoint set_value (l : list (T * option nat)) (i : nat) (value : T) : list (T * option nat) :=
  match l, i with
  | [], _ => []
  | (_, n) :: l', O => (value, n) :: l'
  | x :: l', S i' => x :: set_value l' i' value
  end.
(** L230-240 [replace]; the outer [None] is the panic of indexing *)
Definition replace (t : table) (name : nat) (value : T) : option (table * (nat * option T)) :=
  match find_name (name_to_id t) name with
  | Some id => match nth_error (data t) id with
               | Some (old, _) => Some (mkTable (set_value (data t) id value) (name_to_id t), (id, Some old))
               | None => None
               end
  | None => let '(t', id) := insert t name value in Some (t', (id, None))
  end.
(** L243-246 [truncate] *)
Definition truncate (t : table) (len : nat) : table :=
  mkTable (firstn len (data t)) (filter (fun b => snd b <? len) (name_to_id t)).
(** L253-255 [get] *)
Definition get (t : table) (id : nat) : option T := option_map fst (nth_error (data t) id).
(** L261-265 [get_by_name] *)
Definition get_by_name (t : table) (name : nat) : option (nat * T) :=
  match find_name (name_to_id t) name with
  | Some id => match get t id with Some v => Some (id, v) | None => None end
  | None => None
  end.
(** L272-276 [get_name] *)
Definition get_name (t : table) (id : nat) : option nat := match nth_error (data t) id with Some (_, n) => n | None => None end.
End Table.
