(** What a format string is made of (C58). *)
From Coq Require Import List ZArith.
From Verif Require Import Utf8Model FormatModel.
Import ListNotations.
Open Scope Z_scope.

Inductive piece := Text (t : list Z) | Hole (name : list Z).

Definition written (p : piece) : list Z :=
  match p with Text t => t | Hole name => [123] ++ name ++ [125] end.

Definition written_all (ps : list piece) : list Z := flat_map written ps.

Section Pieces.
Variables letter number : Z -> bool.

(** A name: a letter or underscore, then letters, numbers and underscores. *)
Definition is_name (name : list Z) : Prop :=
  exists c rest, name = c :: rest /\ (letter c = true \/ c = 95) /\
    Forall (fun c => letter c = true \/ number c = true \/ c = 95) rest.

(** The pieces of a text.  A hole holds a name.  A text is not empty, is followed by a hole or by
    nothing, and no hole starts inside it. *)
Inductive pieces : list piece -> Prop :=
| pieces_nil : pieces []
| pieces_hole : forall name ps, is_name name -> pieces ps -> pieces (Hole name :: ps)
| pieces_text : forall t ps, t <> [] -> pieces ps ->
    match ps with Text _ :: _ => False | _ => True end ->
    (forall a name b, is_name name -> t ++ written_all ps = a ++ written (Hole name) ++ b ->
       (length t <= length a)%nat) ->
    pieces (Text t :: ps).
End Pieces.

Definition bytes (s : list Z) : nat := length (utf8 s).

(** Where the names stand: the holes with the byte ranges of their names, when the text starts at
    [offset]. *)
Fixpoint names_at (offset : nat) (ps : list piece) : list (list Z * (nat * nat)) :=
  match ps with
  | [] => []
  | Text t :: ps => names_at (offset + bytes t) ps
  | Hole name :: ps =>
      (name, (offset + 1, offset + 1 + bytes name)%nat) :: names_at (offset + bytes name + 2) ps
  end.

(** The appends that put the pieces together. *)
Fixpoint code (offset : nat) (ps : list piece) : list statement :=
  match ps with
  | [] => []
  | Text t :: ps => PushLiteral t offset (offset + bytes t) :: code (offset + bytes t) ps
  | Hole name :: ps =>
      PushVariable name (offset + 1) (offset + 1 + bytes name) :: code (offset + bytes name + 2) ps
  end.
