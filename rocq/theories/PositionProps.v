(** C22: source positions. *)
From Coq Require Import List Bool Arith ZArith Lia.
From Verif Require Import GraphModel Utf8Model PositionModel PositionSpec PositionProofs.
Import ListNotations.
Open Scope nat_scope.

(** Every byte offset has exactly one text before it. *)
Theorem C22_before : forall text i, exists p, before text i p /\ forall q, before text i q -> q = p.
Proof.
  intros text i. destruct (before_exists text i) as [p H]. exists p. split; [exact H|].
  intros q Hq. exact (before_unique text i q p Hq H).
Qed.
Print Assumptions C22_before.

(** The line and the column of a byte offset are those of the text before it, counted by
    newlines and characters; the end of the text included. *)
Theorem C22_line_column : forall text i p, Forall scalar text -> i <= offset text -> before text i p ->
  exists column, get_line_column (new text) i = Val (line_after p, column) /\ column_after p column.
Proof. exact line_column_lemma. Qed.
Print Assumptions C22_line_column.

(** Offsets beyond the end are refused. *)
Theorem C22_beyond : forall text i, offset text < i -> get_line_column (new text) i = Panics.
Proof. exact line_column_beyond. Qed.
Print Assumptions C22_beyond.

(** Snippets never panic, whatever the ends; they are whole characters: from the one that contains
    the start to the first one that reaches the end. *)
Theorem C22_snippet : forall text a b, Forall scalar text ->
  exists p m s, text = p ++ m ++ s /\ get_snippet (new text) a b = Val (utf8 m) /\
    before text a p /\ Nat.min b (offset text) <= offset (p ++ m) /\
    (forall m' c, m = m' ++ [c] -> offset (p ++ m') < b).
Proof. exact snippet_lemma. Qed.
Print Assumptions C22_snippet.

(** Editor positions count the characters, or the UTF-16 units, of the text before the offset. *)
Theorem C22_editor_position : forall text e, exists l, new_lookup text e = Val l /\
  forall i p, before text i p -> byte_to_position l i = Val (position_after e p).
Proof. exact position_lemma. Qed.
Print Assumptions C22_editor_position.

(** Fusing locations of one source gives the smallest location that covers them; locations of
    different sources are refused. *)
Theorem C22_fuse : forall ls, ls <> [] -> (forall l m, In l ls -> In m ls -> source_id l = source_id m) ->
  (forall l, In l ls -> start l <= end_ l) ->
  exists f, fuse ls = Val (Some f) /\ start f <= end_ f /\ (forall l, In l ls -> covers f l) /\
    (forall g, (forall l, In l ls -> covers g l) -> covers g f).
Proof. exact fuse_lemma. Qed.
Print Assumptions C22_fuse.

Theorem C22_fuse_mixed : forall ls l m, In l ls -> In m ls -> source_id l <> source_id m -> fuse ls = Panics.
Proof. exact fuse_mixed. Qed.
Print Assumptions C22_fuse_mixed.

(** "aé", newline, "😀b". *)
Definition sample : list Z := [97; 233; 10; 128512; 98]%Z.
Example C22_example_text : Forall scalar sample /\ utf8 sample = [97; 195; 169; 10; 240; 159; 152; 128; 98]%Z /\ before sample 6 [97; 233; 10]%Z.
Proof.
  split; [repeat constructor; unfold scalar; lia|]. split; [reflexivity|].
  exists [128512; 98]%Z. split; [reflexivity|]. split; vm_compute; lia.
Qed.
Example C22_example_positions :
  map (get_line_column (new sample)) [0; 1; 2; 3; 4; 6; 8; 9; 10] =
  [Val (1, 1); Val (1, 2); Val (1, 2); Val (1, 3); Val (2, 1); Val (2, 1); Val (2, 2); Val (2, 3); Panics].
Proof. vm_compute. reflexivity. Qed.
Example C22_example_snippet :
  get_snippet (new sample) 2 5 = Val (utf8 [233; 10; 128512]%Z) /\ get_snippet (new sample) 8 3 = Val [] /\
  get_snippet (new sample) 100 200 = Val [].
Proof. vm_compute. repeat split. Qed.
Example C22_example_editor :
  (let* l := new_lookup sample Utf16CodeUnit in byte_to_position l 8) = Val 5 /\
  (let* l := new_lookup sample UnicodeScalar in byte_to_position l 8) = Val 4 /\
  (let* l := new_lookup sample Utf16CodeUnit in byte_to_position l 99) = Val 6.
Proof. vm_compute. repeat split. Qed.
Example C22_example_fuse :
  fuse [Location 5 9 1; Location 2 3 1; Location 4 4 1] = Val (Some (Location 2 9 1)) /\ fuse [] = Val None.
Proof. vm_compute. split; reflexivity. Qed.
