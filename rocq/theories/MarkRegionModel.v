(** Removal of the stack regions of one block that reclaim nothing
    (src/mir/pass/dce.rs).  The functions and the interpreter are those of
    [MarkModel]. *)
From Coq Require Import List Arith Bool.
From Verif Require Import MarkModel.
Import ListNotations.

(** [restore_uses], src/mir/pass/dce.rs L550-554: how many restores name the
    marker [m].  The map of counters is written as a count for each marker. *)
Definition names_marker (m : reg) (o : op) : bool :=
  match okind o, operands o with
  | StackRestore, Reg r :: _ => r =? m
  | _, _ => false
  end.

Definition restore_uses (f : function) (m : reg) : nat :=
  length (filter (names_marker m) (flat_map ops f)).

(** [Region], L351-355. *)
Record region : Type := mkRegion { marker : reg; save_index : nat; grows_frame : bool }.

(** The regions that are open, the innermost first, and [newly_removed], L359-360. *)
Definition scanning := (list region * list nat)%type.

(** One operation, L362-398; [gone] is [already_removed]. *)
Definition scan_op (f : function) (gone : list site) (b i : nat) (o : op) (t : scanning) : scanning :=
  let (regions, removed) := t in
  if mem_site (b, i) gone then t
  else
    match okind o with
    | StackSave =>
        match result o with
        | Some m => if restore_uses f m =? 1 then (mkRegion m i false :: regions, removed) else t
        | None => t
        end
    | StackRestore =>
        match operands o, regions with
        | Reg m :: _, r :: rest =>
            if marker r =? m
            then (rest, if grows_frame r then removed else i :: save_index r :: removed)
            else t
        | _, _ => t
        end
    | _ =>
        if may_leave_frame_storage o
        then match regions with
             | r :: rest => (mkRegion (marker r) (save_index r) true :: rest, removed)
             | [] => t
             end
        else t
    end.

Fixpoint scan_ops (f : function) (gone : list site) (b i : nat) (l : list op) (t : scanning) : scanning :=
  match l with
  | [] => t
  | o :: rest => scan_ops f gone b (S i) rest (scan_op f gone b i o t)
  end.

(** The loop over the blocks, L357-403: the sites that are added. *)
Fixpoint scan_blocks (f : function) (gone : list site) (b : nat) (bls : list block) : list site :=
  match bls with
  | [] => []
  | bl :: rest =>
      map (pair b) (snd (scan_ops f gone b 0 (ops bl) ([], []))) ++ scan_blocks f gone (S b) rest
  end.

(** [remove_empty_local_stack_regions], L346-404. *)
Definition remove_empty_local_stack_regions (f : function) (gone : list site) : list site :=
  scan_blocks f gone 0 f ++ gone.

(** The removal of the selected operations, L318-330. *)
Fixpoint delete_from (dead : list site) (b : nat) (bls : list block) : list block :=
  match bls with
  | [] => []
  | bl :: rest => mkBlock (retain dead b 0 (ops bl)) (tail bl) :: delete_from dead (S b) rest
  end.

Definition delete (dead : list site) (f : function) : function := delete_from dead 0 f.
