(** Removal of stores to local cells that are overwritten before they are read.

    Modelled: src/mir/pass/dead_store.rs, all of it; the machine is
    FrameModel.

    Simplifications.  Whether a type may be copied bit by bit
    (concrete_type_is_trivial_copy) is a parameter.  Hash sets of registers
    are lists compared as sets; the work list of the liveness analysis takes
    its last block first, as in the code, and is a list in reverse order here. *)
From Coq Require Import List Arith Bool.
From Verif Require Import FrameModel.
Import ListNotations.

Definition mem (r : nat) (l : list nat) : bool := existsb (Nat.eqb r) l.

(** dead_store.rs whole_place_write_index L241-249. *)
Definition whole_place_write_index (o : operation) : option nat :=
  match op_kind o with
  | KStore | KMemcpy => Some 1
  | KCall visible _ => call_result_operand_index (op_operands o) visible
  | _ => None
  end.

(** is_exact_place_read L257-262. *)
Definition is_exact_place_read (o : operation) (position : nat) : bool :=
  match op_kind o with
  | KLoad | KMemcpy | KMove => position =? 0
  | _ => false
  end.

(** operation.rs result_requires_consuming_use L117-133. *)
Definition requires_consuming_use (o : operation) : bool :=
  match op_kind o with KOther owned _ => owned | _ => false end.

(** L34-44: the cells of a trivial type. *)
Definition allocas (trivial : nat -> bool) (p : body) : list nat :=
  flat_map (fun b => flat_map (fun o =>
    match op_kind o, op_result o with
    | KAlloca ty, Some r => if trivial ty then [r] else []
    | _, _ => []
    end) (operations b)) p.

(** L50-55. *)
Definition consuming_results (p : body) : list nat :=
  flat_map (fun b => flat_map (fun o =>
    match op_result o with
    | Some r => if requires_consuming_use o then [r] else []
    | None => []
    end) (operations b)) p.

(** L66-80: a position that excludes the register it names. *)
Fixpoint excluded_at (o : operation) (position : nat) (os : list operand) : list nat :=
  match os with
  | [] => []
  | OReg r :: os =>
      let allowed :=
        match whole_place_write_index o with Some i => i =? position | None => false end
        || is_exact_place_read o position in
      (if allowed then [] else [r]) ++ excluded_at o (S position) os
  | _ :: os => excluded_at o (S position) os
  end.

Definition registers (os : list operand) : list nat :=
  flat_map (fun o => match o with OReg r => [r] | _ => [] end) os.

(** L62-88. *)
Definition excluded (p : body) : list nat :=
  flat_map (fun b =>
    flat_map (fun o => excluded_at o 0 (op_operands o)) (operations b)
    ++ registers (term_operands (term b))) p.

Definition candidates (trivial : nat -> bool) (p : body) : list nat :=
  filter (fun r => negb (mem r (excluded p))) (allocas trivial p).

(** L182-216 transfer_block, backwards through the operations: the cells live
    before them, and which are kept. *)
Section Transfer.
Variables cands consuming : list nat.

Definition remove (r : nat) (live : list nat) : list nat :=
  filter (fun x => negb (x =? r)) live.

(** L199-204. *)
Definition is_dead_store (o : operation) (r : nat) (live : list nat) : bool :=
  match op_kind o with
  | KStore =>
      negb (match op_operands o with OReg v :: _ => mem v consuming | _ => false end)
      && negb (mem r live)
  | _ => false
  end.

(** The candidate an operation overwrites (L195-198). *)
Definition written (o : operation) : option nat :=
  match whole_place_write_index o with
  | Some i =>
      match nth_error (op_operands o) i with
      | Some (OReg r) => if mem r cands then Some r else None
      | _ => None
      end
  | None => None
  end.

(** The candidates an operation reads (L212-219). *)
Fixpoint reads_at (o : operation) (position : nat) (os : list operand) : list nat :=
  match os with
  | [] => []
  | OReg r :: os =>
      (if is_exact_place_read o position && mem r cands then [r] else [])
      ++ reads_at o (S position) os
  | _ :: os => reads_at o (S position) os
  end.

Definition transfer_operation (o : operation) (live : list nat) : list nat :=
  reads_at o 0 (op_operands o)
  ++ match written o with Some r => remove r live | None => live end.

Definition keeps (o : operation) (live : list nat) : bool :=
  match written o with Some r => negb (is_dead_store o r live) | None => true end.

Fixpoint transfer (os : list operation) (live : list nat) : list nat * list operation :=
  match os with
  | [] => (live, [])
  | o :: os =>
      let (live, kept) := transfer os live in
      (transfer_operation o live, if keeps o live then o :: kept else kept)
  end.
End Transfer.

(** [live_in] of the successors (L111-114). *)
Definition live_out (live_in : list (list nat)) (b : block) : list nat :=
  flat_map (fun s => nth s live_in []) (successors (term b)).

Definition subset (a b : list nat) : bool := forallb (fun r => mem r b) a.
Definition same_set (a b : list nat) : bool := subset a b && subset b a.

Fixpoint replace (i : nat) (x : list nat) (l : list (list nat)) : list (list nat) :=
  match l with
  | [] => []
  | y :: l => match i with 0 => x :: l | S i => y :: replace i x l end
  end.

(** L93-98: in order, with repetitions. *)
Definition predecessors (p : body) (b : nat) : list nat :=
  flat_map (fun i =>
    match nth_error p i with
    | Some bl => flat_map (fun s => if s =? b then [i] else []) (successors (term bl))
    | None => []
    end) (seq 0 (length p)).

(** L108-131: the next block is the head of [pending]. *)
Fixpoint liveness (fuel : nat) (cands consuming : list nat) (p : body)
    (pending : list nat) (live_in : list (list nat)) : option (list (list nat)) :=
  match pending with
  | [] => Some live_in
  | b :: pending =>
      match fuel with
      | 0 => None
      | S fuel =>
          match nth_error p b with
          | None => None
          | Some bl =>
              let live := fst (transfer cands consuming (operations bl) (live_out live_in bl)) in
              if same_set live (nth b live_in [])
              then liveness fuel cands consuming p pending live_in
              else liveness fuel cands consuming p
                     (rev (predecessors p b) ++ pending) (replace b live live_in)
          end
      end
  end.

(** Enough for the analysis to end (DeadStoreProofs). *)
Definition liveness_fuel (cands : list nat) (p : body) : nat :=
  length p + length p * length cands * (2 * length p) + 1.

Definition remove_in_block (cands consuming : list nat) (live_in : list (list nat)) (b : block) : block :=
  Block (snd (transfer cands consuming (operations b) (live_out live_in b))) (term b).

(** remove_overwritten_trivial_copy_stores L28-178; [None]: not rewritten; the
    outer [option]: the analysis ended. *)
Definition remove_overwritten_stores (trivial : nat -> bool) (p : body) : option (option body) :=
  let cands := candidates trivial p in
  let consuming := consuming_results p in
  match cands with
  | [] => Some None
  | _ =>
      match liveness (liveness_fuel cands p) cands consuming p
              (rev (seq 0 (length p))) (repeat [] (length p)) with
      | None => None
      | Some live_in =>
          let p' := map (remove_in_block cands consuming live_in) p in
          if forallb (fun '(b, b') => length (operations b) =? length (operations b'))
               (combine p p')
          then Some None else Some (Some p')
      end
  end.
