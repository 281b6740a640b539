(** Editing the control flow of a MIR body: src/mir/edit.rs.

    A body is a list of blocks (MirModel.function).  Simplifications: source
    spans, names, parameters and the constant pool are left out; a hash map from
    blocks to blocks is a list of options.  [reachable_blocks] and
    [reverse_postorder] are those of WillReturnModel and GraphModel: the loops of
    edit.rs L244-251 and L291-305 are the same searches, with a hash set of
    visited blocks in place of a vector of flags. *)
From Coq Require Import List Arith Bool.
From Verif Require Import ListUtil MirModel GraphModel WillReturnModel.
Import ListNotations.

Section Edit.
Context {prim cnd : Type}.
Local Notation function := (function prim cnd).
Local Notation block := (block prim cnd).
Local Notation terminator := (terminator prim cnd).

(** [renumbered[target]]: panics on a missing key. *)
Definition lookup (renumbered : list (option nat)) (target : nat) : gres nat :=
  match nth_error renumbered target with
  | Some (Some b) => Val b
  | _ => Panics
  end.

(** [for target in successors_mut(..) { *target = renumbered[target] }], with
    successors_mut L569-587. *)
Definition retarget (renumbered : list (option nat)) (t : terminator) : gres terminator :=
  match t with
  | Goto b => let* b := lookup renumbered b in Val (Goto b)
  | CondBr q t e =>
      let* t := lookup renumbered t in
      let* e := lookup renumbered e in
      Val (CondBr q t e)
  | Invoke o n e =>
      let* n := lookup renumbered n in
      let* e := lookup renumbered e in
      Val (Invoke o n e)
  | Yield p r => let* r := lookup renumbered r in Val (Yield p r)
  | Return => Val Return
  | PropagateError => Val PropagateError
  | FailureInCleanup => Val FailureInCleanup
  end.

Definition retarget_block (renumbered : list (option nat)) (blk : block) : gres block :=
  let* t := retarget renumbered (term blk) in Val (Block (operations blk) t).

Fixpoint retarget_all (renumbered : list (option nat)) (blks : list block) : gres (list block) :=
  match blks with
  | [] => Val []
  | blk :: blks =>
      let* blk := retarget_block renumbered blk in
      let* blks := retarget_all renumbered blks in
      Val (blk :: blks)
  end.

(** L256-263: the retained blocks get consecutive numbers. *)
Fixpoint number_kept (next : nat) (reachable : list bool) : list (option nat) :=
  match reachable with
  | [] => []
  | true :: rest => Some next :: number_kept (S next) rest
  | false :: rest => None :: number_kept next rest
  end.

(** L264-273: the retained blocks, in order. *)
Fixpoint retain (blks : list block) (reachable : list bool) : list block :=
  match blks, reachable with
  | blk :: blks, true :: rest => blk :: retain blks rest
  | _ :: blks, false :: rest => retain blks rest
  | _, _ => []
  end.

(** remove_unreachable_blocks L243-275. *)
Definition remove_unreachable_blocks (fn : function) : gres function :=
  let* reachable := reachable_blocks fn in
  if length (filter (fun r => r) reachable) =? length fn then Val fn
  else retarget_all (number_kept 0 reachable) (retain fn reachable).

(** The successors of every block. *)
Definition flow_graph (fn : function) : graph := map (fun blk => successors (term blk)) fn.

(** [previous[block.as_index()].take().expect(..)] for each block of the
    order: panics if a block is missing or placed twice. *)
Fixpoint place_blocks (order : list nat) (previous : list (option block)) : gres (list block) :=
  match order with
  | [] => Val []
  | b :: order =>
      let* taken := rd previous b in
      match taken with
      | None => Panics
      | Some blk =>
          let* previous := wr previous b None in
          let* blks := place_blocks order previous in
          Val (blk :: blks)
      end
  end.

(** L316-319: [renumbered.insert(order[index], index)]. *)
Fixpoint number_order (index : nat) (order : list nat) (renumbered : list (option nat)) : gres (list (option nat)) :=
  match order with
  | [] => Val renumbered
  | b :: order =>
      let* renumbered := wr renumbered b (Some index) in
      number_order (S index) order renumbered
  end.

Fixpoint in_place (index : nat) (order : list nat) : bool :=
  match order with
  | [] => true
  | b :: order => (b =? index) && in_place (S index) order
  end.

(** reorder_blocks_in_reverse_postorder L289-337. *)
Definition reorder_blocks_in_reverse_postorder (fn : function) : gres function :=
  let* visited := reverse_postorder (flow_graph fn) entry in
  let order := visited ++
    filter (fun b => negb (existsb (Nat.eqb b) visited)) (seq 0 (length fn)) in
  if in_place 0 order then Val fn
  else
    let* renumbered := number_order 0 order (repeat None (length fn)) in
    let* blks := place_blocks order (map Some fn) in
    retarget_all renumbered blks.

(** L360-367: the incoming edges of every block. *)
Fixpoint count_targets (targets : list nat) (incoming : list nat) : gres (list nat) :=
  match targets with
  | [] => Val incoming
  | t :: targets =>
      let* n := rd incoming t in
      let* incoming := wr incoming t (S n) in
      count_targets targets incoming
  end.

Fixpoint count_incoming (blks : list block) (incoming : list nat) : gres (list nat) :=
  match blks with
  | [] => Val incoming
  | blk :: blks =>
      let* incoming := count_targets (successors (term blk)) incoming in
      count_incoming blks incoming
  end.

(** mergeable_successor L403-413. *)
Definition mergeable_successor (fn : function) (predecessor : nat) (incoming : list nat)
  : gres (option nat) :=
  let* blk := rd fn predecessor in
  match term blk with
  | Goto target =>
      if (target =? entry) || (target =? predecessor) then Val None
      else
        let* n := rd incoming target in
        Val (if n =? 1 then Some target else None)
  | _ => Val None
  end.

(** L368-371: the predecessors to look at. *)
Fixpoint candidates (fn : function) (incoming : list nat) (predecessors : list nat) : gres (list nat) :=
  match predecessors with
  | [] => Val []
  | p :: predecessors =>
      let* s := mergeable_successor fn p incoming in
      let* rest := candidates fn incoming predecessors in
      Val (match s with Some _ => p :: rest | None => rest end)
  end.

(** L372-396: the loop over the queue.  The result tells whether a block was
    merged. *)
Fixpoint merge_loop (fuel : nat) (fn : function) (incoming pending : list nat) (merged_any : bool)
  : gres (function * bool) :=
  match fuel with
  | O => OutOfFuel
  | S fuel =>
      match pending with
      | [] => Val (fn, merged_any)
      | predecessor :: pending =>
          let* s := mergeable_successor fn predecessor incoming in
          match s with
          | None => merge_loop fuel fn incoming pending merged_any
          | Some successor =>
              let* taken := rd fn successor in
              let* fn := wr fn successor (Block [] Return) in
              let* blk := rd fn predecessor in
              let* fn := wr fn predecessor (Block (operations blk ++ operations taken) (term taken)) in
              let* incoming := wr incoming successor 0 in
              merge_loop fuel fn incoming (pending ++ [predecessor]) true
          end
      end
  end.

(** merge_blocks_into_predecessors L359-400. *)
Definition merge_blocks_into_predecessors (fn : function) : gres function :=
  let* incoming := count_incoming fn (repeat 0 (length fn)) in
  let* pending := candidates fn incoming (seq 0 (length fn)) in
  let* (fn, merged_any) := merge_loop (S (2 * length fn)) fn incoming pending false in
  if merged_any then remove_unreachable_blocks fn else Val fn.

End Edit.
