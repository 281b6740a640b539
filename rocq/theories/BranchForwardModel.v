(** Forwarding of booleans that control flow stores only to branch on them.

    Modelled: src/mir/pass/branch_forward.rs forward_boolean_branches L98-153 up
    to the rewriting of the edges, incoming_predecessors L155-183, census_uses
    L185-228, plan_join L230-302, reaching_stores L311-388, read_boolean_flag
    L390-412, bool_value L414-421; the bounds of src/mir/pass/budget.rs L71-77.
    The machine is FrameModel.

    Simplifications.  The removal of unreachable blocks and the merging of
    blocks that the pass ends with (src/mir/edit.rs) are EditModel's.  The use
    census, a map filled by one walk, is computed for one register at a time.
    The early returns that only save time are left out: without a flag that
    has one read and two stores there is no plan. *)
From Coq Require Import List Arith Bool.
From Verif Require Import FrameModel.
Import ListNotations.

(** budget.rs L71, L77. *)
Definition forward_boolean_blocks : nat := 16.
Definition forward_boolean_replayed_operations : nat := 8.

(** L414-421. *)
Definition bool_value (o : operand) : option bool :=
  match o with
  | OConst (LBool b) | OPattern (LBool b) => Some b
  | _ => None
  end.

(** L76-81 Uses; stores with their block and value, reads with their site. *)
Record uses := Uses { stores : list (nat * bool); reads : list (nat * nat); other_use : bool }.

Definition no_uses : uses := Uses [] [] false.

(** L196-214, one operand that is the register [flag]. *)
Definition note_use (b i : nat) (o : operation) (position : nat) (u : uses) : uses :=
  match op_kind o with
  | KStore =>
      if position =? 1 then
        match op_operands o with
        | v :: _ =>
            match bool_value v with
            | Some v => Uses (stores u ++ [(b, v)]) (reads u) (other_use u)
            | None => Uses (stores u) (reads u) true
            end
        | [] => Uses (stores u) (reads u) true
        end
      else Uses (stores u) (reads u) true
  | KCompareEqual | KLoad => Uses (stores u) (reads u ++ [(b, i)]) (other_use u)
  | _ => Uses (stores u) (reads u) true
  end.

Definition is_reg (r : nat) (o : operand) : bool :=
  match o with OReg x => x =? r | _ => false end.

Fixpoint census_operands (flag b i : nat) (o : operation) (position : nat) (os : list operand)
    (u : uses) : uses :=
  match os with
  | [] => u
  | x :: os =>
      census_operands flag b i o (S position) os
        (if is_reg flag x then note_use b i o position u else u)
  end.

Fixpoint census_operations (flag b i : nat) (os : list operation) (u : uses) : uses :=
  match os with
  | [] => u
  | o :: os =>
      census_operations flag b (S i) os (census_operands flag b i o 0 (op_operands o) u)
  end.

(** L216-225. *)
Definition census_terminator (flag : nat) (t : terminator) (u : uses) : uses :=
  if existsb (is_reg flag) (term_operands t) then Uses (stores u) (reads u) true else u.

Fixpoint census_blocks (flag b : nat) (p : body) (u : uses) : uses :=
  match p with
  | [] => u
  | bl :: p =>
      census_blocks flag (S b) p
        (census_terminator flag (term bl) (census_operations flag b 0 (operations bl) u))
  end.

Definition census (p : body) (flag : nat) : uses := census_blocks flag 0 p no_uses.

(** The number of operands that are the register (L199, L218). *)
Definition value_uses (p : body) (r : nat) : nat :=
  length (filter (is_reg r)
    (flat_map (fun bl => flat_map op_operands (operations bl) ++ term_operands (term bl)) p)).

(** L99-112: the cells of booleans. *)
Definition is_boolean_cell (bool_type : nat) (p : body) (flag : nat) : bool :=
  existsb (fun o =>
    match op_kind o, op_result o with
    | KAlloca ty, Some r => (ty =? bool_type) && (r =? flag)
    | _, _ => false
    end) (flat_map operations p).

(** L155-183. *)
Definition incoming (p : body) (b : nat) : list nat :=
  flat_map (fun i =>
    match nth_error p i with
    | Some bl => flat_map (fun s => if s =? b then [i] else []) (successors (term bl))
    | None => []
    end) (seq 0 (length p)).

(** L390-412. *)
Definition read_boolean_flag (o : operation) : option (nat * bool) :=
  match op_kind o with
  | KLoad => match op_operands o with [OReg flag] => Some (flag, true) | _ => None end
  | _ =>
      match op_operands o with
      | [OReg flag; literal] => option_map (fun v => (flag, v)) (bool_value literal)
      | [literal; OReg flag] => option_map (fun v => (flag, v)) (bool_value literal)
      | _ => None
      end
  end.

Definition is_restore (o : operation) : bool :=
  match op_kind o with KStackRestore => true | _ => false end.

(** L304-309 Reaching. *)
Record reaching := Reaching { source : nat; value_there : bool; replay : list operation }.

(** L326-386.  [pending]: the next entry first; [None]: refused. *)
Fixpoint walk_back (fuel : nat) (p : body) (join : nat) (u : uses) (visited : list nat)
    (pending : list (nat * list operation)) (found : list reaching) : option (list reaching) :=
  match pending with
  | [] => Some found
  | (b, carried) :: pending =>
      match fuel with
      | 0 => None
      | S fuel =>
          if (b =? join) || existsb (Nat.eqb b) visited
             || (forward_boolean_blocks <? S (length visited)) then None
          else
            match nth_error p b with
            | Some (Block ops (TGoto _)) =>
                match filter (fun s => fst s =? b) (stores u) with
                | [s] =>
                    walk_back fuel p join u (b :: visited) pending
                      (found ++ [Reaching b (snd s) carried])
                | _ :: _ :: _ => None
                | [] =>
                    if forallb is_restore ops then
                      match incoming p b with
                      | [] => None
                      | preds =>
                          let carried := ops ++ carried in
                          if forward_boolean_replayed_operations <? length carried then None
                          else walk_back fuel p join u (b :: visited)
                                 (rev (map (fun x => (x, carried)) preds) ++ pending) found
                      end
                    else None
                end
            | _ => None
            end
      end
  end.

(** L311-388.  Every turn visits another block, of which there may be
    [forward_boolean_blocks]: the fuel cannot run out first. *)
Definition reaching_stores (p : body) (join : nat) (u : uses) : option (list reaching) :=
  match walk_back (S forward_boolean_blocks) p join u []
          (rev (map (fun x => (x, [])) (incoming p join))) [] with
  | Some found => if length found =? length (stores u) then Some found else None
  | None => None
  end.

(** L83-92 Arm. *)
Record arm := Arm { arm_source : nat; arm_target : nat; arm_replay : list operation }.

Definition site_eqb (a b : nat * nat) : bool := (fst a =? fst b) && (snd a =? snd b).

(** L230-302. *)
Definition plan_join (bool_type : nat) (p : body) (join : nat) : option (list arm) :=
  match nth_error p join with
  | None => None
  | Some bl =>
      match rev (operations bl) with
      | [] => None
      | read :: before =>
          let prefix := rev before in
          match op_kind read, op_result read, term bl with
          | (KCompareEqual | KLoad), Some result, TCondBr (OReg condition) yes no =>
              if negb (condition =? result) || negb (value_uses p result =? 1) then None
              else if (yes =? join) || (no =? join) then None
              else
                match read_boolean_flag read with
                | None => None
                | Some (flag, expected) =>
                    if negb (is_boolean_cell bool_type p flag) then None
                    else
                      let u := census p flag in
                      if other_use u
                         || negb (match reads u with
                                  | [s] => site_eqb s (join, length prefix)
                                  | _ => false
                                  end)
                         || (length (stores u) <? 2)
                         || negb (forallb is_restore prefix) then None
                      else
                        match reaching_stores p join u with
                        | None => None
                        | Some found =>
                            Some (map (fun x =>
                              Arm (source x)
                                (if Bool.eqb (value_there x) expected then yes else no)
                                (replay x ++ prefix)) found)
                        end
                end
          | _, _, _ => None
          end
      end
  end.

(** L141-150. *)
Fixpoint set_block (i : nat) (x : block) (p : body) : body :=
  match p with
  | [] => []
  | y :: p => match i with 0 => x :: p | S i => y :: set_block i x p end
  end.

Definition apply_arm (p : body) (a : arm) : body :=
  match nth_error p (arm_source a) with
  | Some bl => set_block (arm_source a)
                 (Block (operations bl ++ arm_replay a) (TGoto (arm_target a))) p
  | None => p
  end.

(** L98-153; [None]: not rewritten. *)
Definition forward_boolean_branches (bool_type : nat) (p : body) : option body :=
  let plans :=
    flat_map (fun j => match plan_join bool_type p j with Some arms => [arms] | None => [] end)
      (seq 0 (length p)) in
  match plans with
  | [] => None
  | _ => Some (fold_left apply_arm (concat plans) p)
  end.
