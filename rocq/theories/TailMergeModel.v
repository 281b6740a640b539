(** Simplification of shared basic-block tails.

    Modelled: src/mir/pass/tail_merge.rs, up to the removal of unreachable
    blocks, the merging of blocks into their predecessors and the pruning of
    constants it ends with (edit.rs: EditModel).  The hasher is any function of
    what the code feeds it ([hash]).  The maps from a register to its ordinal
    are the list of the registers in the order of their ordinals.  Whether code
    may have become dead ([exposed_dead_code]) only steers later passes and is
    left out of the result. *)
From Coq Require Import List Arith Bool.
From Verif Require Import FrameModel.
Import ListNotations.

(** [PartialEq] of LiteralValue, Value and OperationKind. *)
Definition literal_eqb (a b : literal) : bool :=
  match a, b with
  | LBool x, LBool y => Bool.eqb x y
  | LOther x, LOther y => x =? y
  | _, _ => false
  end.

Definition operand_eqb (a b : operand) : bool :=
  match a, b with
  | OConst x, OConst y | OPattern x, OPattern y => literal_eqb x y
  | OStatic x, OStatic y | OParam x, OParam y | OReg x, OReg y => x =? y
  | _, _ => false
  end.

Definition kind_eqb (a b : kind) : bool :=
  match a, b with
  | KAlloca x, KAlloca y => x =? y
  | KStackSave, KStackSave | KStackRestore, KStackRestore | KLoad, KLoad | KStore, KStore
  | KMemcpy, KMemcpy | KMove, KMove | KCompareEqual, KCompareEqual | KYield, KYield => true
  | KCall n x, KCall k y => (n =? k) && (x =? y)
  | KOther b x, KOther c y => Bool.eqb b c && (x =? y)
  | _, _ => false
  end.

(** The ordinal of a register among those a block has defined so far. *)
Fixpoint ordinal (results : list nat) (r : nat) : option nat :=
  match results with
  | [] => None
  | x :: results => if x =? r then Some 0 else option_map S (ordinal results r)
  end.

(** L40-55 [hash_value]: what is fed to the hasher for an operand. *)
Inductive hashed := Local (k : nat) | Global (o : operand).

Definition hash_value (results : list nat) (o : operand) : hashed :=
  match o with
  | OReg r => match ordinal results r with Some k => Local k | None => Global o end
  | _ => Global o
  end.

(** L57-73. *)
Definition values_alpha_equivalent (x y : operand) (xs ys : list nat) : bool :=
  match x, y with
  | OReg r, OReg r' =>
      match ordinal xs r, ordinal ys r' with
      | Some i, Some j => i =? j
      | None, None => r =? r'
      | _, _ => false
      end
  | _, _ => operand_eqb x y
  end.

(** [replacement]: newest first. *)
Definition replacement : Type := list (nat * nat).

Fixpoint replaced (l : replacement) (b : nat) : option nat :=
  match l with
  | [] => None
  | (b', r) :: l => if b' =? b then Some r else replaced l b
  end.

(** L75-77. *)
Definition canonical_target (l : replacement) (b : nat) : nat :=
  match replaced l b with Some r => r | None => b end.

(** What is fed to the hasher for a terminator. *)
Inductive hashed_end :=
| HGoto (target : nat)
| HCondBr (condition : hashed) (yes no : nat)
| HYield (place : hashed) (resume : nat)
| HReturn
| HPropagateError
| HFailureDuringCleanup.

(** The results of a block after an operation. *)
Definition and_result (results : list nat) (o : operation) : list nat :=
  match op_result o with Some r => results ++ [r] | None => results end.

(** L85-99. *)
Fixpoint hash_operations (results : list nat) (os : list operation)
  : list (kind * list hashed) * list nat :=
  match os with
  | [] => ([], results)
  | o :: os =>
      let (l, final) := hash_operations (and_result results o) os in
      ((op_kind o, map (hash_value results) (op_operands o)) :: l, final)
  end.

Section Hash.
Variable hash : list (kind * list hashed) -> hashed_end -> nat.

(** L79-127 [block_fingerprint]. *)
Definition block_fingerprint (l : replacement) (bl : block) : option nat :=
  let (os, results) := hash_operations [] (operations bl) in
  match term bl with
  | TGoto t => Some (hash os (HGoto (canonical_target l t)))
  | TCondBr c yes no =>
      Some (hash os (HCondBr (hash_value results c) (canonical_target l yes) (canonical_target l no)))
  | TInvoke _ _ _ => None
  | TYield q t => Some (hash os (HYield (hash_value results q) (canonical_target l t)))
  | TReturn => Some (hash os HReturn)
  | TPropagateError => Some (hash os HPropagateError)
  | TFailureDuringCleanup => Some (hash os HFailureDuringCleanup)
  end.

Fixpoint all_equivalent (xs ys : list nat) (os os' : list operand) : bool :=
  match os, os' with
  | [], [] => true
  | x :: os, y :: os' => values_alpha_equivalent x y xs ys && all_equivalent xs ys os os'
  | _, _ => false
  end.

(** L158-186: the results of both blocks, if their operations are the same. *)
Fixpoint operations_equivalent (xs ys : list nat) (os os' : list operation)
  : option (list nat * list nat) :=
  match os, os' with
  | [], [] => Some (xs, ys)
  | o :: os, o' :: os' =>
      if kind_eqb (op_kind o) (op_kind o') && all_equivalent xs ys (op_operands o) (op_operands o') then
        match op_result o, op_result o' with
        | Some r, Some r' => operations_equivalent (xs ++ [r]) (ys ++ [r']) os os'
        | None, None => operations_equivalent xs ys os os'
        | _, _ => None
        end
      else None
  | _, _ => None
  end.

(** L188-233. *)
Definition ends_equivalent (l : replacement) (xs ys : list nat) (t t' : terminator) : bool :=
  match t, t' with
  | TGoto a, TGoto b => canonical_target l a =? canonical_target l b
  | TCondBr c a b, TCondBr c' a' b' =>
      values_alpha_equivalent c c' xs ys && (canonical_target l a =? canonical_target l a') &&
      (canonical_target l b =? canonical_target l b')
  | TYield q a, TYield q' a' =>
      values_alpha_equivalent q q' xs ys && (canonical_target l a =? canonical_target l a')
  | TReturn, TReturn | TPropagateError, TPropagateError
  | TFailureDuringCleanup, TFailureDuringCleanup => true
  | _, _ => false
  end.

(** L150-234 [blocks_alpha_equivalent]. *)
Definition blocks_alpha_equivalent (l : replacement) (a b : block) : bool :=
  match operations_equivalent [] [] (operations a) (operations b) with
  | Some (xs, ys) => ends_equivalent l xs ys (term a) (term b)
  | None => false
  end.

(** L236-252 [reachable_blocks]; the head of [pending] is its last element.
    [None]: out of fuel. *)
Fixpoint reach_from (fuel : nat) (p : body) (pending reached : list nat) : option (list nat) :=
  match pending with
  | [] => Some reached
  | b :: pending =>
      match fuel with
      | 0 => None
      | S fuel =>
          if existsb (Nat.eqb b) reached then reach_from fuel p pending reached
          else
            match nth_error p b with
            | Some bl => reach_from fuel p (rev (successors (term bl)) ++ pending) (b :: reached)
            | None => None
            end
      end
  end.

Definition edges (p : body) : nat := list_sum (map (fun bl => length (successors (term bl))) p).

Definition reachable_blocks (p : body) : option (list nat) := reach_from (S (edges p)) p [0] [].

(** The representatives found so far, in the order they were found, and the
    blocks they replace. *)
Record merging := Merging { representatives : list (nat * nat); merged : replacement }.

(** L129-148 [Representatives], L413-431, one block. *)
Definition merge_block (p : body) (s : merging) (b : nat) : merging :=
  match nth_error p b with
  | None => s
  | Some bl =>
      match block_fingerprint (merged s) bl with
      | None => s
      | Some h =>
          match find (fun '(h', r) => (h' =? h) &&
                   match nth_error p r with
                   | Some other => blocks_alpha_equivalent (merged s) bl other
                   | None => false
                   end) (representatives s) with
          | Some (_, r) => Merging (representatives s) ((b, r) :: merged s)
          | None => Merging (representatives s ++ [(h, b)]) (merged s)
          end
      end
  end.

(** L400-406: the candidates, last block first. *)
Definition candidates (p : body) (reached : list nat) : list nat :=
  rev (filter (fun b => existsb (Nat.eqb b) reached) (seq 1 (length p - 1))).

Definition merged_blocks (p : body) (reached : list nat) : replacement :=
  merged (fold_left (merge_block p) (candidates p reached) (Merging [] [])).

(** L260-267. *)
Definition is_operand_free_terminal (t : terminator) : bool :=
  match t with TReturn | TPropagateError | TFailureDuringCleanup => true | _ => false end.

Definition is_empty (bl : block) : bool := match operations bl with [] => true | _ => false end.

(** L269-278. *)
Definition is_empty_terminal_block (p : body) (b : nat) : bool :=
  match nth_error p b with
  | Some bl => is_empty bl && is_operand_free_terminal (term bl)
  | None => false
  end.

Definition is_empty_forwarding_block (p : body) (b : nat) : bool :=
  match nth_error p b with
  | Some bl => is_empty bl && match term bl with TGoto t => negb (t =? b) | _ => false end
  | None => false
  end.

(** Every target of a terminator changed. *)
Definition retarget (g : nat -> nat) (t : terminator) : terminator :=
  match t with
  | TGoto a => TGoto (g a)
  | TCondBr c a b => TCondBr c (g a) (g b)
  | TInvoke o a b => TInvoke o (g a) (g b)
  | TYield q a => TYield q (g a)
  | TReturn | TPropagateError | TFailureDuringCleanup => t
  end.

(** L487-496: a branch both sides of which lead to the same block. *)
Definition collapse (t : terminator) : terminator :=
  match t with
  | TCondBr _ a b => if a =? b then TGoto a else t
  | _ => t
  end.

(** L457-497. *)
Definition redirect (l : replacement) (p : body) : body :=
  map (fun bl => Block (operations bl) (collapse (retarget (canonical_target l) (term bl)))) p.

Fixpoint set_term (i : nat) (t : terminator) (p : body) : body :=
  match p with
  | [] => []
  | bl :: p =>
      match i with
      | 0 => Block (operations bl) t :: p
      | S i => bl :: set_term i t p
      end
  end.

(** L286-300 [forwarded_target]. *)
Fixpoint forward_from (p : body) (target current limit : nat) : nat :=
  match limit with
  | 0 => target
  | S limit =>
      match nth_error p current with
      | Some (Block [] (TGoto t)) => if t =? current then current else forward_from p target t limit
      | _ => current
      end
  end.

Definition forwarded_target (p : body) (limit target : nat) : nat := forward_from p target target limit.

(** L307-359 [fold_empty_forwarding_blocks], one block. *)
Definition forward_block (limit : nat) (p : body) (b : nat) : body :=
  match nth_error p b with
  | None => p
  | Some bl =>
      let g := forwarded_target p limit in
      if forallb (fun t => g t =? t) (successors (term bl)) then p
      else set_term b (collapse (retarget g (term bl))) p
  end.

Definition fold_empty_forwarding_blocks (p : body) : body :=
  fold_left (forward_block (length p)) (seq 0 (length p)) p.

(** L361-381 [fold_empty_terminal_successors], one block. *)
Definition end_block (p : body) (b : nat) : body :=
  match nth_error p b with
  | Some bl =>
      match term bl with
      | TGoto t =>
          match nth_error p t with
          | Some target =>
              if is_empty target && is_operand_free_terminal (term target)
              then set_term b (term target) p else p
          | None => p
          end
      | _ => p
      end
  | None => p
  end.

Definition fold_empty_terminal_successors (p : body) : body :=
  fold_left end_block (rev (seq 0 (length p))) p.

(** L385-509 [simplify_tails].  [None]: out of fuel; [Some None]: nothing to do. *)
Definition simplify_tails (p : body) : option (option body) :=
  if length p <? 2 then Some None
  else
    match reachable_blocks p with
    | None => None
    | Some reached =>
        let is_reached b := existsb (Nat.eqb b) reached in
        let l := merged_blocks p reached in
        let has_empty_terminal_successor :=
          existsb (fun b =>
            match nth_error p b with
            | Some (Block _ (TGoto t)) => is_empty_terminal_block p t
            | _ => false
            end) (0 :: candidates p reached) in
        let has_equal_target_branch :=
          existsb (fun b => is_reached b &&
            match nth_error p b with
            | Some (Block _ (TCondBr _ a b)) => a =? b
            | _ => false
            end) (seq 0 (length p)) in
        let has_empty_forwarding_block :=
          existsb (is_empty_forwarding_block p) (candidates p reached) in
        if negb (match l with [] => false | _ => true end || has_equal_target_branch)
           && negb has_empty_terminal_successor && negb has_empty_forwarding_block
        then Some None
        else
          Some (Some (fold_empty_terminal_successors (fold_empty_forwarding_blocks (redirect l p))))
    end.
End Hash.
