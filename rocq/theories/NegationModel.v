(** Boolean conditions read back through the storage and the negations that
    produced them.

    Modelled: src/mir/pass/negation.rs.  Simplifications: the definition map,
    the set of allocas and the census of the cells are computed by search
    instead of being built once; the lazily built dominator tree is built each
    time it is asked (both have the same contents).  The rewrites, which are
    planned and then applied, are applied in place: every one of them is planned
    against the body as it was.  The walk, which is a loop in the code, has a
    fuel; running out of it is an answer of its own.  [dominance.rs] is
    DomModel. *)
From Coq Require Import List Arith Bool.
From Verif Require Import FrameModel.
From Verif Require GraphModel DomModel.
Import ListNotations.

(** pass/site.rs OperationSite: a block and the index of an operation in it. *)
Definition site : Type := nat * nat.

Definition same_site (a b : site) : bool := (fst a =? fst b) && (snd a =? snd b).

(** L355-357 [operation]. *)
Definition operation_at (p : body) (s : site) : option operation :=
  match nth_error p (fst s) with
  | Some bl => nth_error (operations bl) (snd s)
  | None => None
  end.

(** The operations of a body, each with its site. *)
Fixpoint numbered {A : Type} (i : nat) (l : list A) : list (nat * A) :=
  match l with [] => [] | x :: l => (i, x) :: numbered (S i) l end.

Definition sites (p : body) : list (site * operation) :=
  flat_map (fun '(b, bl) => map (fun '(i, o) => ((b, i), o)) (numbered 0 (operations bl)))
    (numbered 0 p).

Definition is_load (o : operation) : bool := match op_kind o with KLoad => true | _ => false end.
Definition is_compare (o : operation) : bool :=
  match op_kind o with KCompareEqual => true | _ => false end.
Definition is_alloca (o : operation) : bool :=
  match op_kind o with KAlloca _ => true | _ => false end.
Definition defines (r : nat) (o : operation) : bool :=
  match op_result o with Some r' => r' =? r | None => false end.

(** L211-236 [Resolver::new], [definitions]: the operations of the blocks, not
    the invoked ones; a later definition replaces an earlier one. *)
Definition definition_of (p : body) (r : nat) : option (site * operation) :=
  find (fun '(_, o) => defines r o) (rev (sites p)).

(** [allocas]. *)
Definition is_cell (p : body) (r : nat) : bool :=
  existsb (fun '(_, o) => defines r o && is_alloca o) (sites p).

(** L434-439. *)
Definition as_register (o : operand) : option nat :=
  match o with OReg r => Some r | _ => None end.

(** L442-449. *)
Definition bool_operand (o : operand) : option bool :=
  match o with
  | OConst (LBool b) | OPattern (LBool b) => Some b
  | _ => None
  end.

(** L369-376 [Uses]. *)
Record uses := Uses { stored : option (nat * site); writes : nat; opaque : bool }.

Definition is_register (o : operand) (r : nat) : bool :=
  match o with OReg r' => r' =? r | _ => false end.

(** L378-402, one operand occurrence. *)
Definition count_use (cell : nat) (s : site) (o : operation) (u : uses) (at_position : nat * operand)
  : uses :=
  let (position, x) := at_position in
  if is_register x cell then
    match op_kind o, position with
    | KStore, 1 =>
        Uses (match op_operands o with
              | OReg r :: _ => Some (r, s)
              | _ => None
              end) (S (writes u)) (opaque u)
    | KLoad, 0 | KCompareEqual, 0 => u
    | _, _ => Uses (stored u) (writes u) true
    end
  else u.

Definition count_uses (p : body) (cell : nat) : uses :=
  let counted :=
    fold_left
      (fun u '(s, o) => fold_left (count_use cell s o) (numbered 0 (op_operands o)) u)
      (sites p) (Uses None 0 false) in
  (** L404-409, the terminators. *)
  if existsb (fun bl => existsb (fun x => is_register x cell) (term_operands (term bl))) p
  then Uses (stored counted) (writes counted) true
  else counted.

(** L364-417 [forwardable_cells], for one cell. *)
Definition stored_in (p : body) (cell : nat) : option (nat * site) :=
  let u := count_uses p cell in
  if (writes u =? 1) && negb (opaque u) then stored u else None.

(** L239-258 [cells], L425-431 [Cells::dominates]. *)
Definition store_dominates (p : body) (store at_site : site) : bool :=
  if fst store =? fst at_site then snd store <? snd at_site
  else
    match DomModel.dominance_of (map (fun bl => successors (term bl)) p) 0 with
    | GraphModel.Val d =>
        match DomModel.dominates d (fst store) (fst at_site) with
        | GraphModel.Val b => b
        | _ => false
        end
    | _ => false
    end.

(** L343-353 [read]. *)
Definition read_back (p : body) (x : operand) (at_site : site) : option nat :=
  match as_register x with
  | None => None
  | Some r =>
      if is_cell p r then
        match stored_in p r with
        | Some (v, store) => if store_dominates p store at_site then Some v else None
        | None => None
        end
      else Some r
  end.

(** L76-80 [Source]. *)
Record source := Source { svalue : nat; negated : bool }.

(** L310-317 [is_materialized]. *)
Definition is_materialized (p : body) (r : nat) : bool :=
  match definition_of p r with
  | Some (_, o) => is_load o || is_compare o
  | None => false
  end.

(** L320-339 [step]. *)
Definition step_back (p : body) (from : source) : option source :=
  match definition_of p (svalue from) with
  | None => None
  | Some (s, o) =>
      match op_kind o with
      | KLoad =>
          match op_operands o with
          | x :: _ => option_map (fun v => Source v (negated from)) (read_back p x s)
          | [] => None
          end
      | KCompareEqual =>
          match op_operands o with
          | x :: pattern :: _ =>
              match bool_operand pattern with
              | Some b => option_map (fun v => Source v (xorb (negated from) (negb b))) (read_back p x s)
              | None => None
              end
          | _ => None
          end
      | _ => None
      end
  end.

(** L294-304 [walk]; [None]: out of fuel. *)
Fixpoint walk (fuel : nat) (p : body) (current : source) (resolved : option source)
  : option (option source) :=
  match step_back p current with
  | None => Some resolved
  | Some next =>
      match fuel with
      | 0 => None
      | S fuel =>
          walk fuel p next (if is_materialized p (svalue next) then Some next else resolved)
      end
  end.

(** Enough for every walk: C54_walks_end. *)
Definition enough (p : body) : nat := length (sites p).

(** L261-267 [resolve]. *)
Definition resolve (p : body) (r : nat) : option (option source) :=
  option_map
    (fun found =>
       match found with
       | Some s => if svalue s =? r then None else Some s
       | None => None
       end) (walk (enough p) p (Source r false) None).

(** L273-287 [resolve_scrutinee]. *)
Definition resolve_scrutinee (p : body) (x : operand) (at_site : site) : option (option source) :=
  match read_back p x at_site with
  | None => Some None
  | Some v =>
      option_map
        (fun found =>
           match
             match found with
             | Some s => Some s
             | None => if is_materialized p v then Some (Source v false) else None
             end
           with
           | Some s => if is_register x (svalue s) then None else Some s
           | None => None
           end) (walk (enough p) p (Source v false) None)
  end.

(** L108-129 and L144-149, one operation; [None]: out of fuel; the boolean:
    whether it changes. *)
Definition forward_operation (p : body) (at_site : site) (o : operation) : option (operation * bool) :=
  match op_kind o, op_operands o with
  | KCompareEqual, [x; pattern] =>
      match bool_operand pattern with
      | None => Some (o, false)
      | Some b =>
          option_map
            (fun found =>
               match found with
               | Some s =>
                   (Op KCompareEqual [OReg (svalue s); OPattern (LBool (xorb b (negated s)))]
                      (op_result o), true)
               | None => (o, false)
               end) (resolve_scrutinee p x at_site)
      end
  | _, _ => Some (o, false)
  end.

(** L131-136 and L150-170, one terminator. *)
Definition forward_terminator (p : body) (t : terminator) : option (terminator * bool) :=
  match t with
  | TCondBr (OReg r) yes no =>
      option_map
        (fun found =>
           match found with
           | Some s =>
               (if negated s then TCondBr (OReg (svalue s)) no yes
                else TCondBr (OReg (svalue s)) yes no, true)
           | None => (t, false)
           end) (resolve p r)
  | _ => Some (t, false)
  end.

Fixpoint forward_operations (p : body) (b i : nat) (os : list operation)
  : option (list operation * bool) :=
  match os with
  | [] => Some ([], false)
  | o :: os =>
      match forward_operation p (b, i) o, forward_operations p b (S i) os with
      | Some (o, changed), Some (os, others) => Some (o :: os, changed || others)
      | _, _ => None
      end
  end.

Fixpoint forward_blocks (p : body) (b : nat) (bls : list block) : option (body * bool) :=
  match bls with
  | [] => Some ([], false)
  | bl :: bls =>
      match forward_operations p b 0 (operations bl), forward_terminator p (term bl),
        forward_blocks p (S b) bls with
      | Some (os, c), Some (t, c'), Some (bls, c'') => Some (Block os t :: bls, c || c' || c'')
      | _, _, _ => None
      end
  end.

(** L183-190 [may_forward]. *)
Definition may_forward (p : body) : bool := existsb (fun '(_, o) => is_compare o) (sites p).

(** L98-172 [forward_boolean_negations].  [None]: out of fuel; [Some None]:
    nothing to rewrite. *)
Definition forward_boolean_negations (p : body) : option (option body) :=
  if may_forward p then
    option_map (fun '(p', changed) => if (changed : bool) then Some p' else None) (forward_blocks p 0 p)
  else Some None.
