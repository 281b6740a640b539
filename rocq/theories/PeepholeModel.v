(** Boolean materialization: src/mir/pass/peephole.rs. *)
From Coq Require Import List Arith Bool.
From Verif Require Import ListUtil MirModel GraphModel WillReturnModel EditModel RegModel.
Import ListNotations.

(** Derived equality of mir::Value. *)
Definition literal_eqb (a b : literal) : bool :=
  match a, b with
  | LBool x, LBool y => Bool.eqb x y
  | LTag x, LTag y => x =? y
  | LOther x, LOther y => x =? y
  | _, _ => false
  end.

Definition operand_eqb (a b : operand) : bool :=
  match a, b with
  | OConst x, OConst y => literal_eqb x y
  | OPattern x, OPattern y => literal_eqb x y
  | OStatic x, OStatic y => x =? y
  | OParam x, OParam y => x =? y
  | OReg x, OReg y => x =? y
  | _, _ => false
  end.

Section Peephole.
Context {code : Type}.
Local Notation instruction := (instruction code).
Local Notation operation := (operation instruction).
Local Notation block := (block instruction operand).
Local Notation function := (function instruction operand).

(** Operation::result_id: the register an operation defines. *)
Definition result_id (o : operation) : option nat :=
  match o with
  | OCheckFuel | OCheckCallDepth => None
  | OPlain i | OCall _ i | OHost i => result i
  | OProject r _ => Some r
  | OEndProject _ _ => None
  end.

(** FunctionEdit::new (src/mir/edit.rs L77-96): one past the highest result,
    those of invoke terminators included. *)
Definition above (next : nat) (o : operation) : nat :=
  match result_id o with Some r => Nat.max next (S r) | None => next end.
Definition block_operations (blk : block) : list operation :=
  operations blk ++ match term blk with Invoke o _ _ => [o] | _ => [] end.
Definition next_value_index (fn : function) : nat :=
  fold_left above (concat (map block_operations fn)) 0.

(** bool_value L136-143. *)
Definition bool_value (o : operand) : option bool :=
  match o with
  | OConst (LBool b) => Some b
  | OPattern (LBool b) => Some b
  | _ => None
  end.

(** single_bool_store L115-134: value, destination, join. *)
Definition single_bool_store (fn : function) (b : nat) : gres (option (bool * operand * nat)) :=
  let* blk := rd fn b in
  Val match operations blk with
      | [OPlain i] =>
          match kind i, operands i, term blk with
          | KStore, [v; dst], Goto target =>
              match bool_value v with
              | Some v => Some (v, dst, target)
              | None => None
              end
          | _, _, _ => None
          end
      | _ => None
      end.

(** BooleanMaterialization. *)
Record rewrite_plan := Plan {
  at_block : nat;
  on_condition : operand;
  stored_when_true : bool;
  destination : operand;
  join : nat
}.

(** plan_boolean_materialization L84-113. *)
Definition plan_boolean_materialization (fn : function) (b : nat) : gres (option rewrite_plan) :=
  let* blk := rd fn b in
  match term blk with
  | CondBr condition then_target else_target =>
      if then_target =? else_target then Val None
      else
        let* then_store := single_bool_store fn then_target in
        match then_store with
        | None => Val None
        | Some (v, dst, target) =>
            let* else_store := single_bool_store fn else_target in
            match else_store with
            | None => Val None
            | Some (v', dst', target') =>
                if negb (target =? target') || negb (operand_eqb dst dst') || Bool.eqb v v'
                then Val None
                else Val (Some (Plan b condition v dst target))
            end
        end
  | _ => Val None
  end.

Fixpoint plans (fn : function) (bs : list nat) : gres (list rewrite_plan) :=
  match bs with
  | [] => Val []
  | b :: bs =>
      let* p := plan_boolean_materialization fn b in
      let* rest := plans fn bs in
      Val (match p with Some p => p :: rest | None => rest end)
  end.

(** Operation::store and Operation::compare_eq. *)
Definition store_op (v dst : operand) : operation := OPlain (Instruction KStore [v; dst] None).
Definition compare_op (v pattern : operand) (r : nat) : operation :=
  OPlain (Instruction KCompareEqual [v; pattern] (Some r)).

(** L57-77: one rewrite. *)
Definition apply_plan (p : rewrite_plan) (fn : function) (next : nat) : gres (function * nat) :=
  let* blk := rd fn (at_block p) in
  if stored_when_true p then
    let* fn := wr fn (at_block p)
      (Block (operations blk ++ [store_op (on_condition p) (destination p)]) (Goto (join p))) in
    Val (fn, next)
  else
    let* fn := wr fn (at_block p)
      (Block (operations blk ++
                [compare_op (on_condition p) (OPattern (LBool false)) next;
                 store_op (OReg next) (destination p)]) (Goto (join p))) in
    Val (fn, S next).

Fixpoint apply_plans (ps : list rewrite_plan) (fn : function) (next : nat) : gres function :=
  match ps with
  | [] => Val fn
  | p :: ps =>
      let* (fn, next) := apply_plan p fn next in
      apply_plans ps fn next
  end.

(** materialize_boolean_results L47-82. *)
Definition materialize_boolean_results (fn : function) : gres (option function) :=
  let* rewrites := plans fn (seq 0 (length fn)) in
  match rewrites with
  | [] => Val None
  | _ =>
      let* fn := apply_plans rewrites fn (next_value_index fn) in
      let* fn := remove_unreachable_blocks fn in
      let* fn := merge_blocks_into_predecessors fn in
      Val (Some fn)
  end.

End Peephole.
