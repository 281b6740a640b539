(** What the rewriting of boolean branches promises. *)
From Coq Require Import List Arith Bool.
From Verif Require Import MirModel TermSpec RegModel.
Import ListNotations.

Section Spec.
Context {code : Type}.
Local Notation operation := (operation (instruction code)).
Local Notation function := (function (instruction code) operand).

(** The registers an operation defines and mentions. *)
Definition operation_defines (o : operation) (r : nat) : Prop :=
  match o with
  | OPlain i | OCall _ i | OHost i => result i = Some r
  | OProject r' _ => r' = r
  | _ => False
  end.

Definition operation_uses (o : operation) (r : nat) : Prop :=
  match o with
  | OPlain i | OCall _ i | OHost i | OProject _ i => In (OReg r) (operands i)
  | OEndProject r' i => r' = r \/ In (OReg r) (operands i)
  | _ => False
  end.

Definition defined (fn : function) (r : nat) : Prop :=
  exists blk o, In blk fn /\ In o (all_operations blk) /\ operation_defines o r.

Definition used (fn : function) (r : nat) : Prop :=
  exists blk, In blk fn /\
    ((exists o, In o (all_operations blk) /\ operation_uses o r) \/
     (exists t e, term blk = CondBr (OReg r) t e) \/
     (exists i b, term blk = Yield i b /\ In (OReg r) (operands i))).

(** Every mentioned register is defined somewhere in the body. *)
Definition closed (fn : function) : Prop := forall r, used fn r -> defined fn r.

(** Block [b] only stores the boolean [v] to [dst] and goes to [j]. *)
Definition stores_bool (fn : function) (b : nat) (v : bool) (dst : operand) (j : nat) : Prop :=
  exists lit r, (lit = OConst (LBool v) \/ lit = OPattern (LBool v)) /\
    nth_error fn b = Some (Block [OPlain (Instruction KStore [lit; dst] r)] (Goto j)).

(** Block [b] branches on [q] only to store [v] or its opposite. *)
Definition diamond (fn : function) (b : nat) (q : operand) (v : bool) (dst : operand) (j : nat) : Prop :=
  exists ops t e, nth_error fn b = Some (Block ops (CondBr q t e)) /\
    stores_bool fn t v dst j /\ stores_bool fn e (negb v) dst j.

(** The code that stores [q], or its opposite, without a branch; [r] is the
    register it may use. *)
Definition straight_store (q : operand) (v : bool) (dst : operand) (r : nat) : list operation :=
  if v then [OPlain (Instruction KStore [q; dst] None)]
  else [OPlain (Instruction KCompareEqual [q; OPattern (LBool false)] (Some r));
        OPlain (Instruction KStore [OReg r; dst] None)].

(** Every diamond is replaced by such code, with a register of its own;
    other blocks stay. *)
Definition straightened (fn mid : function) : Prop :=
  length mid = length fn /\
  (forall b, (forall q v dst j, ~ diamond fn b q v dst j) -> nth_error mid b = nth_error fn b) /\
  exists fresh : nat -> nat,
    (forall b, ~ defined fn (fresh b)) /\
    (forall b b' q q' dst dst' j j', b <> b' -> diamond fn b q false dst j -> diamond fn b' q' false dst' j' ->
     fresh b <> fresh b') /\
    forall b blk q v dst j, diamond fn b q v dst j -> nth_error fn b = Some blk ->
      nth_error mid b = Some (Block (operations blk ++ straight_store q v dst (fresh b)) (Goto j)).

End Spec.
