(** A small concrete machine, for the examples beside the theorems about
    FrameModel: values are numbers and booleans, the world is a list of slots,
    an address is the number of a slot. *)
From Coq Require Import List Arith Bool.
From Verif Require Import FrameModel.
Import ListNotations.

Definition slots := list (option (value nat)).

Fixpoint set_slot (l : slots) (i : nat) (x : option (value nat)) : slots :=
  match l with
  | [] => []
  | y :: l => match i with 0 => x :: l | S i => y :: set_slot l i x end
  end.

(** [KCall _ 0]: the sum of its two first arguments, into its last.  Any
    [KOther]: the number of its kind. *)
Definition small : machine nat slots :=
  Machine nat slots
    (fun l => match l with LBool b => VBool b | LOther n => VOther n end)
    VOther
    (fun _ => true)
    (fun n v => match v with VOther k => Some (k =? n) | VBool _ => None end)
    (fun p w => match p with VOther i => nth_error w i | VBool _ => None end)
    (fun p x w => match p with VOther i => EDone (set_slot w i x) None | VBool _ => EPanic end)
    (fun x w => (w ++ [x], VOther (length w)))
    (fun _ _ => true)
    (fun k vs w =>
       match k, vs with
       | KCall _ _, [_; VOther a; VOther b; VOther d] =>
           EDone (set_slot w d (Some (VOther (a + b)))) None
       | KCall _ _, _ => EError w
       | KOther _ id, _ => EDone w (Some (GValue (VOther id)))
       | KStackSave, _ => EDone w (Some (GValue (VOther 0)))
       | _, _ => EDone w None
       end).

Definition alloca (r ty : nat) : operation := Op (KAlloca ty) [] (Some r).
Definition load (r : nat) (s : operand) : operation := Op KLoad [s] (Some r).
Definition store (v d : operand) : operation := Op KStore [v; d] None.
Definition memcpy (s d : operand) : operation := Op KMemcpy [s; d] None.
Definition sum_into (a b d : operand) : operation := Op (KCall 2 0) [OStatic 0; a; b; d] None.
Definition number (n : nat) : operand := OConst (LOther n).
