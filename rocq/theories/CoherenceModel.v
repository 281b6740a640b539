(** Model of the overlap check of trait implementations.

    Source: [src/types/coherence.rs] L95-197 ([check_trait_impl], the loop over the visible implementations), L258-705
    ([impls_overlap], [blanket_impls_overlap], [constraints_may_be_satisfiable], [trait_constraint_may_be_satisfiable],
    [concrete_impl_may_match_constraint], [blanket_impl_may_match_constraint]).

    Simplifications:
    - An implementation without variables is the model's form of a concrete one; a concrete one matches a constraint as a
      blanket one with no variables and no constraints does.
    - Effects, visibility of implementations, the restrictions on heads and the orphan rule (L111-150) are left out.
    - The trait solver, used on constraints without variables, is the parameter [solved]; which traits can be derived for
      which types is the parameter [derivers]. *)
From Coq Require Import List Bool Arith.
From Verif Require Import UnifyModel.
Import ListNotations.

(** [PubTypeConstraint::HaveTrait]. *)
Record demand : Type := Demand { d_trait : nat; d_inputs : list ty; d_outputs : list ty }.

(** [BlanketTraitImplSubKey] and the outputs of [TraitImpl]. *)
Record implementation : Type := Impl { i_vars : nat; i_inputs : list ty; i_outputs : list ty; i_demands : list demand }.

(** The visible implementations, with their traits. *)
Definition database : Type := list (nat * implementation).

(** L365-372, L646-654: variable [i] of the other side becomes variable [offset + i]. *)
Fixpoint shift (offset : nat) (t : ty) : ty :=
  match t with
  | TVar v => TVar (offset + v)
  | TNever => TNever
  | TNative b l => TNative b (map (shift offset) l)
  | TVariant l => TVariant (map (fun p => (fst p, shift offset (snd p))) l)
  | TTuple l => TTuple (map (shift offset) l)
  | TRecord l => TRecord (map (fun p => (fst p, shift offset (snd p))) l)
  | TFunction l r => TFunction (map (fun p => (fst p, shift offset (snd p))) l) (shift offset r)
  | TSubscript l r c d => TSubscript (map (fun p => (fst p, shift offset (snd p))) l) (shift offset r) c d
  | TNamed n l => TNamed n (map (shift offset) l)
  end.
Definition shift_demand (offset : nat) (d : demand) : demand :=
  Demand (d_trait d) (map (shift offset) (d_inputs d)) (map (shift offset) (d_outputs d)).

(** type.rs L1450 [is_constant]. *)
Definition constant_mut (m : mut_ty) : bool := match m with MVar _ => false | MVal _ => true end.
Fixpoint constant (t : ty) : bool :=
  match t with
  | TVar _ => false
  | TNever => true
  | TNative _ l | TTuple l | TNamed _ l => forallb constant l
  | TVariant l | TRecord l => forallb (fun p => constant (snd p)) l
  | TFunction l r | TSubscript l r _ _ => forallb (fun p => constant_mut (fst p) && constant (snd p)) l && constant r
  end.

(** [Stop]: out of fuel, or an assertion of the unifier. *)
Inductive answer : Type := Yes | No | Stop.

Section Coherence.
Variable first_is_root : state -> nat -> nat -> bool.
Variable solved : database -> nat -> list ty -> option (list ty).
Variable derivers : nat -> list ty -> bool.
Variable db : database.

(** The loops over zipped types, L386-400 and others. *)
Definition unify_all (fuel : nat) (l r : list ty) (s : state) : outcome :=
  solve first_is_root fuel (map (fun p => (SameType, p)) (combine l r)) s.

Definition same_query (p q : nat * (list ty * list ty)) : bool :=
  Nat.eqb (fst p) (fst q) && (forall2b ty_eqb (fst (snd p)) (fst (snd q)) && forall2b ty_eqb (snd (snd p)) (snd (snd q))).

(** L497-529: the first implementation that may match. *)
Fixpoint first_yes (go : implementation -> answer) (t : nat) (l : database) : answer :=
  match l with
  | [] => No
  | (t', i) :: l =>
      if negb (Nat.eqb t' t) then first_yes go t l
      else match go i with No => first_yes go t l | a => a end
  end.

(** [constraints_may_be_satisfiable] and the functions it calls.  [pending] is the vector of the code, last element first. *)
Fixpoint may (fuel : nat) (stack : list (nat * (list ty * list ty))) (pending : list demand) (next : nat) (s : state) : answer :=
  match fuel with
  | 0 => Stop
  | S f =>
      match pending with
      | [] => Yes
      | d :: rest =>
          match all (map (normalize f s) (d_inputs d)), all (map (normalize f s) (d_outputs d)) with
          | Some inputs, Some outputs =>
              if forallb constant inputs && forallb constant outputs then
                match solved db (d_trait d) inputs with
                | None => No
                | Some found =>
                    match unify_all f found outputs s with
                    | Unified s => may f stack rest next s
                    | Mismatch | Recursive _ _ => No
                    | Panics | NoFuel => Stop
                    end
                end
              else if derivers (d_trait d) inputs && negb (forallb constant inputs) then may f stack rest next s
              else
                let query := (d_trait d, (inputs, outputs)) in
                if existsb (same_query query) stack then Yes
                else
                  match first_yes (fun i =>
                    match unify_all f (map (shift next) (i_inputs i)) inputs s with
                    | Unified s =>
                        match unify_all f (map (shift next) (i_outputs i)) outputs s with
                        | Unified s => may f (query :: stack) (rev (map (shift_demand next) (i_demands i)) ++ rest) (next + i_vars i) s
                        | Mismatch | Recursive _ _ => No
                        | Panics | NoFuel => Stop
                        end
                    | Mismatch | Recursive _ _ => No
                    | Panics | NoFuel => Stop
                    end) (d_trait d) db with
                  | No => if derivers (d_trait d) inputs then may f stack rest next s else No
                  | a => a
                  end
          | _, _ => Stop
          end
      end
  end.

(** L313-408 [blanket_impls_overlap]. *)
Definition blanket_overlap (fuel : nat) (a b : implementation) : answer :=
  if negb (Nat.eqb (length (i_inputs a)) (length (i_inputs b))) then No
  else
    match unify_all fuel (i_inputs a) (map (shift (i_vars a)) (i_inputs b)) (State [] []) with
    | Unified s =>
        match unify_all fuel (i_outputs a) (map (shift (i_vars a)) (i_outputs b)) s with
        | Unified s => may fuel [] (rev (i_demands a ++ map (shift_demand (i_vars a)) (i_demands b))) (i_vars a + i_vars b) s
        | Mismatch | Recursive _ _ => No
        | Panics | NoFuel => Stop
        end
    | Mismatch | Recursive _ _ => No
    | Panics | NoFuel => Stop
    end.

(** L258-307 [impls_overlap]. *)
Definition overlap (fuel : nat) (a b : implementation) : answer :=
  if Nat.eqb (i_vars a) 0 && Nat.eqb (i_vars b) 0 then (if forall2b ty_eqb (i_inputs a) (i_inputs b) then Yes else No)
  else blanket_overlap fuel a b.

(** L169-194: [Yes] is the error for overlapping implementations, [No] accepts the new one. *)
Definition check (fuel : nat) (t : nat) (new : implementation) : answer := first_yes (overlap fuel new) t db.
End Coherence.

(** The implementations of a program, checked one after the other as they are declared. *)
Fixpoint declare first_is_root solved derivers (fuel : nat) (l : list (nat * implementation)) (db : database) : option database :=
  match l with
  | [] => Some db
  | (t, i) :: l =>
      match check first_is_root solved derivers db fuel t i with
      | No => declare first_is_root solved derivers fuel l (db ++ [(t, i)])
      | _ => None
      end
  end.
