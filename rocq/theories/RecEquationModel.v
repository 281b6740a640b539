(** Model of the acceptance test of recursive type equations, [src/types/recursive_equation.rs], and
    of the free-variable summaries it reads, [src/types/type.rs] L3473-3612.

    Types are positions of a table of kinds, as in [InhabitModel]. *)
From Coq Require Import List Bool Arith.
From Verif Require Import ListUtil GraphModel InhabitModel.
Import ListNotations.

(** ** Free-variable summaries *)

(** The types whose summaries are folded into the summary of a type, [collect_into_summary],
    L3517-3597: of a named type the arguments, not the shape. *)
Definition children (k : kind) : list nat :=
  match k with
  | TVariable _ | TNever => []
  | TNative arguments => arguments
  | TVariant payloads => map snd payloads
  | TTuple types => types
  | TRecord fields => map snd fields
  | TFunction args ret | TSubscript args ret => args ++ [ret]
  | TNamed params _ => params
  end.

(** [collect_into_summary]: whether the variable [v] is in the summary of [k], given the summaries of
    the other types.  Simplification: a summary is a set of type variables (and of mutability and
    effect variables); the model keeps the membership of the one variable that is asked for. *)
Definition collect (v : nat) (summaries : list bool) (k : kind) : gres bool :=
  match k with
  | TVariable x => Val (Nat.eqb x v)
  | _ => any_of (rd summaries) (children k)
  end.

(** One round of [compute_scc_summaries], L3493-3507.  Simplification: all types of the table are
    taken as one new world, while the Rust code goes through the worlds one by one. *)
Fixpoint summary_round (v : nat) (kinds : list kind) (i : nat) (summaries : list bool) (changed : bool)
  : gres (list bool * bool) :=
  match kinds with
  | [] => Val (summaries, changed)
  | k :: kinds =>
      let* new_summary := collect v summaries k in
      let* old := rd summaries i in
      if Bool.eqb new_summary old then summary_round v kinds (S i) summaries changed
      else summary_round v kinds (S i) (upd summaries i new_summary) true
  end.
Fixpoint summary_loop (fuel : nat) (v : nat) (kinds : list kind) (summaries : list bool) : gres (list bool) :=
  match fuel with
  | O => OutOfFuel
  | S f =>
      let* (summaries, changed) := summary_round v kinds 0 summaries false in
      if changed then summary_loop f v kinds summaries else Val summaries
  end.
(** [compute_scc_summaries], L3488-3513. *)
Definition compute_summaries (v : nat) (kinds : list kind) : gres (list bool) :=
  summary_loop (S (length kinds)) v kinds (repeat false (length kinds)).

(** ** Validation *)

Record validation : Type := Validation {
  visited : list (nat * bool);
  has_terminating_payload : bool
}.

Definition visited_at (st : validation) (ty : nat) (guarded : bool) : bool :=
  existsb (fun e => Nat.eqb (fst e) ty && Bool.eqb (snd e) guarded) (visited st).

(** [iter().all(f)] with a state. *)
Fixpoint all_st (f : nat -> validation -> gres (bool * validation)) (l : list nat) (st : validation)
  : gres (bool * validation) :=
  match l with
  | [] => Val (true, st)
  | x :: l => let* (ok, st) := f x st in if ok then all_st f l st else Val (false, st)
  end.

(** [Validation::validate], L77-123; [contains] is [contains_any_type_var(var)]. *)
Fixpoint validate (fuel : nat) (T : table) (contains : list bool) (ty : nat) (guarded : bool) (st : validation)
  : gres (bool * validation) :=
  match fuel with
  | O => OutOfFuel
  | S f =>
      let* c := rd contains ty in
      if negb c then Val (true, st)
      else
        let* k := rd T ty in
        match k with
        | TVariable _ => Val (guarded, st)
        | _ =>
            if visited_at st ty false || visited_at st ty guarded then Val (true, st)
            else
              let st := Validation (visited st ++ [(ty, guarded)]) (has_terminating_payload st) in
              match k with
              | TVariable _ => Panics
              | TNative arguments => all_st (fun t => validate f T contains t guarded) arguments st
              | TVariant payloads =>
                  all_st (fun t st =>
                    let* c := rd contains t in
                    if c then validate f T contains t true st else Val (true, Validation (visited st) true))
                    (map snd payloads) st
              | TTuple types => all_st (fun t => validate f T contains t guarded) types st
              | TRecord fields => all_st (fun t => validate f T contains t guarded) (map snd fields) st
              | TFunction args ret | TSubscript args ret =>
                  let* (ok, st) := all_st (fun t => validate f T contains t guarded) args st in
                  if ok then validate f T contains ret guarded st else Val (false, st)
              | TNamed params _ => all_st (fun t => validate f T contains t guarded) params st
              | TNever => Val (true, st)
              end
        end
  end.

Inductive verdict : Type := Accepted | UnguardedCycle | NoTerminatingPayload.

(** [try_intern_recursive_equation], L38-53; [Accepted] stands for [Ok] of the tied type. *)
Definition try_equation (T : table) (var ty : nat) : gres verdict :=
  let* contains := compute_summaries var T in
  let* (ok, st) := validate (S (2 * length T)) T contains ty false (Validation [] false) in
  if negb ok then Val UnguardedCycle
  else if negb (has_terminating_payload st) then Val NoTerminatingPayload
  else Val Accepted.

(** The recursive type that [TieEquation], L125-150, makes: every occurrence of the variable becomes
    the root.  An alias of the root stands for the rewritten occurrence. *)
Definition tie (T : table) (var ty : nat) : table :=
  map (fun k => match k with TVariable x => if Nat.eqb x var then TNamed [] ty else k | _ => k end) T.
