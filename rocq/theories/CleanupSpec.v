(** What the cleanup theorems (C56) talk about: which bodies, and when the two
    interpreters agree. *)
From Coq Require Import List Arith Bool.
From Verif Require Import CleanupModel.
Import ListNotations.

(** Control never comes out of the end of the node, on the face of it. *)
Fixpoint ends (n : node) : bool :=
  match n with
  | NOp _ _ | NCase _ _ _ _ _ | NLoop _ _ => false
  | NBlock _ body => existsb ends body
  | NBreak _ _ | NContinue _ | NReturn _ => true
  | NWith _ _ _ _ body => ends body
  end.

(** The node neither fails nor transfers control out of itself. *)
Fixpoint quiet (n : node) : bool :=
  match n with
  | NOp args a => forallb quiet args && negb (is_fallible a)
  | NBlock _ body => forallb quiet body
  | NCase scrutinee _ _ alternatives default =>
      quiet scrutinee && forallb (fun x => quiet (snd x)) alternatives && quiet default
  | _ => false
  end.

(** The bodies the theorems are about.  Breaks and continues name a loop around
    them, and no loop is nested in one with its label.  Nothing that ends stands
    where a value is needed: an argument, a scrutinee, the value of a return.
    The temporaries of an accessor that have a drop come with an accessor whose
    arguments and ramp neither fail nor transfer control. *)
Section WellFormed.
Variable has_drop : nat -> bool.

Definition calm (around : list (list node * list nat)) (args : list node) (may_fail : bool) : bool :=
  forallb (fun x => forallb quiet (fst x)) around && forallb quiet args && negb may_fail.

Definition no_drop (around : list (list node * list nat)) : bool :=
  forallb (fun x => forallb (fun l => negb (has_drop l)) (snd x)) around.

Fixpoint well_formed (labels : list nat) (n : node) : bool :=
  match n with
  | NOp args _ => forallb (fun n => well_formed labels n && negb (ends n)) args
  | NBlock _ body => forallb (well_formed labels) body
  | NCase scrutinee _ _ alternatives default =>
      well_formed labels scrutinee && negb (ends scrutinee)
      && forallb (fun x => well_formed labels (snd x)) alternatives && well_formed labels default
  | NLoop l body => negb (existsb (Nat.eqb l) labels) && well_formed (l :: labels) body
  | NBreak l value => existsb (Nat.eqb l) labels && well_formed labels value
  | NContinue l => existsb (Nat.eqb l) labels
  | NReturn value => well_formed labels value && negb (ends value)
  | NWith around args may_fail _ body =>
      forallb (fun x => forallb (fun n => well_formed labels n && negb (ends n)) (fst x)) around
      && forallb (fun n => well_formed labels n && negb (ends n)) args
      && well_formed labels body
      && (no_drop around || calm around args may_fail)
  end.
End WellFormed.

(** Actions without the flag never fail. *)
Definition sound {state} (m : machine state) : Prop :=
  forall a s s', is_fallible a = false -> perform m a s <> Err s'.

(** Calling the graph and evaluating the tree give the same answer, and one of
    them runs for ever just when the other does. *)
Definition same_answers {state} (tree graph : nat -> option (answer state)) : Prop :=
  forall a, (exists n, tree n = Some a) <-> (exists n, graph n = Some a).

(** A machine that knows which locals are initialized: a store sets the flag, a
    take clears it, a drop acts only on an initialized local and clears it. *)
Definition set_flag (l : nat) (v : bool) (f : nat -> bool) : nat -> bool :=
  fun x => if x =? l then v else f x.

Definition with_state {A B} (k : A -> B) (r : done A) : done B :=
  match r with Done s => Done (k s) | Err s => Err (k s) | Stop s => Stop (k s) end.

Definition flagged {world} (m : machine world) : machine (world * (nat -> bool)) :=
  Machine _
    (fun a '(w, f) =>
       match a with
       | AStore l =>
           match perform m a w with Done w => Done (w, set_flag l true f) | r => with_state (fun w => (w, f)) r end
       | ATake l =>
           match perform m a w with Done w => Done (w, set_flag l false f) | r => with_state (fun w => (w, f)) r end
       | ADrop l =>
           if f l then
             match perform m a w with Done w => Done (w, set_flag l false f) | r => with_state (fun w => (w, f)) r end
           else Done (w, f)
       | _ => with_state (fun w => (w, f)) (perform m a w)
       end)
    (fun c '(w, _) => truth m c w)
    (fun c n '(w, _) => equals m c n w).

(** Locals that need a drop are stored inside the block that drops them. *)
Section Scoped.
Variable has_drop : nat -> bool.

Fixpoint scoped (owned : list nat) (n : node) : bool :=
  match n with
  | NOp args a =>
      forallb (scoped owned) args
      && match a with AStore l => negb (has_drop l) || existsb (Nat.eqb l) owned | _ => true end
  | NBlock cleanup body => forallb (scoped (cleanup ++ owned)) body
  | NCase scrutinee _ _ alternatives default =>
      scoped owned scrutinee && forallb (fun x => scoped owned (snd x)) alternatives && scoped owned default
  | NLoop _ body => scoped owned body
  | NBreak _ value | NReturn value => scoped owned value
  | NContinue _ => true
  | NWith around args _ _ body =>
      let temporaries := flat_map snd around ++ owned in
      forallb (fun x => forallb (scoped temporaries) (fst x)) around
      && forallb (scoped temporaries) args && scoped temporaries body
  end.
End Scoped.

(** A machine that writes down what it does; the operations, ramps and slides
    numbered by [fails] fail, if they may. *)
Definition number (a : action) : nat :=
  match a with
  | AOp _ n | ARamp _ n | ASlide _ n => n
  | AStore l | ATake l | ADrop l => l
  end.

Definition writer (fails : nat -> bool) (answers : nat -> list action -> bool) : machine (list action) :=
  Machine _
    (fun a log => if is_fallible a && fails (number a) then Err (log ++ [a]) else Done (log ++ [a]))
    answers (fun c n log => Nat.eqb c n).

(** How the body of a block may end, after some stores. *)
Inductive ending := FallsThrough | FailsAtTheEnd | ReturnsEarly.

Definition block_of (locals : list nat) (e : ending) : node :=
  NBlock locals (map (fun l => NOp [] (AStore l)) locals ++
    match e with
    | FallsThrough => []
    | FailsAtTheEnd => [NOp [] (AOp true 0)]
    | ReturnsEarly => [NReturn (NBlock [] [])]
    end).
