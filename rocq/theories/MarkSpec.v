(** What the removal of stack markers has to keep, and when it is entitled to
    remove one. *)
From Coq Require Import List Arith.
From Verif Require Import MarkModel.
Import ListNotations.

(** An operation after which the frame may have another number of cells. *)
Definition moves_frontier (o : op) : Prop :=
  match okind o with
  | Alloca | AllocaPlace | Project | EndProject | DictEntry | SubscriptMember | Drop => True
  | Call => exists s, In (Subscript s) (operands o)
  | _ => False
  end.

(** The contract of the operations: all others leave the number of cells as it
    was, even when they fail. *)
Definition honest {W} (m : machine W) : Prop :=
  forall o c w, ~ moves_frontier o ->
    match perform m o c w with Done c' _ | Failed c' _ => c' = c | Poisoned _ => True end.

(** An accessor finds as many cells as it left when it yielded. *)
Definition steady {W} (m : machine W) : Prop := forall p c w, fst (resume m p c w) = c.

Definition yields (f : function) : Prop :=
  exists b bl p t, nth_error f b = Some bl /\ tail bl = Yield p t.

(** The walks of the control flow graph from the entry: the operations passed,
    the last first, and the point reached. *)
Inductive walk (f : function) : list (site * op) -> site -> Prop :=
| walk_start : walk f [] (0, 0)
| walk_op tr b i bl o :
    walk f tr (b, i) -> nth_error f b = Some bl -> nth_error (ops bl) i = Some o ->
    walk f (((b, i), o) :: tr) (b, S i)
| walk_invoke tr b bl o n e t :
    walk f tr (b, length (ops bl)) -> nth_error f b = Some bl -> tail bl = Invoke o n e ->
    t = n \/ t = e -> walk f (((b, length (ops bl)), o) :: tr) (t, 0)
| walk_goto tr b bl t :
    walk f tr (b, length (ops bl)) -> nth_error f b = Some bl ->
    tail bl = Goto t \/ (exists c e, tail bl = CondBr c t e \/ tail bl = CondBr c e t) \/
    (exists p, tail bl = Yield p t) ->
    walk f tr (t, 0).

(** The operation [o] at the site [p] of [f]. *)
Definition op_at (f : function) (p : site) (o : op) : Prop :=
  exists bl, nth_error f (fst p) = Some bl /\ nth_error (ops bl) (snd p) = Some o.

Definition saves (o : op) (m : reg) : Prop := okind o = StackSave /\ result o = Some m.
Definition restores (o : op) (m : reg) : Prop :=
  okind o = StackRestore /\ exists rest, operands o = Reg m :: rest.

(** The marker [m] has been taken on every walk to [p]. *)
Definition taken_before (f : function) (p : site) (m : reg) : Prop :=
  forall tr, walk f tr p -> exists q o, In (q, o) tr /\ saves o m.

(** What the MIR verifier checks of a function: jumps go to blocks of the
    function, a marker has one save, is only used by restores and only after the
    save, and only operations that can fail are invoked. *)
Record verified (f : function) : Prop := {
  jumps_inside : forall b bl t, nth_error f b = Some bl -> In t (successors (tail bl)) -> t < length f;
  has_entry : 0 < length f;
  one_save : forall p q o o' m, op_at f p o -> op_at f q o' -> saves o m -> saves o' m -> p = q;
  saved_first : forall p o m, op_at f p o -> restores o m -> taken_before f p m;
  restore_operand : forall p o, op_at f p o -> okind o = StackRestore -> exists m, restores o m;
  save_result : forall p o, op_at f p o -> okind o = StackSave -> exists m, saves o m;
  only_restored : forall b bl p o m, nth_error f b = Some bl -> op_at f p o -> saves o m ->
    (forall o', In o' (ops bl) -> In (Reg m) (operands o') -> restores o' m /\ length (operands o') = 1) /\
    match tail bl with
    | Goto _ | Return | PropagateError | FailureDuringCleanup => True
    | CondBr c _ _ => c <> Reg m
    | Invoke o' _ _ => ~ In (Reg m) (operands o')
    | Yield v _ => v <> Reg m
    end;
  invoked_fallible : forall b bl o n e, nth_error f b = Some bl -> tail bl = Invoke o n e ->
    okind o <> StackSave /\ okind o <> StackRestore
}.

(** The blocks are in an order in which a save comes before the saves that can
    only be reached through it, as in a reverse postorder. *)
Definition in_order (f : function) : Prop :=
  forall p q o o' m m', op_at f p o -> op_at f q o' -> saves o m -> saves o' m' -> p <> q ->
    (exists tr, walk f tr q) -> taken_before f q m ->
    fst p < fst q \/ (fst p = fst q /\ snd p < snd q).

(** The marker [m] surely holds the frontier after the operations [tr], the last
    first: it was taken at, or restored to, the frontier that is still current. *)
Fixpoint current_after (tr : list (site * op)) (m : reg) : Prop :=
  match tr with
  | [] => False
  | (_, o) :: rest =>
      saves o m \/ restores o m \/
      (okind o = StackSave /\ current_after rest m) \/
      (exists r, restores o r /\ current_after rest r /\ current_after rest m) \/
      (okind o <> StackSave /\ okind o <> StackRestore /\ ~ moves_frontier o /\ current_after rest m)
  end.

(** On every walk to [p] the marker [m] holds the frontier. *)
Definition current (f : function) (p : site) (m : reg) : Prop :=
  forall tr, walk f tr p -> current_after tr m.

(** What may go: in code that can be reached, a save where a marker holds the
    frontier already, and a restore to the frontier that is current. *)
Definition redundant (f : function) (p : site) (o : op) : Prop :=
  (exists tr, walk f tr p) /\
  ((okind o = StackSave /\ exists m, current f p m) \/
   (exists m, restores o m /\ current f p m)).

(** [l'] is [l], which starts at the index [i] of the block [b], without its
    redundant operations and with other names for the markers in the restores. *)
Inductive thinned (f : function) (b : nat) : nat -> list op -> list op -> Prop :=
| thinned_nil i : thinned f b i [] []
| thinned_drop i o l l' : redundant f (b, i) o -> thinned f b (S i) l l' -> thinned f b i (o :: l) l'
| thinned_keep i o l l' : ~ redundant f (b, i) o -> okind o <> StackRestore ->
    thinned f b (S i) l l' -> thinned f b i (o :: l) (o :: l')
| thinned_restore i o o' m m' l l' : ~ redundant f (b, i) o -> restores o m -> restores o' m' ->
    result o' = result o -> thinned f b (S i) l l' -> thinned f b i (o :: l) (o' :: l').

(** The function [g] is [f] without its redundant operations. *)
Definition without_redundant (f g : function) : Prop :=
  length g = length f /\
  forall b bl bl', nth_error f b = Some bl -> nth_error g b = Some bl' ->
    tail bl' = tail bl /\ thinned f b 0 (ops bl) (ops bl').
