(** What a proof that a call returns must establish. *)
From Coq Require Import List.
From Verif Require Import MirModel TermSpec.
Import ListNotations.

(** The blocks that control can reach. *)
Inductive reachable_block {P C} (fn : function P C) : nat -> Prop :=
| reachable_entry : reachable_block fn entry
| reachable_next : forall b b', reachable_block fn b -> flows fn b b' -> reachable_block fn b'.

(** No reachable block is on a cycle. *)
Definition acyclic {P C} (fn : function P C) : Prop :=
  forall l, cycle (flows fn) l -> forall b, In b l -> ~ reachable_block fn b.

Definition is_yield {P C} (t : terminator P C) : Prop :=
  match t with Yield _ _ => True | _ => False end.

(** Operations that run no other function. *)
Definition runs_nothing {P} (o : operation P) : Prop :=
  match o with OCheckFuel | OCheckCallDepth | OPlain _ => True | _ => False end.

(** The functions whose calls unfold to a finite tree: acyclic bodies that only
    call, by name, such functions.  Functions without a body are native.
    [known] gives those of other modules. *)
Inductive finite_calls {P C} (module : nat) (bodies : list (option (function P C)))
  (known : fid -> bool) : fid -> Prop :=
| finite_elsewhere : forall f, fst f <> module -> known f = true -> finite_calls module bodies known f
| finite_native : forall i, nth_error bodies i = Some None ->
    finite_calls module bodies known (module, i)
| finite_script : forall i fn, nth_error bodies i = Some (Some fn) -> acyclic fn ->
    (forall b blk, reachable_block fn b -> nth_error fn b = Some blk ->
       ~ is_yield (term blk) /\
       (forall o, In o (all_operations blk) -> runs_nothing o \/ exists f p, o = OCall f p)) ->
    (forall b blk f p, reachable_block fn b -> nth_error fn b = Some blk ->
       In (OCall f p) (all_operations blk) -> finite_calls module bodies known f) ->
    finite_calls module bodies known (module, i).

(** The targets of terminators are blocks, and a body has an entry. *)
Definition well_formed_body {P C} (fn : function P C) : Prop :=
  fn <> [] /\ forall b b', flows fn b b' -> b' < length fn.

(** The functions an operation names: the one it calls, and those among its
    operands. *)
Definition names {P} (mentions : P -> list fid) (o : operation P) (f : fid) : Prop :=
  match o with
  | OCheckFuel | OCheckCallDepth => False
  | OPlain p | OHost p | OProject _ p | OEndProject _ p => In f (mentions p)
  | OCall h p => f = h \/ In f (mentions p)
  end.

(** A module: its bodies are well formed and the functions of the module they
    name exist. *)
Definition well_formed_module {P C} (mentions : P -> list fid) (module : nat)
  (bodies : list (option (function P C))) : Prop :=
  forall fn, In (Some fn) bodies -> well_formed_body fn /\
  forall blk o j, In blk fn -> In o (all_operations blk) -> names mentions o (module, j) ->
  j < length bodies.

(** Calls of [f] return, whatever the arguments, memory and limits: they finish
    without yielding. *)
Definition call_returns (m : machine) (f : fid) : Prop :=
  body m f = None \/
  forall args g c, exists n,
    match run_loop m n f entry None None (Frame args []) g c with
    | OutOfFuel _ | YieldedAt _ _ _ _ _ => False
    | Completed _ _ | Failed _ _ _ | Panicked _ => True
    end.
