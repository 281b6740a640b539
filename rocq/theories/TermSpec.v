(** Static conditions on programs, and what it means for a run to end.

    doc/runtime-sandboxing.md: "Every directed CFG cycle in untrusted MIR must
    cross a fuel check ... Recursive execution is bounded separately by
    call-depth checks." *)
From Coq Require Import List.
From Verif Require Import MirModel.
Import ListNotations.

(** A walk along the edges of a graph, and a cycle: a non-empty walk back to
    its first node. *)
Fixpoint walk {A} (edge : A -> A -> Prop) (l : list A) : Prop :=
  match l with
  | a :: ((b :: _) as q) => edge a b /\ walk edge q
  | _ => True
  end.

Definition cycle {A} (edge : A -> A -> Prop) (l : list A) : Prop :=
  match l with
  | [] => False
  | a :: _ => walk edge (l ++ [a])
  end.

(** The control-flow graph of a function body. *)
Definition flows {P C} (fn : function P C) (b b' : nat) : Prop :=
  exists blk, nth_error fn b = Some blk /\ In b' (successors (term blk)).

Definition block_checks_fuel {P C} (fn : function P C) (b : nat) : Prop :=
  exists blk, nth_error fn b = Some blk /\ In OCheckFuel (operations blk).

(** Every control-flow cycle crosses a fuel check. *)
Definition fuel_guarded {P C} (fn : function P C) : Prop :=
  forall l, cycle (flows fn) l -> exists b, In b l /\ block_checks_fuel fn b.

(** The functions an interaction may run. *)
Inductive may_run {G L Y} : drive G L Y -> fid -> Prop :=
| MR_fuel : forall k f, may_run k f -> may_run (DCheckFuel k) f
| MR_depth : forall k f, may_run k f -> may_run (DCheckDepth k) f
| MR_alloc : forall k i f, may_run (k i) f -> may_run (DAlloc k) f
| MR_mark : forall k i f, may_run (k i) f -> may_run (DMark k) f
| MR_truncate : forall n k f, may_run k f -> may_run (DTruncate n k) f
| MR_call : forall f args g ok fail, may_run (DCall f args g ok fail) f
| MR_call_ok : forall f args g ok fail g' f', may_run (ok g') f' -> may_run (DCall f args g ok fail) f'
| MR_call_fail : forall f args g ok fail e g' f', may_run (fail e g') f' ->
    may_run (DCall f args g ok fail) f'
| MR_cleanup : forall i d f, may_run d f -> may_run (DCleanup i d) f
| MR_project : forall r f args g ok fail, may_run (DProject r f args g ok fail) f
| MR_project_ok : forall r f args g ok fail y g' f', may_run (ok y g') f' ->
    may_run (DProject r f args g ok fail) f'
| MR_project_fail : forall r f args g ok fail e g' f', may_run (fail e g') f' ->
    may_run (DProject r f args g ok fail) f'
| MR_end_ok : forall r g ok fail g' f', may_run (ok g') f' -> may_run (DEndProject r g ok fail) f'
| MR_end_fail : forall r g ok fail e g' f', may_run (fail e g') f' ->
    may_run (DEndProject r g ok fail) f'.

(** All operations of a block, that of its terminator included. *)
Definition all_operations {P C} (b : block P C) : list (operation P) :=
  operations b ++ match term b with Invoke o _ _ => [o] | _ => [] end.

(** [f] may run [h]: some operation of [f] may, in some state. *)
Definition calls (m : machine) (f h : fid) : Prop :=
  exists fn blk o g l,
    body m f = Some fn /\ In blk fn /\ In o (all_operations blk) /\
    may_run (operation_drive m o g l) h.

(** A function that checks the call depth before running anything else. *)
Definition checks_depth (m : machine) (f : fid) : Prop :=
  exists fn blk pre post,
    body m f = Some fn /\ nth_error fn entry = Some blk /\
    operations blk = pre ++ OCheckCallDepth :: post /\
    forall o, In o pre -> exists p, o = OPlain p.

(** Every cycle of the call graph goes through a function that checks the call
    depth. *)
Definition recursion_guarded (m : machine) : Prop :=
  forall l, cycle (calls m) l -> exists f, In f l /\ checks_depth m f.

(** A program has finitely many functions. *)
Definition finite_program (m : machine) : Prop :=
  exists fs, forall f, body m f <> None -> In f fs.
