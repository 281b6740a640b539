(** What the recognition of range loops takes for granted. *)
From Coq Require Import NArith ZArith List Bool.
From Verif Require Import MachInt RelModel RelSpec RelRecognize.
From Verif Require GraphSpec.
Import ListNotations.
Open Scope Z_scope.

(** The cursor of an inclusive range that ends at the largest integer wraps around. *)
Definition no_wrap (m : mem) (o : op) : Prop :=
  match o with
  | Call (Some RangeInclusiveNext) [(it, _)] _ =>
      ~ (num (m (field it range_next)) = int_max /\ num (m (field (field it range_range) range_end)) = int_max)
  | _ => True
  end.

Section Loops.
Variable sid : symbol -> N.
Variable name : N -> symbol.
Variable escaped : root -> bool.
Variable types : root -> root_type.
Variable prog : list block.

(** Block [b] writes into [r], other than by stepping an iterator. *)
Definition builds (b : nat) (r : root) : Prop :=
  exists o, In o (all_ops (block_at prog b)) /\ step_op o = false /\ writes_into o r = true.

(** For a range iterator [r]: the block that constructs it does not step it; once constructed its storage is not allocated
    again and it is not moved away; no step yields into it; and the construction is within what the transfer function handles. *)
Record loop_ok (r : root) : Prop := {
  loop_step : forall b o, builds b r -> In o (all_ops (block_at prog b)) -> step_op o = true -> writes_into o r = false;
  loop_alloca : forall b c n, builds b r -> GraphSpec.reach (graph_of prog) b c -> ~ builds c r ->
    In (Alloca n) (all_ops (block_at prog c)) -> Local n <> r;
  loop_move : forall b c src dst, builds b r -> GraphSpec.reach (graph_of prog) b c -> ~ builds c r ->
    In (Move src dst) (all_ops (block_at prog c)) -> fst src <> r;
  loop_result : forall b f args result, In (Call (Some f) args result) (all_ops (block_at prog b)) -> is_step f = true -> fst result <> r;
  loop_clean : forall b, builds b r -> clean_block sid name escaped types (fun _ => None) b (block_at prog b) default_state = true
}.
End Loops.

(** ** What the property is about *)
Section Unchecked.
Variable sid : symbol -> N.
Variable name : N -> symbol.
Variable escaped : root -> bool.
Variable types : root -> root_type.
Variable prog : list block.
Variable entry : nat.
Notation inductions := (recognized sid escaped types prog entry).

(** Programs as the lowering makes them. *)
Record handled : Prop := {
  handled_graph : GraphSpec.well_formed (graph_of prog);
  handled_entry : (entry < length prog)%nat;
  handled_ops : wf_prog escaped types inductions prog;
  handled_loops : forall r, inductions r <> None -> loop_ok sid name escaped types prog r
}.
(** On some execution whose operations are all [quiet], control is at an array access for which the pass, given the solution
    [entries] of the analysis, removes the bounds check: the index is [x] and the length [l], and the access goes on as
    for a non-negative or for a negative index. *)
Definition unchecked (entries : states) (quiet : mem -> op -> Prop) (n : normalization) (x l : Z) : Prop :=
  exists hist b i m R o st index len,
    reach escaped types prog entry quiet hist b i m R /\
    nth_error (all_ops (block_at prog b)) i = Some o /\
    get_state entries b = Some st /\
    decide sid escaped types (state_before sid escaped types inductions b (block_at prog b) i st) o = Some (n, index, len) /\
    x = num (m index) /\ l = num (m len).
(** The offset accessed, unchecked, computed by machine integers. *)
Definition offset (n : normalization) (x l : Z) : Z := match n with NonNegative => x | Negative => wrap64 (l + x) end.
End Unchecked.
