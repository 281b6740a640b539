(** Model of the exclusive-access check of calls, [src/hir/borrow_checker.rs] L32-130, L259-345 and
    L369-475.

    Simplifications.
    - HIR nodes are trees instead of arena entries; a node that is neither a place nor a literal is
      [Other].
    - The four kinds of calls (static, first-class, subscript and dictionary call; before elaboration
      also trait method call) are treated alike by the code: they are one constructor, with a number
      that names the function and [returns_place] for [ty.returns_place()].
    - Spans of error reports are left out. *)
From Coq Require Import List Bool Arith ZArith.
From Verif Require Import GraphModel.
Import ListNotations.
Open Scope Z_scope.

(** [ArgConvention], [src/hir/function.rs]. *)
Inductive convention : Type := Let | MutableRef | Owned.

(** [LiteralValue], [src/hir/value.rs]: a machine integer or any other literal. *)
Inductive literal : Type := LInt (z : Z) | LOther.

(** [NodeKind], [src/hir/mod.rs] L786-892. *)
Inductive node : Type :=
| LoadLocal (id : nat)
| Project (value : node) (index : nat)
| FieldAccess (value : node) (field : nat)
| Apply (function : nat) (returns_place : bool) (arguments : list argument)
| Block (tail : option node)
| WithPlace (place : node) (binding : nat) (body : node)
| Immediate (value : literal)
| Evidence                           (** dictionaries and other hidden evidence *)
| Other
with argument : Type := Argument (passing : convention) (value : node).

Definition passing (a : argument) : convention := match a with Argument p _ => p end.
Definition arg_value (a : argument) : node := match a with Argument _ v => v end.

(** [PathPart] and [Path], L32-43. *)
Inductive part : Type :=
| Projection (i : nat)
| Field (f : nat)
| IndexStatic (i : Z)
| IndexDynamic.
Record path : Type := Path { variable : nat; parts : list part }.

Definition push (p : path) (x : part) : path := Path (variable p) (parts p ++ [x]).

(** [is_evidence_node], L238-246, and [is_enode_evidence], L441-449. *)
Definition is_evidence (n : node) : bool := match n with Evidence => true | _ => false end.

(** [index_part], L121-129. *)
Definition index_part (n : node) : part :=
  match n with
  | Immediate (LInt z) => if 0 <=? z then IndexStatic z else IndexDynamic
  | _ => IndexDynamic
  end.

(** [enode_index_part], L430-438: the [unwrap] panics on a literal that is not an integer. *)
Definition enode_index_part (n : node) : gres part :=
  match n with
  | Immediate (LInt z) => Val (if 0 <=? z then IndexStatic z else IndexDynamic)
  | Immediate LOther => Panics
  | _ => Val IndexDynamic
  end.

(** [from_addressor_place_arguments], L103-117 and L412-428.  The search for the base argument
    ([position], [expect]) and the recursive call on it are one function here. *)
Section Arguments.
Variable from : node -> gres (option path).
Variable index : node -> gres part.
Fixpoint from_arguments (arguments : list argument) : gres (option path) :=
  match arguments with
  | [] => Panics
  | a :: rest =>
      if is_evidence (arg_value a) then from_arguments rest
      else
        let* p := from (arg_value a) in
        match p with
        | None => Val None
        | Some p =>
            match rest with
            | i :: _ => let* x := index (arg_value i) in Val (Some (push p x))
            | [] => Val (Some (push p IndexDynamic))
            end
        end
  end.
End Arguments.

(** [Path::try_from_node], L58-101 (before elaboration). *)
Fixpoint try_from_node (n : node) : gres (option path) :=
  match n with
  | Project value i =>
      let* p := try_from_node value in Val (option_map (fun p => push p (Projection i)) p)
  | FieldAccess value f =>
      let* p := try_from_node value in Val (option_map (fun p => push p (Field f)) p)
  | Apply _ true arguments => from_arguments try_from_node (fun i => Val (index_part i)) arguments
  | Block (Some tail) => try_from_node tail
  | Block None => Panics
  | WithPlace place _ _ => try_from_node place
  | LoadLocal id => Val (Some (Path id []))
  | _ => Val None
  end.

(** [Path::try_from_enode], L374-410 (after elaboration, which removes field accesses). *)
Fixpoint try_from_enode (n : node) : gres (option path) :=
  match n with
  | Project value i =>
      let* p := try_from_enode value in Val (option_map (fun p => push p (Projection i)) p)
  | FieldAccess _ _ => Panics
  | Apply _ true arguments => from_arguments try_from_enode enode_index_part arguments
  | Block (Some tail) => try_from_enode tail
  | Block None => Val None
  | WithPlace place _ _ => try_from_enode place
  | LoadLocal id => Val (Some (Path id []))
  | _ => Val None
  end.

(** [Path::from_enode], L370-372. *)
Definition from_enode (n : node) : gres path :=
  let* p := try_from_enode n in match p with Some p => Val p | None => Panics end.

(** [do_paths_overlap], L250-279. *)
Fixpoint parts_overlap (a b : list part) : bool :=
  match a, b with
  | x :: a, y :: b =>
      match x, y with
      | Projection i, Projection j => if Nat.eqb i j then parts_overlap a b else false
      | Field f, Field g => if Nat.eqb f g then parts_overlap a b else false
      | IndexStatic i, IndexStatic j => if Z.eqb i j then parts_overlap a b else false
      | _, _ => true
      end
  | _, _ => true
  end.
Definition do_paths_overlap (a b : path) : bool :=
  if Nat.eqb (variable a) (variable b) then parts_overlap (parts a) (parts b) else false.

Definition is_mutable_ref (a : argument) : bool := match passing a with MutableRef => true | _ => false end.
Definition is_let (a : argument) : bool := match passing a with Let => true | _ => false end.

(** The collection of [mutable_paths], L456-461. *)
Fixpoint mutable_paths (arguments : list argument) (index : nat) : gres (list (nat * path)) :=
  match arguments with
  | [] => Val []
  | a :: arguments =>
      if is_mutable_ref a then
        let* p := from_enode (arg_value a) in
        let* rest := mutable_paths arguments (S index) in
        Val ((index, p) :: rest)
      else mutable_paths arguments (S index)
  end.

(** The double loop of [check_elaborated_arguments], L462-473: the first overlapping pair. *)
Fixpoint find_overlap (paths : list (nat * path)) : option (nat * nat) :=
  match paths with
  | [] => None
  | l :: rest =>
      match find (fun r => do_paths_overlap (snd l) (snd r)) rest with
      | Some r => Some (fst l, fst r)
      | None => find_overlap rest
      end
  end.

(** [check_elaborated_arguments], L451-475: [None] accepts the call, [Some] names two overlapping
    mutable arguments. *)
Definition check_elaborated_arguments (arguments : list argument) : gres (option (nat * nat)) :=
  let* paths := mutable_paths arguments 0 in
  Val (find_overlap paths).

(** [node_is_place_reference], [src/hir/mod.rs] L154-175. *)
Fixpoint node_is_place_reference (n : node) : bool :=
  match n with
  | LoadLocal _ | Project _ _ | FieldAccess _ _ => true
  | Apply _ returns_place _ => returns_place
  | WithPlace _ _ body => node_is_place_reference body
  | Block (Some tail) => node_is_place_reference tail
  | _ => false
  end.

(** The paths of the arguments selected by [select], with their positions: the [filter]s and
    [filter_map]s of [let_arguments_overlapping_mutable], L292-315. *)
Fixpoint selected_paths (select : argument -> bool) (arguments : list argument) (index : nat)
  : gres (list (nat * path)) :=
  match arguments with
  | [] => Val []
  | a :: arguments =>
      if select a then
        let* p := try_from_node (arg_value a) in
        let* rest := selected_paths select arguments (S index) in
        match p with Some p => Val ((index, p) :: rest) | None => Val rest end
      else selected_paths select arguments (S index)
  end.

(** [let_arguments_overlapping_mutable], L287-324: the pairs of a shared and a mutable argument that
    may overlap; the shared argument is then copied before the call.  Simplification: trait
    methods as values, which are skipped, are [Other]. *)
Definition let_arguments_overlapping_mutable (arguments : list argument) : gres (list (nat * nat)) :=
  let* mutable := selected_paths is_mutable_ref arguments 0 in
  let* shared := selected_paths (fun a => is_let a && node_is_place_reference (arg_value a)) arguments 0 in
  Val (flat_map (fun l => map (fun m => (fst l, fst m)) (filter (fun m => do_paths_overlap (snd l) (snd m)) mutable)) shared).
