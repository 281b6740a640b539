(** Model of the check of recursive type declarations, [src/desugar/module.rs] L23-84, L243-675.

    A module's aliases and type definitions form one list of declarations.  Names are numbers.  Spans,
    effect arguments, documentation and visibility are left out, and so is the lowering of the types
    themselves (L690-880). *)
From Coq Require Import List Bool Arith.
From Verif Require Import GraphModel.
Import ListNotations.

(** [PType], [src/ast/types.rs] L211-238: types as written.  A path is the list of its segments. *)
Inductive ptype : Type :=
| PNever
| PUnit
| PResolved
| PInfer
| PPath (path : list nat)
| PApplied (path : list nat) (args : list ptype)
| PVariant (alternatives : list (nat * ptype))
| PTuple (elements : list ptype)
| PRecord (fields : list (nat * ptype))
| PArray (inner : ptype)
| PFunction (args : list ptype) (ret : ptype).

(** [NamedTypeData], L24-50, with [PTypeAlias] and [PTypeDef]: [d_type] is the aliased type or the
    shape, [d_bounds] the input and output types of the constraints of the where clause (none for an
    alias), in the order of L63-71. *)
Record decl : Type := mkDecl { d_name : nat; d_params : list nat; d_type : ptype; d_bounds : list ptype }.

(** [FxHashMap<Ustr, usize>] built by L634-646 from the pairs (name, index): a later pair replaces an
    earlier one with the same name. *)
Fixpoint index_from (i : nat) (D : list decl) (name : nat) : option nat :=
  match D with
  | [] => None
  | d :: rest =>
      match index_from (S i) rest name with
      | Some j => Some j
      | None => if d_name d =? name then Some i else None
      end
  end.
Definition ty_names (D : list decl) (name : nat) : option nat := index_from 0 D name.

(** [FxHashSet<usize>] as a list without repetition. *)
Definition insert (x : nat) (s : list nat) : list nat := if existsb (Nat.eqb x) s then s else s ++ [x].
Definition extend (s l : list nat) : list nat := fold_left (fun s x => insert x s) l s.

(** ** [TypeCycleInfo], L385-466 *)
Record cycle_info : Type := mkInfo {
  guarded_refs : list nat;
  unguarded_refs : list nat;
  variant_payload_refs : list (list nat) }.
Definition no_info : cycle_info := mkInfo [] [] [].

(** [refs], L460-465. *)
Definition refs (i : cycle_info) : list nat := extend (guarded_refs i) (unguarded_refs i).

(** L401-409, L414-422: a path of one segment that is the name of a declaration. *)
Definition note_path (D : list decl) (path : list nat) (guarded : bool) (i : cycle_info) : cycle_info :=
  match path with
  | [name] =>
      match ty_names D name with
      | Some index =>
          if guarded then mkInfo (insert index (guarded_refs i)) (unguarded_refs i) (variant_payload_refs i)
          else mkInfo (guarded_refs i) (insert index (unguarded_refs i)) (variant_payload_refs i)
      | None => i
      end
  | _ => i
  end.

(** L434-438: what the payload of an alternative adds.  Its own [variant_payload_refs] are dropped. *)
Definition add_payload (payload i : cycle_info) : cycle_info :=
  mkInfo (extend (guarded_refs i) (guarded_refs payload)) (extend (unguarded_refs i) (unguarded_refs payload))
         (variant_payload_refs i ++ [refs payload]).

(** [collect_from_type], L392-457. *)
Fixpoint collect_from_type (D : list decl) (ty : ptype) (guarded : bool) (i : cycle_info) {struct ty} : cycle_info :=
  match ty with
  | PPath path => note_path D path guarded i
  | PApplied path args => fold_left (fun i arg => collect_from_type D arg guarded i) args (note_path D path guarded i)
  | PVariant alternatives =>
      fold_left (fun i alternative => match alternative with (_, payload) =>
        add_payload (collect_from_type D payload true no_info) i end) alternatives i
  | PTuple elements => fold_left (fun i element => collect_from_type D element guarded i) elements i
  | PRecord fields => fold_left (fun i field => match field with (_, ty) => collect_from_type D ty guarded i end) fields i
  | PArray inner => collect_from_type D inner guarded i
  | PFunction args ret => collect_from_type D ret guarded (fold_left (fun i arg => collect_from_type D arg guarded i) args i)
  | PNever | PUnit | PResolved | PInfer => i
  end.

(** [cycle_info], L52-74. *)
Definition decl_info (D : list decl) (d : decl) : cycle_info :=
  fold_left (fun i bound => collect_from_type D bound false i) (d_bounds d) (collect_from_type D (d_type d) false no_info).

(** ** Regularity, L243-383 *)

(** [is_regular_recursive_generic_application], L244-261. *)
Fixpoint all_params (args : list ptype) (params : list nat) : bool :=
  match args, params with
  | arg :: args, expected :: params =>
      match arg with
      | PPath [name] => (name =? expected) && all_params args params
      | _ => false
      end
  | _, _ => true
  end.
Definition is_regular (current target : list nat) (args : list ptype) : bool :=
  (length target =? length current) && (length args =? length current) && all_params args current.

Definition first {A : Type} (check : A -> option nat) : list A -> option nat :=
  fix go (l : list A) : option nat :=
    match l with
    | [] => None
    | x :: l => match check x with Some name => Some name | None => go l end
    end.

Definition has (x : nat) (s : list nat) : bool := existsb (Nat.eqb x) s.

(** L281-300: one application; the answer is the name to report. *)
Definition irregular_here (D : list decl) (scc current : list nat) (path : list nat) (args : list ptype) : option nat :=
  match path with
  | [name] =>
      match ty_names D name with
      | Some target =>
          if has target scc then
            let params := match nth_error D target with Some d => d_params d | None => [] end in
            if negb (length params =? 0) && negb (is_regular current params args) then Some name else None
          else None
      | None => None
      end
  | _ => None
  end.

(** [validate_regular_generic_refs_in_type], L263-383: the first name to report. *)
Fixpoint irregular (D : list decl) (scc current : list nat) (ty : ptype) {struct ty} : option nat :=
  match ty with
  | PApplied path args =>
      match irregular_here D scc current path args with
      | Some name => Some name
      | None => first (fun arg => irregular D scc current arg) args
      end
  | PVariant alternatives => first (fun alternative => match alternative with (_, payload) => irregular D scc current payload end) alternatives
  | PTuple elements => first (fun element => irregular D scc current element) elements
  | PRecord fields => first (fun field => match field with (_, ty) => irregular D scc current ty end) fields
  | PArray inner => irregular D scc current inner
  | PFunction args ret =>
      match first (fun arg => irregular D scc current arg) args with
      | Some name => Some name
      | None => irregular D scc current ret
      end
  | PNever | PUnit | PResolved | PInfer | PPath _ => None
  end.

(** [validate_regular_recursive_generic_refs], L76-122. *)
Definition irregular_decl (D : list decl) (scc : list nat) (d : decl) : option nat :=
  first (irregular D scc (d_params d)) (d_type d :: d_bounds d).

(** ** [validate_type_cycle], L475-548 *)
Inductive verdict : Type :=
| Accepted
| ProductCycleWithoutSum (name : nat)
| SumCycleWithoutTerminatingVariant (name : nat)
| NonRegularGenericShape (name : nat).

Section Order.
(** The order in which a hash set yields its elements: an arbitrary rearrangement. *)
Variable order : list nat -> list nat.

(** [scc_pos], L495-500. *)
Fixpoint position (x : nat) (l : list nat) : gres nat :=
  match l with
  | [] => Panics
  | y :: l => if y =? x then Val 0 else let* p := position x l in Val (S p)
  end.
Fixpoint traverse {A B : Type} (f : A -> gres B) (l : list A) : gres (list B) :=
  match l with
  | [] => Val []
  | x :: l => let* y := f x in let* ys := traverse f l in Val (y :: ys)
  end.

(** L501-515: the direct references within the group, renumbered by position. *)
Definition unguarded_graph (infos : list cycle_info) (scc : list nat) : gres graph :=
  traverse (fun index =>
    let* info := rd infos index in
    let* deps := traverse (fun dep => position dep scc) (filter (fun dep => has dep scc) (order (unguarded_refs info))) in
    Val (order deps)) scc.

(** L517-532: the position of the first node of the first cycle. *)
Fixpoint first_cycle (g : graph) (sccs : list (list nat)) : gres (option nat) :=
  match sccs with
  | [] => Val None
  | c :: rest =>
      match c with
      | [] => first_cycle g rest
      | x :: more =>
          let* ss := rd g x in
          if negb (length more =? 0) || has x ss then Val (Some x) else first_cycle g rest
      end
  end.

Definition disjoint (s t : list nat) : bool := negb (existsb (fun x => has x t) s).

Fixpoint any_terminating (infos : list cycle_info) (scc group : list nat) : gres bool :=
  match group with
  | [] => Val false
  | index :: rest =>
      let* info := rd infos index in
      if existsb (fun refs => disjoint refs scc) (variant_payload_refs info) then Val true
      else any_terminating infos scc rest
  end.

Fixpoint any_irregular (D : list decl) (scc group : list nat) : gres (option nat) :=
  match group with
  | [] => Val None
  | index :: rest =>
      let* d := rd D index in
      match irregular_decl D scc d with
      | Some name => Val (Some name)
      | None => any_irregular D scc rest
      end
  end.

Definition validate_type_cycle (D : list decl) (infos : list cycle_info) (scc : list nat) : gres verdict :=
  let* g := unguarded_graph infos scc in
  let* unguarded_sccs := find_strongly_connected_components g in
  let* cycle := first_cycle g unguarded_sccs in
  match cycle with
  | Some pos =>
      let* index := rd scc pos in
      let* d := rd D index in
      Val (ProductCycleWithoutSum (d_name d))
  | None =>
      let* terminating := any_terminating infos scc scc in
      if negb terminating then
        let* index := rd scc 0 in
        let* d := rd D index in
        Val (SumCycleWithoutTerminatingVariant (d_name d))
      else
        let* bad := any_irregular D scc scc in
        Val (match bad with Some name => NonRegularGenericShape name | None => Accepted end)
  end.

(** [is_recursive_singleton], L470-473, and the test of L593 and L670. *)
Definition is_recursive (g : graph) (scc : list nat) : gres bool :=
  if 1 <? length scc then Val true
  else let* x := rd scc 0 in let* ss := rd g x in Val (has x ss).

Fixpoint validate_all (D : list decl) (infos : list cycle_info) (g : graph) (sccs : list (list nat)) : gres verdict :=
  match sccs with
  | [] => Val Accepted
  | scc :: rest =>
      let* recursive := is_recursive g scc in
      if recursive then
        let* v := validate_type_cycle D infos scc in
        match v with
        | Accepted => validate_all D infos g rest
        | _ => Val v
        end
      else validate_all D infos g rest
  end.

(** ** [build_named_type_graph], L625-682 *)
Definition dep_graph (D : list decl) : graph := map (fun d => order (refs (decl_info D d))) D.

Definition check_declarations (D : list decl) : gres verdict :=
  let infos := map (decl_info D) D in
  let* sccs := find_strongly_connected_components (dep_graph D) in
  validate_all D infos (dep_graph D) sccs.

(** The order in which the groups are lowered, with whether each is lowered as a recursive group:
    [NamedTypeGraph::desugar], L586-593. *)
Definition lowering_order (D : list decl) : gres (list (list nat * bool)) :=
  let* sccs := find_strongly_connected_components (dep_graph D) in
  let* sorted := topological_sort_sccs order (dep_graph D) sccs in
  traverse (fun scc => let* r := is_recursive (dep_graph D) scc in Val (scc, r)) (rev sorted).
End Order.
