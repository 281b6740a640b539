(** Model of the effect solver, [src/types/type_inference/effect_solver.rs], and of the substitution of effects,
    [src/types/type_inference/substitution.rs] L412-L480.  Spans and origins, which only serve messages, are left
    out; so are the queue of [SameEffect] constraints (a list, drained by the caller into [unify_same_effect]) and
    snapshots (copies of the state). *)
From Coq Require Import NArith List Bool.
From Verif Require Import EffModel.
Import ListNotations.
Open Scope N_scope.

(** ** The unification table (crate [ena], not in the repository; [type_inference/tables.rs] L53-L77)
    Variables [0 .. len - 1]; each has a root, which holds the value. *)
Record table := Table { len : N; find : N -> N; value : N -> option efftype }.
Definition probe (t : table) (v : N) : option efftype := value t (find t v).

Definition update {A : Type} (f : N -> A) (k : N) (a : A) : N -> A := fun x => if x =? k then a else f x.

(** [UnifyValue for EffType], L71-L77, lifted to options as [ena] does. *)
Definition unify_values (a b : option efftype) : option efftype :=
  match a, b with
  | Some a, Some b => Some (eff_union a b)
  | Some a, None => Some a
  | None, b => b
  end.
Definition new_key (t : table) (x : option efftype) : N * table :=
  (len t, Table (len t + 1) (find t) (update (value t) (len t) x)).
Definition union_value (t : table) (v : N) (x : option efftype) : table :=
  let r := find t v in
  Table (len t) (find t) (update (value t) r (unify_values (value t r) x)).

Definition eff_eqb (a b : efftype) : bool :=
  match eff_compare a b with Eq => true | _ => false end.

(** [SErr]: the error [InvalidEffectDependency]; [SPanic]: a panic of the table on an unknown variable. *)
Inductive sres (A : Type) : Type := SOk (a : A) | SErr | SPanic | SFuel.
Arguments SOk {A} a. Arguments SErr {A}. Arguments SPanic {A}. Arguments SFuel {A}.
Definition sbind {A B : Type} (x : sres A) (f : A -> sres B) : sres B :=
  match x with SOk a => f a | SErr => SErr | SPanic => SPanic | SFuel => SFuel end.
Notation "'let$' x ':=' m 'in' k" := (sbind m (fun x => k)) (at level 200, x pattern, m at level 100, k at level 200).

(** [EffectSolver], L86-L91. *)
Record solver := Solver { tbl : table; pending : list (efftype * N); deferred : list (efftype * efftype) }.
Definition empty_solver : solver := Solver (Table 0 (fun v => v) (fun _ => None)) [] [].
Definition with_table (s : solver) (t : table) : solver := Solver t (pending s) (deferred s).

Section Solver.
(** Which of two roots stays the root: [ena] keeps ranks. *)
Variable pick : table -> N -> N -> bool.
Definition union (t : table) (a b : N) : table :=
  let ra := find t a in
  let rb := find t b in
  if ra =? rb then t
  else
    let x := unify_values (value t ra) (value t rb) in
    let new_root := if pick t ra rb then ra else rb in
    let old_root := if pick t ra rb then rb else ra in
    Table (len t) (fun v => if find t v =? old_root then new_root else find t v) (update (value t) new_root x).

(** [ensure_var], L98-L102, and [ensure_effect_vars], L104-L108. *)
Definition ensure_var (t : table) (v : N) : table :=
  if len t <=? v then Table (v + 1) (find t) (value t) else t.
Definition ensure_effect_vars (t : table) (e : efftype) : table := fold_left ensure_var (eff_variables e) t.

Definition primitives_of (e : efftype) : efftype := eff_multiple_primitive (prims_iter (eff_primitives e)).

(** [normalize_effect_inner], L597-L632.  A cache is an association list.  The variables of a value are in the table, so
    [ensure_var] does nothing on the way and the table is not changed. *)
Definition cache := list (N * efftype).
Fixpoint norm_vars (visit : cache -> N -> option (efftype * cache)) (vars : list N) (normalized : efftype) (c : cache)
    : option (efftype * cache) :=
  match vars with
  | [] => Some (normalized, c)
  | v :: vars =>
      match visit c v with
      | Some (e, c) => norm_vars visit vars (eff_union normalized e) c
      | None => None
      end
  end.
Definition norm_effect (visit : cache -> N -> option (efftype * cache)) (e : efftype) (c : cache) : option (efftype * cache) :=
  if eff_is_empty e || negb (eff_has_variables e) then Some (e, c)
  else norm_vars visit (eff_variables e) (primitives_of e) c.
Fixpoint norm_var (fuel : nat) (t : table) (visiting : list N) (c : cache) (v : N) : option (efftype * cache) :=
  let root := find t v in
  match subst_get c root with
  | Some cached => Some (cached, c)
  | None =>
      if existsb (N.eqb root) visiting then Some (eff_single_variable root, c)
      else
        match fuel with
        | O => None
        | S fuel =>
            match value t root with
            | Some x =>
                match norm_effect (norm_var fuel t (root :: visiting)) x c with
                | Some (e, c) => Some (e, (root, e) :: c)
                | None => None
                end
            | None => Some (eff_single_variable root, (root, eff_single_variable root) :: c)
            end
        end
  end.
(** [normalize_effect], L591-L595. *)
Definition normalize (t : table) (e : efftype) : sres efftype :=
  match norm_effect (norm_var (N.to_nat (len t)) t []) e [] with Some (n, _) => SOk n | None => SFuel end.

(** [current_satisfied_by_target], L743-L746. *)
Definition satisfied (source existing : efftype) : bool := eff_is_subset_of source (primitives_of existing).

(** [expand_pending_dependency_inner], L642-L693. *)
Fixpoint over_vars (step : table -> N -> sres table) (vars : list N) (t : table) : sres table :=
  match vars with
  | [] => SOk t
  | v :: vars => let$ t := step t v in over_vars step vars t
  end.
Fixpoint expand (fuel : nat) (source : efftype) (visiting : list N) (t : table) (v : N) : sres table :=
  let target := find t v in
  if existsb (N.eqb target) visiting then SOk (union_value t target (Some (eff_union source (eff_single_variable target))))
  else
    match fuel with
    | O => SFuel
    | S fuel =>
        match value t target with
        | Some existing =>
            if satisfied source existing then SOk t
            else
              match eff_variables existing with
              | [] => SErr
              | vars => over_vars (expand fuel source (target :: visiting)) vars (union_value t target (Some (eff_union existing source)))
              end
        | None => SOk (union_value t target (Some (eff_union source (eff_single_variable target))))
        end
    end.
(** [expand_pending_dependency], L634-L640, and [expand_all_pending_dependencies], L420-L426. *)
Definition expand_one (t : table) (dep : efftype * N) : sres table :=
  let t := ensure_var t (snd dep) in
  expand (N.to_nat (len t)) (fst dep) [] t (snd dep).
Fixpoint expand_list (deps : list (efftype * N)) (t : table) : sres table :=
  match deps with
  | [] => SOk t
  | dep :: deps => let$ t := expand_one t dep in expand_list deps t
  end.
Definition expand_all (s : solver) : sres solver :=
  let$ t := expand_list (pending s) (tbl s) in
  SOk (Solver t [] (deferred s)).

(** [for var in vars { table.union_value(var, Some(upper)) }]. *)
Definition bind_vars (t : table) (vars : list N) (upper : efftype) : table :=
  fold_left (fun t v => union_value t v (Some upper)) vars t.

(** [lower.is_empty() || lower == upper || lower.is_subset_of(&upper)]. *)
Definition holds (lower upper : efftype) : bool := eff_is_empty lower || eff_eqb lower upper || eff_is_subset_of lower upper.

(** [try_add_effect_inclusion], L446-L543, in two parts: the early exit for a variable with at most variables known of it,
    L451-L470, and the rest. *)
Definition add_push (s : solver) (dep : efftype * N) : solver := Solver (tbl s) (pending s ++ [dep]) (deferred s).
Definition add_defer (s : solver) (inc : efftype * efftype) : solver := Solver (tbl s) (pending s) (deferred s ++ [inc]).
Definition try_add_rest (s : solver) (lower0 upper0 : efftype) (defer_ambiguous : bool) : sres (bool * solver) :=
  let$ lower := normalize (tbl s) lower0 in
  let$ upper := normalize (tbl s) upper0 in
  if holds lower upper then SOk (true, s)
  else
    let ambiguous := if defer_ambiguous then SOk (true, add_defer s (lower, upper)) else SOk (false, s) in
    match eff_variables lower, eff_variables upper with
    | [], [] => SErr
    | lower_vars, [] => SOk (true, with_table s (bind_vars (tbl s) lower_vars upper))
    | [], _ =>
        match eff_to_single_variable upper with
        | Some v => SOk (true, add_push s (lower, v))
        | None => ambiguous
        end
    | _, _ =>
        match eff_to_single_variable lower with
        | Some v => SOk (true, with_table s (union_value (tbl s) v (Some upper)))
        | None =>
            match eff_to_single_variable upper with
            | Some v => SOk (true, add_push s (lower, v))
            | None => ambiguous
            end
        end
    end.
Definition try_add (s : solver) (lower upper0 : efftype) (defer_ambiguous : bool) : sres (bool * solver) :=
  let rest := try_add_rest s lower upper0 defer_ambiguous in
  match eff_to_single_variable lower with
  | Some v =>
      let root := find (tbl s) v in
      if match value (tbl s) root with Some x => eff_is_only_vars x | None => true end then
        let$ upper := normalize (tbl s) upper0 in
        if eff_is_empty upper || eff_eqb (eff_single_variable root) upper then SOk (true, s)
        else SOk (true, with_table s (union_value (tbl s) root (Some upper)))
      else rest
  | None => rest
  end.

(** [add_effect_inclusion], L428-L444. *)
Definition add_inclusion (s : solver) (lower upper : efftype) : sres solver :=
  let s := with_table s (ensure_effect_vars (ensure_effect_vars (tbl s) lower) upper) in
  let$ (_, s) := try_add s lower upper true in SOk s.

(** [materialize_residual_inclusion], L545-L589. *)
Definition materialize (s : solver) (inc : efftype * efftype) : sres solver :=
  let$ lower := normalize (tbl s) (fst inc) in
  let$ upper := normalize (tbl s) (snd inc) in
  if holds lower upper then SOk s
  else
    match eff_variables lower, eff_variables upper with
    | [], [] => SErr
    | (_ :: _) as lower_vars, _ => SOk (with_table s (bind_vars (tbl s) lower_vars upper))
    | [], upper_vars => SOk (Solver (tbl s) (pending s ++ map (fun v => (lower, v)) upper_vars) (deferred s))
    end.

(** [expand_pending_dependencies], L403-L418. *)
Fixpoint retry (incs : list (efftype * efftype)) (s : solver) : sres (list (efftype * efftype) * solver) :=
  match incs with
  | [] => SOk ([], s)
  | inc :: incs =>
      let$ (done, s) := try_add s (fst inc) (snd inc) false in
      let$ (residual, s) := retry incs s in
      SOk (if done then residual else inc :: residual, s)
  end.
Fixpoint materialize_all (incs : list (efftype * efftype)) (s : solver) : sres solver :=
  match incs with
  | [] => SOk s
  | inc :: incs => let$ s := materialize s inc in materialize_all incs s
  end.
Definition expand_pending (s : solver) : sres solver :=
  let$ s := expand_all s in
  let incs := deferred s in
  let$ (residual, s) := retry incs (Solver (tbl s) (pending s) []) in
  let$ s := materialize_all residual s in
  expand_all s.

(** [fresh_var], L94-L96. *)
Definition fresh_var (s : solver) : N * solver := let (v, t) := new_key (tbl s) None in (v, with_table s t).

(** [make_dependent_effect], L150-L174. *)
Definition make_dependent (s : solver) (deps : list efftype) : efftype * solver :=
  match deps with
  | [] => (eff_empty, s)
  | [e] => (e, s)
  | e :: es =>
      let effects := fold_left eff_union es e in
      if negb (eff_has_variables effects) || match eff_to_single_variable effects with Some _ => true | None => false end then (effects, s)
      else
        let (v, t) := new_key (tbl s) (Some effects) in
        (eff_single_variable v, with_table s t)
  end.

(** [unify_effects], L177-L196. *)
Definition unify_effects (s : solver) (e1 e2 : efftype) : efftype * solver :=
  let t := ensure_effect_vars (ensure_effect_vars (tbl s) e1) e2 in
  match eff_to_single_variable e1, eff_to_single_variable e2 with
  | None, None => (eff_union e1 e2, with_table s t)
  | None, Some v => (e1, with_table s (union_value t v (Some e1)))
  | Some v, None => (e2, with_table s (union_value t v (Some e2)))
  | Some v1, Some v2 => (e1, with_table s (union t v1 v2))
  end.

(** [unify_fn_arg_effects], L198-L213, for the effects of one function argument. *)
Fixpoint union_with (t : table) (first : N) (vars : list N) : table :=
  match vars with
  | [] => t
  | v :: vars => union_with (union (ensure_var t v) first v) first vars
  end.
Definition unify_arg_effects (s : solver) (e : efftype) : solver :=
  match eff_variables e with
  | [] => s
  | v :: vars => with_table s (union_with (ensure_var (tbl s) v) v vars)
  end.

(** [generalize_effect_type], L282-L305; the primitive effects come first in the order of iteration. *)
Definition generalize (s : solver) (e : efftype) : option efftype * solver :=
  match prims_iter (eff_primitives e) with
  | [] => (None, s)
  | ps =>
      let (v, t) := new_key (tbl s) None in
      (Some (eff_single_variable v),
       Solver (fold_left (fun t x => union t v x) (eff_variables e) t)
         (pending s ++ map (fun p => (eff_single (Primitive p), v)) ps) (deferred s))
  end.

(** [unify_same_effect], L326-L375. *)
Definition unify_same (s : solver) (current target : efftype) : sres solver :=
  let s := with_table s (ensure_effect_vars (ensure_effect_vars (tbl s) current) target) in
  match eff_to_single_variable current, eff_to_single_variable target with
  | Some a, Some b => SOk (with_table s (union (tbl s) a b))
  | Some a, None => SOk (with_table s (union_value (tbl s) a (Some target)))
  | None, Some b => SOk (with_table s (union_value (tbl s) b (Some current)))
  | None, None =>
      let$ s := add_inclusion s current target in
      add_inclusion s target current
  end.

(** The calls of a type inference. *)
Inductive op :=
| Fresh
| Dependent (deps : list efftype)
| Unify (e1 e2 : efftype)
| UnifyArg (e : efftype)
| Generalize (e : efftype)
| Same (current target : efftype)
| Include (lower upper : efftype)
| Expand.
(** [make_dependent_effect] and [generalize_effect_type] do not create the variables of their arguments.  An unknown one
    makes the second panic; for the first, it would only be created when met: taken as a panic too. *)
Definition known (s : solver) (e : efftype) : bool := forallb (fun v => v <? len (tbl s)) (eff_variables e).
Definition run_op (s : solver) (o : op) : sres solver :=
  match o with
  | Fresh => SOk (snd (fresh_var s))
  | Dependent deps => if forallb (known s) deps then SOk (snd (make_dependent s deps)) else SPanic
  | Unify e1 e2 => SOk (snd (unify_effects s e1 e2))
  | UnifyArg e => SOk (unify_arg_effects s e)
  | Generalize e => if known s e then SOk (snd (generalize s e)) else SPanic
  | Same current target => unify_same s current target
  | Include lower upper => add_inclusion s lower upper
  | Expand => expand_pending s
  end.
Fixpoint run (ops : list op) (s : solver) : sres solver :=
  match ops with
  | [] => SOk s
  | o :: ops => let$ s := run_op s o in run ops s
  end.
End Solver.

(** ** Reported effects: [substitute_effect_var], [substitution.rs] L450-L479, and [substitute_effect_type_inner], L427-L448.
    The cache lives as long as the substituter, one per type: it is returned. *)
Definition subst_effect (visit : cache -> N -> option (efftype * cache)) (e : efftype) (c : cache) : option (efftype * cache) :=
  if eff_is_empty e || negb (eff_has_variables e) then Some (e, c)
  else
    match eff_as_single e with
    | Some (Variable_ v) => visit c v
    | _ => norm_vars visit (eff_variables e) (primitives_of e) c
    end.
Fixpoint subst_var (fuel : nat) (t : table) (visiting : list N) (c : cache) (v : N) : option (efftype * cache) :=
  let root := find t v in
  match subst_get c root with
  | Some cached => Some (cached, c)
  | None =>
      if existsb (N.eqb root) visiting then Some (eff_single_variable root, c)
      else
        match fuel with
        | O => None
        | S fuel =>
            match
              match value t root with
              | Some x => subst_effect (subst_var fuel t (root :: visiting)) x c
              | None => Some (eff_single_variable root, c)
              end
            with
            | Some (e, c) =>
                let e := if eff_is_only_vars e then e else eff_insert e (Variable_ root) in
                Some (e, (root, e) :: c)
            | None => None
            end
        end
  end.
(** [substitute_effect_type], L496-L498, on the effects of one type, in turn. *)
Definition substitute (t : table) (e : efftype) (c : cache) : option (efftype * cache) :=
  subst_effect (subst_var (N.to_nat (len t)) t []) e c.
Fixpoint substitute_list (t : table) (es : list efftype) (c : cache) : option (list efftype) :=
  match es with
  | [] => Some []
  | e :: es =>
      match substitute t e c with
      | Some (x, c) => match substitute_list t es c with Some xs => Some (x :: xs) | None => None end
      | None => None
      end
  end.
