(** Model of the compiler session: the module table with its staleness flags and the cascading
    recompilation, [src/compiler/pipeline.rs] and [src/compiler/session.rs].

    What is inside a module is not modelled: a compiled module is the list of the modules it depends on,
    what it was built from and when.  Diagnostics, MIR artifacts and names of sources are left out.  Paths
    are numbers. *)
From Coq Require Import List Bool Arith ZArith.
From Verif Require Import ListUtil GraphModel.
Import ListNotations.

Definition text : Type := list Z.
Definition text_eqb (a b : text) : bool := if list_eq_dec Z.eq_dec a b then true else false.

(** [Uses]: opaque; [[]] is [Uses::default()]. *)
Definition uses : Type := list nat.

(** session.rs L85-93 [ModuleSrcInfo] *)
Record src_info : Type := mkSrc { source_id : nat; source_version : nat; src_uses : uses }.

(** session.rs L96-100 [ModuleRevision]: [Module::deps], the source and uses it was built from (none for
    modules registered by the host) and the moment it was built (not in the code; only compared in
    statements).  [Placeholder] is the module of pipeline.rs L97-100, L118-121. *)
Inductive revision : Type :=
| Placeholder
| Built (deps : list nat) (from : option (nat * uses)) (stamp : nat).

(** session.rs L117-135 [ModuleEntry]; [last_error] is [last_error.is_some()]. *)
Record entry : Type := mkEntry {
  src : option src_info;
  rev : option revision;
  last_error : bool;
  latest_deps : list nat;
  compilation_revision : nat;
  stale : bool
}.

Definition set_stale (e : entry) : entry :=
  mkEntry (src e) (rev e) (last_error e) (latest_deps e) (compilation_revision e) true.
(** session.rs L255-262 [replace_revision_with_placeholder] *)
Definition set_placeholder (e : entry) : entry :=
  mkEntry (src e) (Some Placeholder) (last_error e) (latest_deps e) (compilation_revision e) (stale e).
(** pipeline.rs L432-437: [mem::take(&mut src_info.uses)] *)
Definition take_uses (e : entry) (s : src_info) : entry :=
  mkEntry (Some (mkSrc (source_id s) (source_version s) [])) (rev e) (last_error e) (latest_deps e) (compilation_revision e) (stale e).
(** session.rs L142-153 [new_fresh_raw_revision] *)
Definition fresh_raw (deps : list nat) (stamp : nat) : entry := mkEntry None (Some (Built deps None stamp)) false deps 0 false.
(** session.rs L174-189 [new_stale], L192-207 [new_with_error] *)
Definition new_stale (s : src_info) (deps : list nat) (crev : nat) : entry := mkEntry (Some s) None false deps crev true.
Definition new_with_error (s : src_info) (crev : nat) : entry := mkEntry (Some s) None true [] crev true.
(** session.rs L210-226 [update_with_stale], L229-243 [update_with_compilation_error] *)
Definition update_with_stale (s : src_info) (old : option revision) (deps : list nat) (crev : nat) : entry := mkEntry (Some s) old false deps crev true.
Definition update_with_error (e : entry) (s : src_info) (old : option revision) (crev : nat) : entry :=
  mkEntry (Some s) old true (latest_deps e) crev true.
(** session.rs L281-299 [new_fresh_with_artifacts] *)
Definition new_fresh (s : src_info) (deps : list nat) (crev stamp : nat) : entry :=
  mkEntry (Some s) (Some (Built deps (Some (source_id s, src_uses s)) stamp)) false deps crev false.

Definition mem (x : nat) (l : list nat) : bool := existsb (Nat.eqb x) l.

(** pipeline.rs L391-396 [direct_deps], session.rs L647-652 [get_module_reverse_deps]: the modules whose
    latest dependencies contain [target], in order. *)
Fixpoint dependents_from (i : nat) (ms : list entry) (target : nat) : list nat :=
  match ms with
  | [] => []
  | e :: ms' => if mem target (latest_deps e) then i :: dependents_from (S i) ms' target else dependents_from (S i) ms' target
  end.
Definition direct_deps (ms : list entry) (target : nat) : list nat := dependents_from 0 ms target.

(** pipeline.rs L398-413 [mark_stale_transitively]; the stack has its top first. *)
Fixpoint mark_each (ids : list nat) (ms : list entry) (stack : list nat) : list entry * list nat :=
  match ids with
  | [] => (ms, stack)
  | id :: ids' =>
      match nth_error ms id with
      | None => mark_each ids' ms stack
      | Some e => if stale e then mark_each ids' ms stack else mark_each ids' (upd ms id (set_stale e)) (id :: stack)
      end
  end.
Fixpoint mark_loop (fuel : nat) (ms : list entry) (stack : list nat) : gres (list entry) :=
  match fuel with
  | O => OutOfFuel
  | S f =>
      match stack with
      | [] => Val ms
      | id :: rest => let '(ms', stack') := mark_each (direct_deps ms id) ms rest in mark_loop f ms' stack'
      end
  end.
Definition mark_stale_transitively (ms : list entry) (root : nat) : gres (list entry) := mark_loop (S (S (length ms))) ms [root].

(** pipeline.rs L417-440 [stale_dependents_to_recompile] *)
Fixpoint take_stale (ids : list nat) (ms : list entry) : list entry * list (nat * src_info) :=
  match ids with
  | [] => (ms, [])
  | id :: ids' =>
      match nth_error ms id with
      | None => take_stale ids' ms
      | Some e =>
          if negb (stale e) then take_stale ids' ms
          else
            match src e with
            | None => take_stale ids' ms
            | Some s => let '(ms', l) := take_stale ids' (upd ms id (take_uses e s)) in (ms', (id, s) :: l)
            end
      end
  end.
Definition stale_dependents_to_recompile (ms : list entry) (target : nat) : list entry * list (nat * src_info) :=
  take_stale (direct_deps ms target) ms.

(** pipeline.rs L466-486: the graph in which [find_module_deps_cycle] looks for a cycle. *)
Fixpoint graph_from (i : nat) (ms : list entry) (module_id : nat) (deps : list nat) : graph :=
  match ms with
  | [] => []
  | e :: ms' => (if i =? module_id then deps else latest_deps e) :: graph_from (S i) ms' module_id deps
  end.
Definition find_module_deps_cycle (ms : list entry) (module_id : nat) (deps : list nat) (has_old_module : bool) : gres (option (list nat)) :=
  find_cycle_from (graph_from 0 ms module_id deps ++ (if has_old_module then [] else [deps])) module_id.

(** pipeline.rs L301: [deps.iter().any(|&dep| modules.get(dep).unwrap().stale)] *)
Fixpoint any_stale (ms : list entry) (deps : list nat) : gres bool :=
  match deps with
  | [] => Val false
  | d :: deps' => let* e := rd ms d in if stale e then Val true else any_stale ms deps'
  end.

Section Compile.
(** Parsing and emission of a source as a module, pipeline.rs L183-262: [None] if it fails, else the
    modules it turns out to depend on.  It sees the whole table, and may answer anything at any time:
    the first argument is the number of compilations so far. *)
Variable emit : nat -> list entry -> nat -> nat -> uses -> option (list nat).

Section Step.
Variable rec : list entry -> nat -> nat -> nat -> nat -> uses -> gres (list entry * nat * bool).
(** pipeline.rs L375-386: the loop over the dependents; their results are dropped. *)
Fixpoint recompile_each (l : list (nat * src_info)) (ms : list entry) (clock : nat) : gres (list entry * nat) :=
  match l with
  | [] => Val (ms, clock)
  | (id, s) :: l' =>
      let* r := rec ms clock id (source_id s) (source_version s) (src_uses s) in
      recompile_each l' (fst (fst r)) (snd (fst r))
  end.
End Step.

(** pipeline.rs L65-389 [compile_with_source_id].  [t] is the module: the id found by path or given, or
    the next id for a new path.  Returns the table, the number of compilations and whether this one
    succeeded.  MIR artifacts (L128, L327-335) are left out. *)
Fixpoint compile (fuel : nat) (ms : list entry) (clock : nat) (t : nat) (sid ver : nat) (u : uses) : gres (list entry * nat * bool) :=
  match fuel with
  | O => OutOfFuel
  | S f =>
      let s := mkSrc sid ver u in
      match nth_error ms t with
      | Some e =>
          let crev := S (compilation_revision e) in
          let old := rev e in
          let has_old := match old with Some _ => true | None => false end in
          let ms := upd ms t (set_placeholder e) in
          let* ms := (if has_old then mark_stale_transitively ms t else Val ms) in
          (* process_compilation_failed, L139-180 *)
          let failed :=
            let* e := rd ms t in
            let* ms := mark_stale_transitively (upd ms t (update_with_error e s old crev)) t in
            Val (ms, S clock, false) in
          match emit clock ms t sid u with
          | None => failed
          | Some deps =>
              let* cycle := find_module_deps_cycle ms t deps has_old in
              match cycle with
              | Some _ => failed
              | None =>
                  let* deps_stale := any_stale ms deps in
                  if deps_stale then
                    let* ms := mark_stale_transitively (upd ms t (update_with_stale s old deps crev)) t in
                    Val (ms, S clock, true)
                  else
                    let ms := upd ms t (new_fresh s deps crev clock) in
                    let '(ms, l) := stale_dependents_to_recompile ms t in
                    let* r := recompile_each (compile f) l ms (S clock) in
                    Val (fst r, snd r, true)
              end
          end
      | None =>
          if negb (t =? length ms) then Panics  (* L88: no registered path *)
          else
            match emit clock ms t sid u with
            | None => Val (ms ++ [new_with_error s 0], S clock, false)
            | Some deps =>
                let* cycle := find_module_deps_cycle ms t deps false in
                match cycle with
                | Some _ => Panics  (* L274: the path of an unregistered module *)
                | None =>
                    let* deps_stale := any_stale ms deps in
                    if deps_stale then Val (ms ++ [new_stale s deps 0], S clock, true)
                    else
                      let '(ms, l) := stale_dependents_to_recompile (ms ++ [new_fresh s deps 0 clock]) t in
                      let* r := recompile_each (compile f) l ms (S clock) in
                      Val (fst r, snd r, true)
                end
            end
      end
  end.

(** ** The session, session.rs L455-475 *)
Record session : Type := mkSession {
  modules : list entry;
  names : list (nat * nat);        (** path to id *)
  sources : list text;
  clock : nat
}.

Fixpoint lookup (names : list (nat * nat)) (path : nat) : option nat :=
  match names with
  | [] => None
  | (p, id) :: names' => if p =? path then Some id else lookup names' path
  end.

(** id.rs L213-218: [name_to_id.insert] overwrites *)
Definition bind_name (names : list (nat * nat)) (path id : nat) : list (nat * nat) := (path, id) :: filter (fun b => negb (fst b =? path)) names.

(** session.rs L1441-1470 [add_or_reuse_module_source] *)
Definition add_or_reuse_module_source (sources : list text) (current : option src_info) (source : text) : list text * nat * nat :=
  let reuse := match current with
               | Some s => match nth_error sources (source_id s) with
                           | Some old => if text_eqb old source then Some s else None
                           | None => None
                           end
               | None => None
               end in
  match reuse with
  | Some s => (sources, source_id s, source_version s)
  | None => (sources ++ [source], length sources, match current with Some s => S (source_version s) | None => 0 end)
  end.

Definition compile_fuel (ms : list entry) : nat := S (S (length ms)).

(** session.rs L1122-1148 [compile_to_with_ast_inspector] *)
Definition compile_to (st : session) (path : nat) (source : text) (u : uses) : gres (session * bool) :=
  let found := lookup (names st) path in
  let current := match found with
                 | Some id => match nth_error (modules st) id with Some e => src e | None => None end
                 | None => None
                 end in
  let '(sources', sid, ver) := add_or_reuse_module_source (sources st) current source in
  let t := match found with Some id => id | None => length (modules st) end in
  let* r := compile (compile_fuel (modules st)) (modules st) (clock st) t sid ver u in
  let names' := match found with Some _ => names st | None => bind_name (names st) path t end in
  Val (mkSession (fst (fst r)) names' sources' (snd (fst r)), snd r).

(** session.rs L674-704 [update_module_source]; [None]: an error is returned *)
Definition update_module_source (st : session) (id : nat) (source : text) : gres (option session) :=
  match nth_error (modules st) id with
  | None => Val None
  | Some e =>
      match src e with
      | None => Val None
      | Some s =>
          let '(sources', sid, ver) := add_or_reuse_module_source (sources st) (Some s) source in
          let* r := compile (compile_fuel (modules st)) (modules st) (clock st) id sid ver (src_uses s) in
          Val (Some (mkSession (fst (fst r)) (names st) sources' (snd (fst r))))
      end
  end.

(** session.rs L922-929 [register_module], id.rs [NamedIndexed::insert] *)
Definition register_module (st : session) (path : nat) (deps : list nat) : session :=
  mkSession (modules st ++ [fresh_raw deps (clock st)]) (bind_name (names st) path (length (modules st))) (sources st) (S (clock st)).

(** session.rs L912-919 [reset], id.rs L234-237 [NamedIndexed::truncate], with three reserved modules
    and [initial] sources; the tags are in TagsModel *)
Definition reset (initial : nat) (st : session) : session :=
  mkSession (firstn 3 (modules st)) (filter (fun b => snd b <? 3) (names st)) (firstn initial (sources st)) (clock st).

(** session.rs L535-569 [new_session]: std, $empty_std_user, $scratch *)
Definition new_session (initial_sources : list text) : session :=
  mkSession [fresh_raw [] 0; fresh_raw [] 1; fresh_raw [] 2] [(2, 2); (1, 1); (0, 0)] initial_sources 3.

(** session.rs L1413-1439 [run_fn], up to calling the function *)
Inductive run_result : Type := Runs (r : revision) | Refused | NotFound | NoModule.
Definition run_fn (st : session) (id : nat) : run_result :=
  match nth_error (modules st) id with
  | None => NotFound
  | Some e => if stale e then Refused else match rev e with Some r => Runs r | None => NoModule end
  end.
End Compile.
