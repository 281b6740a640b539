(** What users of a compiler session rely on. *)
From Coq Require Import List Bool Arith ZArith.
From Verif Require Import GraphModel SessionModel.
Import ListNotations.

(** A module depends on itself, on its latest dependencies, and on what they depend on. *)
Inductive depends (st : session) (m : nat) : nat -> Prop :=
| depends_self : depends st m m
| depends_step : forall d e d', depends st m d -> nth_error (modules st) d = Some e -> In d' (latest_deps e) -> depends st m d'.

(** Its last compilation failed. *)
Definition failed (st : session) (m : nat) : Prop := exists e, nth_error (modules st) m = Some e /\ last_error e = true.
Definition registered (st : session) (m : nat) : Prop := m < length (modules st).
Definition source_backed (st : session) (m : nat) : Prop := exists e s, nth_error (modules st) m = Some e /\ src e = Some s.

(** The compiler only reports dependencies on modules that are registered. *)
Definition emit_ok (emit : nat -> list entry -> nat -> nat -> uses -> option (list nat)) : Prop :=
  forall clk ms t sid u deps, emit clk ms t sid u = Some deps -> forall d, In d deps -> d < length ms.

(** What can be asked of a session. *)
Inductive op : Type :=
| Compile (path : nat) (source : text) (u : uses)
| Update (id : nat) (source : text)
| Register (path : nat) (deps : list nat)
| Reset.

(** The paths 0, 1 and 2 are those of the session's own modules; the host registers modules whose
    dependencies are up to date. *)
Definition admissible (st : session) (o : op) : Prop :=
  match o with
  | Compile path _ _ => 3 <= path
  | Update _ _ => True
  | Register path deps => 3 <= path /\ forall d, In d deps -> exists e, nth_error (modules st) d = Some e /\ stale e = false
  | Reset => True
  end.

Section Histories.
Variable emit : nat -> list entry -> nat -> nat -> uses -> option (list nat).
Variable initial : list text.

Definition step (st : session) (o : op) : gres session :=
  match o with
  | Compile path source u => let* r := compile_to emit st path source u in Val (fst r)
  | Update id source => let* r := update_module_source emit st id source in Val (match r with Some st' => st' | None => st end)
  | Register path deps => Val (register_module st path deps)
  | Reset => Val (reset (length initial) st)
  end.

(** The sessions that exist. *)
Inductive reachable : session -> Prop :=
| reachable_new : reachable (new_session initial)
| reachable_step : forall st o st', reachable st -> admissible st o -> step st o = Val st' -> reachable st'.
End Histories.

(** The version of a source after [source] is given to a module that had [old]. *)
Definition next_version (sources : list text) (old : option src_info) (source : text) : nat :=
  match old with
  | None => 0
  | Some s => match nth_error sources (source_id s) with
              | Some t => if list_eq_dec Z.eq_dec t source then source_version s else S (source_version s)
              | None => S (source_version s)
              end
  end.

(** [st'] is [st] after module [t] has been compiled from [source] with [u]; [ok]: successfully.  Other
    modules keep their source, version and uses. *)
Definition compiled (st : session) (t : nat) (source : text) (u : uses) (st' : session) (ok : bool) : Prop :=
  (exists e' s', nth_error (modules st') t = Some e' /\ src e' = Some s' /\ last_error e' = negb ok /\
     nth_error (sources st') (source_id s') = Some source /\ src_uses s' = u /\
     match nth_error (modules st) t with
     | Some e => compilation_revision e' = S (compilation_revision e) /\ source_version s' = next_version (sources st) (src e) source
     | None => t = length (modules st) /\ compilation_revision e' = 0 /\ source_version s' = 0
     end) /\
  (forall i e, i <> t -> nth_error (modules st) i = Some e -> exists e', nth_error (modules st') i = Some e' /\ src e' = src e /\
     compilation_revision e <= compilation_revision e' /\
     (forall s, src e = Some s -> nth_error (sources st') (source_id s) = nth_error (sources st) (source_id s))) /\
  length (modules st') = max (length (modules st)) (S t).
