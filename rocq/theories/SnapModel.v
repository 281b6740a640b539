(** Model of the snapshot of types, [src/compiler/snapshot/type_graph.rs], and of the names of native
    types in it, [src/compiler/snapshot/native.rs].

    Types and the store of types are those of [InternModel] (C61), and the simplifications made there
    apply: names, native types and effects are numbers, and the result convention of the members of a
    subscript is left out. An effect set is written as the list of its effects, in the one order a set
    has (C25), and collecting that list gives the set back, so the list is kept as it is. Snapshot
    identifiers do not overflow [u32]. *)
From Coq Require Import List Bool Arith.
From Verif Require Import ListUtil GraphModel InternModel.
Import ListNotations.

(** [SnapshotTypeId], L20. *)
Definition sid := nat.

(** [SnapshotTypeKind], L57-74, with [SnapshotFnType] L31-36 and [SnapshotSubscriptType] L47-52. *)
Inductive node : Type :=
| SVariable (v : nat)
| SNative (name : nat) (args : list sid)
| SVariant (items : list (nat * sid))
| STuple (items : list sid)
| SRecord (fields : list (nat * sid))
| SFunction (args : list (mutty * sid)) (ret : sid) (effs : list eff)
| SSubscript (args : list (mutty * sid)) (ret : sid) (ref_member mut_member : option (list eff))
| SNamed (def : nat) (params : list sid) (effect_params : list (list eff))
| SNever.

(** [SnapshotError], [src/compiler/snapshot/mod.rs]; the ones these functions return. *)
Inductive error : Type :=
| UnnamedNativeType (bare : nat)
| IncompleteTypeGraph (i : nat)
| InvalidTypeReference (i : nat)
| UnknownNativeType (name : nat).

Inductive res (A : Type) : Type :=
| Ok (a : A)
| Fails (e : error)
| Panic
| NoFuel.
Arguments Ok {A} _.
Arguments Fails {A} _.
Arguments Panic {A}.
Arguments NoFuel {A}.

Definition rbind {A B : Type} (r : res A) (f : A -> res B) : res B :=
  match r with Ok a => f a | Fails e => Fails e | Panic => Panic | NoFuel => NoFuel end.

(** ** Writing *)

(** [SnapshotTypeGraphBuilder], L84-88, without the names. *)
Record builder : Type := mkBuilder { ids : list (ty * sid); nodes : list (option node) }.
(** [new], L91-97. *)
Definition new_builder : builder := mkBuilder [] [].

Fixpoint known (t : ty) (l : list (ty * sid)) : option sid :=
  match l with
  | [] => None
  | (x, i) :: rest => if ty_eq_dec t x then Some i else known t rest
  end.

Section Capture.
Variable native_name : nat -> option nat.
Variable capture : builder -> ty -> res (sid * builder).

Fixpoint capture_types (b : builder) (l : list ty) : res (list sid * builder) :=
  match l with
  | [] => Ok ([], b)
  | t :: rest =>
      rbind (capture b t) (fun p =>
      rbind (capture_types (snd p) rest) (fun q => Ok (fst p :: fst q, snd q)))
  end.

(** [capture_args], L146-158, and the fields of variants and records. *)
Fixpoint capture_tagged {A : Type} (b : builder) (l : list (A * ty)) : res (list (A * sid) * builder) :=
  match l with
  | [] => Ok ([], b)
  | (x, t) :: rest =>
      rbind (capture b t) (fun p =>
      rbind (capture_tagged (snd p) rest) (fun q => Ok ((x, fst p) :: fst q, snd q)))
  end.

(** [capture_kind], L167-224, [capture_fn_type] L123-132, [capture_subscript_type] L134-144. *)
Definition capture_kind (b : builder) (k : kind) : res (node * builder) :=
  match k with
  | KVariable v => Ok (SVariable v, b)
  | KNative bare args =>
      match native_name bare with
      | None => Fails (UnnamedNativeType bare)
      | Some name => rbind (capture_types b args) (fun p => Ok (SNative name (fst p), snd p))
      end
  | KVariant items => rbind (capture_tagged b items) (fun p => Ok (SVariant (fst p), snd p))
  | KTuple items => rbind (capture_types b items) (fun p => Ok (STuple (fst p), snd p))
  | KRecord fields => rbind (capture_tagged b fields) (fun p => Ok (SRecord (fst p), snd p))
  | KFunction args ret effs =>
      rbind (capture_tagged b args) (fun p =>
      rbind (capture (snd p) ret) (fun q => Ok (SFunction (fst p) (fst q) effs, snd q)))
  | KSubscript args ret r m =>
      rbind (capture_tagged b args) (fun p =>
      rbind (capture (snd p) ret) (fun q => Ok (SSubscript (fst p) (fst q) r m, snd q)))
  | KNamed def params effect_params =>
      rbind (capture_types b params) (fun p => Ok (SNamed def (fst p) effect_params, snd p))
  | KNever => Ok (SNever, b)
  end.
End Capture.

(** [capture], L99-111. *)
Fixpoint capture (native_name : nat -> option nat) (u : universe) (fuel : nat) (b : builder) (t : ty)
  : res (sid * builder) :=
  match known t (ids b) with
  | Some id => Ok (id, b)
  | None =>
      match fuel with
      | 0 => NoFuel
      | S fuel =>
          let id := length (nodes b) in
          let b := mkBuilder (ids b ++ [(t, id)]) (nodes b ++ [None]) in
          match get_type_data u t with
          | None => Panic
          | Some k =>
              rbind (capture_kind native_name (capture native_name u fuel) b k) (fun p =>
              if id <? length (nodes (snd p))
              then Ok (id, mkBuilder (ids (snd p)) (upd (nodes (snd p)) id (Some (fst p))))
              else Panic)
          end
      end
  end.

(** As many types as the store holds can be met. *)
Definition stored_types (u : universe) : nat := fold_right (fun w n => length w + n) 0 (worlds u).

(** [finish], L113-121. *)
Fixpoint finish (i : nat) (l : list (option node)) : res (list node) :=
  match l with
  | [] => Ok []
  | None :: _ => Fails (IncompleteTypeGraph i)
  | Some n :: rest => rbind (finish (S i) rest) (fun r => Ok (n :: r))
  end.

(** A builder lives through a whole compilation ([CompiledStdSnapshot::capture], [std_snapshot.rs] L140-156): types are stored between
    one request and the next, so each request comes with the store of its time. *)
Fixpoint capture_requests (native_name : nat -> option nat) (b : builder) (requests : list (universe * ty))
  : res (list sid * builder) :=
  match requests with
  | [] => Ok ([], b)
  | (u, t) :: rest =>
      rbind (capture native_name u (S (stored_types u)) b t) (fun p =>
      rbind (capture_requests native_name (snd p) rest) (fun q => Ok (fst p :: fst q, snd q)))
  end.
Definition snapshot (native_name : nat -> option nat) (requests : list (universe * ty)) : res (list sid * list node) :=
  rbind (capture_requests native_name new_builder requests) (fun p =>
  rbind (finish 0 (nodes (snd p))) (fun g => Ok (fst p, g))).

(** ** Reading: [materialize], L229-315 *)

Section Read.
Variable native_type : nat -> option nat.
Variable count : nat.

(** L233-239. *)
Definition local (id : sid) : res ty := if id <? count then Ok (Loc id) else Fails (InvalidTypeReference id).
Fixpoint read_types (l : list sid) : res (list ty) :=
  match l with
  | [] => Ok []
  | id :: rest => rbind (local id) (fun t => rbind (read_types rest) (fun ts => Ok (t :: ts)))
  end.
(** L241-243, and the fields of variants and records. *)
Fixpoint read_tagged {A : Type} (l : list (A * sid)) : res (list (A * ty)) :=
  match l with
  | [] => Ok []
  | (x, id) :: rest => rbind (local id) (fun t => rbind (read_tagged rest) (fun ts => Ok ((x, t) :: ts)))
  end.

(** L249-313. *)
Definition read_node (n : node) : res kind :=
  match n with
  | SVariable v => Ok (KVariable v)
  | SNative name args =>
      match native_type name with
      | None => Fails (UnknownNativeType name)
      | Some bare => rbind (read_types args) (fun ts => Ok (KNative bare ts))
      end
  | SVariant items => rbind (read_tagged items) (fun ts => Ok (KVariant ts))
  | STuple items => rbind (read_types items) (fun ts => Ok (KTuple ts))
  | SRecord fields => rbind (read_tagged fields) (fun ts => Ok (KRecord ts))
  | SFunction args ret effs =>
      rbind (read_tagged args) (fun ts => rbind (local ret) (fun t => Ok (KFunction ts t effs)))
  | SSubscript args ret r m =>
      rbind (read_tagged args) (fun ts => rbind (local ret) (fun t => Ok (KSubscript ts t r m)))
  | SNamed def params effect_params => rbind (read_types params) (fun ts => Ok (KNamed def ts effect_params))
  | SNever => Ok KNever
  end.
Fixpoint read_nodes (l : list node) : res (list kind) :=
  match l with
  | [] => Ok []
  | n :: rest => rbind (read_node n) (fun k => rbind (read_nodes rest) (fun ks => Ok (k :: ks)))
  end.
End Read.

(** [store_types] on the kinds read; [le] and [order] as in [InternModel]. *)
Definition materialize (le : kind -> kind -> bool) (order : list nat -> list nat) (native_type : nat -> option nat)
    (u : universe) (g : list node) : res (universe * list ty) :=
  rbind (read_nodes native_type (length g) g) (fun kinds =>
  match insert_types le order u kinds with
  | Val r => Ok r
  | Panics => Panic
  | OutOfFuel => NoFuel
  end).

(** ** Names of native types, [native.rs] *)

(** [NativeTypeCatalog], L14-16: a map sorted by name. *)
Definition catalog := list (nat * nat).
(** [resolve], L57-59. *)
Fixpoint resolve (c : catalog) (name : nat) : option nat :=
  match c with
  | [] => None
  | (n, bare) :: rest => if name =? n then Some bare else resolve rest name
  end.
(** [canonical_name], L61-65. *)
Fixpoint canonical_name (c : catalog) (bare : nat) : option nat :=
  match c with
  | [] => None
  | (n, candidate) :: rest => if candidate =? bare then Some n else canonical_name rest bare
  end.
(** [register], L50-55; [None] is a panic. *)
Fixpoint place_name (n bare : nat) (c : catalog) : catalog :=
  match c with
  | [] => [(n, bare)]
  | (m, x) :: rest => if n <=? m then (n, bare) :: c else (m, x) :: place_name n bare rest
  end.
Definition register (c : catalog) (n bare : nat) : option catalog :=
  match resolve c n with
  | Some _ => None
  | None => Some (place_name n bare c)
  end.
Fixpoint register_all (c : catalog) (l : list (nat * nat)) : option catalog :=
  match l with
  | [] => Some c
  | (n, bare) :: rest => match register c n bare with Some c => register_all c rest | None => None end
  end.
