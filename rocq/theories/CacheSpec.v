(** What a user may expect of the shared cache of the compiled standard library. *)
From Coq Require Import List Bool Arith.
From Verif Require Import CacheModel.
Import ListNotations.

(** The one way to write payload [p] in a file: the eight letters of the format, 32 bytes of checksum,
    and the payload. *)
Definition file_of (digest : bytes -> bytes) (p : bytes) : bytes :=
  70 :: 69 :: 82 :: 83 :: 84 :: 68 :: 0 :: 1 :: digest p ++ p.

(** The callers have not begun, nobody holds the lock, and the files are on the disk. The cache file may
    be there or not, with any content, and so may temporary files and the marker. *)
Definition started (s : system) : Prop :=
  Forall (fun p => p = Begin) (callers s) /\ lock (fs s) = None /\ past (fs s) = [] /\
  Forall (fun f => synced f = true) (files (fs s)) /\
  (forall i, path (fs s) = Some i -> i < length (files (fs s))).

(** What somebody who reads the cache file finds. *)
Definition cache_of (s : system) : option bytes :=
  match path (fs s) with
  | Some i => option_map content (nth_error (files (fs s)) i)
  | None => None
  end.

Section Expect.
Variable digest : bytes -> bytes.
Variable load : bytes -> option nat.
Variable build : nat -> capture.

(** A whole file, made by some caller, that restores. *)
Definition published (b : bytes) : Prop :=
  exists c p m, build c = Encoded p /\ load p = Some m /\ b = file_of digest p.

(** What caller [c] may return, when the cache file was [found] at the start. *)
Definition right (found : option bytes) (c : nat) (r : result) : Prop :=
  match r with
  | Compiled => True
  | Built m => exists p, build c = Encoded p /\ load p = Some m
  | Loaded m => exists p, load p = Some m /\ (found = Some (file_of digest p) \/ exists c', build c' = Encoded p)
  end.
End Expect.

(** Places where a caller removes, builds or writes the cache. *)
Definition working (p : place) : Prop :=
  match p with
  | RemoveBad | Capture | Validate _ | Mark | CreateTemp _ _ | Write _ _ _ | Sync _ _ | Rename _ | Unlink _
  | RenameAgain _ | Clean _ => True
  | _ => False
  end.
(** The caller builds the library, or has built it. *)
Definition builder (p : place) : Prop :=
  match p with
  | Capture | Validate _ | Mark | CreateTemp _ _ | Write _ _ _ | Sync _ _ | Rename _ | Unlink _
  | RenameAgain _ | Clean _ | Returned (Built _) => True
  | _ => False
  end.

(** How often [c] takes a step. *)
Fixpoint own (c : nat) (events : list event) : nat :=
  match events with
  | Run d _ :: rest => (if d =? c then 1 else 0) + own c rest
  | _ :: rest => own c rest
  | [] => 0
  end.
(** How many steps are enough: 5 for each of the turns in two minutes, the bytes to write, and 20. *)
Definition enough (digest : bytes -> bytes) (build : nat -> capture) (c : nat) : nat :=
  5 * (120000 / 20 + 2) + match build c with Encoded p => length (file_of digest p) | _ => 0 end + 20.

(** Caller [c] does not die. Others may. *)
Definition spares (c : nat) (e : event) : Prop :=
  match e with Die d => d <> c | PowerLoss _ _ _ _ => False | _ => True end.

(** Nothing fails, nobody dies and nobody else removes anything. *)
Definition smooth (e : event) : Prop := match e with Run _ o => ok o = true | _ => False end.

Section Along.
Variable digest : bytes -> bytes.
Variable load : bytes -> option nat.
Variable build : nat -> capture.
Variable temp_name : nat -> nat.

(** Callers do not die, the power stays, and temporary files can be removed. Anything else may fail. *)
Fixpoint tidy (events : list event) (s : system) : Prop :=
  match events with
  | [] => True
  | e :: rest =>
      match e with
      | Run c o => forall m, nth_error (callers s) c = Some (Clean m) -> ok o = true
      | Die _ | PowerLoss _ _ _ _ => False
      | RemoveCache | RemoveMarker => True
      end /\ tidy rest (step digest load build temp_name e s)
  end.
(** How long [c] sleeps, in milliseconds. *)
Fixpoint slept (c : nat) (events : list event) (s : system) : nat :=
  match events with
  | [] => 0
  | e :: rest =>
      match e with
      | Run d o =>
          if d =? c then match nth_error (callers s) c with Some (Sleep _) => 20 + amount o | _ => 0 end else 0
      | _ => 0
      end + slept c rest (step digest load build temp_name e s)
  end.
End Along.
