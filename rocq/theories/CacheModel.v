(** Model of the shared cache of the compiled standard library, [src/compiler/snapshot/cache.rs].

    Any number of callers run [load_or_build_std] at once, one operation on the file system at a time, in
    any order, on one cache file. Every operation may fail, a caller may stop for good before any of its
    steps, and the machine may lose power. Decoding and restoring a payload are one parameter [load], and
    what a caller would capture is the parameter [build]. Log messages are left out. *)
From Coq Require Import List Bool Arith.
From Verif Require Import ListUtil.
Import ListNotations.

(** ** The file format *)

Definition bytes := list nat.
(** [CACHE_MAGIC], [CHECKSUM_LEN], L19-20. *)
Definition magic : bytes := [70; 69; 82; 83; 84; 68; 0; 1].
Definition checksum_len : nat := 32.
Definition bytes_eq_dec : forall a b : bytes, {a = b} + {a <> b} := list_eq_dec Nat.eq_dec.

Section Cache.
(** [Sha256::digest]. *)
Variable digest : bytes -> bytes.
(** [CompiledStdSnapshot::decode], then [restore]. *)
Variable load : bytes -> option nat.
(** [CompiledStdSnapshot::capture], then [encode], as each caller would have it. *)
Inductive capture : Type := CaptureFails | EncodeFails | Encoded (payload : bytes).
Variable build : nat -> capture.
(** The name of the temporary file of each caller, L201-202: made of the process and a sequence number. *)
Variable temp_name : nat -> nat.

(** [cache_file_bytes], L155-162. *)
Definition cache_file_bytes (payload : bytes) : bytes := magic ++ digest payload ++ payload.
(** [checked_payload], L164-180. *)
Definition checked_payload (b : bytes) : option bytes :=
  let payload_start := length magic + checksum_len in
  if length b <? payload_start then None
  else if bytes_eq_dec (firstn (length magic) b) magic then
    let expected := firstn checksum_len (skipn (length magic) b) in
    let payload := skipn payload_start b in
    if bytes_eq_dec (digest payload) expected then Some payload else None
  else None.
(** What [try_load] makes of the bytes of the file, L129-135. *)
Definition load_bytes (b : bytes) : option nat :=
  match checked_payload b with Some payload => load payload | None => None end.

(** ** The file system *)

(** A file is known by its number; [synced] when its content is sure to be on the disk. *)
Record file : Type := mkFile { content : bytes; synced : bool }.
Record disk : Type := mkDisk {
  files : list file;
  path : option nat;              (* the cache file *)
  past : list (option nat);       (* what it was before *)
  temps : list (nat * nat);       (* temporary names *)
  marker : bool;                  (* the file that says the cache is unusable *)
  lock : option nat               (* the caller that holds the lock *)
}.
Definition set_path (d : disk) (p : option nat) : disk := mkDisk (files d) p (path d :: past d) (temps d) (marker d) (lock d).
Definition set_files (d : disk) (f : list file) : disk := mkDisk f (path d) (past d) (temps d) (marker d) (lock d).
Definition set_temps (d : disk) (t : list (nat * nat)) : disk := mkDisk (files d) (path d) (past d) t (marker d) (lock d).
Definition set_marker (d : disk) (m : bool) : disk := mkDisk (files d) (path d) (past d) (temps d) m (lock d).
Definition set_lock (d : disk) (l : option nat) : disk := mkDisk (files d) (path d) (past d) (temps d) (marker d) l.

Fixpoint temp (n : nat) (l : list (nat * nat)) : option nat :=
  match l with
  | [] => None
  | (m, i) :: rest => if n =? m then Some i else temp n rest
  end.
Definition without (n : nat) (l : list (nat * nat)) : list (nat * nat) := filter (fun p => negb (fst p =? n)) l.

(** ** Callers *)

(** What [load_or_build_std] returns: compiled without the cache, restored from the cache, or restored
    from what the caller itself has just built. *)
Inductive result : Type := Compiled | Loaded (m : nat) | Built (m : nat).
(** Which of the three calls of [try_load]: L28, L54, L60; [waited] is the time spent in the loop. *)
Inductive which : Type := First | Poll (waited : nat) | Locked.
(** Where a caller is, L24-115 and L200-225. The places from [CreateTemp] to [Clean] are in
    [publish_atomically], [Write] is inside [write_all], and [m] is what [validate_payload], L138-144, restored. *)
Inductive place : Type :=
| Begin
| Load (w : which)                      (* [fs::read] opens the file *)
| Opened (w : which) (i : nat)          (* and reads it *)
| CheckMarker
| CreateDir
| OpenLock
| Loop (waited : nat)
| TryLock (waited : nat)
| Sleep (waited : nat)
| RemoveBad
| Capture
| Validate (payload : bytes)
| Mark
| CreateTemp (payload : bytes) (m : nat)
| Write (rest : bytes) (i m : nat)
| Sync (i m : nat)
| Rename (m : nat)
| Unlink (m : nat)
| RenameAgain (m : nat)
| Clean (m : nat)
| Returned (r : result)
| Dead.

(** What the world decides about one step: whether the operation succeeds, and an amount, of bytes
    written or of time. *)
Record oracle : Type := mkOracle { ok : bool; amount : nat }.

(** [LOCK_POLL_INTERVAL], [LOCK_WAIT_LIMIT], L16-17, in milliseconds. *)
Definition poll_interval : nat := 20.
Definition wait_limit : nat := 120000.

(** [try_load], L123-136, gave [r]: [None] is an error, [Some None] no file. L28-30, L54-56, L60-70. *)
Definition after_load (w : which) (r : option (option nat)) : place :=
  match r with
  | Some (Some m) => Returned (Loaded m)
  | _ =>
      match w with
      | First => CheckMarker
      | Poll waited => TryLock waited
      | Locked => match r with Some _ => Capture | None => RemoveBad end
      end
  end.

(** One step of caller [c]. *)
Definition act (c : nat) (p : place) (o : oracle) (d : disk) : place * disk :=
  match p with
  | Begin => (if ok o then Load First else Returned Compiled, d)      (* [cache_path], L182-198 *)
  | Load w =>
      (if ok o then match path d with Some i => Opened w i | None => after_load w (Some None) end
       else after_load w None, d)
  | Opened w i =>
      (after_load w
         (if ok o then
            match nth_error (files d) i with
            | Some f => match load_bytes (content f) with Some m => Some (Some m) | None => None end
            | None => None
            end
          else None), d)
  | CheckMarker => (if marker d && ok o then Returned Compiled else CreateDir, d)
  | CreateDir => (if ok o then OpenLock else Returned Compiled, d)
  | OpenLock => (if ok o then Loop 0 else Returned Compiled, d)
  | Loop waited => (if marker d && ok o then Returned Compiled else Load (Poll waited), d)
  | TryLock waited =>
      if ok o then
        match lock d with
        | None => (Load Locked, set_lock d (Some c))
        | Some _ => (if wait_limit <=? waited then Returned Compiled else Sleep waited, d)
        end
      else (Returned Compiled, d)
  | Sleep waited => (Loop (waited + poll_interval + amount o), d)
  | RemoveBad => (Capture, if ok o then set_path d None else d)
  | Capture =>
      (match build c with
       | CaptureFails => Mark
       | EncodeFails => Returned Compiled
       | Encoded payload => Validate payload
       end, d)
  | Validate payload => (match load payload with Some m => CreateTemp payload m | None => Mark end, d)
  | Mark => (Returned Compiled, if ok o then set_marker d true else d)
  | CreateTemp payload m =>
      match temp (temp_name c) (temps d) with
      | None =>
          if ok o then
            (Write (cache_file_bytes payload) (length (files d)) m,
             set_temps (set_files d (files d ++ [mkFile [] false])) ((temp_name c, length (files d)) :: temps d))
          else (Clean m, d)
      | Some _ => (Clean m, d)
      end
  | Write rest i m =>
      if ok o then
        let n := S (amount o) in
        (match skipn n rest with [] => Sync i m | rest' => Write rest' i m end,
         match nth_error (files d) i with
         | Some f => set_files d (upd (files d) i (mkFile (content f ++ firstn n rest) false))
         | None => d
         end)
      else (Clean m, d)
  | Sync i m =>
      if ok o then
        (Rename m,
         match nth_error (files d) i with
         | Some f => set_files d (upd (files d) i (mkFile (content f) true))
         | None => d
         end)
      else (Clean m, d)
  | Rename m =>
      match ok o, temp (temp_name c) (temps d) with
      | true, Some i => (Returned (Built m), set_path (set_temps d (without (temp_name c) (temps d))) (Some i))
      | _, _ =>
          (* [path.exists()] also says no when it cannot find out *)
          (match path d with Some _ => if amount o =? 0 then Unlink m else Clean m | None => Clean m end, d)
      end
  | Unlink m => if ok o then (RenameAgain m, set_path d None) else (Clean m, d)
  | RenameAgain m =>
      match ok o, temp (temp_name c) (temps d) with
      | true, Some i => (Returned (Built m), set_path (set_temps d (without (temp_name c) (temps d))) (Some i))
      | _, _ => (Clean m, d)
      end
  | Clean m => (Returned (Built m), if ok o then set_temps d (without (temp_name c) (temps d)) else d)
  | Returned _ | Dead => (p, d)
  end.

(** The lock goes with the file handle: when a caller returns or dies. *)
Definition release (c : nat) (d : disk) : disk :=
  match lock d with
  | Some h => if h =? c then set_lock d None else d
  | None => d
  end.
Definition finished (p : place) : bool := match p with Returned _ | Dead => true | _ => false end.

Record system : Type := mkSystem { callers : list place; fs : disk }.

(** Besides steps of callers: a caller dies; the power fails, which stops all callers, undoes changes
    of the directory and spoils files that were not synced; somebody removes the cache
    file or the marker. *)
Inductive event : Type :=
| Run (c : nat) (o : oracle)
| Die (c : nat)
| PowerLoss (back : nat) (junk : list bytes) (t : list (nat * nat)) (m : bool)
| RemoveCache
| RemoveMarker.

Definition spoil (junk : list bytes) (l : list file) : list file :=
  map (fun p => if synced (snd p) then snd p else mkFile (nth (fst p) junk []) false) (combine (seq 0 (length l)) l).

Definition step (e : event) (s : system) : system :=
  let d := fs s in
  match e with
  | Run c o =>
      match nth_error (callers s) c with
      | None => s
      | Some p =>
          let q := act c p o d in
          mkSystem (upd (callers s) c (fst q)) (if finished (fst q) then release c (snd q) else snd q)
      end
  | Die c =>
      match nth_error (callers s) c with
      | None => s
      | Some (Returned _) => s
      | Some _ => mkSystem (upd (callers s) c Dead) (release c d)
      end
  | PowerLoss back junk t m =>
      mkSystem (map (fun p => match p with Returned r => Returned r | _ => Dead end) (callers s))
        (mkDisk (spoil junk (files d)) (nth back (path d :: past d) (path d)) (path d :: past d) t m None)
  | RemoveCache => mkSystem (callers s) (set_path d None)
  | RemoveMarker => mkSystem (callers s) (set_marker d false)
  end.
Definition run (events : list event) (s : system) : system := fold_left (fun s e => step e s) events s.
End Cache.
