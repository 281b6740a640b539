(** C66: the shared cache of the compiled standard library is safe for any number of callers, with failures
    and crashes at any point. *)
From Coq Require Import List Bool Arith Lia.
From Verif Require Import ListUtil CacheModel CacheSpec CacheProofs CacheLive CacheSmooth CacheTidy.
Import ListNotations.

(** ** Examples *)

(** The checksum repeats the sum of the payload; a payload of one byte restores; caller [c] builds [[c + 5]]. *)
Definition ex_digest (p : bytes) : bytes := repeat (list_sum p) 32.
Definition ex_load (p : bytes) : option nat := match p with [x] => Some x | _ => None end.
Definition ex_build (c : nat) : capture := Encoded [c + 5].
Definition ex_run := run ex_digest ex_load ex_build.
Lemma ex_digest_len p : length (ex_digest p) = 32.
Proof. apply repeat_length. Qed.
(** Three callers and an old cache file that is damaged. *)
Definition ex_start : system := mkSystem [Begin; Begin; Begin] (mkDisk [mkFile [1; 2; 3] true] (Some 0) [] [] false None).
Lemma ex_started : started ex_start.
Proof.
  repeat split.
  - repeat constructor.
  - repeat constructor.
  - cbn. intros i E. injection E as <-. lia.
Qed.
Definition go (c n : nat) : event := Run c (mkOracle true n).
Definition fail (c : nat) : event := Run c (mkOracle false 0).
(** Caller 0 removes the damaged file and dies while it writes; caller 1 publishes, 2 loads. *)
Definition ex_crash : list event :=
  repeat (go 0 2) 18 ++ repeat (go 2 0) 12 ++ [Die 0] ++ repeat (go 1 7) 30 ++ repeat (go 2 0) 10.
Example ex_crash_runs :
  nth_error (callers (ex_run (fun c => c) (firstn 18 ex_crash) ex_start)) 0
    = Some (Write (skipn 6 (file_of ex_digest [5])) 1 5) /\
  callers (ex_run (fun c => c) ex_crash ex_start) = [Dead; Returned (Built 6); Returned (Loaded 6)] /\
  cache_of (ex_run (fun c => c) ex_crash ex_start) = Some (file_of ex_digest [6]) /\
  temps (fs (ex_run (fun c => c) ex_crash ex_start)) = [(0, 1)].
Proof. vm_compute. auto. Qed.

Lemma run_length digest load build temp_name evs : forall s,
  length (callers (run digest load build temp_name evs s)) = length (callers s).
Proof.
  induction evs as [|e evs IH]; intros s; auto. cbn.
  change (fold_left _ evs ?x) with (run digest load build temp_name evs x). rewrite IH.
  destruct e as [d o|d| | |]; cbn [step callers]; auto.
  - destruct (nth_error (callers s) d); auto. cbn [callers]. apply upd_length.
  - destruct (nth_error (callers s) d) as [x|]; auto. destruct x; cbn [callers]; auto; apply upd_length.
  - apply map_length.
Qed.

(** ** The file format *)

(** Exactly the files written for a payload are accepted, and for that payload: whoever changes, cuts or
    lengthens a file must find another payload with its checksum. *)
Theorem C66_checksum : forall digest, (forall p, length (digest p) = 32) ->
  forall b p, checked_payload digest b = Some p <-> b = file_of digest p.
Proof.
  intros digest D b p. split; [apply checked_only|]. intros ->. apply checked_file. exact D.
Qed.
Print Assumptions C66_checksum.
Example C66_checksum_ex :
  checked_payload ex_digest (file_of ex_digest [5; 6]) = Some [5; 6] /\
  checked_payload ex_digest (removelast (file_of ex_digest [5; 6])) = None /\
  checked_payload ex_digest [70; 69; 82] = None.
Proof. vm_compute. auto. Qed.

(** ** Safety *)

(** Whatever fails and whoever dies, at every moment the cache file is absent, as it was found, or a whole
    file made by a caller, that restores. *)
Theorem C66_whole : forall digest load build temp_name s events b,
  (forall p, length (digest p) = 32) -> started s ->
  cache_of (run digest load build temp_name events s) = Some b ->
  cache_of s = Some b \/ published digest load build b.
Proof.
  intros digest load build temp_name s events b D ST E.
  pose proof (run_inv digest load build temp_name (cache_of s) D events s (start_ok _ _ _ _ _ s ST eq_refl)) as I.
  unfold cache_of in E. destruct (path _) as [i|] eqn:P; [|discriminate E].
  destruct (i_past _ _ _ _ _ _ I i (or_introl P)) as (f & N & _ & W). rewrite N in E. cbn in E. injection E as <-. exact W.
Qed.
Print Assumptions C66_whole.
Example C66_whole_ex :
  started ex_start /\ published ex_digest ex_load ex_build (file_of ex_digest [6]) /\
  cache_of (ex_run (fun c => c) ex_crash ex_start) = Some (file_of ex_digest [6]) /\
  cache_of (ex_run (fun c => c) (firstn 18 ex_crash) ex_start) = None.
Proof.
  split; [exact ex_started|]. split; [exists 1, [6], 6; auto|]. vm_compute. auto.
Qed.

(** A caller returns a library compiled on the spot, the restored form of what it built, or the restored form
    of a payload that was in the cache file at the start or that a caller built. *)
Theorem C66_returns : forall digest load build temp_name s events c r,
  (forall p, length (digest p) = 32) -> started s ->
  nth_error (callers (run digest load build temp_name events s)) c = Some (Returned r) ->
  right digest load build (cache_of s) c r.
Proof.
  intros digest load build temp_name s events c r D ST E.
  pose proof (run_inv digest load build temp_name (cache_of s) D events s (start_ok _ _ _ _ _ s ST eq_refl)) as I.
  exact (i_placed _ _ _ _ _ _ I _ _ E).
Qed.
Print Assumptions C66_returns.
Example C66_returns_ex :
  nth_error (callers (ex_run (fun c => c) ex_crash ex_start)) 2 = Some (Returned (Loaded 6)) /\
  right ex_digest ex_load ex_build (cache_of ex_start) 2 (Loaded 6).
Proof. split; [vm_compute; reflexivity|]. exists [6]. split; auto. right. exists 1. reflexivity. Qed.

(** Only one caller at a time removes, builds or writes the cache, and the lock is never left with a caller
    that has returned or died. *)
Theorem C66_exclusive : forall digest load build temp_name s events,
  (forall p, length (digest p) = 32) -> started s ->
  let s' := run digest load build temp_name events s in
  (forall c d p q, nth_error (callers s') c = Some p -> nth_error (callers s') d = Some q -> working p -> working q -> c = d) /\
  (forall c p, nth_error (callers s') c = Some p -> working p -> lock (fs s') = Some c) /\
  (forall c, lock (fs s') = Some c -> exists p, nth_error (callers s') c = Some p /\ p <> Dead /\ forall r, p <> Returned r).
Proof.
  intros digest load build temp_name s events D ST s'.
  pose proof (run_inv digest load build temp_name (cache_of s) D events s (start_ok _ _ _ _ _ s ST eq_refl)) as I.
  fold s' in I.
  assert (W : forall p, working p -> holds p = true) by (intros p; destruct p; cbn; auto; contradiction).
  split; [|split].
  - intros c d p q N M HP HQ. pose proof (i_holds _ _ _ _ _ _ I _ _ N (W _ HP)).
    pose proof (i_holds _ _ _ _ _ _ I _ _ M (W _ HQ)). congruence.
  - intros c p N HP. exact (i_holds _ _ _ _ _ _ I _ _ N (W _ HP)).
  - intros c L. destruct (i_lock _ _ _ _ _ _ I _ L) as (p & N & H). exists p.
    split; auto. split; [intros ->; discriminate H|intros r ->; discriminate H].
Qed.
Print Assumptions C66_exclusive.
Example C66_exclusive_ex :
  let s := ex_run (fun c => c) (firstn 30 ex_crash) ex_start in
  lock (fs s) = Some 0 /\ nth_error (callers s) 0 = Some (Write (skipn 6 (file_of ex_digest [5])) 1 5) /\
  nth_error (callers s) 2 = Some (Sleep 20) /\
  lock (fs (ex_run (fun c => c) (firstn 31 ex_crash) ex_start)) = None.
Proof. vm_compute. auto. Qed.

(** ** Callers return *)

(** A caller that does not die returns after a fixed number of its own steps, whatever others do and
    whatever fails. *)
Theorem C66_finishes : forall digest load build temp_name s events c,
  started s -> c < length (callers s) -> Forall (spares c) events -> enough digest build c <= own c events ->
  exists r, nth_error (callers (run digest load build temp_name events s)) c = Some (Returned r).
Proof. intros. apply finishes; auto. Qed.
Print Assumptions C66_finishes.
Example C66_finishes_ex : forall events, Forall (spares 2) events -> enough ex_digest ex_build 2 <= own 2 events ->
  exists r, nth_error (callers (ex_run (fun c => c) events ex_start)) 2 = Some (Returned r).
Proof. intros events. apply C66_finishes; [exact ex_started|cbn; lia]. Qed.

(** ** When nothing fails *)

Lemma no_temp n t : (forall i, ~ In (n, i) t) -> temp n t = None.
Proof.
  induction t as [|[a i] l IH]; intros H; cbn; auto. destruct (n =? a) eqn:E.
  - apply Nat.eqb_eq in E. subst a. exfalso. apply (H i). left. reflexivity.
  - apply IH. intros j X. apply (H j). right. exact X.
Qed.

(** At most one caller builds the library, and its file is then in the cache. Nobody builds when the cache
    file restores. All callers that load get the same library: the one that was found, or the one built. *)
Theorem C66_once : forall digest load build temp_name s events,
  (forall p, length (digest p) = 32) -> started s -> marker (fs s) = false ->
  (forall c i, ~ In (temp_name c, i) (temps (fs s))) ->
  (forall c, exists p m, build c = Encoded p /\ load p = Some m) -> Forall smooth events ->
  let s' := run digest load build temp_name events s in
  (forall c d p q, nth_error (callers s') c = Some p -> nth_error (callers s') d = Some q -> builder p -> builder q -> c = d) /\
  (forall c m, nth_error (callers s') c = Some (Returned (Built m)) ->
     exists p, cache_of s' = Some (file_of digest p) /\ load p = Some m) /\
  (forall p m, cache_of s = Some (file_of digest p) -> load p = Some m ->
     forall c q, nth_error (callers s') c = Some q -> ~ builder q /\ forall m', q = Returned (Loaded m') -> m' = m) /\
  ((forall p m, cache_of s = Some (file_of digest p) -> load p <> Some m) ->
     forall c m, nth_error (callers s') c = Some (Returned (Loaded m)) ->
     exists d, nth_error (callers s') d = Some (Returned (Built m))).
Proof.
  intros digest load build temp_name s events D ST MK FR BU SM s'.
  pose proof (start_ok digest load build temp_name (cache_of s) s ST eq_refl) as IV0.
  assert (FR' : forall c, temp (temp_name c) (temps (fs s)) = None) by (intros c; apply no_temp; auto).
  pose proof (start_J digest load temp_name (cache_of s) (temps (fs s)) s ST eq_refl MK eq_refl) as J0.
  pose proof (run_inv digest load build temp_name (cache_of s) D events s IV0) as IV.
  pose proof (smooth_run digest load build temp_name (cache_of s) D BU (temps (fs s)) FR' events s IV0 J0 SM) as I.
  fold s' in IV, I.
  assert (B : forall c p, nth_error (callers s') c = Some p -> builder p -> building p = true \/ exists m, p = Returned (Built m)).
  { intros c p N HB. pose proof (j_calm _ _ _ _ _ _ I _ _ N) as C. destruct p; cbn in *; auto; try contradiction; try discriminate C.
    destruct r; try contradiction. eauto. }
  split; [|split; [|split]].
  - intros c d p q N M HP HQ.
    destruct (B _ _ N HP) as [X|(m & ->)], (B _ _ M HQ) as [Y|(m' & ->)].
    + pose proof (i_holds _ _ _ _ _ _ IV _ _ N (building_holds _ X)).
      pose proof (i_holds _ _ _ _ _ _ IV _ _ M (building_holds _ Y)). congruence.
    + exfalso. exact (proj2 (j_excl _ _ _ _ _ _ I _ _ N X) _ _ M).
    + exfalso. exact (proj2 (j_excl _ _ _ _ _ _ I _ _ M Y) _ _ N).
    + symmetry. eapply (j_once _ _ _ _ _ _ I); eauto.
  - intros c m N. pose proof (j_ready _ _ _ _ _ _ I m (or_intror (ex_intro _ c N))) as R.
    unfold ready in R. destruct (cache_of s') as [b|]; [|discriminate R].
    destruct (load_bytes_inv digest load b m R) as (p & -> & L). eauto.
  - intros p m E L. assert (R : ready digest load (cache_of s) = Some m) by (rewrite E; cbn; rewrite load_file by auto; exact L).
    intros c q N. split.
    + intros HB. destruct (B _ _ N HB) as [X|(m' & ->)].
      * pose proof (proj1 (j_excl _ _ _ _ _ _ I _ _ N X)). congruence.
      * pose proof (proj1 (j_once _ _ _ _ _ _ I _ _ N)). congruence.
    + intros m' ->. destruct (j_loaded _ _ _ _ _ _ I _ _ N) as [K|(d & K)]; [congruence|].
      pose proof (proj1 (j_once _ _ _ _ _ _ I _ _ K)). congruence.
  - intros NO c m N. destruct (j_loaded _ _ _ _ _ _ I _ _ N) as [K|K]; auto.
    exfalso. unfold ready in K. destruct (cache_of s) as [b|] eqn:E; [|discriminate K].
    destruct (load_bytes_inv digest load b m K) as (p & -> & L). exact (NO p m eq_refl L).
Qed.
Print Assumptions C66_once.
Definition ex_smooth : list event := repeat (go 0 2) 18 ++ repeat (go 2 0) 12 ++ repeat (go 1 7) 7 ++ repeat (go 0 9) 20 ++ repeat (go 1 7) 9 ++ repeat (go 2 0) 10.
Example C66_once_ex :
  (forall c i, ~ In (c, i) (temps (fs ex_start))) /\ (forall c, exists p m, ex_build c = Encoded p /\ ex_load p = Some m) /\
  Forall smooth ex_smooth /\
  callers (ex_run (fun c => c) ex_smooth ex_start) = [Returned (Built 5); Returned (Loaded 5); Returned (Loaded 5)] /\
  cache_of (ex_run (fun c => c) ex_smooth ex_start) = Some (file_of ex_digest [5]).
Proof.
  split; [intros c i []|]. split; [intros c; exists [c + 5], (c + 5); auto|].
  split; [repeat constructor|]. vm_compute. auto.
Qed.

(** A caller then compiles on its own only after it has slept for two minutes. *)
Theorem C66_patience : forall digest load build temp_name s events c,
  (forall p, length (digest p) = 32) -> started s -> marker (fs s) = false ->
  (forall c i, ~ In (temp_name c, i) (temps (fs s))) ->
  (forall c, exists p m, build c = Encoded p /\ load p = Some m) -> Forall smooth events ->
  nth_error (callers (run digest load build temp_name events s)) c = Some (Returned Compiled) ->
  120000 <= slept digest load build temp_name c events s.
Proof.
  intros digest load build temp_name s events c D ST MK FR BU SM END.
  pose proof (start_ok digest load build temp_name (cache_of s) s ST eq_refl) as IV0.
  assert (FR' : forall c, temp (temp_name c) (temps (fs s)) = None) by (intros d; apply no_temp; auto).
  pose proof (start_J digest load temp_name (cache_of s) (temps (fs s)) s ST eq_refl MK eq_refl) as J0.
  destruct (nth_error (callers s) c) as [p|] eqn:N.
  - assert (p = Begin).
    { destruct ST as (B & _). rewrite Forall_forall in B. apply B. eapply nth_error_In; eauto. }
    subst p.
    assert (NC : Begin <> Returned Compiled) by discriminate.
    destruct (patient digest load build temp_name (cache_of s) D BU (temps (fs s)) FR' c events s Begin IV0 J0 SM N NC END) as [_ L].
    exact L.
  - exfalso. apply nth_error_None in N. rewrite <- (run_length digest load build temp_name events s) in N.
    apply nth_error_None in N. congruence.
Qed.
Print Assumptions C66_patience.
(** Caller 2 waits for a builder that does nothing. *)
Definition ex_stuck (n : nat) : list event := repeat (go 0 2) 18 ++ repeat (go 2 0) 12 ++ [go 2 n] ++ repeat (go 2 0) 3.
Example C66_patience_ex :
  nth_error (callers (ex_run (fun c => c) (ex_stuck 119960) ex_start)) 2 = Some (Returned Compiled) /\
  match nth_error (callers (ex_run (fun c => c) (ex_stuck 119959) ex_start)) 2 with Some (Sleep _) => true | _ => false end = true /\
  (forall n, Forall smooth (ex_stuck n)).
Proof. split; [vm_compute; reflexivity|]. split; [vm_compute; reflexivity|]. intros n. repeat constructor. Qed.

(** ** Temporary files and the marker *)

(** When nobody dies and temporary files can be removed, callers that have returned leave none behind, even
    if anything else failed. *)
Theorem C66_tidy : forall digest load build temp_name s events x,
  started s -> tidy digest load build temp_name events s ->
  Forall (fun p => exists r, p = Returned r) (callers (run digest load build temp_name events s)) ->
  In x (temps (fs (run digest load build temp_name events s))) -> In x (temps (fs s)).
Proof.
  intros digest load build temp_name s events x ST T ALL X.
  assert (A : accounted temp_name (temps (fs s)) s) by (intros y Y; auto).
  destruct (tidy_run digest load build temp_name (temps (fs s)) events s T A _ X) as [K|(c & p & N & O & _)]; auto.
  rewrite Forall_forall in ALL. apply nth_error_In in N. destruct (ALL _ N) as (r & ->). discriminate O.
Qed.
Print Assumptions C66_tidy.
(** The damaged file cannot be removed at first, and the rename fails twice. A caller that died leaves its file, which makes the next caller with the same
    name not publish, but remove it. *)
Example C66_tidy_ex :
  let events := repeat (go 0 9) 12 ++ [fail 0] ++ repeat (go 0 9) 9 ++ [fail 0; go 0 0; fail 0; go 0 0] in
  temps (fs (ex_run (fun c => c) (firstn 19 events) (mkSystem [Begin] (fs ex_start)))) = [(0, 1)] /\
  ex_run (fun c => c) events (mkSystem [Begin] (fs ex_start))
    = mkSystem [Returned (Built 5)] (mkDisk [mkFile [1; 2; 3] true; mkFile (file_of ex_digest [5]) true] None [Some 0] [] false None).
Proof. vm_compute. auto. Qed.
Example C66_leftover_ex :
  let events := repeat (go 0 2) 18 ++ [Die 0] ++ repeat (go 1 50) 16 in
  temps (fs (ex_run (fun _ => 0) (firstn 19 events) ex_start)) = [(0, 1)] /\
  callers (ex_run (fun _ => 0) events ex_start) = [Dead; Returned (Built 6); Begin] /\
  cache_of (ex_run (fun _ => 0) events ex_start) = None /\ temps (fs (ex_run (fun _ => 0) events ex_start)) = [].
Proof. vm_compute. auto. Qed.

(** With the marker nobody builds, and the files stay as they are. *)
Theorem C66_marked : forall digest load build temp_name s events,
  started s -> marker (fs s) = true -> Forall smooth events ->
  let s' := run digest load build temp_name events s in
  fs s' = fs s /\ Forall (fun p => ~ working p /\ ~ builder p) (callers s').
Proof.
  intros digest load build temp_name s events ST MK SM s'.
  set (early := fun p => match p with Begin | Load First | Opened First _ | CheckMarker | Returned Compiled | Returned (Loaded _) => True | _ => False end).
  assert (K : forall evs s1, Forall smooth evs -> marker (fs s1) = true -> lock (fs s1) = None -> Forall early (callers s1) ->
    fs (run digest load build temp_name evs s1) = fs s1 /\ Forall early (callers (run digest load build temp_name evs s1))).
  { clear. induction evs as [|e evs IH]; intros s SM MK LK E; auto. inversion SM as [|? ? SE SR]; subst.
    destruct e as [c o| | | |]; try contradiction. cbn in SE. cbn [run fold_left].
    change (fold_left _ evs ?x) with (run digest load build temp_name evs x).
    assert (ST : fs (step digest load build temp_name (Run c o) s) = fs s /\ Forall early (callers (step digest load build temp_name (Run c o) s))).
    { cbn [step]. destruct (nth_error (callers s) c) as [p|] eqn:N; auto. cbn [fs callers].
      assert (EP : early p) by (rewrite Forall_forall in E; apply E; eapply nth_error_In; eauto).
      assert (A : snd (act digest load build temp_name c p o (fs s)) = fs s /\ early (fst (act digest load build temp_name c p o (fs s)))).
      { destruct p; try contradiction; cbn [act fst snd]; rewrite ?SE, ?MK; (split; [reflexivity|]); try exact Logic.I.
        - destruct w; try contradiction. destruct (path (fs s)); exact Logic.I.
        - destruct w; try contradiction. destruct (nth_error (files (fs s)) i); [|exact Logic.I].
          destruct (load_bytes digest load (content f)); exact Logic.I.
        - exact EP. }
      destruct A as [A1 A2]. rewrite A1. split.
      - destruct (finished _); auto. unfold release. rewrite LK. reflexivity.
      - apply Forall_upd; auto. }
    destruct ST as [ST1 ST2]. destruct (IH (step digest load build temp_name (Run c o) s)) as [IH1 IH2]; auto.
    - rewrite ST1. exact MK.
    - rewrite ST1. exact LK.
    - split; [congruence|exact IH2]. }
  destruct ST as (B & LK & _).
  destruct (K events s SM MK LK) as [K1 K2].
  { eapply Forall_impl; [|exact B]. intros p ->. exact Logic.I. }
  split; [exact K1|]. eapply Forall_impl; [|exact K2].
  intros p EP. destruct p; cbn in *; auto; try contradiction. destruct r; try contradiction; auto.
Qed.
Print Assumptions C66_marked.
Example C66_marked_ex :
  let s := mkSystem [Begin; Begin] (mkDisk [] None [] [] true None) in
  started s /\ ex_run (fun c => c) (repeat (go 0 0) 5 ++ repeat (go 1 0) 5) s
    = mkSystem [Returned Compiled; Returned Compiled] (mkDisk [] None [] [] true None).
Proof. split; [|vm_compute; reflexivity]. repeat split; try (repeat constructor). cbn. intros i E. discriminate E. Qed.

(** A caller whose capture fails, or does not restore, leaves the marker. *)
Theorem C66_unusable : forall digest load build temp_name s before after c r,
  (build c = CaptureFails \/ exists p, build c = Encoded p /\ load p = None) ->
  nth_error (callers (run digest load build temp_name before s)) c = Some Capture -> Forall smooth after ->
  nth_error (callers (run digest load build temp_name (before ++ after) s)) c = Some (Returned r) ->
  r = Compiled /\ marker (fs (run digest load build temp_name (before ++ after) s)) = true.
Proof.
  intros digest load build temp_name s before after c r BF N SM. unfold run. rewrite fold_left_app.
  fold (run digest load build temp_name before s). revert N. generalize (run digest load build temp_name before s) as s1.
  set (st := fun p (d : disk) => p = Capture \/ (exists x, p = Validate x /\ build c = Encoded x) \/ p = Mark \/ (p = Returned Compiled /\ marker d = true)).
  assert (K : forall s1 p, nth_error (callers s1) c = Some p -> st p (fs s1) -> exists q,
    nth_error (callers (fold_left (fun s e => step digest load build temp_name e s) after s1)) c = Some q /\
    st q (fs (fold_left (fun s e => step digest load build temp_name e s) after s1))).
  { induction after as [|e rest IH]; intros s1 p N P; [exists p; auto|]. inversion SM as [|? ? SE SR]; subst.
    destruct e as [d o| | | |]; try contradiction. cbn in SE. cbn [fold_left].
    assert (MK : forall b x, marker (fs s1) = true -> marker (snd (act digest load build temp_name b x o (fs s1))) = true).
    { intros b x M. destruct x; cbn [act]; rewrite ?SE; cbn [snd];
        repeat match goal with |- context [match ?y with _ => _ end] => destruct y end; cbn; auto. }
    assert (MR : forall b d x, marker d = true -> marker (if x : bool then release b d else d) = true).
    { intros b d' [] M; auto. destruct (release_files b d') as (_ & _ & _ & _ & E5). rewrite E5. exact M. }
    destruct (Nat.eq_dec d c) as [->|D].
    - apply (IH SR) with (p := fst (act digest load build temp_name c p o (fs s1))).
      + cbn [step]. rewrite N. cbn [callers]. apply nth_error_upd_same. apply nth_error_Some. congruence.
      + cbn [step]. rewrite N. cbn [fs]. destruct P as [->|[(x & -> & B)|[->|(-> & M)]]]; cbn [act fst snd]; rewrite ?SE.
        * destruct BF as [BF|(x & BF & _)]; rewrite BF; unfold st; eauto 6.
        * destruct BF as [BF|(y & BF & L)]; [congruence|]. assert (y = x) by congruence. subst y. rewrite L. unfold st. auto.
        * right. right. right. split; auto.
        * right. right. right. split; auto.
    - apply (IH SR) with (p := p).
      + cbn [step]. destruct (nth_error (callers s1) d); auto. cbn [callers]. rewrite nth_error_upd_other; auto.
      + cbn [step]. destruct (nth_error (callers s1) d) as [x|]; auto. cbn [fs].
        destruct P as [->|[(y & -> & B)|[->|(-> & M)]]]; unfold st; eauto 6. right. right. right. split; auto. }
  intros s1 N END. destruct (K s1 Capture N (or_introl eq_refl)) as (q & NQ & P). rewrite END in NQ. injection NQ as <-.
  destruct P as [X|[(y & X & _)|[X|(X & M)]]]; try discriminate X. injection X as ->. auto.
Qed.
Print Assumptions C66_unusable.
Example C66_unusable_ex :
  let r evs := run ex_digest ex_load (fun _ => Encoded [1; 2]) (fun c => c) evs ex_start in
  nth_error (callers (r (repeat (go 0 0) 13))) 0 = Some Capture /\
  nth_error (callers (r (repeat (go 0 0) 13 ++ repeat (go 0 0) 3))) 0 = Some (Returned Compiled) /\
  marker (fs (r (repeat (go 0 0) 13 ++ repeat (go 0 0) 3))) = true.
Proof. vm_compute. auto. Qed.

(** When the cache file restores, every caller has it after three steps, even with the marker, and the files
    stay as they are. *)
Theorem C66_hit : forall digest load build temp_name s events p m,
  (forall p, length (digest p) = 32) -> started s -> cache_of s = Some (file_of digest p) -> load p = Some m ->
  Forall smooth events ->
  let s' := run digest load build temp_name events s in
  fs s' = fs s /\ forall c, c < length (callers s) -> 3 <= own c events -> nth_error (callers s') c = Some (Returned (Loaded m)).
Proof.
  intros digest load build temp_name s events p m D (B & LK & _) E L SM s'.
  unfold cache_of in E. destruct (path (fs s)) as [i|] eqn:P; [|discriminate E].
  destruct (nth_error (files (fs s)) i) as [f|] eqn:NF; [|discriminate E]. cbn in E. injection E as E.
  assert (LB : load_bytes digest load (content f) = Some m) by (rewrite E; rewrite load_file by auto; exact L).
  set (at_ := fun n x => match n with 0 => x = Begin | 1 => x = Load First | 2 => x = Opened First i | _ => x = Returned (Loaded m) end).
  assert (K : forall evs s1, Forall smooth evs -> fs s1 = fs s -> forall n, length n = length (callers s1) ->
    (forall c x, nth_error (callers s1) c = Some x -> at_ (nth c n 0) x) ->
    fs (run digest load build temp_name evs s1) = fs s /\
    forall c x, nth_error (callers (run digest load build temp_name evs s1)) c = Some x -> at_ (nth c n 0 + own c evs) x).
  { induction evs as [|e evs IH]; intros s1 SM1 F n LN A.
    - split; auto. intros c x N. rewrite Nat.add_0_r. exact (A c x N).
    - inversion SM1 as [|? ? SE SR]; subst. destruct e as [c o| | | |]; try contradiction. cbn in SE.
      change (run digest load build temp_name (Run c o :: evs) s1) with (run digest load build temp_name evs (step digest load build temp_name (Run c o) s1)).
      destruct (nth_error (callers s1) c) as [x|] eqn:N.
      + assert (LT : c < length (callers s1)) by (apply nth_error_Some; congruence).
        assert (Q : snd (act digest load build temp_name c x o (fs s1)) = fs s /\ at_ (S (nth c n 0)) (fst (act digest load build temp_name c x o (fs s1)))).
        { pose proof (A _ _ N) as AX. rewrite F. destruct (nth c n 0) as [|[|[|k]]]; cbn in AX; subst x; cbn [act fst snd]; rewrite ?SE, ?P, ?NF, ?LB;
            (split; [reflexivity|reflexivity]). }
        destruct Q as [Q1 Q2].
        destruct (IH (step digest load build temp_name (Run c o) s1) SR) with (n := upd n c (S (nth c n 0))) as [R1 R2].
        * cbn [step]. rewrite N. cbn [fs]. rewrite Q1. destruct (finished _); auto. unfold release. rewrite LK. reflexivity.
        * cbn [step]. rewrite N. cbn [callers]. rewrite !upd_length. exact LN.
        * cbn [step]. rewrite N. cbn [callers]. intros d y ND. destruct (Nat.eq_dec d c) as [->|DC].
          -- rewrite nth_error_upd_same in ND by auto. injection ND as <-.
             assert (X : nth_error (upd n c (S (nth c n 0))) c = Some (S (nth c n 0))) by (apply nth_error_upd_same; lia).
             rewrite (nth_error_nth _ _ 0 X). exact Q2.
          -- rewrite nth_error_upd_other in ND by auto.
             assert (X : nth d (upd n c (S (nth c n 0))) 0 = nth d n 0).
             { rewrite <- !nth_default_eq. unfold nth_default. rewrite nth_error_upd_other by auto. reflexivity. }
             rewrite X. exact (A _ _ ND).
        * split; auto. intros d y ND. specialize (R2 d y ND). cbn [own]. destruct (Nat.eq_dec c d) as [->|DC].
          -- rewrite Nat.eqb_refl. assert (X : nth_error (upd n d (S (nth d n 0))) d = Some (S (nth d n 0))) by (apply nth_error_upd_same; lia).
             rewrite (nth_error_nth _ _ 0 X) in R2. replace (nth d n 0 + (1 + own d evs)) with (S (nth d n 0) + own d evs) by lia. exact R2.
          -- apply Nat.eqb_neq in DC as DC'. rewrite DC'.
             assert (X : nth d (upd n c (S (nth c n 0))) 0 = nth d n 0).
             { rewrite <- !nth_default_eq. unfold nth_default. rewrite nth_error_upd_other by auto. reflexivity. }
             rewrite X in R2. exact R2.
      + assert (SS : step digest load build temp_name (Run c o) s1 = s1) by (cbn [step]; rewrite N; reflexivity).
        rewrite SS. destruct (IH s1 SR F n LN A) as [R1 R2]. split; auto.
        intros d y ND. cbn [own]. destruct (c =? d) eqn:EQ; [|exact (R2 _ _ ND)].
        exfalso. apply Nat.eqb_eq in EQ. subst d. clear - N ND.
        apply nth_error_None in N. rewrite <- (run_length digest load build temp_name evs s1) in N. apply nth_error_None in N. congruence. }
  destruct (K events s SM eq_refl (repeat 0 (length (callers s)))) as [K1 K2].
  - apply repeat_length.
  - intros c x N. rewrite Forall_forall in B. rewrite nth_repeat. cbn. apply B. eapply nth_error_In; eauto.
  - split; [exact K1|]. intros c LT OW. fold s' in K2.
    destruct (nth_error (callers s') c) as [x|] eqn:N.
    + specialize (K2 c x N). rewrite nth_repeat in K2. cbn in K2. destruct (own c events) as [|[|[|k]]]; try lia. cbn in K2. congruence.
    + exfalso. apply nth_error_None in N. unfold s' in N. rewrite run_length in N. lia.
Qed.
Print Assumptions C66_hit.
Example C66_hit_ex :
  let s := mkSystem [Begin; Begin] (mkDisk [mkFile (file_of ex_digest [9]) true] (Some 0) [] [] true None) in
  started s /\ cache_of s = Some (file_of ex_digest [9]) /\
  callers (ex_run (fun c => c) [go 1 0; go 0 0; go 0 0; go 1 0; go 1 0; go 0 0] s) = [Returned (Loaded 9); Returned (Loaded 9)].
Proof.
  split; [|split; [reflexivity|vm_compute; reflexivity]]. split; [repeat constructor|]. split; [reflexivity|]. split; [reflexivity|].
  split; [repeat constructor|]. cbn. intros i E. injection E as <-. lia.
Qed.

(** Power lost while caller 0 writes: its removal of the damaged file is undone and what it wrote is lost. *)
Example C66_power_ex :
  let s := ex_run (fun c => c) (repeat (go 0 2) 18 ++ [PowerLoss 1 [] [(0, 1)] false]) ex_start in
  callers s = [Dead; Dead; Dead] /\ cache_of s = cache_of ex_start /\ lock (fs s) = None /\
  nth_error (files (fs s)) 1 = Some (mkFile [] false).
Proof. vm_compute. auto. Qed.
