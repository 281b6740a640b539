(** The cache file is always whole and callers return what they should: an invariant of all runs. *)
From Coq Require Import List Bool Arith Lia.
From Verif Require Import ListUtil CacheModel CacheSpec.
Import ListNotations.

Local Opaque wait_limit.

Section Inv.
Variable digest : bytes -> bytes.
Variable load : bytes -> option nat.
Variable build : nat -> capture.
Variable temp_name : nat -> nat.
Variable found : option bytes.

Lemma file_same p : cache_file_bytes digest p = file_of digest p.
Proof. reflexivity. Qed.

(** ** The file format *)

Hypothesis digest_len : forall p, length (digest p) = 32.

Lemma checked_file p : checked_payload digest (file_of digest p) = Some p.
Proof.
  unfold checked_payload. rewrite <- file_same. unfold cache_file_bytes.
  assert (L : length (magic ++ digest p ++ p) = 40 + length p)
    by (rewrite app_length, app_length, digest_len; reflexivity).
  destruct (_ <? _) eqn:E; [apply Nat.ltb_lt in E; rewrite L in E; change (length magic + checksum_len) with 40 in E; lia|].
  rewrite firstn_app, firstn_all, Nat.sub_diag. cbn [firstn]. rewrite app_nil_r.
  destruct (bytes_eq_dec magic magic) as [_|n]; [|contradiction].
  assert (S1 : skipn (length magic) (magic ++ digest p ++ p) = digest p ++ p)
    by (rewrite skipn_app, skipn_all, Nat.sub_diag; reflexivity).
  assert (S2 : skipn (length magic + checksum_len) (magic ++ digest p ++ p) = p).
  { rewrite app_assoc, skipn_app. replace (length magic + checksum_len) with (length (magic ++ digest p))
      by (rewrite app_length, digest_len; reflexivity).
    rewrite skipn_all, Nat.sub_diag. reflexivity. }
  rewrite S1, S2. unfold checksum_len. rewrite <- (digest_len p), firstn_app, firstn_all, Nat.sub_diag.
  cbn [firstn]. rewrite app_nil_r. destruct (bytes_eq_dec (digest p) (digest p)) as [_|n]; [reflexivity|contradiction].
Qed.
Lemma checked_only b p : checked_payload digest b = Some p -> b = file_of digest p.
Proof.
  unfold checked_payload. destruct (_ <? _) eqn:E; [discriminate|].
  destruct (bytes_eq_dec _ magic) as [M|]; [|discriminate].
  destruct (bytes_eq_dec _ _) as [D|]; [|discriminate]. intros H.
  assert (Hp : skipn (length magic + checksum_len) b = p) by congruence.
  rewrite Hp in D. rewrite <- file_same. unfold cache_file_bytes. rewrite D, <- Hp.
  rewrite <- M at 1. 
  rewrite <- (firstn_skipn (length magic) b) at 1. f_equal.
  rewrite <- (firstn_skipn checksum_len (skipn (length magic) b)) at 1. f_equal.
  clear. revert b. generalize (length magic) as n. induction n as [|n IH]; intros b; [reflexivity|].
  destruct b as [|x b]; [destruct checksum_len; reflexivity|]. exact (IH b).
Qed.
Lemma load_bytes_inv b m : load_bytes digest load b = Some m -> exists p, b = file_of digest p /\ load p = Some m.
Proof.
  unfold load_bytes. destruct (checked_payload digest b) as [p|] eqn:E; [|discriminate].
  intros H. exists p. split; auto. apply checked_only. exact E.
Qed.

(** ** The invariant *)

Definition whole (b : bytes) : Prop := found = Some b \/ published digest load build b.
Definition fine (d : disk) (i : nat) : Prop :=
  exists f, nth_error (files d) i = Some f /\ synced f = true /\ whole (content f).

Definition holds (p : place) : bool :=
  match p with
  | Load Locked | Opened Locked _ | RemoveBad | Capture | Validate _ | Mark | CreateTemp _ _ | Write _ _ _
  | Sync _ _ | Rename _ | Unlink _ | RenameAgain _ | Clean _ => true
  | _ => false
  end.

Definition made (c : nat) (p : bytes) (m : nat) : Prop := build c = Encoded p /\ load p = Some m.
Definition placed (c : nat) (p : place) (d : disk) : Prop :=
  match p with
  | Opened _ i => fine d i
  | Validate p => build c = Encoded p
  | CreateTemp p m => made c p m
  | Write rest i m =>
      exists p f, made c p m /\ nth_error (files d) i = Some f /\ synced f = false /\
        content f ++ rest = file_of digest p /\ temp (temp_name c) (temps d) = Some i
  | Sync i m =>
      exists p f, made c p m /\ nth_error (files d) i = Some f /\ synced f = false /\
        content f = file_of digest p /\ temp (temp_name c) (temps d) = Some i
  | Rename m | Unlink m | RenameAgain m =>
      exists p i f, made c p m /\ nth_error (files d) i = Some f /\ synced f = true /\
        content f = file_of digest p /\ temp (temp_name c) (temps d) = Some i
  | Clean m => exists p, made c p m
  | Returned r => right digest load build found c r
  | _ => True
  end.

Definition stable (d d' : disk) : Prop :=
  forall i f, nth_error (files d) i = Some f -> synced f = true -> nth_error (files d') i = Some f.

Record inv (s : system) : Prop := {
  i_lock : forall c, lock (fs s) = Some c -> exists p, nth_error (callers s) c = Some p /\ holds p = true;
  i_holds : forall c p, nth_error (callers s) c = Some p -> holds p = true -> lock (fs s) = Some c;
  i_past : forall i, In (Some i) (path (fs s) :: past (fs s)) -> fine (fs s) i;
  i_placed : forall c p, nth_error (callers s) c = Some p -> placed c p (fs s)
}.

Lemma stable_refl d : stable d d.
Proof. intros i f H _. exact H. Qed.
Lemma fine_stable d d' i : stable d d' -> fine d i -> fine d' i.
Proof. intros S (f & N & Y & W). exists f. split; [apply S; auto|auto]. Qed.
Lemma placed_stable c p d d' : stable d d' -> holds p = false -> placed c p d -> placed c p d'.
Proof.
  intros S H P. destruct p; cbn in *; auto; try discriminate H. eapply fine_stable; eauto.
Qed.
Lemma stable_app d d' l : files d' = files d ++ l -> stable d d'.
Proof. intros E i f H _. rewrite E, nth_error_app1; auto. apply nth_error_Some. congruence. Qed.
Lemma stable_upd d d' i f g :
  nth_error (files d) i = Some f -> synced f = false -> files d' = upd (files d) i g -> stable d d'.
Proof.
  intros N F E j h H Y. rewrite E. destruct (Nat.eq_dec i j) as [->|D].
  - rewrite N in H. injection H as <-. congruence.
  - rewrite nth_error_upd_other; auto.
Qed.
Lemma stable_same d d' : files d' = files d -> stable d d'.
Proof. intros E i f H _. rewrite E. exact H. Qed.

Lemma after_load_holds w r : holds (after_load w r) = true -> w = Locked.
Proof. destruct r as [[m|]|], w; cbn; auto; discriminate. Qed.
Lemma after_load_placed c w r d :
  (forall m, r = Some (Some m) -> right digest load build found c (Loaded m)) -> placed c (after_load w r) d.
Proof.
  intros H. destruct r as [[m|]|]; cbn.
  - apply H. reflexivity.
  - destruct w; cbn; auto.
  - destruct w; cbn; auto.
Qed.
Lemma whole_right c b m : whole b -> load_bytes digest load b = Some m -> right digest load build found c (Loaded m).
Proof.
  intros W L. destruct (load_bytes_inv _ _ L) as (p & -> & Lp). exists p. split; auto.
  destruct W as [W|(c' & p' & m' & B & Lp' & E)]; auto. right. exists c'. rewrite B. f_equal.
  pose proof (checked_file p) as C1. rewrite E, checked_file in C1. congruence.
Qed.

Ltac six := split; [|split; [|split; [|split; [|split]]]].

(** One step of caller [c], before the lock is given back. *)
Lemma act_ok c p o d q d' :
  act digest load build temp_name c p o d = (q, d') ->
  placed c p d ->
  (forall i, In (Some i) (path d :: past d) -> fine d i) ->
  (holds p = true -> lock d = Some c) ->
  placed c q d' /\ stable d d' /\ (forall i, In (Some i) (path d' :: past d') -> fine d' i) /\
  (holds q = true -> lock d' = Some c) /\
  (lock d' = lock d \/ lock d = None /\ lock d' = Some c /\ holds q = true) /\
  (holds p = true -> holds q = true \/ finished q = true).
Proof.
  intros A P F H.
  assert (SAME : d' = d -> holds q = true -> holds p = true -> lock d' = Some c) by (intros -> _ X; auto).
  destruct p; cbn [act] in A.
  - apply pair_equal_spec in A; destruct A as [<- <-]. destruct (ok o); six; auto using stable_refl; cbn; intros X; discriminate X.
  - apply pair_equal_spec in A; destruct A as [<- <-]. destruct (ok o); [destruct (path d) as [i|] eqn:Pd|].
    + six; auto using stable_refl.
      * apply F. left. reflexivity.
    + destruct w; six; auto using stable_refl; cbn; auto; try (rewrite Pd; exact F); intros X; discriminate X.
    + destruct w; six; auto using stable_refl; cbn; auto; intros X; discriminate X.
  - apply pair_equal_spec in A; destruct A as [<- <-]. cbn in P. destruct P as (f & N & Y & W). rewrite N.
    six; auto using stable_refl.
    + apply after_load_placed. intros m X. destruct (ok o); [|discriminate X].
      destruct (load_bytes digest load (content f)) as [m'|] eqn:L; [|discriminate X].
      injection X as <-. eapply whole_right; eauto.
    + intros X. apply after_load_holds in X. subst w. auto.
    + intros X. destruct w; try discriminate X. destruct (ok o); auto.
      destruct (load_bytes digest load (content f)); auto.
  - apply pair_equal_spec in A; destruct A as [<- <-]. destruct (_ && _); six; auto using stable_refl; cbn; intros X; discriminate X.
  - apply pair_equal_spec in A; destruct A as [<- <-]. destruct (ok o); six; auto using stable_refl; cbn; intros X; discriminate X.
  - apply pair_equal_spec in A; destruct A as [<- <-]. destruct (ok o); six; auto using stable_refl; cbn; intros X; discriminate X.
  - apply pair_equal_spec in A; destruct A as [<- <-]. destruct (_ && _); six; auto using stable_refl; cbn; intros X; discriminate X.
  - destruct (ok o); [destruct (lock d) eqn:L|].
    + apply pair_equal_spec in A; destruct A as [<- <-].
      destruct (wait_limit <=? waited); six; auto using stable_refl; cbn; intros X; discriminate X.
    + apply pair_equal_spec in A; destruct A as [<- <-]. six; auto; try (intros X; discriminate X).
      apply stable_same. reflexivity.
    + apply pair_equal_spec in A; destruct A as [<- <-]. six; auto using stable_refl; cbn; intros X; discriminate X.
  - apply pair_equal_spec in A; destruct A as [<- <-]. six; auto using stable_refl; cbn; intros X; discriminate X.
  - apply pair_equal_spec in A; destruct A as [<- <-]. destruct (ok o).
    + six; auto; try (apply stable_same; reflexivity).
      cbn [path past set_path]. intros i [X|X]; [discriminate X|]. exact (F i X).
    + six; auto using stable_refl.
  - apply pair_equal_spec in A; destruct A as [<- <-]. destruct (build c) eqn:B; six; auto using stable_refl; cbn; auto.
  - apply pair_equal_spec in A; destruct A as [<- <-]. cbn in P. destruct (load payload) as [m|] eqn:L; six; auto using stable_refl; cbn; auto; try (split; assumption).
  - apply pair_equal_spec in A; destruct A as [<- <-]. destruct (ok o); six; auto using stable_refl; cbn; auto;
      try (intros X; discriminate X); try (apply stable_same; reflexivity).
  - cbn in P. destruct (temp (temp_name c) (temps d)) eqn:T; [|destruct (ok o)].
    + apply pair_equal_spec in A; destruct A as [<- <-]. six; auto using stable_refl. exists payload. exact P.
    + apply pair_equal_spec in A; destruct A as [<- <-].
      assert (ST : stable d (set_temps (set_files d (files d ++ [mkFile [] false])) ((temp_name c, length (files d)) :: temps d)))
        by (eapply stable_app; reflexivity).
      six; auto.
      * cbn [placed]. exists payload, (mkFile [] false). repeat split; auto; try apply P.
        -- cbn. rewrite nth_error_app2, Nat.sub_diag; auto.
        -- cbn. rewrite Nat.eqb_refl. reflexivity.
      * intros i X. eapply fine_stable; [exact ST|]. apply F. exact X.
    + apply pair_equal_spec in A; destruct A as [<- <-]. six; auto using stable_refl. exists payload. exact P.
  - cbn in P. destruct P as (p & f & M & N & Y & C & T). rewrite N in A. destruct (ok o).
    + apply pair_equal_spec in A; destruct A as [<- <-].
      set (d' := set_files d (upd (files d) i (mkFile (content f ++ firstn (S (amount o)) rest) false))).
      assert (ST : stable d d') by (eapply stable_upd; [exact N|exact Y|reflexivity]).
      assert (NF : nth_error (files d') i = Some (mkFile (content f ++ firstn (S (amount o)) rest) false)).
      { unfold d'. cbn. apply nth_error_upd_same. apply nth_error_Some. congruence. }
      six; auto.
      * pose proof (firstn_skipn (S (amount o)) rest) as FS. unfold bytes in *.
        destruct (skipn (S (amount o)) rest) as [|x xs] eqn:SK.
        -- exists p, (mkFile (content f ++ firstn (S (amount o)) rest) false). repeat split; auto; try apply M.
           rewrite app_nil_r in FS. cbn [content]. rewrite FS. exact C.
        -- exists p, (mkFile (content f ++ firstn (S (amount o)) rest) false). repeat split; auto; try apply M.
           cbn [content]. rewrite <- app_assoc, FS. exact C.
      * intros j X. eapply fine_stable; [exact ST|]. apply F. exact X.
      * destruct (skipn _ rest); auto.
    + apply pair_equal_spec in A; destruct A as [<- <-]. six; auto using stable_refl. exists p. exact M.
  - cbn in P. destruct P as (p & f & M & N & Y & C & T). rewrite N in A. destruct (ok o).
    + apply pair_equal_spec in A; destruct A as [<- <-].
      set (d' := set_files d (upd (files d) i (mkFile (content f) true))).
      assert (ST : stable d d') by (eapply stable_upd; [exact N|exact Y|reflexivity]).
      assert (NF : nth_error (files d') i = Some (mkFile (content f) true)).
      { unfold d'. cbn. apply nth_error_upd_same. apply nth_error_Some. congruence. }
      six; auto.
      * exists p, i, (mkFile (content f) true). repeat split; auto; apply M.
      * intros j X. eapply fine_stable; [exact ST|]. apply F. exact X.
    + apply pair_equal_spec in A; destruct A as [<- <-]. six; auto using stable_refl. exists p. exact M.
  - cbn in P. pose proof P as P0. destruct P as (p & i & f & M & N & Y & C & T).
    rewrite T in A. destruct (ok o).
    + apply pair_equal_spec in A; destruct A as [<- <-]. six; auto; try (intros X; discriminate X).
      * exists p. exact M.
      * apply stable_same. reflexivity.
      * cbn [path past set_path set_temps]. intros j [X|X].
        -- injection X as <-. exists f. repeat split; auto. right. exists c, p, m. destruct M. auto.
        -- exact (F j X).
    + apply pair_equal_spec in A; destruct A as [<- <-].
      six; auto using stable_refl.
      * destruct (path d); [|exists p; exact M]. destruct (amount o =? 0); [exact P0|exists p; exact M].
      * destruct (path d); [|auto]. destruct (amount o =? 0); auto.
  - cbn in P. pose proof P as P0. destruct P as (p & i & f & M & N & Y & C & T). destruct (ok o).
    + apply pair_equal_spec in A; destruct A as [<- <-]. six; auto.
      * apply stable_same. reflexivity.
      * cbn [path past set_path]. intros j [X|X]; [discriminate X|]. exact (F j X).
    + apply pair_equal_spec in A; destruct A as [<- <-]. six; auto using stable_refl. exists p. exact M.
  - cbn in P. destruct P as (p & i & f & M & N & Y & C & T).
    rewrite T in A. destruct (ok o).
    + apply pair_equal_spec in A; destruct A as [<- <-]. six; auto; try (intros X; discriminate X).
      * exists p. exact M.
      * apply stable_same. reflexivity.
      * cbn [path past set_path set_temps]. intros j [X|X].
        -- injection X as <-. exists f. repeat split; auto. right. exists c, p, m. destruct M. auto.
        -- exact (F j X).
    + apply pair_equal_spec in A; destruct A as [<- <-]. six; auto using stable_refl. exists p. exact M.
  - cbn in P. apply pair_equal_spec in A; destruct A as [<- <-]. destruct (ok o); six; auto using stable_refl;
      try (apply stable_same; reflexivity); intros X; discriminate X.
  - apply pair_equal_spec in A; destruct A as [<- <-]. six; auto using stable_refl; try (intros X; discriminate X).
  - apply pair_equal_spec in A; destruct A as [<- <-]. six; auto using stable_refl; try (intros X; discriminate X).
Qed.

Lemma act_idle c p o d q d' :
  act digest load build temp_name c p o d = (q, d') -> holds p = false -> files d' = files d /\ temps d' = temps d.
Proof.
  intros A H. destruct p; try discriminate H; cbn [act] in A; try (apply pair_equal_spec in A; destruct A as [_ <-]; auto; fail).
  destruct (ok o); [destruct (lock d)|]; apply pair_equal_spec in A; destruct A as [_ <-]; auto.
Qed.
Lemma placed_same c p d d' : files d' = files d -> temps d' = temps d -> placed c p d -> placed c p d'.
Proof.
  intros E1 E2. destruct p; cbn; rewrite ?E1, ?E2; auto. apply fine_stable, stable_same. exact E1.
Qed.

Lemma release_files c d : files (release c d) = files d /\ path (release c d) = path d /\ past (release c d) = past d /\
  temps (release c d) = temps d /\ marker (release c d) = marker d.
Proof. unfold release. destruct (lock d) as [h|]; [destruct (h =? c)|]; auto. Qed.
Lemma release_lock c d : lock (release c d) = if match lock d with Some h => h =? c | None => false end then None else lock d.
Proof. unfold release. destruct (lock d) as [h|] eqn:E; [destruct (h =? c)|]; auto. Qed.
Lemma fine_release c d i : fine d i -> fine (release c d) i.
Proof. apply fine_stable, stable_same. apply release_files. Qed.
Lemma placed_release b c p d : placed c p d -> placed c p (release b d).
Proof.
  pose proof (release_files b d) as (E1 & _ & _ & E4 & _).
  destruct p; cbn; rewrite ?E1, ?E4; auto. apply fine_release.
Qed.

Lemma spoil_length junk l : length (spoil junk l) = length l.
Proof. unfold spoil. rewrite map_length, combine_length, seq_length. lia. Qed.
Lemma spoil_nth junk l i f : nth_error l i = Some f -> synced f = true -> nth_error (spoil junk l) i = Some f.
Proof.
  unfold spoil. intros N Y.
  assert (K : forall l b i, nth_error l i = Some f ->
    nth_error (map (fun p => if synced (snd p) then snd p else mkFile (nth (fst p) junk []) false) (combine (seq b (length l)) l)) i = Some f).
  { clear - Y. induction l as [|g l IH]; intros b [|i] N; cbn in *; try discriminate N.
    - injection N as ->. rewrite Y. reflexivity.
    - apply IH. exact N. }
  apply K. exact N.
Qed.
Lemma stable_spoil d back junk t m :
  stable d (mkDisk (spoil junk (files d)) (nth back (path d :: past d) (path d)) (path d :: past d) t m None).
Proof. intros i f N Y. cbn. apply spoil_nth; auto. Qed.

(** ** All events keep it *)

Lemma finished_holds q : finished q = true -> holds q = false.
Proof. destruct q; cbn; auto; discriminate. Qed.
Lemma run_ok s c p o :
  inv s -> nth_error (callers s) c = Some p ->
  inv (mkSystem (upd (callers s) c (fst (act digest load build temp_name c p o (fs s))))
         (if finished (fst (act digest load build temp_name c p o (fs s)))
          then release c (snd (act digest load build temp_name c p o (fs s)))
          else snd (act digest load build temp_name c p o (fs s)))).
Proof.
  intros I N. destruct (act digest load build temp_name c p o (fs s)) as [q d'] eqn:A. cbn [fst snd].
  destruct (act_ok _ _ _ _ _ _ A (i_placed _ I _ _ N) (i_past _ I) (i_holds _ I _ _ N)) as (P & S & F & H & L & HF).
  pose proof (act_idle _ _ _ _ _ _ A) as IDLE.
  assert (LT : c < length (callers s)) by (apply nth_error_Some; congruence).
  assert (OTHER : forall b x, b <> c -> nth_error (callers s) b = Some x -> placed b x d').
  { intros b x D NB. destruct (holds x) eqn:HX.
    - pose proof (i_holds _ I _ _ NB HX) as LB.
      assert (HP : holds p = false).
      { destruct (holds p) eqn:E; auto. pose proof (i_holds _ I _ _ N E). congruence. }
      destruct (IDLE HP) as [E1 E2]. eapply placed_same; eauto. apply (i_placed _ I). exact NB.
    - eapply placed_stable; eauto. apply (i_placed _ I). exact NB. }
  assert (KEEP : forall b x, b <> c -> nth_error (callers s) b = Some x -> holds x = true -> lock d' = Some b).
  { intros b x D NB HX. pose proof (i_holds _ I _ _ NB HX) as LB. destruct L as [L|(L & _)]; congruence. }
  split; cbn [callers fs].
  - intros b LB. destruct (Nat.eq_dec b c) as [->|D].
    + exists q. rewrite nth_error_upd_same; auto. split; auto. destruct (finished q) eqn:FQ.
      * rewrite release_lock in LB. destruct (lock d') as [h|] eqn:E; [|discriminate LB].
        destruct (h =? c) eqn:EQ; [discriminate LB|]. injection LB as ->. rewrite Nat.eqb_refl in EQ. discriminate EQ.
      * destruct L as [L|(_ & _ & L)]; auto.
        rewrite L in LB. destruct (i_lock _ I _ LB) as (p' & N' & HP). rewrite N in N'. injection N' as <-.
        destruct (HF HP) as [|X]; [auto|discriminate X].
    + assert (LB' : lock d' = Some b).
      { destruct (finished q); auto. rewrite release_lock in LB. destruct (lock d') as [h|]; [|discriminate LB].
        destruct (h =? c); [discriminate LB|exact LB]. }
      destruct L as [L|(_ & L & _)]; [|congruence].
      rewrite L in LB'. destruct (i_lock _ I _ LB') as (x & NB & HX). exists x. rewrite nth_error_upd_other; auto.
  - intros b x NB HX. destruct (Nat.eq_dec b c) as [->|D].
    + rewrite nth_error_upd_same in NB by auto. injection NB as <-. destruct (finished q) eqn:FQ; auto.
      rewrite (finished_holds _ FQ) in HX. discriminate HX.
    + rewrite nth_error_upd_other in NB by auto. pose proof (KEEP _ _ D NB HX) as LB.
      destruct (finished q); auto. rewrite release_lock, LB. destruct (b =? c) eqn:E; auto.
      apply Nat.eqb_eq in E. contradiction.
  - intros i X. destruct (finished q); [|apply F; exact X].
    apply fine_release. apply F. destruct (release_files c d') as (_ & E2 & E3 & _). rewrite E2, E3 in X. exact X.
  - intros b x NB. assert (K : placed b x d').
    { destruct (Nat.eq_dec b c) as [->|D].
      - rewrite nth_error_upd_same in NB by auto. injection NB as <-. exact P.
      - rewrite nth_error_upd_other in NB by auto. apply OTHER; auto. }
    destruct (finished q); auto. apply placed_release. exact K.
Qed.

Lemma die_ok s c p : inv s -> nth_error (callers s) c = Some p -> inv (mkSystem (upd (callers s) c Dead) (release c (fs s))).
Proof.
  intros I N. assert (LT : c < length (callers s)) by (apply nth_error_Some; congruence).
  destruct (release_files c (fs s)) as (E1 & E2 & E3 & E4 & _).
  split; cbn [callers fs].
  - intros b LB. rewrite release_lock in LB. destruct (lock (fs s)) as [h|] eqn:E; [|discriminate LB].
    destruct (h =? c) eqn:EQ; [discriminate LB|]. injection LB as ->. apply Nat.eqb_neq in EQ.
    destruct (i_lock _ I _ E) as (x & NB & HX). exists x. rewrite nth_error_upd_other; auto.
  - intros b x NB HX. destruct (Nat.eq_dec b c) as [->|D].
    + rewrite nth_error_upd_same in NB by auto. injection NB as <-. discriminate HX.
    + rewrite nth_error_upd_other in NB by auto. rewrite release_lock, (i_holds _ I _ _ NB HX).
      destruct (b =? c) eqn:EQ; auto. apply Nat.eqb_eq in EQ. contradiction.
  - intros i X. rewrite E2, E3 in X. apply fine_release, (i_past _ I). exact X.
  - intros b x NB. apply placed_release. destruct (Nat.eq_dec b c) as [->|D].
    + rewrite nth_error_upd_same in NB by auto. injection NB as <-. exact Logic.I.
    + rewrite nth_error_upd_other in NB by auto. apply (i_placed _ I). exact NB.
Qed.

Lemma step_ok e s : inv s -> inv (step digest load build temp_name e s).
Proof.
  intros I. destruct e as [c o|c|back junk t m| |]; cbn [step].
  - destruct (nth_error (callers s) c) as [p|] eqn:N; auto. apply run_ok; auto.
  - destruct (nth_error (callers s) c) as [p|] eqn:N; auto.
    destruct p; auto; eapply die_ok; eauto.
  - assert (DEAD : forall c x, nth_error (map (fun p => match p with Returned r => Returned r | _ => Dead end) (callers s)) c = Some x ->
      x = Dead \/ exists r, x = Returned r /\ nth_error (callers s) c = Some x).
    { intros c x NX. rewrite nth_error_map in NX. destruct (nth_error (callers s) c) as [y|] eqn:NY; [|discriminate NX].
      cbn in NX. injection NX as <-. destruct y; auto. right. eauto. }
    split; cbn [callers fs].
    + cbn. intros c X. discriminate X.
    + intros c x NX HX. destruct (DEAD _ _ NX) as [->|(r & -> & _)]; discriminate HX.
    + intros i X. eapply fine_stable; [apply stable_spoil|]. apply (i_past _ I).
      cbn [path past] in X. destruct X as [X|X]; auto.
      destruct (nth_in_or_default back (path (fs s) :: past (fs s)) (path (fs s))) as [K|K].
      * rewrite <- X. exact K.
      * left. rewrite <- X, K. reflexivity.
    + intros c x NX. destruct (DEAD _ _ NX) as [->|(r & -> & NY)]; [exact Logic.I|]. exact (i_placed _ I _ _ NY).
  - split; cbn [callers fs].
    + exact (i_lock _ I).
    + exact (i_holds _ I).
    + cbn [path past set_path]. intros i [X|X]; [discriminate X|]. apply (i_past _ I). exact X.
    + intros c x NX. eapply placed_same; [..|apply (i_placed _ I); exact NX]; reflexivity.
  - split; cbn [callers fs].
    + exact (i_lock _ I).
    + exact (i_holds _ I).
    + exact (i_past _ I).
    + intros c x NX. eapply placed_same; [..|apply (i_placed _ I); exact NX]; reflexivity.
Qed.
Lemma run_inv events s : inv s -> inv (run digest load build temp_name events s).
Proof.
  revert s. unfold run. induction events as [|e rest IH]; intros s I; cbn; auto. apply IH, step_ok, I.
Qed.

Lemma start_ok s : started s -> found = cache_of s -> inv s.
Proof.
  intros (B & L & PA & Y & R) FO. rewrite Forall_forall in B. split.
  - intros c X. congruence.
  - intros c p N HP. apply nth_error_In, B in N. subst p. discriminate HP.
  - rewrite PA. intros i [X|[]]. pose proof (R _ X) as LT. unfold fine.
    destruct (nth_error (files (fs s)) i) as [f|] eqn:N; [|apply nth_error_None in N; lia].
    exists f. repeat split; auto.
    + rewrite Forall_forall in Y. apply Y. eapply nth_error_In; eauto.
    + left. rewrite FO. unfold cache_of. rewrite X, N. reflexivity.
  - intros c p N. apply nth_error_In, B in N. subst p. exact Logic.I.
Qed.
End Inv.
