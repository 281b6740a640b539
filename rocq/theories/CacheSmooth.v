(** Runs in which nothing fails: the library is built at most once. *)
From Coq Require Import List Bool Arith Lia.
From Verif Require Import ListUtil CacheModel CacheSpec CacheProofs.
Import ListNotations.
Local Opaque wait_limit.

Section Smooth.
Variable digest : bytes -> bytes.
Variable load : bytes -> option nat.
Variable build : nat -> capture.
Variable temp_name : nat -> nat.
Variable found : option bytes.
Hypothesis digest_len : forall p, length (digest p) = 32.
Hypothesis builds : forall c, exists p m, build c = Encoded p /\ load p = Some m.
Variable t0 : list (nat * nat).
Hypothesis free : forall c, temp (temp_name c) t0 = None.

Definition ready (o : option bytes) : option nat :=
  match o with Some b => load_bytes digest load b | None => None end.

Definition writing (p : place) : bool := match p with Write _ _ _ | Sync _ _ | Rename _ => true | _ => false end.
Definition building (p : place) : bool :=
  match p with
  | RemoveBad | Capture | Validate _ | CreateTemp _ _ | Write _ _ _ | Sync _ _ | Rename _ => true
  | _ => false
  end.
Definition calm (p : place) : bool :=
  match p with Mark | Unlink _ | RenameAgain _ | Clean _ | Dead => false | _ => true end.

Record J (s : system) : Prop := {
  j_marker : marker (fs s) = false;
  j_temps : forall c p, nth_error (callers s) c = Some p -> writing p = true -> exists i, temps (fs s) = (temp_name c, i) :: t0;
  j_temps0 : (forall c p, nth_error (callers s) c = Some p -> writing p = false) -> temps (fs s) = t0;
  j_calm : forall c p, nth_error (callers s) c = Some p -> calm p = true;
  j_open : forall c i, nth_error (callers s) c = Some (Opened Locked i) -> path (fs s) = Some i;
  j_ready : forall m, ready found = Some m \/ (exists c, nth_error (callers s) c = Some (Returned (Built m))) ->
    ready (cache_of s) = Some m;
  j_excl : forall c p, nth_error (callers s) c = Some p -> building p = true ->
    ready found = None /\ forall d m, nth_error (callers s) d <> Some (Returned (Built m));
  j_once : forall c m, nth_error (callers s) c = Some (Returned (Built m)) ->
    ready found = None /\ forall d m', nth_error (callers s) d = Some (Returned (Built m')) -> d = c;
  j_from : forall i f m, path (fs s) = Some i \/ (exists c w, nth_error (callers s) c = Some (Opened w i)) ->
    nth_error (files (fs s)) i = Some f -> load_bytes digest load (content f) = Some m ->
    ready found = Some m \/ exists c, nth_error (callers s) c = Some (Returned (Built m));
  j_loaded : forall c m, nth_error (callers s) c = Some (Returned (Loaded m)) ->
    ready found = Some m \/ exists d, nth_error (callers s) d = Some (Returned (Built m))
}.

Lemma load_file p : load_bytes digest load (file_of digest p) = load p.
Proof. unfold load_bytes. rewrite checked_file by auto. reflexivity. Qed.

Definition built_in (cs : list place) (m : nat) : Prop := exists c, nth_error cs c = Some (Returned (Built m)).

(** A step that leaves the files alone. *)
Lemma quiet s c p q d' :
  J s -> nth_error (callers s) c = Some p ->
  files d' = files (fs s) -> path d' = path (fs s) -> temps d' = temps (fs s) -> marker d' = marker (fs s) ->
  (forall m, p <> Returned (Built m)) -> writing p = false ->
  (forall m, q <> Returned (Built m)) -> writing q = false -> calm q = true ->
  (forall w i, q = Opened w i -> path (fs s) = Some i) ->
  (building q = true -> ready found = None /\ forall d m, nth_error (callers s) d <> Some (Returned (Built m))) ->
  (forall m, q = Returned (Loaded m) -> ready found = Some m \/ built_in (callers s) m) ->
  J (mkSystem (upd (callers s) c q) d').
Proof.
  intros I N E1 E2 E3 E4 PB WP QB WQ CQ OQ BQ LQ.
  assert (LT : c < length (callers s)) by (apply nth_error_Some; congruence).
  assert (BU : forall d m, nth_error (upd (callers s) c q) d = Some (Returned (Built m)) <->
                nth_error (callers s) d = Some (Returned (Built m))).
  { intros d m. destruct (Nat.eq_dec d c) as [->|D].
    - rewrite nth_error_upd_same by auto. split; intros X.
      + injection X as ->. exfalso. exact (QB m eq_refl).
      + rewrite N in X. injection X as ->. exfalso. exact (PB m eq_refl).
    - rewrite nth_error_upd_other by auto. reflexivity. }
  assert (CASE : forall d x, nth_error (upd (callers s) c q) d = Some x -> x = q \/ nth_error (callers s) d = Some x).
  { intros d x X. destruct (Nat.eq_dec d c) as [->|D].
    - rewrite nth_error_upd_same in X by auto. injection X as ->. auto.
    - rewrite nth_error_upd_other in X by auto. auto. }
  assert (CO : cache_of (mkSystem (upd (callers s) c q) d') = cache_of s).
  { unfold cache_of. cbn [fs]. rewrite E1, E2. reflexivity. }
  split; cbn [callers fs].
  - rewrite E4. exact (j_marker _ I).
  - intros d x X W. destruct (Nat.eq_dec d c) as [->|D].
    + rewrite nth_error_upd_same in X by auto. injection X as ->. congruence.
    + rewrite nth_error_upd_other in X by auto. rewrite E3. exact (j_temps _ I _ _ X W).
  - intros ALL. rewrite E3. apply (j_temps0 _ I). intros d x X. destruct (Nat.eq_dec d c) as [->|D].
    + congruence.
    + apply (ALL d). rewrite nth_error_upd_other by auto. exact X.
  - intros d x X. destruct (CASE _ _ X) as [->|Y]; auto. exact (j_calm _ I _ _ Y).
  - intros d i X. rewrite E2. destruct (CASE _ _ X) as [Y|Y]; [|exact (j_open _ I _ _ Y)].
    eapply OQ. symmetry. exact Y.
  - intros m X. rewrite CO. apply (j_ready _ I). destruct X as [X|(d & X)]; auto. right. exists d. apply BU. exact X.
  - intros d x X BX. assert (K : ready found = None /\ forall d m, nth_error (callers s) d <> Some (Returned (Built m))).
    { destruct (CASE _ _ X) as [->|Y]; auto. exact (j_excl _ I _ _ Y BX). }
    destruct K as [K1 K2]. split; auto. intros b m Y. apply BU in Y. exact (K2 _ _ Y).
  - intros d m X. apply BU in X. destruct (j_once _ I _ _ X) as [K1 K2]. split; auto.
    intros b m' Y. apply BU in Y. exact (K2 _ _ Y).
  - intros i f m X NF L. rewrite E1 in NF.
    assert (K : ready found = Some m \/ exists c, nth_error (callers s) c = Some (Returned (Built m))).
    { apply (j_from _ I i f m); auto. destruct X as [X|(d & w & X)]; [left; congruence|].
      destruct (CASE _ _ X) as [Y|Y]; [left; eapply OQ; symmetry; exact Y|right; eauto]. }
    destruct K as [K|(d & K)]; auto. right. exists d. apply BU. exact K.
  - intros d m X.
    assert (K : ready found = Some m \/ exists c, nth_error (callers s) c = Some (Returned (Built m))).
    { destruct (CASE _ _ X) as [Y|Y]; [apply LQ; auto|exact (j_loaded _ I _ _ Y)]. }
    destruct K as [K|(b & K)]; auto. right. exists b. apply BU. exact K.
Qed.

Lemma without_t0 c : without (temp_name c) t0 = t0.
Proof.
  pose proof (free c) as F. revert F. generalize t0. induction t1 as [|[a i] l IH]; cbn; auto.
  destruct (temp_name c =? a) eqn:E; [discriminate|]. intros F.
  rewrite Nat.eqb_sym, E. cbn. f_equal. apply IH. exact F.
Qed.

Lemma release_J c s d : J (mkSystem s d) -> J (mkSystem s (release c d)).
Proof.
  intros I. destruct (release_files c d) as (E1 & E2 & E3 & E4 & E5).
  assert (CO : cache_of (mkSystem s (release c d)) = cache_of (mkSystem s d)).
  { unfold cache_of. cbn [fs]. rewrite E1, E2. reflexivity. }
  destruct I as [I1 I2 I3 I4 I5 I6 I7 I8 I9 I10]. cbn [callers fs] in *.
  split; cbn [callers fs]; rewrite ?E1, ?E2, ?E3, ?E4, ?E5, ?CO; auto.
Qed.

Lemma alone s c p : inv digest load build temp_name found s -> nth_error (callers s) c = Some p -> holds p = true ->
  forall d x, nth_error (callers s) d = Some x -> d <> c -> holds x = false.
Proof.
  intros I N H d x X D. destruct (holds x) eqn:E; auto.
  pose proof (i_holds _ _ _ _ _ _ I _ _ N H). pose proof (i_holds _ _ _ _ _ _ I _ _ X E). congruence.
Qed.
Lemma building_holds p : building p = true -> holds p = true.
Proof. destruct p; cbn; auto; discriminate. Qed.
Lemma writing_building p : writing p = true -> building p = true.
Proof. destruct p; cbn; auto; discriminate. Qed.

(** A step of the builder [c] from [p] to [q], both before the end. *)
Lemma builder_step s c p q d' :
  inv digest load build temp_name found s -> J s -> nth_error (callers s) c = Some p ->
  building p = true -> building q = true -> marker d' = marker (fs s) -> stable (fs s) d' ->
  (path d' = path (fs s) \/ path d' = None) ->
  (if writing q then exists i, temps d' = (temp_name c, i) :: t0 else temps d' = t0) ->
  J (mkSystem (upd (callers s) c q) d').
Proof.
  intros IV I N BP BQ E4 ST PT TQ.
  assert (LT : c < length (callers s)) by (apply nth_error_Some; congruence).
  pose proof (alone _ _ _ IV N (building_holds _ BP)) as AL.
  destruct (j_excl _ I _ _ N BP) as [X1 X2].
  assert (NB : forall d m, nth_error (upd (callers s) c q) d <> Some (Returned (Built m))).
  { intros d m X. destruct (Nat.eq_dec d c) as [->|D].
    - rewrite nth_error_upd_same in X by auto. injection X as ->. discriminate BQ.
    - rewrite nth_error_upd_other in X by auto. exact (X2 _ _ X). }
  assert (CASE : forall d x, nth_error (upd (callers s) c q) d = Some x -> d = c /\ x = q \/ d <> c /\ nth_error (callers s) d = Some x).
  { intros d x X. destruct (Nat.eq_dec d c) as [->|D].
    - rewrite nth_error_upd_same in X by auto. injection X as ->. auto.
    - rewrite nth_error_upd_other in X by auto. auto. }
  split; cbn [callers fs].
  - rewrite E4. exact (j_marker _ I).
  - intros d x X W. destruct (CASE _ _ X) as [(-> & ->)|(D & Y)]; [rewrite W in TQ; exact TQ|].
    pose proof (AL _ _ Y D) as H. rewrite (building_holds _ (writing_building _ W)) in H. discriminate H.
  - intros ALL. assert (W : writing q = false) by (apply (ALL c); apply nth_error_upd_same; auto).
    rewrite W in TQ. exact TQ.
  - intros d x X. destruct (CASE _ _ X) as [(-> & ->)|(D & Y)]; [|exact (j_calm _ I _ _ Y)].
    destruct q; cbn in *; auto; discriminate BQ.
  - intros d i X. destruct (CASE _ _ X) as [(_ & Z)|(D & Y)]; [rewrite <- Z in BQ; discriminate BQ|].
    pose proof (AL _ _ Y D) as H. discriminate H.
  - intros m [X|(d & X)]; [congruence|]. exfalso. exact (NB _ _ X).
  - intros d x X BX. auto.
  - intros d m X. exfalso. exact (NB _ _ X).
  - intros i f m X NF L.
    assert (OLD : path (fs s) = Some i \/ exists c w, nth_error (callers s) c = Some (Opened w i)).
    { destruct X as [X|(d & w & X)]; [left; destruct PT; congruence|].
      destruct (CASE _ _ X) as [(_ & Z)|(D & Y)]; [rewrite <- Z in BQ; discriminate BQ|eauto]. }
    assert (F : exists g, nth_error (files (fs s)) i = Some g /\ synced g = true).
    { destruct OLD as [O|(d & w & O)].
      - destruct (i_past _ _ _ _ _ _ IV i (or_introl O)) as (g & G & Y & _). eauto.
      - destruct (i_placed _ _ _ _ _ _ IV _ _ O) as (g & G & Y & _). eauto. }
    destruct F as (g & G & Y). pose proof (ST _ _ G Y) as G'. rewrite NF in G'. injection G' as ->.
    destruct (j_from _ I _ _ _ OLD G L) as [K|(d & K)]; auto. exfalso. exact (X2 _ _ K).
  - intros d m X. destruct (CASE _ _ X) as [(_ & Z)|(D & Y)]; [rewrite <- Z in BQ; discriminate BQ|].
    destruct (j_loaded _ I _ _ Y) as [K|(b & K)]; auto. exfalso. exact (X2 _ _ K).
Qed.

Lemma smooth_step s c p o :
  inv digest load build temp_name found s -> J s -> nth_error (callers s) c = Some p -> ok o = true ->
  let q := act digest load build temp_name c p o (fs s) in
  J (mkSystem (upd (callers s) c (fst q)) (snd q)).
Proof.
  intros IV I N OK q. subst q.
  assert (LT : c < length (callers s)) by (apply nth_error_Some; congruence).
  pose proof (i_placed _ _ _ _ _ _ IV _ _ N) as PL.
  pose proof (j_calm _ I _ _ N) as CA.
  assert (NB : ready (cache_of s) = None -> ready found = None /\ forall d m, nth_error (callers s) d <> Some (Returned (Built m))).
  { intros R. split.
    - destruct (ready found) as [m|] eqn:E; [|reflexivity].
      pose proof (j_ready _ I m (or_introl E)) as K. congruence.
    - intros d m X. pose proof (j_ready _ I m (or_intror (ex_intro _ d X))) as K. congruence. }
  destruct p; cbn [act]; rewrite ?OK; try discriminate CA; cbn [fst snd].
  - apply (quiet s c Begin); auto; intros; discriminate.
  - destruct (path (fs s)) as [i|] eqn:P.
    + apply (quiet s c (Load w)); auto; intros; try discriminate; try congruence.
    + destruct w; cbn [after_load]; eapply quiet; eauto; intros; try discriminate.
      apply NB. unfold cache_of. rewrite P. reflexivity.
  - cbn in PL. destruct PL as (f & NF & Y & W). rewrite NF.
    destruct (load_bytes digest load (content f)) as [m|] eqn:L.
    + cbn [after_load]. apply (quiet s c (Opened w i)); auto; intros; try discriminate.
      injection H as <-. eapply (j_from _ I); eauto.
    + destruct w; cbn [after_load]; eapply quiet; eauto; intros; try discriminate.
      apply NB. unfold cache_of. rewrite (j_open _ I _ _ N), NF. exact L.
  - rewrite (j_marker _ I). cbn [andb]. eapply quiet; eauto; intros; discriminate.
  - eapply quiet; eauto; intros; discriminate.
  - eapply quiet; eauto; intros; discriminate.
  - rewrite (j_marker _ I). cbn [andb]. eapply quiet; eauto; intros; discriminate.
  - destruct (lock (fs s)) eqn:LK; cbn [fst snd].
    + destruct (wait_limit <=? waited); eapply quiet; eauto; intros; discriminate.
    + eapply quiet; eauto; intros; discriminate.
  - eapply quiet; eauto; intros; discriminate.
  - eapply builder_step; eauto.
    + apply stable_same. reflexivity.
    + cbn. apply (j_temps0 _ I). intros d x X. destruct (Nat.eq_dec d c) as [->|D]; [rewrite N in X; injection X as <-; reflexivity|].
      pose proof (alone _ _ _ IV N eq_refl _ _ X D) as H. destruct (writing x) eqn:E; auto.
      rewrite (building_holds _ (writing_building _ E)) in H. discriminate H.
  - destruct (builds c) as (pl & m & B & L). rewrite B. eapply builder_step; eauto.
    + apply stable_refl.
    + cbn. apply (j_temps0 _ I). intros d x X. destruct (Nat.eq_dec d c) as [->|D]; [rewrite N in X; injection X as <-; reflexivity|].
      pose proof (alone _ _ _ IV N eq_refl _ _ X D) as H. destruct (writing x) eqn:E; auto.
      rewrite (building_holds _ (writing_building _ E)) in H. discriminate H.
  - destruct (builds c) as (pl & m & B & L). cbn in PL. assert (payload = pl) by congruence. subst pl. rewrite L.
    eapply builder_step; eauto.
    + apply stable_refl.
    + cbn. apply (j_temps0 _ I). intros d x X. destruct (Nat.eq_dec d c) as [->|D]; [rewrite N in X; injection X as <-; reflexivity|].
      pose proof (alone _ _ _ IV N eq_refl _ _ X D) as H. destruct (writing x) eqn:E; auto.
      rewrite (building_holds _ (writing_building _ E)) in H. discriminate H.
  - assert (T : temps (fs s) = t0).
    { apply (j_temps0 _ I). intros d x X. destruct (Nat.eq_dec d c) as [->|D]; [rewrite N in X; injection X as <-; reflexivity|].
      pose proof (alone _ _ _ IV N eq_refl _ _ X D) as H. destruct (writing x) eqn:E; auto.
      rewrite (building_holds _ (writing_building _ E)) in H. discriminate H. }
    rewrite T, free. cbn [fst snd]. eapply builder_step; eauto.
    + eapply stable_app. reflexivity.
    + cbn. eauto.
  - cbn in PL. destruct PL as (pl & f & M & NF & Y & C & T). rewrite NF.
    eapply builder_step; eauto.
    + destruct (skipn _ rest); reflexivity.
    + eapply stable_upd; [exact NF|exact Y|reflexivity].
    + replace (writing match skipn (S (amount o)) rest with [] => Sync i m | n0 :: l => Write (n0 :: l) i m end) with true
        by (destruct (skipn _ rest); reflexivity).
      cbn. exact (j_temps _ I _ _ N eq_refl).
  - cbn in PL. destruct PL as (pl & f & M & NF & Y & C & T). rewrite NF.
    eapply builder_step; eauto.
    + eapply stable_upd; [exact NF|exact Y|reflexivity].
    + cbn. exact (j_temps _ I _ _ N eq_refl).
  - (* published *)
    cbn in PL. destruct PL as (pl & i & f & (M1 & M2) & NF & Y & C & T). rewrite T. cbn [fst snd].
    destruct (j_temps _ I _ _ N eq_refl) as (i' & TT).
    destruct (j_excl _ I _ _ N eq_refl) as [X1 X2].
    pose proof (alone _ _ _ IV N eq_refl) as AL.
    assert (W0 : without (temp_name c) (temps (fs s)) = t0).
    { rewrite TT. unfold without. cbn [filter fst]. rewrite Nat.eqb_refl. cbn [negb]. apply without_t0. }
    assert (BU : forall d m', nth_error (upd (callers s) c (Returned (Built m))) d = Some (Returned (Built m')) -> d = c /\ m' = m).
    { intros d m' X. destruct (Nat.eq_dec d c) as [->|D].
      - rewrite nth_error_upd_same in X by auto. injection X as ->. auto.
      - rewrite nth_error_upd_other in X by auto. exfalso. exact (X2 _ _ X). }
    assert (ME : nth_error (upd (callers s) c (Returned (Built m))) c = Some (Returned (Built m)))
      by (apply nth_error_upd_same; auto).
    assert (CASE : forall d x, nth_error (upd (callers s) c (Returned (Built m))) d = Some x ->
       d = c /\ x = Returned (Built m) \/ d <> c /\ nth_error (callers s) d = Some x).
    { intros d x X. destruct (Nat.eq_dec d c) as [->|D].
      - rewrite nth_error_upd_same in X by auto. injection X as ->. auto.
      - rewrite nth_error_upd_other in X by auto. auto. }
    split; cbn [callers fs set_path set_temps files path temps marker].
    + exact (j_marker _ I).
    + intros d x X W. destruct (CASE _ _ X) as [(-> & ->)|(D & Z)]; [discriminate W|].
      pose proof (AL _ _ Z D) as H. rewrite (building_holds _ (writing_building _ W)) in H. discriminate H.
    + intros _. exact W0.
    + intros d x X. destruct (CASE _ _ X) as [(-> & ->)|(D & Z)]; [reflexivity|exact (j_calm _ I _ _ Z)].
    + intros d j X. destruct (CASE _ _ X) as [(_ & Z)|(D & Z)]; [discriminate Z|].
      pose proof (AL _ _ Z D) as H. discriminate H.
    + intros m' X. assert (m' = m) by (destruct X as [X|(d & X)]; [congruence|apply BU in X; tauto]). subst m'.
      unfold cache_of. cbn. rewrite NF. cbn. rewrite C, load_file. exact M2.
    + intros d x X BX. destruct (CASE _ _ X) as [(-> & ->)|(D & Z)]; [discriminate BX|].
      pose proof (AL _ _ Z D) as H. rewrite (building_holds _ BX) in H. discriminate H.
    + intros d m' X. apply BU in X. destruct X as [-> ->]. split; auto. intros b m'' Z. apply BU in Z. tauto.
    + intros j g m' X NG L. destruct X as [X|(d & w & X)].
      * injection X as <-. rewrite NF in NG. injection NG as <-. rewrite C, load_file, M2 in L. injection L as <-. eauto.
      * destruct (CASE _ _ X) as [(_ & Z)|(D & Z)]; [discriminate Z|].
        destruct (j_from _ I j g m') as [K|(b & K)]; eauto. exfalso. exact (X2 _ _ K).
    + intros d m' X. destruct (CASE _ _ X) as [(_ & Z)|(D & Z)]; [discriminate Z|].
      destruct (j_loaded _ I _ _ Z) as [K|(b & K)]; auto. exfalso. exact (X2 _ _ K).
  - assert (E : mkSystem (upd (callers s) c (Returned r)) (fs s) = s).
    { assert (U : forall l c (r : place), nth_error l c = Some r -> upd l c r = l).
      { clear. induction l as [|x l IH]; intros [|c] r N; cbn in *; try discriminate N; auto.
        - injection N as ->. reflexivity.
        - f_equal. apply IH. exact N. }
      rewrite (U _ _ _ N). destruct s. reflexivity. }
    rewrite E. exact I.
Qed.

Lemma smooth_run events : forall s,
  inv digest load build temp_name found s -> J s -> Forall smooth events -> J (run digest load build temp_name events s).
Proof.
  induction events as [|e rest IH]; intros s IV I SM; auto.
  inversion SM as [|? ? SE SR]; subst. cbn. apply IH; auto.
  - apply step_ok; auto.
  - destruct e as [c o| | | |]; cbn in SE; try contradiction. cbn [step].
    destruct (nth_error (callers s) c) as [p|] eqn:N; auto.
    pose proof (smooth_step _ _ _ _ IV I N SE) as K. cbv zeta in K.
    destruct (finished (fst (act digest load build temp_name c p o (fs s)))); auto.
    apply release_J. exact K.
Qed.

Lemma start_J s : started s -> found = cache_of s -> marker (fs s) = false -> temps (fs s) = t0 -> J s.
Proof.
  intros ST FO MK TE. destruct ST as (B & L & PA & Y & R). rewrite Forall_forall in B.
  assert (BG : forall c p, nth_error (callers s) c = Some p -> p = Begin).
  { intros c p N. apply B. eapply nth_error_In; eauto. }
  split; auto.
  - intros c p N W. apply BG in N. subst p. discriminate W.
  - intros c p N. apply BG in N. subst p. reflexivity.
  - intros c i N. apply BG in N. discriminate N.
  - intros m [X|(c & X)]; [congruence|]. apply BG in X. discriminate X.
  - intros c p N W. apply BG in N. subst p. discriminate W.
  - intros c m N. apply BG in N. discriminate N.
  - intros i f m [X|(c & w & X)] NF LB; [|apply BG in X; discriminate X].
    left. rewrite FO. unfold cache_of. rewrite X, NF. exact LB.
  - intros c m N. apply BG in N. discriminate N.
Qed.
End Smooth.
