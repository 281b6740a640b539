(** How long callers wait before they give up, and temporary files left behind. *)
From Coq Require Import List Bool Arith Lia.
From Verif Require Import ListUtil CacheModel CacheSpec CacheProofs CacheSmooth.
Import ListNotations.
Local Opaque wait_limit.

Section Tidy.
Variable digest : bytes -> bytes.
Variable load : bytes -> option nat.
Variable build : nat -> capture.
Variable temp_name : nat -> nat.

(** ** Temporary files *)

Definition owns (p : place) : bool :=
  match p with Write _ _ _ | Sync _ _ | Rename _ | Unlink _ | RenameAgain _ | Clean _ => true | _ => false end.
Definition accounted (t0 : list (nat * nat)) (s : system) : Prop :=
  forall x, In x (temps (fs s)) ->
    In x t0 \/ exists c p, nth_error (callers s) c = Some p /\ owns p = true /\ fst x = temp_name c.

Lemma in_without x n l : In x (without n l) -> In x l /\ fst x <> n.
Proof.
  unfold without. intros H. apply filter_In in H. destruct H as [H1 H2]. split; auto.
  intros E. rewrite E, Nat.eqb_refl in H2. discriminate H2.
Qed.
(** What a step of [c] does to the temporary files. *)
Lemma act_temps c p o d q d' :
  act digest load build temp_name c p o d = (q, d') -> (forall m, p = Clean m -> ok o = true) ->
  forall x, In x (temps d') ->
    (In x (temps d) /\ (fst x <> temp_name c \/ owns p = false)) \/ (owns q = true /\ (In x (temps d) \/ fst x = temp_name c)).
Proof.
  intros A CL x H.
  destruct p; cbn [act] in A;
    try (apply pair_equal_spec in A; destruct A as [_ <-]; left; split; [|right; reflexivity]; destruct (ok o); exact H).
  - destruct (ok o); [destruct (lock d)|]; apply pair_equal_spec in A; destruct A as [_ <-]; auto.
  - destruct (temp (temp_name c) (temps d)); [|destruct (ok o)]; apply pair_equal_spec in A; destruct A as [<- <-]; auto.
    cbn in H. destruct H as [<-|H]; auto.
  - right. destruct (ok o); apply pair_equal_spec in A; destruct A as [<- <-]; auto.
    split; [destruct (skipn _ rest); reflexivity|]. destruct (nth_error (files d) i); auto.
  - right. destruct (ok o); apply pair_equal_spec in A; destruct A as [<- <-]; auto.
    split; [reflexivity|]. destruct (nth_error (files d) i); auto.
  - destruct (ok o), (temp (temp_name c) (temps d)); apply pair_equal_spec in A; destruct A as [<- <-]; auto;
      try (right; split; [destruct (path d); [destruct (amount o =? 0)|]; reflexivity|left; exact H]; fail).
    cbn in H. apply in_without in H. left. tauto.
  - right. destruct (ok o); apply pair_equal_spec in A; destruct A as [<- <-]; auto.
  - destruct (ok o), (temp (temp_name c) (temps d)); apply pair_equal_spec in A; destruct A as [<- <-]; auto.
    cbn in H. apply in_without in H. left. tauto.
  - rewrite (CL m eq_refl) in A. apply pair_equal_spec in A. destruct A as [<- <-].
    cbn in H. apply in_without in H. left. tauto.
Qed.

Lemma tidy_step t0 e s rest :
  tidy digest load build temp_name (e :: rest) s -> accounted t0 s -> accounted t0 (step digest load build temp_name e s).
Proof.
  intros [E _] I. destruct e as [c o|c| | |]; try contradiction; cbn [step].
  - destruct (nth_error (callers s) c) as [p|] eqn:N; auto.
    destruct (act digest load build temp_name c p o (fs s)) as [q d'] eqn:A. cbn [fst snd].
    intros x X. cbn [fs callers] in *.
    assert (LT : c < length (callers s)) by (apply nth_error_Some; congruence).
    assert (X' : In x (temps d')).
    { destruct (finished q); auto. destruct (release_files c d') as (_ & _ & _ & E4 & _). rewrite E4 in X. exact X. }
    assert (CL : forall m, p = Clean m -> ok o = true) by (intros m ->; exact (E m eq_refl)).
    assert (OLD : forall b y, b <> c -> nth_error (callers s) b = Some y -> owns y = true -> fst x = temp_name b ->
      exists c0 p0, nth_error (upd (callers s) c q) c0 = Some p0 /\ owns p0 = true /\ fst x = temp_name c0).
    { intros b y D NB OY FX. exists b, y. rewrite nth_error_upd_other; auto. }
    assert (NEW : owns q = true -> fst x = temp_name c ->
      exists c0 p0, nth_error (upd (callers s) c q) c0 = Some p0 /\ owns p0 = true /\ fst x = temp_name c0).
    { intros OQ FX. exists c, q. rewrite nth_error_upd_same; auto. }
    destruct (act_temps _ _ _ _ _ _ A CL _ X') as [(XO & D)|(OQ & D)].
    + destruct (I _ XO) as [K|(b & y & NB & OY & FX)]; auto. right.
      destruct (Nat.eq_dec b c) as [->|DB]; [|eauto].
      rewrite N in NB. injection NB as <-. destruct D as [D|D]; congruence.
    + destruct D as [XO|FX]; [|auto].
      destruct (I _ XO) as [K|(b & y & NB & OY & FX)]; auto. right.
      destruct (Nat.eq_dec b c) as [->|DB]; eauto.
  - intros x X. apply I. exact X.
  - intros x X. apply I. exact X.
Qed.
Lemma tidy_run t0 events : forall s,
  tidy digest load build temp_name events s -> accounted t0 s -> accounted t0 (run digest load build temp_name events s).
Proof.
  induction events as [|e rest IH]; intros s T I; auto. cbn. apply IH.
  - apply T.
  - eapply tidy_step; eauto.
Qed.

(** ** Patience *)

Definition settled (p : place) : bool :=
  match p with
  | Load Locked | Opened Locked _ | RemoveBad | Capture | Validate _ | CreateTemp _ _ | Write _ _ _ | Sync _ _ | Rename _
  | Returned (Loaded _) | Returned (Built _) => true
  | _ => false
  end.
Definition waited_at (p : place) : nat :=
  match p with
  | Load (Poll w) | Opened (Poll w) _ | Loop w | TryLock w | Sleep w => w
  | _ => 0
  end.

Variable found : option bytes.
Hypothesis digest_len : forall p, length (digest p) = 32.
Hypothesis builds : forall c, exists p m, build c = Encoded p /\ load p = Some m.
Variable t0 : list (nat * nat).
Hypothesis free : forall c, temp (temp_name c) t0 = None.

Lemma patient_step s c p o :
  inv digest load build temp_name found s -> J digest load temp_name found t0 s ->
  nth_error (callers s) c = Some p -> ok o = true -> p <> Returned Compiled ->
  let q := fst (act digest load build temp_name c p o (fs s)) in
  (settled p = true -> settled q = true) /\
  (settled p = false ->
    (q = Returned Compiled -> wait_limit <= waited_at p) /\
    (settled q = false -> q <> Returned Compiled ->
       waited_at q <= waited_at p + match p with Sleep _ => 20 + amount o | _ => 0 end)).
Proof.
  intros IV I N OK NC q. subst q.
  pose proof (i_placed _ _ _ _ _ _ IV _ _ N) as PL.
  pose proof (j_calm _ _ _ _ _ _ I _ _ N) as CA.
  destruct p; cbn [act]; rewrite ?OK; try discriminate CA; cbn [fst snd settled waited_at].
  - repeat split; try discriminate; cbn; lia.
  - destruct (path (fs s)); destruct w; cbn; repeat split; try discriminate; cbn; auto; lia.
  - destruct (match nth_error (files (fs s)) i with Some _ => _ | None => _ end) as [[x|]|]; destruct w; cbn; repeat split; try discriminate; auto; lia.
  - rewrite (j_marker _ _ _ _ _ _ I). cbn. repeat split; try discriminate; auto; lia.
  - cbn. repeat split; try discriminate; auto; lia.
  - cbn. repeat split; try discriminate; auto; lia.
  - rewrite (j_marker _ _ _ _ _ _ I). cbn. repeat split; try discriminate; auto; lia.
  - destruct (lock (fs s)); cbn [fst].
    + destruct (wait_limit <=? waited) eqn:E.
      * apply Nat.leb_le in E. repeat split; auto; try discriminate. intros _ X. contradiction.
      * repeat split; try discriminate. cbn. lia.
    + repeat split; try discriminate; auto.
  - repeat split; try discriminate; cbn. unfold poll_interval. lia.
  - repeat split; discriminate.
  - destruct (builds c) as (pl & m & B & L). rewrite B. repeat split; discriminate.
  - destruct (builds c) as (pl & m & B & L). cbn in PL. assert (payload = pl) by congruence. subst pl. rewrite L.
    repeat split; discriminate.
  - assert (T : temps (fs s) = t0).
    { apply (j_temps0 _ _ _ _ _ _ I). intros d x X. destruct (Nat.eq_dec d c) as [->|D]; [rewrite N in X; injection X as <-; reflexivity|].
      pose proof (alone _ _ _ _ _ _ _ _ IV N eq_refl _ _ X D) as H. destruct (writing x) eqn:E; auto.
      rewrite (building_holds _ (writing_building _ E)) in H. discriminate H. }
    rewrite T, free. cbn. repeat split; discriminate.
  - destruct (skipn _ rest); repeat split; discriminate.
  - repeat split; discriminate.
  - cbn in PL. destruct PL as (pl & i & f & M & NF & Y & C & T). rewrite T. cbn. repeat split; discriminate.
  - repeat split; auto; try discriminate; try congruence; try lia.
Qed.

Lemma patient c events : forall s p,
  inv digest load build temp_name found s -> J digest load temp_name found t0 s ->
  Forall smooth events -> nth_error (callers s) c = Some p -> p <> Returned Compiled ->
  nth_error (callers (run digest load build temp_name events s)) c = Some (Returned Compiled) ->
  settled p = false /\ wait_limit <= waited_at p + slept digest load build temp_name c events s.
Proof.
  induction events as [|e rest IH]; intros s p IV I SM N NC END.
  - cbn in END. rewrite N in END. injection END as ->. contradiction.
  - inversion SM as [|? ? SE SR]; subst. destruct e as [d o| | | |]; try contradiction. cbn in SE.
    assert (IV' : inv digest load build temp_name found (step digest load build temp_name (Run d o) s)) by (apply step_ok; auto).
    assert (I' : J digest load temp_name found t0 (step digest load build temp_name (Run d o) s)).
    { apply (smooth_run digest load build temp_name found digest_len builds t0 free [Run d o] s IV I). constructor; auto. }
    change (nth_error (callers (run digest load build temp_name rest (step digest load build temp_name (Run d o) s))) c = Some (Returned Compiled)) in END.
    cbn [slept]. destruct (d =? c) eqn:EQ.
    + apply Nat.eqb_eq in EQ. subst d. rewrite N.
      pose proof (patient_step _ _ _ _ IV I N SE NC) as K. cbv zeta in K. destruct K as [K1 K2].
      set (q := fst (act digest load build temp_name c p o (fs s))) in *.
      assert (N' : nth_error (callers (step digest load build temp_name (Run c o) s)) c = Some q).
      { cbn [step]. rewrite N. cbn [callers]. apply nth_error_upd_same. apply nth_error_Some. congruence. }
      assert (DEC : q = Returned Compiled \/ q <> Returned Compiled).
      { clear. destruct q; try (right; discriminate). destruct r; [left; reflexivity|right; discriminate|right; discriminate]. }
      destruct DEC as [QC|QC].
      * destruct (settled p) eqn:SP; [rewrite QC in K1; discriminate (K1 eq_refl)|].
        destruct (K2 eq_refl) as [K3 _]. specialize (K3 QC). split; auto. lia.
      * destruct (IH _ _ IV' I' SR N' QC END) as [SQ L].
        destruct (settled p) eqn:SP; [rewrite (K1 eq_refl) in SQ; discriminate SQ|].
        destruct (K2 eq_refl) as [_ K3]. specialize (K3 SQ QC). split; auto.
        destruct p; lia.
    + apply Nat.eqb_neq in EQ. apply IH; auto.
      cbn [step]. destruct (nth_error (callers s) d); auto. cbn [callers]. rewrite nth_error_upd_other; auto.
Qed.
End Tidy.
