(** The invariant through cascading recompilation. *)
From Coq Require Import List Bool Arith ZArith Lia.
From Verif Require Import ListUtil GraphModel GraphSpec GraphProofs SessionModel SessionSpec SessionProofs SessionInv.
Import ListNotations.

(** ** Taking the uses of the dependents to recompile *)
Definition taken (ms ms' : list entry) (lst : list (nat * src_info)) : Prop := length ms' = length ms /\
  forall i, nth_error ms' i = nth_error ms i \/ exists e s, In (i, s) lst /\ nth_error ms i = Some e /\ stale e = true /\ src e = Some s /\ nth_error ms' i = Some (take_uses e s).

Lemma take_stale_ok : forall ids ms, NoDup ids -> exists ms' lst, take_stale ids ms = (ms', lst) /\ taken ms ms' lst /\
  (forall i s, In (i, s) lst -> In i ids /\ exists e, nth_error ms i = Some e /\ stale e = true /\ src e = Some s) /\
  (forall i e, In i ids -> nth_error ms i = Some e -> stale e = true -> src e <> None -> In i (map fst lst)).
Proof.
  induction ids as [|id ids IH]; intros ms N; cbn [take_stale].
  - exists ms, []. split; auto. split; [split; auto|]. split; [intros i s []|intros i e []].
  - inversion N as [|? ? N1 N2]; subst. assert (SKIP : (forall e, nth_error ms id = Some e -> stale e = true -> src e <> None -> False) ->
      exists ms' lst, take_stale ids ms = (ms', lst) /\ taken ms ms' lst /\
      (forall i s, In (i, s) lst -> In i (id :: ids) /\ exists e, nth_error ms i = Some e /\ stale e = true /\ src e = Some s) /\
      (forall i e, In i (id :: ids) -> nth_error ms i = Some e -> stale e = true -> src e <> None -> In i (map fst lst))).
    { intros SK. destruct (IH ms N2) as (ms' & lst & Q & T & A & B). exists ms', lst. split; auto. split; auto. split.
      - intros i s H. destruct (A i s H). split; [right|]; auto.
      - intros i e [<-|H] E S R; [exfalso; eauto|eauto]. }
    destruct (nth_error ms id) as [e|] eqn:E; [|apply SKIP; intros e; discriminate].
    destruct (stale e) eqn:S; cbn [negb]; [|apply SKIP; intros e' H; inversion H; subst; congruence].
    destruct (src e) as [s|] eqn:R; [|apply SKIP; intros e' H; inversion H; subst; congruence]. clear SKIP.
    pose proof (range_of _ _ _ _ E) as L. destruct (IH (upd ms id (take_uses e s)) N2) as (ms' & lst & Q & (T1 & T2) & A & B). rewrite Q.
    assert (NI : forall i s0, In (i, s0) lst -> i <> id) by (intros i s0 H ->; destruct (A _ _ H); auto).
    exists ms', ((id, s) :: lst). split; auto. split; [split|split].
    + rewrite T1. apply upd_length.
    + intros i. destruct (T2 i) as [H|(f & s0 & H1 & H2 & H3 & H4 & H5)].
      * destruct (Nat.eq_dec id i) as [<-|NE].
        -- right. exists e, s. split; [left; auto|]. split; auto. split; auto. split; auto. rewrite H. apply nth_error_upd_same; auto.
        -- left. rewrite H. apply nth_error_upd_other; auto.
      * right. exists f, s0. split; [right; auto|]. pose proof (NI _ _ H1) as NE. rewrite nth_error_upd_other in H2 by auto. auto.
    + intros i s0 [H|H].
      * inversion H; subst i s0. split; [left; auto|]. exists e. auto.
      * destruct (A i s0 H) as (A1 & f & A2 & A3). split; [right; auto|]. exists f. rewrite nth_error_upd_other in A2 by (intros <-; eapply NI; eauto). auto.
    + intros i f [<-|H] E' S' R'; [left; auto|]. right. apply (B i f); auto. rewrite nth_error_upd_other; auto. intros <-. auto.
Qed.
Lemma taken_deps : forall ms ms' lst, taken ms ms' lst -> deps_of ms' = deps_of ms.
Proof.
  intros ms ms' lst (L & H). unfold deps_of. apply nth_error_ext. intros i. rewrite !nth_error_map.
  destruct (H i) as [->|(e & s & _ & A & _ & _ & B)]; auto. rewrite A, B. reflexivity.
Qed.
Lemma taken_stale : forall ms ms' lst i, taken ms ms' lst -> (is_stale ms' i <-> is_stale ms i).
Proof.
  intros ms ms' lst i (_ & H). unfold is_stale. destruct (H i) as [->|(e & s & _ & A & B & _ & C)]; [tauto|]. split; intros _; [exists e|exists (take_uses e s)]; auto.
Qed.
Lemma taken_fresh : forall ms ms' lst i e, taken ms ms' lst -> stale e = false -> (nth_error ms' i = Some e <-> nth_error ms i = Some e).
Proof.
  intros ms ms' lst i e (_ & H) S. destruct (H i) as [->|(f & s & _ & A & B & _ & C)]; [tauto|]. split; intros Q; exfalso.
  - rewrite C in Q. inversion Q; subst e. simpl in S. congruence.
  - congruence.
Qed.
Lemma taken_inv : forall ms ms' lst clk, taken ms ms' lst -> inv ms clk -> inv ms' clk.
Proof.
  intros ms ms' lst clk T I. pose proof (taken_deps _ _ _ T) as D.
  assert (BA : forall i n, built_at ms' i n <-> built_at ms i n).
  { intros i n. split; intros (e & ds & o & A & B & C); exists e, ds, o; (split; [|auto]); eapply (taken_fresh ms ms'); eauto. }
  constructor; try rewrite D.
  - apply (inv_wf _ _ I).
  - apply (inv_acyclic _ _ I).
  - intros u v E S. rewrite taken_stale in S by eauto. rewrite taken_stale by eauto. eapply (inv_stale _ _ I); eauto.
  - intros i e A B. apply (inv_fresh _ _ I i e); auto. eapply (taken_fresh ms ms'); eauto.
  - intros i j n B E. apply BA in B. destruct (inv_order _ _ I i j n B E) as (m & M1 & M2). exists m. split; auto. apply BA. auto.
Qed.

Lemma stale_reach : forall ms clk a b, inv ms clk -> reach (deps_of ms) a b -> is_stale ms b -> is_stale ms a.
Proof. intros ms clk a b I R. induction R as [|v w R IH E]; auto. intros S. apply IH. eapply (inv_stale _ _ I); eauto. Qed.

Lemma any_stale_ok : forall ms ds, (forall d, In d ds -> d < length ms) -> exists b, any_stale ms ds = Val b /\
  if b then exists d, In d ds /\ is_stale ms d else forall d, In d ds -> is_fresh ms d.
Proof.
  intros ms. induction ds as [|d ds IH]; intros R; cbn [any_stale].
  - exists false. split; auto. intros d [].
  - destruct (in_range _ ms d (R d (or_introl eq_refl))) as (e & E). rewrite (rd_val _ _ _ _ E). cbn [bind]. destruct (stale e) eqn:S.
    + exists true. split; auto. exists d. split; [left; auto|exists e; auto].
    + destruct IH as (b & Q & H); [intros; apply R; right; auto|]. exists b. split; auto. destruct b.
      * destruct H as (d' & A & B). exists d'. split; [right|]; auto.
      * intros d' [<-|A]; auto. exists e; auto.
Qed.

(** Compilation revisions never decrease. *)
Definition advances (ms ms' : list entry) : Prop := forall i a b, nth_error ms i = Some a -> nth_error ms' i = Some b -> compilation_revision a <= compilation_revision b.
Lemma advances_trans : forall a b c, length b = length a -> advances a b -> advances b c -> advances a c.
Proof.
  intros a b c L H1 H2 i x z X Z. destruct (in_range _ b i) as (y & Y); [rewrite L; eapply range_of; eauto|]. specialize (H1 i x y X Y). specialize (H2 i y z Y Z). lia.
Qed.
Lemma prepared_advances : forall ms ms2 t e e3, prepared ms ms2 t e -> nth_error ms t = Some e -> compilation_revision e <= compilation_revision e3 -> advances ms (upd ms2 t e3).
Proof.
  intros ms ms2 t e e3 P E L i a b A B. pose proof (p_length _ _ _ _ P) as PL. pose proof (range_of _ _ _ _ E). destruct (Nat.eq_dec t i) as [<-|N].
  - rewrite nth_error_upd_same in B by lia. inversion B; subst b. rewrite E in A. inversion A; subst a. auto.
  - rewrite nth_error_upd_other in B by auto. destruct (p_other _ _ _ _ P i) as [Q|(f & F1 & F2 & F3)]; auto.
    + rewrite Q, A in B. inversion B; auto.
    + rewrite A in F1. inversion F1; subst f. rewrite B in F3. inversion F3. auto.
Qed.
Lemma taken_advances : forall ms ms' lst, taken ms ms' lst -> advances ms ms'.
Proof.
  intros ms ms' lst (_ & H) i a b A B. destruct (H i) as [Q|(f & s & _ & F1 & _ & _ & F3)]; [rewrite Q, A in B; inversion B; auto|].
  rewrite A in F1. inversion F1; subst f. rewrite B in F3. inversion F3. auto.
Qed.

Section Compile.
Variable emit : nat -> list entry -> nat -> nat -> uses -> option (list nat).

Definition compiles (rec : list entry -> nat -> nat -> nat -> nat -> uses -> gres (list entry * nat * bool)) (k : nat) : Prop :=
  forall ms clk t sid ver u e EJ EK W (F : nat -> Prop) l, inv ms clk -> nth_error ms t = Some e ->
  (forall x, F x -> is_fresh ms x) -> (forall x y, F x -> edge (deps_of ms) x y -> F y) -> ~ F t ->
  NoDup l -> (forall x, In x l -> F x) -> length ms < k + length l ->
  justified (t :: EJ) ms -> keeps (t :: EK) W ms -> In t EK \/ W t = Some (mkSrc sid ver u) ->
  exists ms' clk' ok, rec ms clk t sid ver u = Val (ms', clk', ok) /\ inv ms' clk' /\ length ms' = length ms /\ clk < clk' /\
  justified EJ ms' /\ keeps EK W ms' /\ (forall x, F x -> nth_error ms' x = nth_error ms x) /\
  (exists e', nth_error ms' t = Some e' /\ src e' = Some (mkSrc sid ver u) /\ last_error e' = negb ok /\ compilation_revision e' = S (compilation_revision e)) /\
  advances ms ms'.

Lemma frozen_fresh : forall ms ms' (F : nat -> Prop), (forall x, F x -> nth_error ms' x = nth_error ms x) -> (forall x, F x -> is_fresh ms x) -> forall x, F x -> is_fresh ms' x.
Proof. intros ms ms' F Z H x Fx. destruct (H x Fx) as (e & A & B). exists e. rewrite Z; auto. Qed.
Lemma frozen_closed : forall ms ms' (F : nat -> Prop), (forall x, F x -> nth_error ms' x = nth_error ms x) -> (forall x y, F x -> edge (deps_of ms) x y -> F y) ->
  forall x y, F x -> edge (deps_of ms') x y -> F y.
Proof. intros ms ms' F Z H x y Fx E. apply edge_deps in E. destruct E as (e & A & B). apply (H x y); auto. apply edge_deps. exists e. rewrite <- Z; auto. Qed.

Lemma recompile_each_ok : forall rec k, compiles rec k -> forall lst ms clk EJ EK W (F : nat -> Prop) l, inv ms clk ->
  (forall x, F x -> is_fresh ms x) -> (forall x y, F x -> edge (deps_of ms) x y -> F y) ->
  NoDup l -> (forall x, In x l -> F x) -> length ms < k + length l ->
  (forall i s, In (i, s) lst -> ~ F i /\ i < length ms /\ (In i EK \/ W i = Some s)) ->
  justified (map fst lst ++ EJ) ms -> keeps (map fst lst ++ EK) W ms ->
  exists ms' clk', recompile_each rec lst ms clk = Val (ms', clk') /\ inv ms' clk' /\ length ms' = length ms /\ clk <= clk' /\
  justified EJ ms' /\ keeps EK W ms' /\ (forall x, F x -> nth_error ms' x = nth_error ms x) /\ advances ms ms'.
Proof.
  intros rec k C. induction lst as [|(d, s) lst IH]; intros ms clk EJ EK W F l I FF FC ND FL K H J KP; cbn [recompile_each].
  - exists ms, clk. repeat (split; auto). intros i a b A B. rewrite A in B. inversion B. auto.
  - destruct (H d s (or_introl eq_refl)) as (H1 & H2 & H3). destruct (in_range _ ms d H2) as (e & E).
    destruct (C ms clk d (source_id s) (source_version s) (src_uses s) e (map fst lst ++ EJ) (map fst lst ++ EK) W F l) as (ms1 & clk1 & ok & Q & I1 & L1 & C1 & J1 & K1 & Z1 & _ & A1); auto.
    { destruct s. simpl. destruct H3; [left; apply in_app_iff; auto|right; auto]. }
    rewrite Q. cbn [bind fst snd].
    destruct (IH ms1 clk1 EJ EK W F l) as (ms2 & clk2 & Q2 & I2 & L2 & C2 & J2 & K2 & Z2 & A2); auto.
    + eapply frozen_fresh; eauto.
    + eapply frozen_closed; eauto.
    + lia.
    + intros i s0 Hi. destruct (H i s0 (or_intror Hi)) as (X1 & X2 & X3). rewrite L1. auto.
    + exists ms2, clk2. split; auto. split; auto. split; [lia|]. split; [lia|]. split; auto. split; auto. split.
      * intros x Fx. rewrite Z2, Z1; auto.
      * eapply advances_trans; eauto.
Qed.

(** From the moment [t] is fresh. *)
Lemma cascade_ok : forall rec k, compiles rec k -> forall ms clk t EJ EK W (F : nat -> Prop) l, inv ms clk ->
  (forall x, F x -> is_fresh ms x) -> (forall x y, F x -> edge (deps_of ms) x y -> F y) -> ~ F t -> is_fresh ms t ->
  NoDup l -> (forall x, In x l -> F x) -> length ms < S k + length l ->
  justified (direct_deps ms t ++ EJ) ms -> keeps EK W ms ->
  exists ms' lst ms'' clk'', stale_dependents_to_recompile ms t = (ms', lst) /\ recompile_each rec lst ms' clk = Val (ms'', clk'') /\
  inv ms'' clk'' /\ length ms'' = length ms /\ clk <= clk'' /\ justified EJ ms'' /\ keeps EK W ms'' /\
  (forall x, F x -> nth_error ms'' x = nth_error ms x) /\ nth_error ms'' t = nth_error ms t /\ advances ms ms''.
Proof.
  intros rec k C ms clk t EJ EK W F l I FF FC NF FT ND FL K J KP. unfold stale_dependents_to_recompile.
  destruct (take_stale_ok (direct_deps ms t) ms (direct_deps_nodup ms t)) as (ms1 & lst & Q & T & A & B).
  pose proof (taken_deps _ _ _ T) as D. pose proof (taken_inv _ _ _ _ T I) as I1. pose proof (proj1 T) as L1.
  set (F' := fun x => F x \/ reach (deps_of ms) t x).
  assert (FF' : forall x, F' x -> is_fresh ms x).
  { intros x [Fx|R]; auto. assert (Lx : x < length ms).
    { replace (length ms) with (length (deps_of ms)) by (unfold deps_of; apply map_length). eapply reach_range; eauto; [apply (inv_wf _ _ I)|].
      destruct FT as (e & E & _). apply range_of in E. unfold deps_of. rewrite map_length. auto. }
    destruct (stale_or_fresh ms x Lx) as [S|S]; auto. exfalso. eapply not_both; [|exact FT]. eapply stale_reach; eauto. }
  assert (FC' : forall x y, F' x -> edge (deps_of ms) x y -> F' y).
  { intros x y [Fx|R] E; [left; eauto|right; econstructor; eauto]. }
  assert (Z1 : forall x, F' x -> nth_error ms1 x = nth_error ms x).
  { intros x Fx. destruct (FF' x Fx) as (e & E & S). rewrite E. eapply (taken_fresh ms ms1); eauto. }
  destruct (recompile_each_ok rec k C lst ms1 clk EJ EK W F' (t :: l)) as (ms2 & clk2 & Q2 & I2 & L2 & C2 & J2 & K2 & Z2 & A2); auto.
  - eapply frozen_fresh; eauto.
  - eapply frozen_closed; eauto.
  - constructor; auto.
  - intros x [<-|Hx]; [right; constructor|left; auto].
  - simpl. lia.
  - intros i s Hi. destruct (A i s Hi) as (Di & e & E & S & R). apply direct_deps_ok in Di. split; [|split].
    + intros [Fi|Ri]; [apply NF; eapply FC; eauto|]. apply (inv_acyclic _ _ I i t); auto.
    + rewrite L1. eapply range_of; eauto.
    + destruct (in_dec Nat.eq_dec i EK); auto. right. rewrite <- (KP i e); auto.
  - intros i e E S R N. rewrite in_app_iff in N. assert (X : exists f, nth_error ms i = Some f /\ stale f = true /\ src f <> None /\ last_error f = last_error e).
    { destruct (proj2 T i) as [H|(f & s & _ & F1 & F2 & F3 & F4)]; [exists e; rewrite <- H; auto|]. exists f. split; auto. split; auto. split; [congruence|]. rewrite E in F4. inversion F4. auto. }
    destruct X as (f & F1 & F2 & F3 & F4). rewrite D. destruct (J i f F1 F2 F3) as [H|(j & H1 & H2)].
    + rewrite in_app_iff. intros [H|H]; [|tauto]. apply N. left. eapply B; eauto.
    + left. congruence.
    + right. exists j. split; auto. apply (taken_stale ms ms1 lst); auto.
  - intros i e E N. rewrite in_app_iff in N. destruct (proj2 T i) as [H|(f & s & X & _)].
    + apply (KP i e); [congruence|tauto].
    + exfalso. apply N. left. apply in_map_iff. exists (i, s). auto.
  - exists ms1, lst, ms2, clk2. split; auto. split; auto. split; auto. split; [lia|]. split; auto. split; auto. split; auto. split; [|split].
    + intros x Fx. rewrite Z2, Z1; auto; left; auto.
    + rewrite Z2, Z1; auto; right; constructor.
    + eapply advances_trans; eauto. eapply taken_advances; eauto.
Qed.

Hypothesis EOK : emit_ok emit.
Lemma compile_ok : forall fuel, compiles (compile emit fuel) fuel.
Proof.
  induction fuel as [|fuel IH]; intros ms clk t sid ver u e EJ EK W F l I E FF FC NF ND FL K J KP T.
  - exfalso. assert (length l <= length ms); [|lia]. rewrite <- (seq_length (length ms) 0). apply NoDup_incl_length; auto.
    intros x Hx. apply in_seq. destruct (FF x (FL x Hx)) as (f & A & _). apply range_of in A. lia.
  - cbn [compile]. rewrite E. set (s := mkSrc sid ver u) in *. pose proof (range_of _ _ _ _ E) as L.
    destruct (prepare_ok ms clk t e I E) as (ms2 & Q & P). rewrite Q. cbn [bind]. clear Q.
    pose proof (p_length _ _ _ _ P) as PL. pose proof (p_deps _ _ _ _ P) as PD. pose proof (prepared_frozen _ _ _ _ F P FC NF) as PF.
    assert (LG : length (deps_of ms) = length ms) by (unfold deps_of; apply map_length).
    (* the three ways to end *)
    assert (NM : forall e3, upd (deps_of ms) t (latest_deps e3) = deps_of (upd ms2 t e3)) by (intros; rewrite deps_of_upd, PD; auto).
    assert (MN : forall e3, stale e3 = true -> mark_stale_transitively (upd ms2 t e3) t = Val (upd ms2 t e3)).
    { intros e3 S3. apply mark_noop. intros i H. rewrite <- NM in H. destruct (Nat.eq_dec i t) as [->|N].
      - apply is_stale_upd_same; auto. lia.
      - apply is_stale_upd_other; auto. apply edge_upd_other in H; auto. eapply p_dependents; eauto. }
    assert (FZ : forall e3 x, F x -> nth_error (upd ms2 t e3) x = nth_error ms x).
    { intros e3 x Fx. rewrite nth_error_upd_other; auto. intros <-. auto. }
    assert (FAILED : exists ms' clk' ok,
      (let* e0 := rd ms2 t in let* ms := mark_stale_transitively (upd ms2 t (update_with_error e0 s (rev e) (S (compilation_revision e)))) t in Val (ms, S clk, false)) = Val (ms', clk', ok) /\
      inv ms' clk' /\ length ms' = length ms /\ clk < clk' /\ justified EJ ms' /\ keeps EK W ms' /\ (forall x, F x -> nth_error ms' x = nth_error ms x) /\
      (exists e', nth_error ms' t = Some e' /\ src e' = Some s /\ last_error e' = negb ok /\ compilation_revision e' = S (compilation_revision e)) /\ advances ms ms').
    { rewrite (rd_val _ _ _ _ (p_self _ _ _ _ P)). cbn [bind]. rewrite MN by reflexivity. cbn [bind]. set (e3 := update_with_error (set_placeholder e) s (rev e) (S (compilation_revision e))).
      assert (SD : upd (deps_of ms) t (latest_deps e3) = deps_of ms) by (apply upd_same; unfold deps_of; rewrite nth_error_map, E; reflexivity).
      exists (upd ms2 t e3), (S clk), false. split; auto. split; [|split; [|split; [|split; [|split; [|split; [|split]]]]]]; auto.
      - apply (settle_inv ms ms2 clk t e e3); auto; try rewrite SD; [apply (inv_wf _ _ I)|apply (inv_acyclic _ _ I)].
      - rewrite upd_length. auto.
      - eapply settle_stale_justified; eauto.
      - eapply settle_keeps; eauto.
      - exists e3. rewrite nth_error_upd_same by lia. repeat split; auto.
      - eapply prepared_advances; eauto. simpl. lia. }
    destruct (emit clk ms2 t sid u) as [ds|] eqn:EM; [|exact FAILED].
    assert (RD : forall d, In d ds -> d < length ms2) by (intros d Hd; eapply EOK; eauto).
    destruct (cycle_check ms2 t ds (match rev e with Some _ => true | None => false end)) as (r & CC & CA); auto.
    { rewrite PD. apply (inv_wf _ _ I). } { rewrite PD. apply (inv_acyclic _ _ I). } { lia. }
    rewrite CC. cbn [bind]. destruct r as [c|]; [exact FAILED|]. clear FAILED. destruct (CA eq_refl) as (WF & AC). rewrite PD in WF, AC.
    destruct (any_stale_ok ms2 ds RD) as (b & QB & HB). rewrite QB. cbn [bind].
    assert (NT : ~ In t ds).
    { intros H. apply (AC t t); [apply edge_upd_same; auto; lia|constructor]. }
    destruct b.
    + set (e3 := update_with_stale s (rev e) ds (S (compilation_revision e))). rewrite MN by reflexivity. cbn [bind].
      exists (upd ms2 t e3), (S clk), true. split; auto. split; [|split; [|split; [|split; [|split; [|split; [|split]]]]]]; auto.
      * apply (settle_inv ms ms2 clk t e e3); auto.
      * rewrite upd_length. auto.
      * eapply settle_stale_justified; eauto. right. destruct HB as (d & D1 & D2). exists d. repeat split; auto. intros ->. auto.
      * eapply settle_keeps; eauto.
      * exists e3. rewrite nth_error_upd_same by lia. repeat split; auto.
      * eapply prepared_advances; eauto. simpl. lia.
    + set (e3 := new_fresh s ds (S (compilation_revision e)) clk).
      assert (I3 : inv (upd ms2 t e3) (S clk)).
      { apply (settle_inv ms ms2 clk t e e3); auto. }
      destruct (cascade_ok (compile emit fuel) fuel IH (upd ms2 t e3) (S clk) t EJ EK W F l) as (ms4 & lst & ms5 & clk5 & Q4 & Q5 & I5 & L5 & C5 & J5 & K5 & Z5 & T5 & A5); auto.
      * intros x Fx. destruct (FF x Fx) as (f & A & B). exists f. rewrite FZ; auto.
      * intros x y Fx H. rewrite <- NM in H. apply edge_upd_other in H; eauto. intros ->. auto.
      * exists e3. rewrite nth_error_upd_same by lia. auto.
      * rewrite upd_length. lia.
      * intros i f A B C N. rewrite in_app_iff in N. destruct (Nat.eq_dec i t) as [->|NE].
        -- exfalso. rewrite nth_error_upd_same in A by lia. inversion A; subst f. discriminate.
        -- destruct (settle_justified _ _ _ _ e3 _ P L J i f NE A B C) as [H|[H|(j & H1 & H2 & H3)]]; auto.
           ++ exfalso. apply N. left. apply direct_deps_ok. rewrite <- NM. apply edge_upd_other; auto.
           ++ right. exists j. rewrite <- NM. split; [apply edge_upd_other; auto|apply is_stale_upd_other; auto].
      * eapply settle_keeps; eauto.
      * rewrite Q4. cbv beta iota. rewrite Q5. cbn [bind fst snd]. exists ms5, clk5, true. split; auto. rewrite upd_length in L5. split; auto. split; [lia|]. split; [lia|].
        split; auto. split; auto. split; [intros x Fx; rewrite Z5, FZ; auto|]. split.
        -- exists e3. rewrite T5, nth_error_upd_same by lia. repeat split; auto.
        -- apply (advances_trans ms (upd ms2 t e3) ms5); auto; [rewrite upd_length; auto|]. eapply prepared_advances; eauto. simpl. lia.
Qed.
End Compile.
