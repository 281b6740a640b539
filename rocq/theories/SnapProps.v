(** C65: types written to a snapshot come back as the same types. *)

From Coq Require Import List Bool Arith Lia Permutation Sorted.
From Verif Require Import ListUtil GraphModel InternModel InternSpec InternKinds InternSim InternProofs InternCanon InternMain InternProps SnapModel SnapSpec SnapCapture SnapRestore SnapAgain.
Import ListNotations.

(** ** Examples *)

(** The store of C61 with the list type, before and after a pair of lists is stored. *)
Definition u_list : universe := store u_base a_list.
Definition a_pair : list kind := [KTuple [Glob 1 0; Glob 1 0]].
Definition u_pair : universe := store u_list a_pair.
(** Native type 7 is named 70. *)
Definition one_name (bare : nat) : option nat := if bare =? 7 then Some 70 else None.
Definition one_type (name : nat) : option nat := if name =? 70 then Some 7 else None.
(** A list is captured, then a pair of lists is stored and captured. *)
Definition ex_requests : list (universe * ty) := [(u_list, Glob 1 0); (u_pair, Glob 0 2)].
Definition ex_graph : list node := [SVariant [(1, 1); (2, 3)]; STuple [2; 0]; SNative 70 []; STuple []; STuple [0; 0]].

Lemma pair_canonical : canonical u_list a_pair.
Proof.
  assert (NC : forall i k b, described u_list a_pair (Loc i) = Some k -> mentions k b -> path (described u_list a_pair) b (Loc i) -> False).
  { intros i k b E M P. destruct i as [|[|i]]; simpl in E; inversion E; subst k. simpl in M.
    assert (X : forall x y, path (described u_list a_pair) x y -> (exists w j, x = Glob w j) -> exists w j, y = Glob w j).
    { intros x y Q. induction Q as [|c k d Q IH F N]; auto. intros G. destruct (IH G) as (w & j & ->).
      each_type (Glob w j) F; inversion F; subst k; simpl in N; firstorder (try discriminate; subst; eauto);
        repeat match goal with H : (_, _) = (_, _) |- _ => inversion H; subst; clear H end; eauto. }
    destruct (X _ _ P) as (w & j & Y); [|discriminate Y]. destruct M as [<-|[<-|[]]]; eauto. }
  split; [|split].
  - split; [intros k [<-|[]]; exact I|]. intros k t [<-|[]] M. simpl in M. destruct M as [<-|[<-|[]]]; eexists; reflexivity.
  - intros i k E C. destruct C as (k' & b & E' & M & P). exfalso. eapply NC; eauto.
  - intros i t C. destruct C as (k' & b & E' & M & P). exfalso. eapply NC; eauto.
Qed.
Lemma u_list_built : built by_rank as_is canonical u_list.
Proof. exact C61_canonical_ex. Qed.
Lemma u_pair_built : built by_rank as_is canonical u_pair.
Proof. eapply (built_insert _ _ _ _ _ _ [Glob 0 2] u_list_built pair_canonical). vm_compute. reflexivity. Qed.
Lemma ex_keeps : keeps u_list u_pair.
Proof. intros t k E. each_type t E; inversion E; reflexivity. Qed.
Lemma ex_growing : growing ex_requests u_pair.
Proof.
  simpl. split; [eexists; reflexivity|]. split; [exact ex_keeps|]. split; [intros v s [X|[]]; inversion X; subst; exact ex_keeps|].
  split; [eexists; reflexivity|]. split; [intros t k E; exact E|]. split; [intros v s []|exact I].
Qed.
Lemma ex_names : names_back one_name one_type.
Proof.
  intros b n E. unfold one_name in E. destruct (Nat.eqb_spec b 7) as [->|]; inversion E. reflexivity.
Qed.

(** ** Capturing *)

(** A snapshot is made exactly when every native type met has a name. It lists every type met when
    unfolding the types asked for, each once and no other, each node describing its type and referring to
    the nodes of its parts; the answer for each type asked for is the place of its node. *)
Theorem C65_capture : forall le order, iteration order -> forall native_name requests final,
  built le order storable final -> (forall u t, In (u, t) requests -> built le order storable u) -> growing requests final ->
  (exists ids g tys, snapshot native_name requests = Ok (ids, g) /\
     NoDup tys /\ (forall t, In t tys <-> exists u s, In (u, s) requests /\ path (get_type_data final) s t) /\
     Forall2 (fun t n => exists k, get_type_data final t = Some k /\ describes native_name (fun s i => nth_error tys i = Some s) k n) tys g /\
     Forall2 (fun request id => nth_error tys id = Some (snd request)) requests ids /\
     forall bare, meets_native final requests bare -> native_name bare <> None) \/
  (exists bare, snapshot native_name requests = Fails (UnnamedNativeType bare) /\ meets_native final requests bare /\ native_name bare = None).
Proof.
  intros le order HO nn requests final BF BU Gr.
  pose proof (i_total _ (built_inv le order HO final BF)) as TF.
  assert (TU : forall u t, In (u, t) requests -> total (get u)) by (intros u t J; apply i_total; eapply built_inv; eauto).
  destruct (snapshot_ok nn final requests TF TU Gr) as [(is & g & tys & E & L & Q & P)|X]; [left|right; exact X].
  assert (RT : forall u t, In (u, t) requests -> In t tys).
  { intros u t J. destruct (Forall2_In_l _ _ _ _ _ _ Q J) as (i & _ & A). eapply nth_error_In; exact A. }
  exists is, g, tys. split; [exact E|]. split; [apply (l_nodup _ _ _ _ L)|]. split; [|split; [apply (l_node _ _ _ _ L)|split; [exact Q|]]].
  - intros t. split; [apply P|]. intros (u & s & J & Pa). eapply lists_closed; eauto.
  - intros bare (u & t & x & args & J & Pa & G). assert (J' : In x tys) by (eapply lists_closed; eauto).
    destruct (lists_native _ _ _ _ _ _ _ L J' G) as (name & N). congruence.
Qed.
Print Assumptions C65_capture.

Example C65_capture_ex : growing ex_requests u_pair /\ snapshot one_name ex_requests = Ok ([0; 4], ex_graph).
Proof. split; [exact ex_growing|vm_compute; reflexivity]. Qed.
Example C65_capture_unnamed_ex : snapshot (fun _ => None) ex_requests = Fails (UnnamedNativeType 7).
Proof. vm_compute. reflexivity. Qed.

Lemma snapshot_lists : forall le order, iteration order -> forall nn requests final is g,
  built le order canonical final -> (forall u t, In (u, t) requests -> built le order canonical u) -> growing requests final -> snapshot nn requests = Ok (is, g) ->
  exists tys, lists nn final tys g /\ Forall2 (fun r i => at_ tys (snd r) i) requests is.
Proof.
  intros le order HO nn requests final is g BF BU Gr E.
  destruct (snapshot_ok nn final requests) as [(is' & g' & tys & E' & L & Q & P)|(bare & X & _)]; auto.
  - apply i_total. exact (proj1 (built_canon le order HO final BF)).
  - intros u t J. apply i_total. exact (proj1 (built_canon le order HO u (BU u t J))).
  - exists tys. assert (is' = is /\ g' = g) as [-> ->] by (split; congruence). auto.
  - congruence.
Qed.
Lemma sim_same : forall u v a b, inv u -> inv v -> (same (get u) (get v) a b <-> sim (get u) (get v) a b).
Proof.
  intros u v a b IU IV. rewrite (same_sim _ _ a b (named_u u IU) (named_u v IV)). destruct (norm_u u IU) as [B1 B2]. destruct (norm_u v IV) as [B3 B4].
  split; apply sim_mono; auto.
Qed.

(** ** Restoring *)

(** In any other store - of another process, with another order of storing - a snapshot is read without
    failure: every type asked for comes back as the same type, types already there keep their meaning,
    nothing but the types of the snapshot is added, and different types stay different. *)
Theorem C65_restore : forall le order le' order', iteration order -> iteration order' ->
  forall native_name native_type requests final ids g other, names_back native_name native_type ->
  built le order canonical final -> (forall u t, In (u, t) requests -> built le order canonical u) -> growing requests final ->
  snapshot native_name requests = Ok (ids, g) -> built le' order' canonical other ->
  exists other' ts, materialize le' order' native_type other g = Ok (other', ts) /\ built le' order' canonical other' /\
    length ts = length g /\ NoDup ts /\ keeps other other' /\ (forall t k, get_type_data other' t = Some k -> get_type_data other t = Some k \/ In t ts) /\
    Forall2 (fun request id => exists t, nth_error ts id = Some t /\ same (get_type_data final) (get_type_data other') (snd request) t) requests ids.
Proof.
  intros le order le' order' HO HO' nn nt requests final is g other NB BF BU Gr E BO.
  destruct (snapshot_lists le order HO nn requests final is g BF BU Gr E) as (tys & L & Q). destruct (built_canon le order HO final BF) as [IF CF].
  destruct (restore_ok nn nt NB le' order' HO' final other tys g IF CF L BO) as (v' & ts & M & B' & K & Lt & SM & N & Nw). destruct (built_canon le' order' HO' v' B') as [I' C'].
  exists v', ts. split; [exact M|]. split; [exact B'|]. split; [exact Lt|]. split; [exact N|]. split; [exact K|]. split; [exact Nw|].
  assert (Lg : length g = length tys) by (symmetry; eapply Forall2_len; apply (l_node _ _ _ _ L)).
  eapply Forall2_mono; [|exact Q]. intros [u t] i A. simpl in *. assert (Li : i < length ts) by (rewrite Lt, Lg; apply nth_error_Some; unfold at_ in A; congruence).
  destruct (nth_error ts i) as [t'|] eqn:T; [|apply nth_error_None in T; lia]. exists t'. split; auto. apply sim_same; auto. eapply SM; eauto.
Qed.
Print Assumptions C65_restore.

(** Another process, with an empty store and other orders. *)
Definition by_rank_down (a b : kind) : bool := rank b <=? rank a.
Definition backwards (l : list nat) : list nat := rev l.
Example C65_restore_ex : names_back one_name one_type /\ built by_rank as_is canonical u_pair /\ (forall u t, In (u, t) ex_requests -> built by_rank as_is canonical u) /\
  iteration backwards /\ built by_rank_down backwards canonical new_empty /\
  exists v, materialize by_rank_down backwards one_type new_empty ex_graph = Ok (v, [Glob 1 1; Glob 1 0; Glob 0 0; Glob 0 1; Glob 0 2]) /\
    worlds v = [[KNative 7 []; KTuple []; KTuple [Glob 1 1; Glob 1 1]]; [KTuple [Glob 0 0; Glob 1 1]; KVariant [(1, Glob 1 0); (2, Glob 0 1)]]].
Proof.
  split; [exact ex_names|]. split; [exact u_pair_built|]. split; [intros u t [X|[X|[]]]; inversion X; subst; [exact u_list_built|exact u_pair_built]|].
  split; [intros l; apply Permutation_rev|]. split; [constructor|]. eexists. split; vm_compute; reflexivity.
Qed.

(** In the process that wrote it, or any store that still has the types, the identifiers asked for come
    back and the store does not grow. *)
Theorem C65_same_process : forall le order le' order', iteration order -> iteration order' ->
  forall native_name native_type requests final ids g later, names_back native_name native_type ->
  built le order canonical final -> (forall u t, In (u, t) requests -> built le order canonical u) -> growing requests final ->
  snapshot native_name requests = Ok (ids, g) -> built le' order' canonical later -> keeps final later ->
  exists later' ts, materialize le' order' native_type later g = Ok (later', ts) /\
    (forall t, get_type_data later' t = get_type_data later t) /\ Forall2 (fun request id => nth_error ts id = Some (snd request)) requests ids.
Proof.
  intros le order le' order' HO HO' nn nt requests final is g later NB BF BU Gr E BO K.
  destruct (snapshot_lists le order HO nn requests final is g BF BU Gr E) as (tys & L & Q). destruct (built_canon le order HO final BF) as [IF CF].
  destruct (restore_same nn nt NB le' order' HO' final later tys g IF CF L BO K) as (v' & M & G & _). exists v', tys. auto.
Qed.
Print Assumptions C65_same_process.

Example C65_same_process_ex : exists v, materialize by_rank as_is one_type u_pair ex_graph = Ok (v, [Glob 1 0; Glob 1 1; int_ty; unit_ty; Glob 0 2]) /\ worlds v = worlds u_pair.
Proof. eexists. split; vm_compute; reflexivity. Qed.

(** ** Capturing again *)

(** A snapshot of the restored types is the same snapshot. *)
Theorem C65_recapture : forall le order le' order', iteration order -> iteration order' ->
  forall native_name native_type requests final ids g other other' ts, names_back native_name native_type ->
  built le order canonical final -> (forall u t, In (u, t) requests -> built le order canonical u) -> growing requests final ->
  snapshot native_name requests = Ok (ids, g) -> built le' order' canonical other ->
  materialize le' order' native_type other g = Ok (other', ts) ->
  snapshot native_name (map (fun id => (other', nth id ts (Loc 0))) ids) = Ok (ids, g).
Proof.
  intros le order le' order' HO HO' nn nt requests final is g other other' ts NB BF BU Gr E BO M.
  destruct (snapshot_lists le order HO nn requests final is g BF BU Gr E) as (tys & L & Q).
  destruct (C65_restore le order le' order' HO HO' nn nt requests final is g other NB BF BU Gr E BO) as (v' & ts' & M' & B' & Lt & N & K & Nw & S').
  assert (v' = other' /\ ts' = ts) as [-> ->] by (split; congruence).
  destruct (built_canon le order HO final BF) as [IF CF]. destruct (built_canon le' order' HO' other' B') as [I' C'].
  set (again := map (fun id => (other', nth id ts (Loc 0))) is).
  assert (R : Forall2 (fun x y => keeps (fst x) final /\ keeps (fst y) other' /\ sim (get final) (get other') (snd x) (snd y)) requests again).
  { unfold again. assert (KF : forall u t, In (u, t) requests -> keeps u final). { clear - Gr. induction requests as [|[u t] l IH]; intros v s J; [destruct J|]. destruct Gr as (_ & A & _ & B). destruct J as [J|J]; [inversion J; subst; auto|eapply IH; eauto]. }
    clear - S' IF I' KF. induction S' as [|[u t] i l m (t' & T & X) F IH]; simpl; constructor.
    - simpl. split; [eapply KF; left; reflexivity|]. split; [intros a b H; exact H|]. rewrite (nth_error_nth _ _ (Loc 0) T). apply sim_same; auto.
    - apply IH. intros v s J. eapply KF. right. exact J. }
  assert (ST : forall v s, In (v, s) again -> v = other' /\ exists r k l, In r requests /\ sim (get final) (get other') (snd r) s /\ get final (snd r) = Some k /\ get other' s = Some l).
  { intros v s J. destruct (Forall2_In_r _ _ _ _ _ _ R J) as (r & Jr & _ & _ & X). split; [unfold again in J; apply in_map_iff in J; destruct J as (i & Y & _); congruence|].
    destruct (sim_unfold _ _ _ _ X) as (k & l & A & B & _). exists r, k, l. auto. }
  destruct (snapshot_ok nn other' again) as [(is' & g' & tys' & E' & _)|(bare & _ & (v & s & x & args & J & P & Gx) & Nn)].
  - apply (i_total _ I').
  - intros v s J. destruct (ST v s J) as [-> _]. apply (i_total _ I').
  - assert (G : forall l, incl l again -> growing l other').
    { induction l as [|[v s] l IH]; intros H; [exact I|]. destruct (ST v s (H _ (or_introl eq_refl))) as (-> & r & k & m & _ & _ & _ & X). simpl. split; [exists m; exact X|]. split; [intros a b Y; exact Y|]. split.
      - intros w z J. destruct (ST w z (H _ (or_intror J))) as [-> _]. intros a b Y; exact Y.
      - apply IH. intros y J. apply H. right. auto. }
    apply G. apply incl_refl.
  - rewrite E'. f_equal. symmetry. eapply (snapshot_step nn final other' requests again); eauto.
  - exfalso. destruct (ST v s J) as (-> & r & k & m & Jr & X & _). destruct (sim_path_r _ _ _ _ _ X P) as (y & Py & Sy).
    destruct (sim_unfold _ _ _ _ Sy) as (k1 & l1 & A & B & [Hd _]). rewrite Gx in B. inversion B; subst l1. destruct k1; unfold head in Hd; simpl in Hd; try discriminate Hd. inversion Hd; subst bare0.
    destruct (Forall2_In_l _ _ _ _ _ _ Q Jr) as (i & _ & At). assert (In y tys) by (eapply lists_closed; [exact L|eapply nth_error_In; exact At|exact Py]).
    destruct (lists_native _ _ _ _ _ _ _ L H A) as (name & Y). congruence.
Qed.
Print Assumptions C65_recapture.

Example C65_recapture_ex : exists v, materialize by_rank_down backwards one_type new_empty ex_graph = Ok (v, [Glob 1 1; Glob 1 0; Glob 0 0; Glob 0 1; Glob 0 2]) /\
  snapshot one_name [(v, Glob 1 1); (v, Glob 0 2)] = Ok ([0; 4], ex_graph).
Proof. eexists. split; vm_compute; reflexivity. Qed.

(** ** Damaged graphs *)

(** Whatever the graph, an error names a fault it has, and a graph with a fault gives an error. *)
Theorem C65_faults : forall le order native_type u g,
  (forall e, materialize le order native_type u g = Fails e -> fault native_type g e) /\
  ((exists e, fault native_type g e) -> exists e, materialize le order native_type u g = Fails e).
Proof. exact materialize_fails. Qed.
Print Assumptions C65_faults.

Example C65_faults_ex : fault one_type [STuple [0; 1]] (InvalidTypeReference 1) /\
  materialize by_rank as_is one_type new_empty [STuple [0; 1]] = Fails (InvalidTypeReference 1) /\
  fault one_type [SNative 8 []] (UnknownNativeType 8) /\ materialize by_rank as_is one_type new_empty [SNative 8 []] = Fails (UnknownNativeType 8).
Proof.
  split; [|split; [vm_compute; reflexivity|split; [|vm_compute; reflexivity]]].
  - exists (STuple [0; 1]). split; [left; auto|]. left. exists 1. simpl. auto.
  - exists (SNative 8 []). split; [left; auto|]. right. exists 8. split; [exists []; auto|auto].
Qed.

(** Two fields of one name are no error: reading such a graph panics. *)
Theorem C65_doubled : forall le order native_type u g, (forall e, ~ fault native_type g e) -> (exists n, In n g /\ doubled n) ->
  materialize le order native_type u g = Panic.
Proof. exact materialize_panics. Qed.
Print Assumptions C65_doubled.

Example C65_doubled_ex : (forall e, ~ fault one_type [SRecord [(1, 0); (1, 0)]] e) /\ doubled (SRecord [(1, 0); (1, 0)]) /\
  materialize by_rank as_is one_type new_empty [SRecord [(1, 0); (1, 0)]] = Panic.
Proof.
  split; [|split; [|vm_compute; reflexivity]].
  - intros e (n & [<-|[]] & [(i & (x & J) & L & _)|(name & (l & X) & _)]); [|discriminate X]. simpl in L. destruct J as [J|[J|[]]]; inversion J; lia.
  - simpl. intros N. inversion N as [|? ? H _]. apply H. left. auto.
Qed.

(** ** Names of native types *)

(** Native types are registered under distinct names, or registration panics; the name given to a native
    type is the first of its names, a type without one has none, and every name is read back as its type. *)
Theorem C65_names : forall l, (NoDup (map fst l) <-> exists c, register_all [] l = Some c) /\
  forall c, register_all [] l = Some c ->
    (forall bare name, canonical_name c bare = Some name <-> In (name, bare) l /\ forall other, In (other, bare) l -> name <= other) /\
    (forall bare, canonical_name c bare = None <-> forall name, ~ In (name, bare) l) /\
    (forall bare name, resolve c name = Some bare <-> In (name, bare) l) /\ names_back (canonical_name c) (resolve c).
Proof.
  intros l. destruct (register_all_ok l []) as [A B]; [constructor|]. split.
  - split; [intros N; apply A; split; auto|]. intros (c & E). apply (B c E).
  - intros c E. destruct (B c E) as (_ & _ & S' & P). pose proof (sorted_nodup _ S') as N.
    assert (P' : forall p, In p c <-> In p l) by (intros p; rewrite P; simpl; tauto).
    assert (R : forall bare name, resolve c name = Some bare <-> In (name, bare) l) by (intros; rewrite resolve_in by auto; apply P').
    split; [|split; [|split; [exact R|]]].
    + intros bare name. rewrite canonical_in by auto. rewrite P'. split; intros [X Y]; split; auto; intros o J; apply Y; apply P'; auto.
    + intros bare. rewrite canonical_none. split; intros H n J; apply (H n); apply P'; auto.
    + intros bare name X. apply R. apply canonical_in in X; auto. apply P'. apply X.
Qed.
Print Assumptions C65_names.

Example C65_names_ex : exists c, register_all [] [(5, 1); (3, 2); (4, 1)] = Some c /\ canonical_name c 1 = Some 4 /\ resolve c 5 = Some 1 /\
  register_all [] [(5, 1); (5, 2)] = None.
Proof. eexists. split; [vm_compute; reflexivity|]. repeat split. Qed.
