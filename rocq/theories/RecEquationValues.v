(** Values of accepted and rejected recursive equations. *)
From Coq Require Import List Bool Arith Lia Permutation.
From Verif Require Import ListUtil GraphModel InhabitModel InhabitSpec InhabitProofs RecEquationModel RecEquationSpec RecEquationProofs.
Import ListNotations.

Fixpoint vsize (x : value) : nat :=
  match x with
  | VOpaque => 1
  | VTuple l => S (list_sum (map vsize l))
  | VVariant _ x => S (vsize x)
  end.

Lemma vsize_in : forall x l, In x l -> vsize x <= list_sum (map vsize l).
Proof.
  induction l as [|y l IH]; intros H; [destruct H|]. cbn [map]. change (vsize x <= vsize y + list_sum (map vsize l)).
  destruct H as [->|H]; [lia|]. specialize (IH H). lia.
Qed.

Lemma tie_kind : forall T v root t k, nth_error T t = Some k ->
  nth_error (tie T v root) t = Some (match k with TVariable x => if Nat.eqb x v then TNamed [] root else k | _ => k end).
Proof. intros T v root t k H. unfold tie. now rewrite nth_error_map, H. Qed.

Lemma tie_variable : forall T v root t, nth_error T t = Some (TVariable v) -> nth_error (tie T v root) t = Some (TNamed [] root).
Proof. intros T v root t H. rewrite (tie_kind _ _ _ _ _ H). now rewrite Nat.eqb_refl. Qed.

Lemma tie_other : forall T v root t k, nth_error T t = Some k -> k <> TVariable v -> nth_error (tie T v root) t = Some k.
Proof.
  intros T v root t k H N. rewrite (tie_kind _ _ _ _ _ H). destruct k; auto.
  destruct (Nat.eqb v0 v) eqn:E; [|reflexivity]. apply Nat.eqb_eq in E. now subst.
Qed.

Lemma on_cycle_mentions : forall T v root t, on_cycle T v root t -> mentions T v t.
Proof. intros T v root t H. destruct H; auto. Qed.

Lemma mentions_below : forall T v t k, mentions T v t -> nth_error T t = Some k -> k <> TVariable v ->
  exists c, In c (components k) /\ mentions T v c.
Proof.
  intros T v t k H Hk N. destruct H as [t Ht|t k' c Hk' Hc Hm]; [congruence|].
  assert (k' = k) by congruence. subst. now exists c.
Qed.

(** The components of the value of a tuple or record. *)
Lemma tuple_value : forall T' x t k, has_type T' x t -> nth_error T' t = Some k ->
  match k with TTuple _ | TRecord _ => True | _ => False end ->
  forall c, In c (components k) -> exists y, has_type T' y c /\ vsize y < vsize x.
Proof.
  intros T' x t k H Hk Hp c Hc. destruct k; try contradiction; cbn [components] in Hc;
    inversion H; subst; try congruence; rewrite Hk in H0; injection H0 as <-;
    destruct (Forall2_In_r _ _ _ _ _ _ H1 Hc) as [y [Y1 Y2]]; exists y; (split; [exact Y2|]);
    cbn [vsize]; pose proof (vsize_in _ _ Y1); lia.
Qed.

Lemma variant_value : forall T' x t ps, has_type T' x t -> nth_error T' t = Some (TVariant ps) ->
  exists y p, In p (map snd ps) /\ has_type T' y p /\ vsize y < vsize x.
Proof.
  intros T' x t ps H Hk. inversion H; subst; try congruence. rewrite Hk in H0. injection H0 as <-.
  exists v, p. split; [|split; [assumption|cbn [vsize]; lia]]. apply (in_map snd) in H1. exact H1.
Qed.

Lemma named_value : forall T' x t params shape, has_type T' x t -> nth_error T' t = Some (TNamed params shape) -> has_type T' x shape.
Proof. intros T' x t params shape H Hk. inversion H; subst; congruence. Qed.

Section Rejected.
Variables (T : table) (v root : nat).
Hypothesis P : plain_cycle T v root.
Hypothesis R : nth_error T root <> Some (TVariable v).

Lemma variable_is_v : forall t x, mentions T v t -> nth_error T t = Some (TVariable x) -> x = v.
Proof.
  intros t x H Hk. destruct H as [t Ht|t k c Hk' Hc _]; [congruence|].
  rewrite Hk in Hk'. injection Hk' as <-. destruct Hc.
Qed.

Lemma no_ending_no_value : ~ ending_payload T v root -> forall n x t, vsize x = n ->
  on_cycle T v root t -> ~ has_type (tie T v root) x t.
Proof.
  intros N. induction n as [n IH] using lt_wf_ind. intros x t Hn Hc Hx.
  assert (NV : forall t, on_cycle T v root t -> nth_error T t <> Some (TVariable v) -> ~ has_type (tie T v root) x t).
  { clear t Hc Hx. intros t Hc Hv Hx.
    destruct (nth_error T t) as [k|] eqn:Ek.
    2:{ destruct (on_cycle_mentions _ _ _ _ Hc); congruence. }
    assert (Nk : k <> TVariable v) by congruence.
    pose proof (tie_other T v root t k Ek Nk) as Et. pose proof (P t k Hc Ek) as Pk.
    destruct (mentions_below T v t k (on_cycle_mentions _ _ _ _ Hc) Ek Nk) as [c [Hcc Hcm]].
    destruct k; try contradiction.
    - destruct (variant_value _ _ _ _ Hx Et) as [y [p [Hp [Hy Hs]]]].
      apply N. exists t, payloads, p. split; [exact Hc|]. split; [exact Ek|]. split; [exact Hp|]. intros Hm.
      apply (IH (vsize y)) with (x := y) (t := p); [lia|reflexivity| |exact Hy]. eapply oc_below; eauto.
    - destruct (tuple_value _ _ _ _ Hx Et I c Hcc) as [y [Hy Hs]].
      apply (IH (vsize y)) with (x := y) (t := c); [lia|reflexivity| |exact Hy]. eapply oc_below; eauto.
    - destruct (tuple_value _ _ _ _ Hx Et I c Hcc) as [y [Hy Hs]].
      apply (IH (vsize y)) with (x := y) (t := c); [lia|reflexivity| |exact Hy]. eapply oc_below; eauto. }
  destruct (nth_error T t) as [k|] eqn:Ek.
  2:{ destruct (on_cycle_mentions _ _ _ _ Hc); congruence. }
  destruct (match k with TVariable _ => true | _ => false end) eqn:Ev.
  - destruct k; try discriminate. apply variable_is_v in Ek as Q; [|eapply on_cycle_mentions; eauto]. subst v0.
    pose proof (named_value _ _ _ _ _ Hx (tie_variable T v root t Ek)) as Hr.
    apply (NV root); [|exact R|exact Hr]. apply oc_root. clear - Hc. induction Hc; [assumption|]. exact IHHc.
  - apply (NV t); auto. rewrite Ek. destruct k; try discriminate; congruence.
Qed.

Lemma unguarded_smaller : forall t, unguarded T v t -> on_cycle T v root t -> forall x, has_type (tie T v root) x t ->
  exists y, has_type (tie T v root) y root /\
    (vsize y < vsize x \/ (nth_error T t = Some (TVariable v) /\ vsize y <= vsize x)).
Proof.
  intros t H. induction H as [t Ht|t k c Hk Hv Hcc Hu IH]; intros Hc x Hx.
  - exists x. split; [|right; split; [exact Ht|lia]].
    exact (named_value _ _ _ _ _ Hx (tie_variable T v root t Ht)).
  - assert (Hm : mentions T v c).
    { clear - Hu. induction Hu; [now apply m_here|]. eapply m_below; eauto. }
    assert (Nk : k <> TVariable v) by (intros ->; destruct Hcc).
    pose proof (P t k Hc Hk) as Pk.
    assert (Tk : match k with TTuple _ | TRecord _ => True | _ => False end).
    { destruct k; auto. now specialize (Hv payloads). }
    destruct (tuple_value _ _ _ _ Hx (tie_other T v root t k Hk Nk) Tk c Hcc) as [y [Hy Hs]].
    destruct (IH ltac:(eapply oc_below; eauto) y Hy) as [z [Hz Hzs]]. exists z. split; [exact Hz|]. left. lia.
Qed.

Lemma unguarded_no_value : mentions T v root -> unguarded T v root -> forall n x, vsize x = n -> ~ has_type (tie T v root) x root.
Proof.
  intros Hm Hu. induction n as [n IH] using lt_wf_ind. intros x Hn Hx.
  destruct (unguarded_smaller root Hu (oc_root _ _ _ Hm) x Hx) as [y [Hy [Hs|[Hv _]]]]; [|contradiction].
  exact (IH (vsize y) ltac:(lia) y eq_refl Hy).
Qed.
End Rejected.

Lemma rejected_no_value : forall T v root r, well_formed T -> mentions T v root -> root < length T ->
  plain_cycle T v root -> nth_error T root <> Some (TVariable v) ->
  try_equation T v root = Val r -> r <> Accepted -> forall x, ~ has_type (tie T v root) x root.
Proof.
  intros T v root r W Hm Hr P R E N x. destruct (try_equation_exact T v root W Hm Hr) as [r' [E' H]].
  assert (r' = r) by congruence. subst r'. destruct r; [now contradiction N| |].
  - exact (unguarded_no_value T v root P R Hm H (vsize x) x eq_refl).
  - destruct H as [_ H]. exact (no_ending_no_value T v root P R H (vsize x) x root eq_refl (oc_root _ _ _ Hm)).
Qed.

Section Accepted.
Variables (T : table) (v root : nat).
Hypothesis W : well_formed T.
Hypothesis O : others_inhabited T (tie T v root) v root.
Hypothesis N : forall t params shape, on_cycle T v root t -> nth_error T t <> Some (TNamed params shape).
Hypothesis E : forall t ps, on_cycle T v root t -> nth_error T t = Some (TVariant ps) ->
  exists p, In p (map snd ps) /\ ~ mentions T v p.

Lemma mentions_dec : forall t, t < length T -> mentions T v t \/ ~ mentions T v t.
Proof.
  intros t Ht. destruct (compute_summaries_spec T v (well_formed_closed T W)) as [s [_ [Hl Hs]]].
  rewrite <- (Hs t). destruct (nth_error s t) as [[]|]; [now left|right; discriminate|right; discriminate].
Qed.

Lemma guarded_value : forall t, not_recursive T t -> on_cycle T v root t -> ~ unguarded T v t ->
  exists x, has_type (tie T v root) x t.
Proof.
  intros t H. induction H as [t k Ek Hsub IH]. intros Hc Hu.
  assert (Nk : k <> TVariable v) by (intros ->; apply Hu; now apply u_here).
  pose proof (tie_other T v root t k Ek Nk) as Et.
  assert (Sub : forall c, In c (held k) -> In c (components k) -> (forall ps, k <> TVariant ps) -> exists x, has_type (tie T v root) x c).
  { intros c Hh Hcc Hnv. destruct (mentions_dec c) as [Hm|Hm].
    - exact (well_formed_closed T W t k c Ek Hcc).
    - apply IH; [exact Hh|eapply oc_below; eauto|]. intros Hc'. apply Hu. eapply u_below; eauto.
    - exact (O t k c Hc Ek Hcc Hm). }
  destruct k.
  - exists VOpaque. eapply ht_variable; eauto.
  - exists VOpaque. eapply ht_native; eauto.
  - destruct (E t payloads Hc Ek) as [p [Hp Hm]]. destruct (O t _ p Hc Ek Hp Hm) as [x Hx].
    apply in_map_iff in Hp. destruct Hp as [[tag q] [Hq Hi]]. cbn [snd] in Hq. subst q.
    exists (VVariant tag x). eapply ht_variant; eauto.
  - destruct (values_of_all (tie T v root) types) as [xs Hxs].
    { intros c Hcc. apply Sub; [exact Hcc|exact Hcc|discriminate]. }
    exists (VTuple xs). eapply ht_tuple; eauto.
  - destruct (values_of_all (tie T v root) (map snd fields)) as [xs Hxs].
    { intros c Hcc. apply Sub; [exact Hcc|exact Hcc|discriminate]. }
    exists (VTuple xs). eapply ht_record; eauto.
  - exists VOpaque. eapply ht_function; eauto.
  - exists VOpaque. eapply ht_subscript; eauto.
  - exfalso. exact (N t params shape Hc Ek).
  - exfalso. destruct (mentions_below T v t _ (on_cycle_mentions _ _ _ _ Hc) Ek Nk) as [c [[] _]].
Qed.
End Accepted.

Lemma accepted_value : forall T v root, well_formed T -> mentions T v root -> root < length T ->
  try_equation T v root = Val Accepted -> not_recursive T root ->
  others_inhabited T (tie T v root) v root ->
  (forall t params shape, on_cycle T v root t -> nth_error T t <> Some (TNamed params shape)) ->
  (forall t ps, on_cycle T v root t -> nth_error T t = Some (TVariant ps) ->
     exists p, In p (map snd ps) /\ ~ mentions T v p) ->
  exists x, has_type (tie T v root) x root.
Proof.
  intros T v root W Hm Hr HA Hnr O N E. destruct (try_equation_exact T v root W Hm Hr) as [r [E1 H]].
  rewrite HA in E1. injection E1 as <-. destruct H as [H _].
  apply (guarded_value T v root W O N E); [assumption|now apply oc_root|assumption].
Qed.

Lemma accepted_single_variant_value : forall T v root, well_formed T -> mentions T v root -> root < length T ->
  try_equation T v root = Val Accepted -> not_recursive T root ->
  others_inhabited T (tie T v root) v root ->
  (forall t params shape, on_cycle T v root t -> nth_error T t <> Some (TNamed params shape)) ->
  (forall t t' ps ps', on_cycle T v root t -> on_cycle T v root t' ->
     nth_error T t = Some (TVariant ps) -> nth_error T t' = Some (TVariant ps') -> t = t') ->
  exists x, has_type (tie T v root) x root.
Proof.
  intros T v root W Hm Hr HA Hnr O N S. apply accepted_value; auto.
  intros t ps Hc Ht. destruct (try_equation_exact T v root W Hm Hr) as [r [E1 H]].
  rewrite HA in E1. injection E1 as <-. destruct H as [_ [t' [ps' [p [Hc' [Ht' [Hp Hn]]]]]]].
  assert (t = t') by exact (S t t' ps ps' Hc Hc' Ht Ht'). subst t'.
  assert (ps' = ps) by congruence. subst ps'. now exists p.
Qed.

(** ** The two ways in which the rules miss the existence of a value *)

(** [v = (A(v) | B(v), Leaf(int) | Node(v))]; 0 is [v], 4 the right-hand side. *)
Definition two_variants : table :=
  [ TVariable 7; TVariant [(1, 0); (2, 0)]; TNative []; TVariant [(3, 2); (4, 0)]; TTuple [1; 3] ].

Lemma two_variants_no_value : forall n x, vsize x = n -> ~ has_type (tie two_variants 7 4) x 4.
Proof.
  induction n as [n IH] using lt_wf_ind. intros x Hn Hx.
  destruct (tuple_value _ _ _ (TTuple [1; 3]) Hx eq_refl I 1 (or_introl eq_refl)) as [y [Hy Hs]].
  destruct (variant_value _ _ _ _ Hy eq_refl) as [z [p [Hp [Hz Hs']]]].
  assert (p = 0) by (cbn in Hp; intuition). subst p.
  apply (IH (vsize z)) with (x := z); [lia|reflexivity|].
  exact (named_value _ _ _ [] 4 Hz eq_refl).
Qed.

(** [v = Node([v])]. *)
Definition rose_tree : table := [ TVariable 7; TNative [0]; TVariant [(1, 1)] ].

Lemma rose_tree_value : has_type (tie rose_tree 7 2) (VVariant 1 VOpaque) 2.
Proof.
  eapply ht_variant; [reflexivity|now left|]. eapply ht_native. reflexivity.
Qed.

(** Deciding the side conditions of small tables. *)
Definition well_formedb (T : table) : bool := forallb (fun k => forallb (fun p => p <? length T) (parts k)) T.
Lemma well_formedb_sound : forall T, well_formedb T = true -> well_formed T.
Proof.
  intros T H t k p Hk Hp. unfold well_formedb in H. rewrite forallb_forall in H.
  specialize (H k (nth_error_In _ _ Hk)). rewrite forallb_forall in H. now apply Nat.ltb_lt, H.
Qed.

Lemma accepted_refuted : exists T v root,
  well_formed T /\ mentions T v root /\ root < length T /\ plain_cycle T v root /\
  try_equation T v root = Val Accepted /\ forall x, ~ has_type (tie T v root) x root.
Proof.
  exists two_variants, 7, 4. split; [now apply well_formedb_sound|].
  split; [|split; [cbn; lia|split; [|split; [vm_compute; reflexivity|]]]].
  - eapply m_below with (c := 1); [reflexivity|now left|].
    eapply m_below with (c := 0); [reflexivity|now left|]. now apply m_here.
  - intros t k H Hk. destruct t as [|[|[|[|[|t]]]]]; try (injection Hk as <-; exact I).
    + exfalso. apply on_cycle_mentions in H. inversion H; subst; try discriminate. injection H0 as <-. destruct H1.
    + destruct t; discriminate.
  - intros x. exact (two_variants_no_value (vsize x) x eq_refl).
Qed.

Lemma rejected_refuted : exists T v root,
  well_formed T /\ mentions T v root /\ root < length T /\
  try_equation T v root = Val NoTerminatingPayload /\ exists x, has_type (tie T v root) x root.
Proof.
  exists rose_tree, 7, 2. split; [now apply well_formedb_sound|].
  split; [|split; [cbn; lia|split; [vm_compute; reflexivity|]]].
  - eapply m_below with (c := 1); [reflexivity|now left|].
    eapply m_below with (c := 0); [reflexivity|now left|]. now apply m_here.
  - eexists. exact rose_tree_value.
Qed.

(** 0: the variable; 5: [Nil(()) | Cons((int, v))]; 3: [(int, v)]; 6: [Cons((int, v))]; 7: [(int) -> v]. *)
Definition list_equation : table :=
  [ TVariable 7; TNative []; TTuple []; TTuple [1; 0]; TNever; TVariant [(1, 2); (2, 3)]; TVariant [(1, 3)]; TFunction [1] 0 ].

Lemma list_mentions : mentions list_equation 7 5.
Proof.
  eapply m_below with (c := 3); [reflexivity|right; now left|].
  eapply m_below with (c := 0); [reflexivity|right; now left|]. now apply m_here.
Qed.

Lemma list_equation_example : well_formed list_equation /\ mentions list_equation 7 5 /\
  map (try_equation list_equation 7) [5; 3; 6; 7] = [Val Accepted; Val UnguardedCycle; Val NoTerminatingPayload; Val UnguardedCycle].
Proof.
  split; [now apply well_formedb_sound|]. split; [exact list_mentions|vm_compute; reflexivity].
Qed.

Lemma list_cycle : forall t, on_cycle list_equation 7 5 t -> t = 5 \/ t = 3 \/ t = 0.
Proof.
  intros t H. induction H as [|t k c Ht IH Hk Hc Hm]; [now left|].
  destruct IH as [-> | [-> | ->]]; injection Hk as <-; cbn in Hc.
  - destruct Hc as [<-|[<-|[]]]; [|auto]. exfalso. inversion Hm; subst; try discriminate. injection H as <-. destruct H0.
  - destruct Hc as [<-|[<-|[]]]; [|auto]. exfalso. inversion Hm; subst; try discriminate. injection H as <-. destruct H0.
  - destruct Hc.
Qed.

Lemma list_equation_value : exists x, has_type (tie list_equation 7 5) x 5.
Proof.
  apply accepted_single_variant_value.
  - now apply well_formedb_sound.
  - exact list_mentions.
  - cbn. lia.
  - vm_compute. reflexivity.
  - assert (N0 : not_recursive list_equation 0) by (eapply nr; [reflexivity|easy]).
    assert (N1 : not_recursive list_equation 1) by (eapply nr; [reflexivity|easy]).
    assert (N2 : not_recursive list_equation 2) by (eapply nr; [reflexivity|easy]).
    assert (N3 : not_recursive list_equation 3) by (eapply nr; [reflexivity|cbn; intros p [<-|[<-|[]]]; assumption]).
    eapply nr; [reflexivity|]. cbn. intros p [<-|[<-|[]]]; assumption.
  - intros t k c H Hk Hc Hm. destruct (list_cycle t H) as [-> | [-> | ->]]; injection Hk as <-; cbn in Hc.
    + destruct Hc as [<-|[<-|[]]].
      * exists (VTuple []). eapply ht_tuple; [reflexivity|constructor].
      * exfalso. apply Hm. eapply m_below with (c := 0); [reflexivity|right; now left|]. now apply m_here.
    + destruct Hc as [<-|[<-|[]]].
      * exists VOpaque. eapply ht_native. reflexivity.
      * exfalso. apply Hm. now apply m_here.
    + destruct Hc.
  - intros t params shape H. destruct (list_cycle t H) as [-> | [-> | ->]]; discriminate.
  - intros t t' ps ps' H H' Ht Ht'.
    destruct (list_cycle t H) as [-> | [-> | ->]]; try discriminate;
    destruct (list_cycle t' H') as [-> | [-> | ->]]; try discriminate. reflexivity.
Qed.
