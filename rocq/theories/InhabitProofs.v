(** Proofs about the uninhabited-type test. *)
From Coq Require Import List Bool Arith Lia.
From Verif Require Import GraphModel InhabitModel InhabitSpec.
Import ListNotations.

Lemma contains_spec : forall l x, contains l x = true <-> In x l.
Proof.
  intros l x. unfold contains. rewrite existsb_exists. split.
  - intros [y [H1 H2]]. apply Nat.eqb_eq in H2. now subst.
  - intros H. exists x. split; [exact H|apply Nat.eqb_refl].
Qed.

Lemma rd_in : forall (A : Type) (l : list A) i, i < length l -> exists x, nth_error l i = Some x /\ rd l i = Val x.
Proof.
  intros A l i H. unfold rd. destruct (nth_error l i) as [x|] eqn:E.
  - now exists x.
  - apply nth_error_None in E. lia.
Qed.

(** The value of [any_of] and [all_of] on functions that do not fail. *)
Lemma any_of_total : forall f l,
  (forall x, In x l -> exists b, f x = Val b) ->
  exists b, any_of f l = Val b /\ (b = true <-> exists x, In x l /\ f x = Val true).
Proof.
  induction l as [|x l IH]; intros H.
  - exists false. split; [reflexivity|]. split; [discriminate|]. intros [y [[] _]].
  - destruct (H x (or_introl eq_refl)) as [b Hb]. cbn [any_of]. rewrite Hb. cbn [bind]. destruct b.
    + exists true. split; [reflexivity|]. split; [|auto]. intros _. exists x. split; [now left|exact Hb].
    + destruct IH as [b [E1 E2]]; [intros y Hy; apply H; now right|].
      exists b. split; [exact E1|]. rewrite E2. split; intros [y [H1 H2]].
      * exists y. split; [now right|exact H2].
      * destruct H1 as [H1|H1]; [subst; congruence|]. now exists y.
Qed.

Lemma all_of_total : forall f l,
  (forall x, In x l -> exists b, f x = Val b) ->
  exists b, all_of f l = Val b /\ (b = true <-> forall x, In x l -> f x = Val true).
Proof.
  induction l as [|x l IH]; intros H.
  - exists true. split; [reflexivity|]. split; [|auto]. intros _ x [].
  - destruct (H x (or_introl eq_refl)) as [b Hb]. cbn [all_of]. rewrite Hb. cbn [bind]. destruct b.
    + destruct IH as [b [E1 E2]]; [intros y Hy; apply H; now right|].
      exists b. split; [exact E1|]. rewrite E2. split; intros H1 y Hy.
      * destruct Hy as [<-|Hy]; auto.
      * apply H1. now right.
    + exists false. split; [reflexivity|]. split; [discriminate|]. intros H1.
      specialize (H1 x (or_introl eq_refl)). congruence.
Qed.

Lemma all_in_full : forall n l x,
  NoDup l -> (forall y, In y l -> y < n) -> n <= length l -> x < n -> In x l.
Proof.
  intros n l x Hd Hb Hl Hx.
  assert (Hi : incl (seq 0 n) l).
  { apply (NoDup_length_incl Hd).
    - rewrite seq_length. exact Hl.
    - intros y Hy. apply in_seq. specialize (Hb y Hy). lia. }
  apply Hi. apply in_seq. lia.
Qed.

Lemma held_parts : forall k p, In p (held k) -> In p (parts k).
Proof. intros [] p; cbn [held parts]; auto; try easy. intros [->|[]]. apply in_or_app. right. now left. Qed.

(** The test always gives an answer. *)
Lemma go_total : forall T, well_formed T -> forall f ty seen,
  ty < length T -> NoDup seen -> (forall y, In y seen -> y < length T) -> length T < f + length seen ->
  exists b, go f T ty seen = Val b.
Proof.
  intros T W. induction f as [|f IH]; intros ty seen Ht Hd Hb Hf.
  - exfalso. pose proof (NoDup_incl_length Hd (l' := seq 0 (length T))) as H. rewrite seq_length in H.
    assert (length seen <= length T); [|cbn [plus] in Hf; lia].
    apply H. intros y Hy. apply in_seq. specialize (Hb y Hy). lia.
  - cbn [go]. destruct (contains seen ty) eqn:Ec; [now exists false|].
    destruct (rd_in _ T ty Ht) as [k [Ek Er]]. rewrite Er. cbn [bind].
    assert (Hn : ~ In ty seen) by (intros H; apply contains_spec in H; congruence).
    assert (Hp : forall p, In p (held k) -> exists b, go f T p (ty :: seen) = Val b).
    { intros p Hp. apply IH.
      - apply (W ty k p Ek). now apply held_parts.
      - now constructor.
      - intros y [<-|Hy]; [exact Ht|now apply Hb].
      - cbn [length]. lia. }
    destruct k; cbn [held] in Hp; try (eexists; reflexivity).
    + destruct (all_of_total _ _ Hp) as [b [E _]]. now exists b.
    + destruct (any_of_total _ _ Hp) as [b [E _]]. now exists b.
    + destruct (any_of_total _ _ Hp) as [b [E _]]. now exists b.
    + apply Hp. now left.
Qed.

Lemma any_of_true : forall f l, any_of f l = Val true -> exists x, In x l /\ f x = Val true.
Proof.
  induction l as [|x l IH]; cbn [any_of]; [discriminate|].
  destruct (f x) as [[]| |] eqn:E; cbn [bind]; intros H; try discriminate.
  - exists x. split; [now left|exact E].
  - destruct (IH H) as [y [H1 H2]]. exists y. split; [now right|exact H2].
Qed.

Lemma all_of_true : forall f l, all_of f l = Val true -> forall x, In x l -> f x = Val true.
Proof.
  induction l as [|x l IH]; cbn [all_of]; [intros _ x []|].
  destruct (f x) as [[]| |] eqn:E; cbn [bind]; intros H; try discriminate.
  intros y [<-|Hy]; [exact E|now apply IH].
Qed.

Lemma rd_some : forall (A : Type) (l : list A) i x, rd l i = Val x -> nth_error l i = Some x.
Proof. intros A l i x. unfold rd. destruct (nth_error l i); congruence. Qed.

Lemma go_sound : forall T f ty seen, go f T ty seen = Val true -> evidently_empty T ty.
Proof.
  intros T. induction f as [|f IH]; intros ty seen; cbn [go]; [discriminate|].
  destruct (contains seen ty); [discriminate|].
  destruct (rd T ty) as [k| |] eqn:Ek; cbn [bind]; try discriminate. apply rd_some in Ek.
  destruct k; intros H; try discriminate.
  - eapply ee_variant; [exact Ek|]. intros p Hp. eapply IH. exact (all_of_true _ _ H p Hp).
  - apply any_of_true in H. destruct H as [p [H1 H2]]. eapply ee_tuple; eauto.
  - apply any_of_true in H. destruct H as [p [H1 H2]]. eapply ee_record; eauto.
  - eapply ee_named; eauto.
  - now apply ee_never.
Qed.

(** Emptiness seen in at most [n] steps. *)
Inductive empty_within (T : table) : nat -> nat -> Prop :=
| ew_never : forall n t, nth_error T t = Some TNever -> empty_within T (S n) t
| ew_tuple : forall n t ts p, nth_error T t = Some (TTuple ts) -> In p ts -> empty_within T n p -> empty_within T (S n) t
| ew_record : forall n t fs p,
    nth_error T t = Some (TRecord fs) -> In p (map snd fs) -> empty_within T n p -> empty_within T (S n) t
| ew_variant : forall n t ps,
    nth_error T t = Some (TVariant ps) -> (forall p, In p (map snd ps) -> empty_within T n p) -> empty_within T (S n) t
| ew_named : forall n t params shape,
    nth_error T t = Some (TNamed params shape) -> empty_within T n shape -> empty_within T (S n) t.

Lemma empty_within_le : forall T n t, empty_within T n t -> forall m, n <= m -> empty_within T m t.
Proof.
  intros T n t H. induction H; intros [|m] Hm; try lia.
  - now apply ew_never.
  - eapply ew_tuple; eauto. apply IHempty_within. lia.
  - eapply ew_record; eauto. apply IHempty_within. lia.
  - eapply ew_variant; eauto. intros p Hp. apply H1; [exact Hp|lia].
  - eapply ew_named; eauto. apply IHempty_within. lia.
Qed.

Lemma common_bound : forall T l,
  (forall p, In p l -> exists n, empty_within T n p) -> exists n, forall p, In p l -> empty_within T n p.
Proof.
  induction l as [|x l IH]; intros H; [exists 0; intros p []|].
  destruct (H x (or_introl eq_refl)) as [n Hn]. destruct IH as [m Hm]; [intros p Hp; apply H; now right|].
  exists (n + m). intros p [<-|Hp].
  - eapply empty_within_le; [exact Hn|lia].
  - eapply empty_within_le; [exact (Hm p Hp)|lia].
Qed.

Lemma empty_bound : forall T t, evidently_empty T t -> exists n, empty_within T n t.
Proof.
  intros T t H. induction H.
  - exists 1. now apply ew_never.
  - destruct IHevidently_empty as [n Hn]. exists (S n). eapply ew_tuple; eauto.
  - destruct IHevidently_empty as [n Hn]. exists (S n). eapply ew_record; eauto.
  - destruct (common_bound T _ H1) as [n Hn]. exists (S n). eapply ew_variant; eauto.
  - destruct IHevidently_empty as [n Hn]. exists (S n). eapply ew_named; eauto.
Qed.

Lemma empty_within_dec : forall T n t, {empty_within T n t} + {~ empty_within T n t}.
Proof.
  intros T. induction n as [|n IH]; intros t; [right; intros H; inversion H|].
  destruct (nth_error T t) as [k|] eqn:E; [|right; intros H; inversion H; congruence].
  destruct k; try (right; intros H; inversion H; congruence).
  - destruct (Forall_dec (empty_within T n) IH (map snd payloads)) as [F|F]; rewrite Forall_forall in F.
    + left. eapply ew_variant; eauto.
    + right. intros H. inversion H; try congruence. assert (ps = payloads) by congruence. subst ps. now apply F.
  - destruct (Exists_dec (empty_within T n) types IH) as [F|F]; rewrite Exists_exists in F.
    + left. destruct F as [p [F1 F2]]. eapply ew_tuple; eauto.
    + right. intros H. inversion H; try congruence. apply F. exists p. split; congruence.
  - destruct (Exists_dec (empty_within T n) (map snd fields) IH) as [F|F]; rewrite Exists_exists in F.
    + left. destruct F as [p [F1 F2]]. eapply ew_record; eauto.
    + right. intros H. inversion H; try congruence. apply F. exists p. split; congruence.
  - destruct (IH shape) as [F|F].
    + left. eapply ew_named; eauto.
    + right. intros H. inversion H; congruence.
  - left. now apply ew_never.
Qed.

Lemma least_bound : forall T n t, empty_within T n t ->
  exists m, m < n /\ empty_within T (S m) t /\ ~ empty_within T m t.
Proof.
  intros T. induction n as [|n IH]; intros t H; [inversion H|].
  destruct (empty_within_dec T n t) as [D|D].
  - destruct (IH t D) as [m [H1 H2]]. exists m. split; [lia|exact H2].
  - exists n. split; [lia|]. now split.
Qed.

(** What has been seen on the way down does not hide a short derivation of emptiness. *)
Lemma go_complete : forall T, well_formed T -> forall n f ty seen,
  empty_within T n ty -> (forall s, In s seen -> ~ empty_within T n s) ->
  ty < length T -> NoDup seen -> (forall y, In y seen -> y < length T) -> length T < f + length seen ->
  go f T ty seen = Val true.
Proof.
  intros T W. induction n as [n IH] using lt_wf_ind. intros f ty seen H Hs Ht Hd Hb Hf.
  destruct (go_total T W f ty seen Ht Hd Hb Hf) as [b Hg]. rewrite Hg. f_equal.
  destruct (least_bound T n ty H) as [m [Hm [H1 H0]]].
  destruct f as [|f]; [discriminate|]. cbn [go] in Hg.
  assert (Hn : ~ In ty seen) by (intros Hi; exact (Hs _ Hi H)).
  destruct (contains seen ty) eqn:Ec; [apply contains_spec in Ec; contradiction|].
  destruct (rd_in _ T ty Ht) as [k [Ek Er]]. rewrite Er in Hg. cbn [bind] in Hg.
  assert (G : forall p, In p (held k) -> empty_within T m p -> go f T p (ty :: seen) = Val true).
  { intros p Hp He. apply (IH m Hm).
    - exact He.
    - intros s [<-|Hi]; [exact H0|]. intros Hc. apply (Hs s Hi). eapply empty_within_le; [exact Hc|lia].
    - apply (W ty k p Ek). now apply held_parts.
    - now constructor.
    - intros y [<-|Hy]; [exact Ht|now apply Hb].
    - cbn [length]. lia. }
  assert (Tot : forall p, In p (held k) -> exists b, go f T p (ty :: seen) = Val b).
  { intros p Hp. apply (go_total T W).
    - apply (W ty k p Ek). now apply held_parts.
    - now constructor.
    - intros y [<-|Hy]; [exact Ht|now apply Hb].
    - cbn [length]. lia. }
  inversion H1; subst; rewrite Ek in *; match goal with E : Some _ = Some _ |- _ => injection E as -> end; cbn [held] in *.
  - congruence.
  - destruct (any_of_total _ _ Tot) as [b' [E1 E2]]. rewrite E1 in Hg. injection Hg as <-. apply E2.
    exists p. split; [assumption|]. now apply G.
  - destruct (any_of_total _ _ Tot) as [b' [E1 E2]]. rewrite E1 in Hg. injection Hg as <-. apply E2.
    exists p. split; [assumption|]. now apply G.
  - destruct (all_of_total _ _ Tot) as [b' [E1 E2]]. rewrite E1 in Hg. injection Hg as <-. apply E2.
    intros p Hp. apply G; auto.
  - rewrite (G shape) in Hg; [congruence|now left|assumption].
Qed.

Lemma uninhabited_exact : forall T t, well_formed T -> t < length T ->
  exists b, is_definitely_uninhabited T t = Val b /\ (b = true <-> evidently_empty T t).
Proof.
  intros T t W Ht. unfold is_definitely_uninhabited.
  destruct (go_total T W (S (length T)) t []) as [b Hb]; [assumption|constructor|easy|cbn [length]; lia|].
  exists b. split; [exact Hb|]. split.
  - intros ->. eapply go_sound. exact Hb.
  - intros H. destruct (empty_bound T t H) as [n Hn].
    rewrite (go_complete T W n) in Hb; [congruence|assumption|easy|assumption|constructor|easy|cbn [length]; lia].
Qed.

Lemma Forall2_In_r : forall (A B : Type) (R : A -> B -> Prop) l l' y, Forall2 R l l' -> In y l' -> exists x, In x l /\ R x y.
Proof.
  intros A B R l l' y H. induction H; intros Hi; [easy|]. destruct Hi as [<-|Hi].
  - exists x. split; [now left|assumption].
  - destruct (IHForall2 Hi) as [z [H1 H2]]. exists z. split; [now right|assumption].
Qed.

(** An evidently empty type has no value. *)
Lemma empty_no_value : forall T t, evidently_empty T t -> forall v, ~ has_type T v t.
Proof.
  intros T t H. induction H; intros v Hv; inversion Hv; subst; try congruence;
    match goal with E1 : nth_error T t = Some _, E2 : nth_error T t = Some _ |- _ => rewrite E1 in E2; injection E2 as -> end.
  - destruct (Forall2_In_r _ _ _ _ _ _ H3 H0) as [x [_ Hx]]. exact (IHevidently_empty x Hx).
  - destruct (Forall2_In_r _ _ _ _ _ _ H3 H0) as [x [_ Hx]]. exact (IHevidently_empty x Hx).
  - apply (H1 p) with (v := v0); [|assumption]. apply (in_map snd) in H3. exact H3.
  - subst shape0. exact (IHevidently_empty v H2).
Qed.

Lemma values_of_all : forall T l, (forall p, In p l -> exists v, has_type T v p) -> exists vs, Forall2 (has_type T) vs l.
Proof.
  induction l as [|p l IH]; intros H; [exists []; constructor|].
  destruct (H p (or_introl eq_refl)) as [v Hv]. destruct IH as [vs Hvs]; [intros q Hq; apply H; now right|].
  exists (v :: vs). now constructor.
Qed.

(** Emptiness of the types of a well-formed table can be decided. *)
Lemma empty_dec : forall T t, well_formed T -> t < length T -> {evidently_empty T t} + {~ evidently_empty T t}.
Proof.
  intros T t W Ht. destruct (is_definitely_uninhabited T t) as [[]| |] eqn:E.
  - left. eapply go_sound. exact E.
  - right. intros H. destruct (uninhabited_exact T t W Ht) as [b [E1 E2]]. rewrite E in E1. injection E1 as <-.
    apply E2 in H. discriminate.
  - exfalso. destruct (uninhabited_exact T t W Ht) as [b [E1 _]]. congruence.
  - exfalso. destruct (uninhabited_exact T t W Ht) as [b [E1 _]]. congruence.
Qed.

(** A type that is not recursive and not evidently empty has a value. *)
Lemma not_empty_value : forall T, well_formed T -> forall t, not_recursive T t ->
  ~ evidently_empty T t -> exists v, has_type T v t.
Proof.
  intros T W t H. induction H as [t k Ek _ IH]. intros Hn.
  assert (Hr : forall p, In p (held k) -> p < length T).
  { intros p Hp. apply (W t k p Ek). now apply held_parts. }
  destruct k; cbn [held] in *.
  - exists VOpaque. eapply ht_variable; eauto.
  - exists VOpaque. eapply ht_native; eauto.
  - assert (F : exists p, In p (map snd payloads) /\ ~ evidently_empty T p).
    { destruct (Exists_dec (fun p => ~ (p < length T /\ evidently_empty T p)) (map snd payloads)) as [F|F].
      - intros p. destruct (lt_dec p (length T)) as [L|L]; [|left; tauto].
        destruct (empty_dec T p W L); [right; tauto|left; tauto].
      - rewrite Exists_exists in F. destruct F as [p [F1 F2]]. exists p. split; [exact F1|].
        intros He. apply F2. split; auto.
      - exfalso. apply Hn. eapply ee_variant; [exact Ek|]. intros p Hp.
        destruct (empty_dec T p W (Hr p Hp)) as [D|D]; [exact D|]. exfalso. apply F. rewrite Exists_exists. exists p.
        split; [exact Hp|tauto]. }
    destruct F as [p [F1 F2]]. destruct (IH p F1 F2) as [v Hv].
    apply in_map_iff in F1. destruct F1 as [[tag q] [Hq Hi]]. cbn [snd] in Hq. subst q.
    exists (VVariant tag v). eapply ht_variant; eauto.
  - destruct (values_of_all T types) as [vs Hvs].
    { intros p Hp. apply IH; [exact Hp|]. intros He. apply Hn. eapply ee_tuple; eauto. }
    exists (VTuple vs). eapply ht_tuple; eauto.
  - destruct (values_of_all T (map snd fields)) as [vs Hvs].
    { intros p Hp. apply IH; [exact Hp|]. intros He. apply Hn. eapply ee_record; eauto. }
    exists (VTuple vs). eapply ht_record; eauto.
  - exists VOpaque. eapply ht_function; eauto.
  - exists VOpaque. eapply ht_subscript; eauto.
  - destruct (IH shape) as [v Hv]; [now left| |].
    { intros He. apply Hn. eapply ee_named; eauto. }
    exists v. eapply ht_named; eauto.
  - exfalso. apply Hn. now apply ee_never.
Qed.

(** ** Omitted arms *)

Lemma lookup_none : forall tag covered, lookup tag covered = None <-> ~ In tag (map fst covered).
Proof.
  induction covered as [|[t p] c IH]; cbn [lookup map fst]; [split; auto|].
  destruct (Nat.eqb t tag) eqn:E.
  - apply Nat.eqb_eq in E. subst. split; [discriminate|]. intros H. exfalso. apply H. now left.
  - apply Nat.eqb_neq in E. rewrite IH. split; intros H; [intros [H1|H1]; auto|].
    intros H1. apply H. now right.
Qed.

Lemma omissions_exact : forall T covered, well_formed T -> forall variants result,
  (forall p, In p (map snd variants) -> p < length T) ->
  exists r, omissions T covered variants result = Val r /\
    match r with
    | Some l =>
        (forall tag p, In (tag, p) variants -> ~ In tag (map fst covered) -> evidently_empty T p) /\
        l = result ++ map (fun v => (fst v, match lookup (fst v) covered with Some c => c | None => snd v end)) variants
    | None => exists tag p, In (tag, p) variants /\ ~ In tag (map fst covered) /\ ~ evidently_empty T p
    end.
Proof.
  intros T covered W. induction variants as [|[tag payload] vs IH]; intros result Hb; cbn [omissions].
  - exists (Some result). split; [reflexivity|]. split; [easy|]. cbn [map]. now rewrite app_nil_r.
  - cbn [map snd] in Hb. assert (Hb' : forall p, In p (map snd vs) -> p < length T) by (intros p Hp; apply Hb; now right).
    destruct (lookup tag covered) as [c|] eqn:El.
    + destruct (IH (result ++ [(tag, c)]) Hb') as [r [E1 E2]]. exists r. split; [exact E1|]. destruct r as [l|].
      * destruct E2 as [E2 E3]. split.
        { intros t p [Heq|Hi] Hn; [|eauto]. injection Heq as <- <-. apply lookup_none in Hn. congruence. }
        { rewrite E3. cbn [map fst snd]. rewrite El. now rewrite <- app_assoc. }
      * destruct E2 as [t [p [H1 H2]]]. exists t, p. split; [now right|exact H2].
    + destruct (uninhabited_exact T payload W) as [b [Eb Hbb]]; [apply Hb; now left|].
      rewrite Eb. cbn [bind]. destruct b.
      * destruct (IH (result ++ [(tag, payload)]) Hb') as [r [E1 E2]]. exists r. split; [exact E1|]. destruct r as [l|].
        { destruct E2 as [E2 E3]. split.
          - intros t p [Heq|Hi] Hn; [|eauto]. injection Heq as <- <-. now apply Hbb.
          - rewrite E3. cbn [map fst snd]. rewrite El. now rewrite <- app_assoc. }
        { destruct E2 as [t [p [H1 H2]]]. exists t, p. split; [now right|exact H2]. }
      * exists None. split; [reflexivity|]. exists tag, payload. split; [now left|].
        split; [now apply lookup_none|]. intros He. apply Hbb in He. discriminate.
Qed.

Lemma empty_match_lemma : forall T t, well_formed T -> t < length T ->
  exists accepted,
    empty_match_accepted T t = Val accepted /\
    (accepted = true -> forall v, ~ has_type T v t) /\
    (accepted = true <-> evidently_empty T t).
Proof.
  intros T t W Ht. destruct (uninhabited_exact T t W Ht) as [b [E1 E2]]. exists b.
  split; [exact E1|]. split; [|exact E2]. intros H. apply empty_no_value. now apply E2.
Qed.

Lemma not_recursive_lemma : forall T t, well_formed T -> t < length T -> not_recursive T t ->
  exists accepted, empty_match_accepted T t = Val accepted /\ (accepted = true <-> forall v, ~ has_type T v t).
Proof.
  intros T t W Ht Hn. destruct (uninhabited_exact T t W Ht) as [b [E1 E2]]. exists b.
  split; [exact E1|]. rewrite E2. split; [apply empty_no_value|].
  intros H. destruct (empty_dec T t W Ht) as [D|D]; [exact D|]. exfalso.
  destruct (not_empty_value T W t Hn D) as [v Hv]. exact (H v Hv).
Qed.

Lemma omitted_arms_lemma : forall T t params shape variants covered,
  well_formed T -> nth_error T t = Some (TNamed params shape) -> nth_error T shape = Some (TVariant variants) ->
  exists r, named_enum_variant_tys_with_uninhabited_omissions T t covered = Val r /\
    match r with
    | Some l =>
        (forall v, has_type T v t -> exists tag payload, v = VVariant tag payload /\ In tag (map fst covered)) /\
        map fst l = map fst variants /\
        (forall i tag p, nth_error variants i = Some (tag, p) ->
           nth_error (map snd l) i = Some (match lookup tag covered with Some c => c | None => p end))
    | None => exists tag p, In (tag, p) variants /\ ~ In tag (map fst covered) /\ ~ evidently_empty T p
    end.
Proof.
  intros T t params shape variants covered W Et Es.
  destruct (omissions_exact T covered W variants []) as [r [E1 E2]].
  { intros p Hp. exact (W shape _ p Es Hp). }
  exists r. split.
  { unfold named_enum_variant_tys_with_uninhabited_omissions, rd. rewrite Et. cbn [bind]. rewrite Es. exact E1. }
  destruct r as [l|]; [|exact E2]. destruct E2 as [E2 ->]. cbn [app]. split; [|split].
  - intros v Hv. inversion Hv; subst; try congruence. rewrite Et in H. injection H as <- <-.
    inversion H0; subst; try congruence. rewrite Es in H. injection H as <-.
    exists tag, v0. split; [reflexivity|].
    destruct (lookup tag covered) as [c|] eqn:El.
    + destruct (in_dec Nat.eq_dec tag (map fst covered)) as [D|D]; [exact D|]. apply lookup_none in D. congruence.
    + exfalso. apply lookup_none in El. exact (empty_no_value T p (E2 tag p H1 El) v0 H2).
  - rewrite map_map. cbn [fst]. reflexivity.
  - intros i tag p Hi. rewrite map_map. cbn [snd]. rewrite nth_error_map, Hi. reflexivity.
Qed.

Lemma only_named_enums_lemma : forall T t covered l, named_enum_variant_tys_with_uninhabited_omissions T t covered = Val (Some l) ->
  exists params shape variants, nth_error T t = Some (TNamed params shape) /\ nth_error T shape = Some (TVariant variants).
Proof.
  intros T t covered l. unfold named_enum_variant_tys_with_uninhabited_omissions.
  destruct (rd T t) as [k| |] eqn:Ek; cbn [bind]; try discriminate. destruct k; try discriminate.
  destruct (rd T shape) as [s| |] eqn:Es; cbn [bind]; try discriminate. destruct s; try discriminate.
  intros _. exists params, shape, payloads. split; now apply rd_some.
Qed.

Fixpoint weight (v : value) : nat :=
  match v with VTuple [v] => S (weight v) | _ => 0 end.

(** A struct that holds itself has no finite value. *)
Lemma self_struct : forall T t r name, nth_error T t = Some (TNamed [] r) -> nth_error T r = Some (TRecord [(name, t)]) ->
  forall v, ~ has_type T v t.
Proof.
  intros T t r name E1 E2 v. remember (weight v) as n eqn:En. revert v En.
  induction n as [n IH] using lt_wf_ind. intros v En H.
  inversion H; subst; try congruence. rewrite E1 in H0. injection H0 as <- <-.
  inversion H1; subst; try congruence. rewrite E2 in H0. injection H0 as <-. cbn [map snd] in H2.
  inversion H2 as [|x ? l ? Hx Hl]; subst. inversion Hl; subst.
  apply (IH (weight x)) with (v := x); [cbn [weight]; lia|reflexivity|exact Hx].
Qed.
