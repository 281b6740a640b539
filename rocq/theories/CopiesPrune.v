(** Dropping what nothing calls. *)
From Coq Require Import List Arith Bool Lia Sorted.
From Verif Require Import CopiesModel CopiesSpec CopiesSim CopiesRewrite.
Import ListNotations.

Lemma in_value_names : forall v g, In g (value_names v) <-> v = VFunction g.
Proof. intros [f| | |] g; cbn; split; try tauto; try discriminate; [intros [-> | []]; auto | intros E; injection E; auto]. Qed.

Lemma in_operand_names : forall o g, In g (operation_operand_names o) <-> In (VFunction g) (o_operands o).
Proof.
  intros o g. unfold operation_operand_names. rewrite in_flat_map. split.
  - intros (v & I & H). apply in_value_names in H. now subst.
  - intros I. exists (VFunction g). split; auto. now apply in_value_names.
Qed.

Lemma in_kind_names : forall k g, In g (kind_names k) <-> exists r, k = KClosure g r.
Proof.
  intros [v r|f r|n] g; cbn; split; try tauto; try (intros (x & E); discriminate).
  - intros [-> | []]; eauto.
  - intros (x & E). injection E; auto.
Qed.

(** The walk of a body finds the functions it names. *)
Lemma function_ids_names : forall f g, In g (function_ids f) <-> names f g.
Proof.
  intros f g. unfold function_ids. rewrite in_app_iff, !in_flat_map. split.
  - intros [(b & Ib & H) | (b & Ib & H)].
    + unfold block_operand_names in H. rewrite in_app_iff, in_flat_map in H.
      destruct H as [(o & Io & H) | H].
      * apply in_operand_names in H. apply (names_operand f g o); auto. exists b; auto.
      * destruct (t_kind (b_terminator b)) eqn:T; cbn in H; try contradiction.
        -- apply in_value_names in H. subst. exact (names_condition f g b yes no Ib T).
        -- apply in_operand_names in H. apply (names_operand f g o); auto.
           exists b. split; auto. right; eauto.
        -- apply in_value_names in H. subst. exact (names_yield f g b resume Ib T).
    + unfold block_kind_names in H. rewrite in_app_iff, in_flat_map in H.
      destruct H as [(o & Io & H) | H].
      * apply in_kind_names in H as (r & H). apply (names_closure f g o r); auto. exists b; auto.
      * destruct (t_kind (b_terminator b)) eqn:T; cbn in H; try contradiction.
        apply in_kind_names in H as (r & H). apply (names_closure f g o r); auto.
        exists b. split; auto. right; eauto.
  - intros [o (b & Ib & [Io | (n & e & T)]) I | o r (b & Ib & [Io | (n & e & T)]) K | b y n Ib T | b r Ib T].
    + left. exists b. split; auto. unfold block_operand_names. apply in_or_app. left.
      apply in_flat_map. exists o. split; auto. now apply in_operand_names.
    + left. exists b. split; auto. unfold block_operand_names. apply in_or_app. right.
      rewrite T. now apply in_operand_names.
    + right. exists b. split; auto. unfold block_kind_names. apply in_or_app. left.
      apply in_flat_map. exists o. split; auto. apply in_kind_names. eauto.
    + right. exists b. split; auto. unfold block_kind_names. apply in_or_app. right.
      rewrite T. apply in_kind_names. eauto.
    + left. exists b. split; auto. unfold block_operand_names. apply in_or_app. right.
      rewrite T. now left.
    + left. exists b. split; auto. unfold block_operand_names. apply in_or_app. right.
      rewrite T. now left.
Qed.

(** * Discovery *)

Definition alive (live : list bool) (i : nat) : Prop := nth_error live i = Some true.
Definition dead (live : list bool) : nat := length (filter negb live).

Lemma set_live_spec : forall live i, nth_error live i = Some false ->
  length (set_live live i) = length live /\
  (forall j, alive (set_live live i) j <-> alive live j \/ j = i) /\
  S (dead (set_live live i)) = dead live.
Proof.
  unfold set_live, alive, dead.
  induction live as [|x live IH]; intros [|i] E; cbn in E; try discriminate.
  - injection E as ->. cbn. split; [reflexivity |]. split; [| reflexivity].
    intros [|j]; cbn; split; auto; try (intros [H|H]; auto; discriminate).
  - destruct (IH i E) as (L & A & D). cbn in *. split; [congruence |]. split.
    + intros [|j]; cbn.
      * split; [auto | intros [H|H]; [auto | discriminate]].
      * rewrite (A j). split; intros [H|H]; auto.
    + destruct x; cbn; [exact D | now rewrite D].
Qed.

Section Reach.
  Variable a : artifacts.
  Notation m := (a_module a).
  Notation first := (length (a_functions a)).
  Notation n := (length (a_copies a)).

  Lemma discover_all_spec : forall fs live wl,
    length live = n -> (forall i, In (copy_id a i) fs -> i < n) ->
    exists live' wl', discover_all m first fs (live, wl) = Some (live', wl') /\
      length live' = n /\
      (forall i, alive live' i <-> alive live i \/ In (copy_id a i) fs) /\
      (forall i, In i wl -> In i wl') /\
      (forall i, In i wl' -> In i wl \/ alive live' i) /\
      (forall i, alive live' i -> alive live i \/ In i wl') /\
      dead live' + length wl' = dead live + length wl.
  Proof.
    induction fs as [|f fs IH]; intros live wl Len Rg; cbn.
    - exists live, wl. split; [reflexivity |]. split; [assumption |].
      split; [intros i; tauto |]. split; [auto |]. split; [auto |]. split; [auto | reflexivity].
    - unfold discover; cbn.
      destruct (copy_or_not a f) as [(i & ->) | O].
      + rewrite (proj2 (index_of_copy a (copy_id a i) i) eq_refl).
        assert (Hi : i < n) by (apply Rg; now left).
        destruct (nth_error live i) as [[|]|] eqn:E.
        * cbn. destruct (IH live wl Len (fun j I => Rg j (or_intror I))) as
            (live' & wl' & E' & L' & A' & W1 & W2 & W3 & D).
          exists live', wl'. split; [exact E' |]. split; [assumption |]. split.
          { intros j. rewrite (A' j). split; [tauto |]. intros [H | [H | H]]; auto.
            apply copy_id_inj in H. subst j. now left. }
          auto.
        * cbn. destruct (set_live_spec live i E) as (L1 & A1 & D1).
          destruct (IH (set_live live i) (i :: wl)) as (live' & wl' & E' & L' & A' & W1 & W2 & W3 & D).
          { congruence. }
          { intros j I. apply Rg. now right. }
          exists live', wl'. split; [exact E' |]. split; [assumption |]. split.
          { intros j. rewrite (A' j), (A1 j). split.
            - intros [[H | ->] | H]; auto.
            - intros [H | [H | H]]; auto. apply copy_id_inj in H. auto. }
          split; [intros j I; apply W1; now right |]. split.
          { intros j I. destruct (W2 j I) as [[-> | H] | H]; auto. right.
            apply A'. left. apply A1. now right. }
          split.
          { intros j I. destruct (W3 j I) as [H | H]; auto.
            apply A1 in H as [H | ->]; auto. right. apply W1. now left. }
          cbn in D. lia.
        * apply nth_error_None in E. lia.
      + rewrite (proj2 (index_of_none a f) O). cbn.
        destruct (IH live wl Len (fun j I => Rg j (or_intror I))) as
          (live' & wl' & E' & L' & A' & W1 & W2 & W3 & D).
        exists live', wl'. split; [exact E' |]. split; [assumption |]. split; [| auto].
        intros j. rewrite (A' j). split; [tauto |]. intros [H | [H | H]]; auto.
        subst f. destruct O. apply copy_is_copy.
  Qed.

  Hypothesis W : well_named a.

  Lemma copy_in_range : forall f i, own_body a f -> names f (copy_id a i) -> i < n.
  Proof.
    intros f i O N. pose proof (wn_range a W f _ O N (copy_is_copy a i)) as H. cbn in H. lia.
  Qed.

  Lemma own_copy : forall j s, nth_error (a_copies a) j = Some s -> own_body a (s_body s).
  Proof. intros j s N. right. exists s. split; [exact (nth_error_In _ _ N) | reflexivity]. Qed.

  Lemma drain_spec : forall fuel live wl,
    length live = n -> dead live + length wl <= fuel ->
    (forall i, In i wl -> alive live i) ->
    (forall i, alive live i -> reached a i) ->
    (forall i s j, alive live i -> ~ In i wl -> nth_error (a_copies a) i = Some s ->
       names (s_body s) (copy_id a j) -> alive live j) ->
    exists live', drain fuel m first (a_copies a) (live, wl) = Some live' /\
      length live' = n /\
      (forall i, alive live i -> alive live' i) /\
      (forall i, alive live' i -> reached a i) /\
      (forall i s j, alive live' i -> nth_error (a_copies a) i = Some s ->
         names (s_body s) (copy_id a j) -> alive live' j).
  Proof.
    induction fuel as [|fuel IH]; intros live wl Len Fu Wa So Cl.
    - destruct wl as [|i wl]; cbn in *; [| lia].
      exists live. split; [reflexivity |]. split; [assumption |]. split; [auto |]. split; [auto |].
      intros i s j A N Nm. apply (Cl i s j A); auto.
    - destruct wl as [|i wl]; cbn [drain snd fst].
      + exists live. split; [reflexivity |]. split; [assumption |]. split; [auto |]. split; [auto |].
        intros i s j A N Nm. apply (Cl i s j A); auto.
      + assert (Ai : alive live i) by (apply Wa; now left).
        assert (Hi : i < n). { rewrite <- Len. apply nth_error_Some. unfold alive in Ai. congruence. }
        destruct (nth_error (a_copies a) i) as [s|] eqn:N; [| apply nth_error_None in N; lia].
        cbn [bind].
        assert (Rg : forall j, In (copy_id a j) (function_ids (s_body s)) -> j < n).
        { intros j I. apply function_ids_names in I. exact (copy_in_range _ j (own_copy i s N) I). }
        destruct (discover_all_spec (function_ids (s_body s)) live wl Len Rg) as
          (live' & wl' & E' & L' & A' & W1 & W2 & W3 & D).
        rewrite E'. cbn [bind].
        destruct (IH live' wl') as (live2 & E2 & L2 & M2 & S2 & C2).
        * assumption.
        * cbn in Fu. lia.
        * intros j I. destruct (W2 j I) as [H | H]; auto. apply A'. left. apply Wa. now right.
        * intros j A. apply A' in A as [A | A]; auto.
          apply function_ids_names in A. exact (reached_copy a i s j (So i Ai) N A).
        * intros j t k A Nw Nt Nm. apply A'.
          destruct (W3 j A) as [Aj | H]; [| contradiction].
          destruct (Nat.eq_dec j i) as [-> | Ne].
          -- rewrite N in Nt. injection Nt as <-. right. now apply function_ids_names.
          -- left. apply (Cl j t k Aj); auto. intros [-> | I]; [contradiction |]. apply Nw, W1, I.
        * exists live2. split; [exact E2 |]. split; [assumption |]. split; [| auto].
          intros j A. apply M2, A'. now left.
  Qed.

  Lemma in_declared_ids : forall g, In g (declared_ids (a_functions a)) <->
    exists f, In (Some f) (a_functions a) /\ names f g.
  Proof.
    intros g. unfold declared_ids. rewrite in_flat_map. split.
    - intros ([f|] & I & H); [| contradiction]. exists f. split; auto. now apply function_ids_names.
    - intros (f & I & H). exists (Some f). split; auto. now apply function_ids_names.
  Qed.

  (** The walk answers reachability. *)
  Lemma reachable_ok : exists live, reachable a = Some live /\ length live = n /\
    forall i, alive live i <-> reached a i.
  Proof.
    unfold reachable.
    destruct (discover_all_spec (declared_ids (a_functions a)) (repeat false n) []) as
      (live & wl & E & L' & A & W1 & W2 & W3 & D).
    { apply repeat_length. }
    { intros i I. apply in_declared_ids in I as (f & If & N). apply (copy_in_range f); auto. now left. }
    rewrite E. cbn [bind].
    assert (Na : forall i, ~ alive (repeat false n) i).
    { intros i H. unfold alive in H. apply nth_error_In, repeat_spec in H. discriminate. }
    assert (D0 : dead (repeat false n) = n).
    { unfold dead. generalize n as k. induction k; cbn; congruence. }
    destruct (drain_spec n live wl) as (live2 & E2 & L2 & M2 & S2 & C2).
    - assumption.
    - rewrite D0 in D. cbn in D. lia.
    - intros i I. destruct (W2 i I) as [[] | H]; auto.
    - intros i H. apply A in H as [H | H]; [destruct (Na i H) |].
      apply in_declared_ids in H as (f & If & N). exact (reached_declared a f i If N).
    - intros i s j Ai Nw. destruct (W3 i Ai) as [H | H]; [destruct (Na i H) | contradiction].
    - exists live2. split; [exact E2 |]. split; [assumption |]. intros i. split; [apply S2 |].
      intros H. induction H as [f i If N | j s i Hj IH Nj N].
      + apply M2, A. right. apply in_declared_ids. eauto.
      + exact (C2 j s i IH Nj N).
  Qed.

  (** * The pass *)

  Definition keeps (live : list bool) (i : nat) : option nat :=
    match nth_error live i with Some true => Some i | _ => None end.

  Lemma reached_in_range : forall i, reached a i -> i < n.
  Proof.
    intros i H. induction H as [f i If N | j s i Hj IH Nj N].
    - apply (copy_in_range f); auto. now left.
    - exact (copy_in_range _ i (own_copy j s Nj) N).
  Qed.

  Lemma keeps_reached : forall live, (forall i, alive live i <-> reached a i) ->
    forall i, reached a i -> keeps live i = Some i.
  Proof. intros live A i H. apply A in H. unfold alive in H. unfold keeps. now rewrite H. Qed.

  Lemma keeps_self : forall live i j, keeps live i = Some j -> i = j /\ alive live i.
  Proof.
    intros live i j E. unfold keeps, alive in *.
    destruct (nth_error live i) as [[|]|]; try discriminate. injection E as ->. auto.
  Qed.

  Lemma remap_reached : forall live, (forall i, alive live i <-> reached a i) ->
    forall i, reached a i -> exists c,
      nth_error (compaction (kept_of a (keeps live)) 0 0) i = Some (Some c) /\
      remap_of a (keeps live) (copy_id a i) = Some (copy_id a c).
  Proof.
    intros live A i H.
    pose proof (reached_in_range i H) as Hi.
    pose proof (keeps_reached live A i H) as K.
    destruct (compaction_total (kept_of a (keeps live)) 0 0 i) as (c & Ec).
    { rewrite kept_nth by assumption. rewrite K. reflexivity. }
    exists c. split; [exact Ec |]. exact (remap_copy a (keeps live) i i c Hi K Ec).
  Qed.

  Lemma retained_In : forall {A} kept idx (l : list A) x, length l = length kept ->
    In x (retained kept idx l) -> exists p, nth_error kept p = Some (Some (idx + p)) /\ nth_error l p = Some x.
  Proof.
    intros A kept idx l x Len I. apply In_nth_error in I as (c & I).
    destruct (compaction_onto kept idx 0 c A l x Len I) as (p & E1 & E2).
    apply compaction_nth in E1 as (E1 & _). eauto.
  Qed.

  Lemma prune_rewrite : forall live, (forall i, alive live i <-> reached a i) ->
    exists a', rewrite a (keeps live) = Some a'.
  Proof.
    intros live A. apply rewrite_ok.
    - intros f g If N. destruct (copy_or_not a g) as [(i & ->) | O].
      + destruct (remap_reached live A i (reached_declared a f i If N)) as (c & _ & E). eauto.
      + exists g. now apply remap_outside.
    - intros s g Is N. destruct (copy_or_not a g) as [(i & ->) | O].
      + apply retained_In in Is as (p & E1 & E2); [| symmetry; apply kept_length].
        assert (Hp : p < n) by (apply nth_error_Some; congruence).
        rewrite kept_nth in E1 by assumption. injection E1 as E1.
        apply keeps_self in E1 as (_ & E1). apply A in E1.
        destruct (remap_reached live A i (reached_copy a p s i E1 E2 N)) as (c & _ & E). eauto.
      + exists g. now apply remap_outside.
  Qed.

  Lemma prune_behaviour : forall live a', (forall i, alive live i <-> reached a i) ->
    rewrite a (keeps live) = Some a' -> same_behaviour a a'.
  Proof.
    intros live a' A E.
    apply (rewrite_behaviour a (keeps live) W
             (fun f => is_copy a f -> exists i, f = copy_id a i /\ reached a i) eq); auto.
    - intros f O C. contradiction.
    - intros f g If N C. destruct (copy_or_not a g) as [(i & ->) | O]; [| contradiction].
      exists i. split; auto. exact (reached_declared a f i If N).
    - intros i s g Pi Ni N C. destruct (copy_or_not a g) as [(j & ->) | O]; [| contradiction].
      exists j. split; auto. destruct (Pi (copy_is_copy a i)) as (i' & Ei & Ri).
      apply copy_id_inj in Ei. subst i'. exact (reached_copy a i s j Ri Ni N).
    - intros f g -> . reflexivity.
    - intros f g -> Ne. contradiction.
    - intros i Pi. destruct (Pi (copy_is_copy a i)) as (i' & Ei & Ri).
      apply copy_id_inj in Ei. subst i'. pose proof (reached_in_range i Ri) as Hi. split; [assumption |].
      destruct (nth_error (a_copies a) i) as [s|] eqn:N; [| apply nth_error_None in N; lia].
      pose proof (keeps_reached live A i Ri) as K.
      exists i, s, s. split; [exact K |]. split; [exact K |]. split; [reflexivity |]. split; [exact N |].
      split; [reflexivity |]. apply alike_refl. reflexivity.
  Qed.

  (** What is named after the rewrite is the image of what was named before. *)
End Reach.

Lemma rewrite_body_names : forall (r : fid -> option fid) f f' g, rewrite_body r f = Some f' ->
  names f g -> exists g', r g = Some g' /\ names f' g'.
Proof.
  intros r f f' g E N. unfold rewrite_body in E.
  apply bind_inv in E as (bs1 & E1 & E). apply bind_inv in E as (bs2 & E2 & E). injection E as <-.
  apply traverse_inv in E1. apply traverse_inv in E2.
  pose proof (Forall2_comp _ _ _ _ _ E1 E2) as F. clear E1 E2 bs1.
  assert (Blk : forall b, In b (f_blocks f) -> exists b1 b2, In b2 bs2 /\
    map_block (visit_operand r) b = Some b1 /\ block_kinds r b1 = Some b2).
  { intros b Ib. apply In_nth_error in Ib as (i & Ib).
    pose proof (Forall2_nth_error _ _ _ i F) as H. rewrite Ib in H.
    destruct (nth_error bs2 i) as [b2|] eqn:N2; [| contradiction].
    destruct H as (b1 & H1 & H2). exists b1, b2. split; [exact (nth_error_In _ _ N2) | auto]. }
  assert (Opn : forall o, operations f o -> exists o1 o2,
     operations (with_blocks f bs2) o2 /\ map_operation (visit_operand r) o = Some o1 /\
     operation_kinds r o1 = Some o2).
  { intros o (b & Ib & H). destruct (Blk b Ib) as (b1 & b2 & Ib2 & E1 & E2).
    unfold map_block in E1. apply bind_inv in E1 as (os1 & O1 & E1).
    apply bind_inv in E1 as (t1 & T1 & E1). injection E1 as <-.
    unfold block_kinds in E2. cbn in E2. apply bind_inv in E2 as (os2 & O2 & E2).
    apply bind_inv in E2 as (k2 & T2 & E2). injection E2 as <-.
    destruct H as [Io | (n & e & T)].
    - apply traverse_inv in O1. apply traverse_inv in O2.
      pose proof (Forall2_comp _ _ _ _ _ O1 O2) as Fo.
      apply In_nth_error in Io as (i & Io).
      pose proof (Forall2_nth_error _ _ _ i Fo) as H. rewrite Io in H.
      destruct (nth_error os2 i) as [o2|] eqn:N2; [| contradiction].
      destruct H as (o1 & H1 & H2). exists o1, o2. split; [| auto].
      exists (Block os2 (Term (t_span t1) k2)). cbn. split; [exact Ib2 |]. left.
      exact (nth_error_In _ _ N2).
    - unfold map_terminator in T1. rewrite T in T1. apply bind_inv in T1 as (k1 & T1 & E1).
      apply bind_inv in T1 as (o1 & T1 & E3). injection E3 as <-. injection E1 as <-. cbn in T2.
      apply bind_inv in T2 as (o2 & T2 & E3). injection E3 as <-.
      exists o1, o2. split; [| auto].
      eexists. split; [exact Ib2 |]. right. cbn. eauto. }
  assert (Ops : forall o o1 o2, map_operation (visit_operand r) o = Some o1 ->
     operation_kinds r o1 = Some o2 -> forall h, In (VFunction h) (o_operands o) ->
     exists h', r h = Some h' /\ In (VFunction h') (o_operands o2)).
  { intros o o1 o2 H1 H2 h I. unfold map_operation in H1. apply bind_inv in H1 as (vs & V & H1).
    injection H1 as <-. unfold operation_kinds in H2. cbn in H2. apply bind_inv in H2 as (k & _ & H2).
    injection H2 as <-. cbn. apply traverse_inv in V. apply In_nth_error in I as (i & I).
    pose proof (Forall2_nth_error _ _ _ i V) as H. rewrite I in H.
    destruct (nth_error vs i) as [v|] eqn:Nv; [| contradiction]. cbn in H.
    apply bind_inv in H as (h' & Eh & H). injection H as <-. exists h'. split; [exact Eh |].
    exact (nth_error_In _ _ Nv). }
  destruct N as [o O I | o q O K | b y n Ib T | b q Ib T].
  - destruct (Opn o O) as (o1 & o2 & O2 & E1 & E2).
    destruct (Ops o o1 o2 E1 E2 g I) as (g' & Eg & I'). exists g'. split; [exact Eg |].
    exact (names_operand _ g' o2 O2 I').
  - destruct (Opn o O) as (o1 & o2 & O2 & E1 & E2).
    unfold map_operation in E1. apply bind_inv in E1 as (vs & V & E1). injection E1 as <-.
    unfold operation_kinds in E2. cbn in E2. rewrite K in E2. cbn in E2.
    apply bind_inv in E2 as (k & E2 & E3). apply bind_inv in E2 as (g' & Eg & E2). injection E2 as <-.
    injection E3 as <-. exists g'. split; [exact Eg |]. exact (names_closure _ g' _ q O2 eq_refl).
  - destruct (Blk b Ib) as (b1 & b2 & Ib2 & E1 & E2).
    unfold map_block in E1. apply bind_inv in E1 as (os1 & O1 & E1).
    apply bind_inv in E1 as (t1 & T1 & E1). injection E1 as <-.
    unfold map_terminator in T1. rewrite T in T1. cbn in T1.
    apply bind_inv in T1 as (k1 & T1 & E1). apply bind_inv in T1 as (c & T1 & E3).
    apply bind_inv in T1 as (g' & Eg & T1). injection T1 as <-. injection E3 as <-. injection E1 as <-.
    unfold block_kinds in E2. cbn in E2. apply bind_inv in E2 as (os2 & O2 & E2). injection E2 as <-.
    exists g'. split; [exact Eg |]. exact (names_condition (with_blocks f bs2) g' _ y n Ib2 eq_refl).
  - destruct (Blk b Ib) as (b1 & b2 & Ib2 & E1 & E2).
    unfold map_block in E1. apply bind_inv in E1 as (os1 & O1 & E1).
    apply bind_inv in E1 as (t1 & T1 & E1). injection E1 as <-.
    unfold map_terminator in T1. rewrite T in T1. cbn in T1.
    apply bind_inv in T1 as (k1 & T1 & E1). apply bind_inv in T1 as (c & T1 & E3).
    apply bind_inv in T1 as (g' & Eg & T1). injection T1 as <-. injection E3 as <-. injection E1 as <-.
    unfold block_kinds in E2. cbn in E2. apply bind_inv in E2 as (os2 & O2 & E2). injection E2 as <-.
    exists g'. split; [exact Eg |]. exact (names_yield (with_blocks f bs2) g' _ q Ib2 eq_refl).
Qed.

(** * The survivors *)

Lemma retained_seq_sorted : forall kept idx, StronglySorted lt (retained kept idx (seq idx (length kept)))
  /\ Forall (fun i => idx <= i) (retained kept idx (seq idx (length kept))).
Proof.
  induction kept as [|k kept IH]; intros idx; cbn; [split; constructor |].
  destruct (IH (S idx)) as (S1 & F1).
  destruct (eqb result_eq_dec k (Some idx)); split; auto.
  - constructor; [exact S1 |]. apply Forall_forall. intros x I.
    rewrite Forall_forall in F1. specialize (F1 x I). lia.
  - constructor; [lia |]. apply Forall_forall. intros x I.
    rewrite Forall_forall in F1. specialize (F1 x I). lia.
  - apply Forall_forall. intros x I. rewrite Forall_forall in F1. specialize (F1 x I). lia.
Qed.

Lemma retained_map : forall {A B} (g : A -> B) kept idx (l : list A),
  map g (retained kept idx l) = retained kept idx (map g l).
Proof.
  intros A B g; induction kept as [|k kept IH]; intros idx [|x l]; cbn; auto.
  destruct (eqb result_eq_dec k (Some idx)); cbn; now rewrite IH.
Qed.

Lemma map_nth_seq : forall {A} (l : list A) d, map (fun i => nth i l d) (seq 0 (length l)) = l.
Proof.
  intros A l d. induction l as [|x l IH]; cbn; [reflexivity |]. f_equal.
  rewrite <- seq_shift, map_map. exact IH.
Qed.

Theorem prune_ok : forall a, well_named a ->
  exists a' dropped, prune a = Some (a', dropped) /\ same_behaviour a a' /\
    (forall i, i < length (a_copies a') -> reached a' i) /\
    dropped + length (a_copies a') = length (a_copies a) /\
    exists keep, StronglySorted lt keep /\ (forall i, In i keep <-> reached a i) /\
      map (fun s => Some (s_original s, s_name s)) (a_copies a')
      = map (fun i => option_map (fun s => (s_original s, s_name s)) (nth_error (a_copies a) i)) keep.
Proof.
  intros a W. unfold prune.
  destruct (length (a_copies a) =? 0) eqn:Z.
  - apply Nat.eqb_eq in Z. exists a, 0. split; [reflexivity |]. split.
    { intros B L G M _ f args stored g n _ _. reflexivity. }
    split; [intros i Hi; lia |]. split; [lia |].
    exists []. split; [constructor |]. split.
    + intros i. split; [intros [] |]. intros H. apply (reached_in_range a W) in H. lia.
    + destruct (a_copies a); [reflexivity | discriminate].
  - destruct (reachable_ok a W) as (live & E & Len & A). rewrite E. cbn [bind].
    fold (keeps live).
    destruct (prune_rewrite a W live A) as (a' & E').
    change (fun index : nat => match nth_error live index with Some true => Some index | _ => None end)
      with (keeps live).
    rewrite E'. cbn [bind].
    exists a', (length (filter negb live)). split; [reflexivity |].
    split; [exact (prune_behaviour a W live a' A E') |].
    destruct (rewrite_shape a (keeps live) W a' E') as (Em & Ef & Ec).
    assert (Lf : length (a_functions a') = length (a_functions a))
      by (symmetry; exact (Forall2_length' _ _ _ Ef)).
    assert (Cid : forall i, copy_id a' i = copy_id a i) by (intros i; unfold copy_id; now rewrite Em, Lf).
    set (kept := kept_of a (keeps live)) in *.
    assert (Kl : length kept = length (a_copies a)) by apply kept_length.
    assert (Im : forall i, reached a i -> forall c,
       nth_error (compaction kept 0 0) i = Some (Some c) -> reached a' c).
    { intros i H. induction H as [f i If N | j s i Hj IH Nj N]; intros c Hc.
      - apply In_nth_error in If as (q & If).
        pose proof (Forall2_nth_error _ _ _ q Ef) as H. rewrite If in H.
        destruct (nth_error (a_functions a') q) as [s'|] eqn:N'; [| contradiction].
        cbn in H. apply bind_inv in H as (f' & Hf & H). injection H as <-.
        destruct (rewrite_body_names _ _ _ _ Hf N) as (g' & Eg & Ng).
        destruct (remap_reached a W live A i (reached_declared a f i (nth_error_In _ _ If) N)) as (c' & Ec' & Er).
        fold kept in Ec'. assert (c' = c) by congruence. subst c'.
        rewrite Er in Eg. injection Eg as <-. rewrite <- Cid in Ng.
        exact (reached_declared a' f' c (nth_error_In _ _ N') Ng).
      - destruct (remap_reached a W live A j Hj) as (cj & Ecj & _). fold kept in Ecj.
        specialize (IH cj Ecj).
        apply compaction_nth in Ecj as (_ & _ & Rt).
        specialize (Rt _ (a_copies a) (eq_sym Kl)). rewrite Nat.sub_0_r, Nj in Rt.
        pose proof (Forall2_nth_error _ _ _ cj Ec) as H. rewrite Rt in H.
        destruct (nth_error (a_copies a') cj) as [s'|] eqn:N'; [| contradiction].
        unfold rewrite_copy in H. apply bind_inv in H as (f' & Hf & H). injection H as <-.
        destruct (rewrite_body_names _ _ _ _ Hf N) as (g' & Eg & Ng).
        destruct (remap_reached a W live A i (reached_copy a j s i Hj Nj N)) as (c' & Ec' & Er).
        fold kept in Ec'. assert (c' = c) by congruence. subst c'.
        rewrite Er in Eg. injection Eg as <-. rewrite <- Cid in Ng.
        exact (reached_copy a' cj _ c IH N' Ng). }
    assert (Kept : forall p, nth_error kept p = Some (Some p) <-> reached a p).
    { intros p. split.
      - intros H. assert (Hp : p < length (a_copies a)).
        { rewrite <- Kl. apply nth_error_Some. congruence. }
        unfold kept in H. rewrite kept_nth in H by assumption. injection H as H.
        apply keeps_self in H as (_ & H). now apply A.
      - intros H. pose proof (reached_in_range a W p H) as Hp. unfold kept. rewrite kept_nth by assumption.
        f_equal. apply keeps_reached with (a := a); auto. }
    split; [| split].
    + intros c Hc. rewrite <- (Forall2_length' _ _ _ Ec) in Hc.
      destruct (nth_error (retained kept 0 (a_copies a)) c) as [s|] eqn:Nc;
        [| apply nth_error_None in Nc; lia].
      destruct (compaction_onto kept 0 0 c _ (a_copies a) s (eq_sym Kl) Nc) as (p & Ep & Np).
      apply (Im p); [| exact Ep]. apply Kept. now apply compaction_nth in Ep as (Ep & _).
    + rewrite <- (Forall2_length' _ _ _ Ec).
      assert (Cnt : forall lv idx kp, length kp = length lv ->
        (forall p, nth_error kp p = Some (Some (idx + p)) <-> nth_error lv p = Some true) ->
        forall X (l : list X), length l = length lv ->
        length (filter negb lv) + length (retained kp idx l) = length l).
      { clear. induction lv as [|x lv IH]; intros idx [|k kp] L1 H X [|y l] L2; cbn in *; try discriminate; auto.
        assert (H' : forall p, nth_error kp p = Some (Some (S idx + p)) <-> nth_error lv p = Some true).
        { intros p. specialize (H (S p)). cbn in H. now rewrite <- plus_n_Sm in H. }
        specialize (IH (S idx) kp ltac:(lia) H' X l ltac:(lia)).
        specialize (H 0). cbn in H. rewrite Nat.add_0_r in H.
        destruct (eqb result_eq_dec k (Some idx)) eqn:K; destruct x; cbn.
        - lia.
        - apply eqb_true in K. subst k. pose proof (proj1 H eq_refl) as H0. congruence.
        - apply eqb_false in K. destruct K. specialize (proj2 H eq_refl). congruence.
        - lia. }
      apply (Cnt live 0 kept).
      * congruence.
      * intros p. cbn. rewrite Kept. symmetry. apply A.
      * congruence.
    + exists (retained kept 0 (seq 0 (length kept))).
      split; [apply retained_seq_sorted |]. split.
      * intros i. split.
        -- intros I. apply retained_In in I as (p & E1 & E2); [| apply seq_length].
           assert (Hp : p < length kept) by (apply nth_error_Some; congruence).
           rewrite (nth_error_nth' _ 0) in E2 by now rewrite seq_length.
           rewrite seq_nth in E2 by assumption. injection E2 as E2. cbn in E2. subst p. now apply Kept.
        -- intros H. pose proof (reached_in_range a W i H) as Hi.
           apply Kept in H. destruct (compaction_total kept 0 0 i H) as (c & Hc).
           apply compaction_nth in Hc as (_ & _ & Rt).
           specialize (Rt _ (seq 0 (length kept)) (seq_length _ _)).
           rewrite (nth_error_nth' (seq 0 (length kept)) 0 (n := i)) in Rt by (rewrite seq_length; lia).
           rewrite seq_nth in Rt by lia. exact (nth_error_In _ _ Rt).
      * transitivity (map (fun s => Some (s_original s, s_name s)) (retained kept 0 (a_copies a))).
        -- clear - Ec. induction Ec as [|s s' l l' H F IH]; cbn; [reflexivity |]. f_equal; [| exact IH].
           unfold rewrite_copy in H. apply bind_inv in H as (f' & _ & H). injection H as <-. reflexivity.
        -- rewrite retained_map. rewrite retained_map. f_equal. rewrite Kl.
           clear. induction (a_copies a) as [|s l IH]; cbn; [reflexivity |]. f_equal.
           rewrite <- seq_shift, map_map. exact IH.
Qed.
