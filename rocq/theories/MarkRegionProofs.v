From Coq Require Import List Arith Bool Lia.
From Verif Require Import MarkModel MarkSpec MarkSim MarkMachine MarkRegionModel MarkRegionSpec.
Import ListNotations.

(** ** Counting the restores *)

Lemma names_restores : forall m o, names_marker m o = true <-> restores o m.
Proof.
  intros m [k l r]. unfold names_marker, restores. cbn. split.
  - destruct k; try discriminate. destruct l as [|[x| |] l]; try discriminate.
    intros E. apply Nat.eqb_eq in E. subst. split; [reflexivity|]. exists l. reflexivity.
  - intros [-> [rest ->]]. apply Nat.eqb_refl.
Qed.

Definition count_in (m : reg) (l : list op) : nat := length (filter (names_marker m) l).

Lemma count_cons : forall m o l, count_in m (o :: l) = (if names_marker m o then 1 else 0) + count_in m l.
Proof. intros. unfold count_in. cbn. destruct (names_marker m o); reflexivity. Qed.

Lemma count_app : forall m l l', count_in m (l ++ l') = count_in m l + count_in m l'.
Proof. intros. unfold count_in. rewrite filter_app, app_length. reflexivity. Qed.

Lemma count_zero : forall m l, count_in m l = 0 <-> forall i o, nth_error l i = Some o -> ~ restores o m.
Proof.
  intros m. induction l as [|o l IH].
  - split; [intros _ [|i] o; discriminate|reflexivity].
  - rewrite count_cons. split.
    + intros Z [|i] o' N R; cbn in N.
      * inversion N; subst. apply names_restores in R. rewrite R in Z. lia.
      * destruct (names_marker m o); [lia|]. apply IH with (i := i) in R; auto.
    + intros H. destruct (names_marker m o) eqn:E.
      * apply names_restores in E. destruct (H 0 o eq_refl E).
      * cbn. apply IH. intros i o' N. exact (H (S i) o' N).
Qed.

Lemma count_one : forall m l, count_in m l = 1 <->
  exists i o, nth_error l i = Some o /\ restores o m /\
    forall i' o', nth_error l i' = Some o' -> restores o' m -> i' = i.
Proof.
  intros m. induction l as [|o l IH].
  - split; [discriminate|]. intros ([|i] & o & N & _); discriminate.
  - rewrite count_cons. destruct (names_marker m o) eqn:E.
    + apply names_restores in E. split.
      * intros Z. assert (Y : count_in m l = 0) by lia. rewrite count_zero in Y.
        exists 0, o. split; [reflexivity|]. split; [exact E|]. intros [|i] o' N R; [reflexivity|].
        destruct (Y i o' N R).
      * intros (i & o' & N & R & U). assert (Y : count_in m l = 0).
        { apply count_zero. intros j x Nx Rx. pose proof (U 0 o eq_refl E). pose proof (U (S j) x Nx Rx). lia. }
        lia.
    + assert (E' : ~ restores o m) by (intros R; apply names_restores in R; congruence).
      cbn [Nat.add]. rewrite IH. split.
      * intros (i & x & N & R & U). exists (S i), x. split; [exact N|]. split; [exact R|].
        intros [|j] y Ny Ry; cbn in Ny; [inversion Ny; subst; contradiction|]. f_equal. eauto.
      * intros ([|i] & x & N & R & U); cbn in N; [inversion N; subst; contradiction|].
        exists i, x. split; [exact N|]. split; [exact R|]. intros j y Ny Ry.
        pose proof (U (S j) y Ny Ry). lia.
Qed.

Lemma op_at_cons : forall bl f i j o, op_at (bl :: f) (S i, j) o <-> op_at f (i, j) o.
Proof. intros. unfold op_at. cbn. reflexivity. Qed.

Lemma op_at_head : forall bl f j o, op_at (bl :: f) (0, j) o <-> nth_error (ops bl) j = Some o.
Proof.
  intros. unfold op_at. cbn. split.
  - intros (x & E & N). inversion E; subst. exact N.
  - intros N. exists bl. auto.
Qed.

Lemma none_restored : forall m f, count_in m (flat_map ops f) = 0 <->
  forall p o, op_at f p o -> ~ restores o m.
Proof.
  intros m. induction f as [|bl f IH].
  - split; [|reflexivity]. intros _ [[|i] j] o (x & E & _); discriminate.
  - cbn [flat_map]. rewrite count_app. split.
    + intros Z [[|i] j] o A R.
      * rewrite op_at_head in A. assert (Y : count_in m (ops bl) = 0) by lia. rewrite count_zero in Y.
        exact (Y j o A R).
      * rewrite op_at_cons in A. assert (Y : count_in m (flat_map ops f) = 0) by lia. rewrite IH in Y.
        exact (Y _ _ A R).
    + intros H. assert (A : count_in m (ops bl) = 0).
      { apply count_zero. intros i o N. apply (H (0, i) o), op_at_head. exact N. }
      assert (B : count_in m (flat_map ops f) = 0).
      { apply IH. intros [i j] o Q. apply (H (S i, j) o), op_at_cons. exact Q. }
      lia.
Qed.

Lemma once_count : forall m f, restore_uses f m = 1 <-> restored_once f m.
Proof.
  intros m. change (forall f, count_in m (flat_map ops f) = 1 <-> restored_once f m).
  induction f as [|bl f IH].
  - split; [discriminate|]. intros ([[|i] j] & o & (x & E & _) & _); discriminate.
  - cbn [flat_map]. rewrite count_app. split.
    + intros Z. assert (C : (count_in m (ops bl) = 1 /\ count_in m (flat_map ops f) = 0) \/
        (count_in m (ops bl) = 0 /\ count_in m (flat_map ops f) = 1)) by lia.
      destruct C as [[A B]|[A B]].
      * rewrite none_restored in B. apply count_one in A. destruct A as (i & o & N & R & U).
        exists (0, i), o. split; [apply op_at_head; exact N|]. split; [exact R|].
        intros [[|i'] j'] o' A' R'.
        -- rewrite op_at_head in A'. rewrite (U _ _ A' R'). reflexivity.
        -- rewrite op_at_cons in A'. destruct (B _ _ A' R').
      * rewrite count_zero in A. apply IH in B. destruct B as ([i j] & o & N & R & U).
        exists (S i, j), o. split; [apply op_at_cons; exact N|]. split; [exact R|].
        intros [[|i'] j'] o' A' R'.
        -- rewrite op_at_head in A'. destruct (A _ _ A' R').
        -- rewrite op_at_cons in A'. pose proof (U _ _ A' R') as Q. inversion Q. reflexivity.
    + intros ([[|i] j] & o & A & R & U).
      * rewrite op_at_head in A. assert (X : count_in m (ops bl) = 1).
        { apply count_one. exists j, o. split; [exact A|]. split; [exact R|]. intros j' o' N' R'.
          assert (Q := U (0, j') o'). rewrite op_at_head in Q. specialize (Q N' R'). congruence. }
        assert (Y : count_in m (flat_map ops f) = 0).
        { apply none_restored. intros [i' j'] o' N' R'. assert (Q := U (S i', j') o').
          rewrite op_at_cons in Q. specialize (Q N' R'). congruence. }
        lia.
      * rewrite op_at_cons in A. assert (X : count_in m (flat_map ops f) = 1).
        { apply IH. exists (i, j), o. split; [exact A|]. split; [exact R|]. intros [i' j'] o' N' R'.
          assert (Q := U (S i', j') o'). rewrite op_at_cons in Q. specialize (Q N' R'). congruence. }
        assert (Y : count_in m (ops bl) = 0).
        { apply count_zero. intros j' o' N' R'. assert (Q := U (0, j') o'). rewrite op_at_head in Q.
          specialize (Q N' R'). congruence. }
        lia.
Qed.

Lemma restored_once_same : forall f m p q o o', restored_once f m ->
  op_at f p o -> restores o m -> op_at f q o' -> restores o' m -> p = q.
Proof. intros f m p q o o' (r & x & _ & _ & U) A R B R'. rewrite (U _ _ A R), (U _ _ B R'). reflexivity. Qed.

Lemma op_at_fun : forall f p o o', op_at f p o -> op_at f p o' -> o = o'.
Proof. intros f p o o' (bl & A & B) (bl' & A' & B'). congruence. Qed.

Lemma may_leave_moves : forall o, may_leave_frame_storage o = true <-> moves_frontier o.
Proof.
  intros [k l r]. unfold may_leave_frame_storage, moves_frontier. cbn.
  destruct k; try (split; [auto; discriminate|auto; contradiction]); try tauto.
  rewrite existsb_exists. split.
  - intros (v & A & B). destruct v; try discriminate. exists s. exact A.
  - intros [s A]. exists (Subscript s). auto.
Qed.

(** ** The scan finds the empty regions *)
Section Scan.
Variable f : function.
Variable gone : list site.
Variable b : nat.
Variable bl : block.
Hypothesis Hb : nth_error f b = Some bl.

Notation closed := (closed f gone b).
Notation calm := (calm f gone b).
Notation opens := (opens f gone b).
Notation closes := (closes f gone b).
Notation opens_none := (opens_none f gone b).
Notation empty_region := (empty_region f gone b).
Notation scan_op := (scan_op f gone b).
Notation scan_ops := (scan_ops f gone b).

Lemma at_here : forall i o, op_at f (b, i) o <-> nth_error (ops bl) i = Some o.
Proof.
  intros i o. unfold op_at. cbn. split.
  - intros (x & E & N). congruence.
  - intros N. exists bl. auto.
Qed.

Lemma closed_app : forall i j, closed i j -> forall k, closed j k -> closed i k.
Proof. induction 1; intros k' C; eauto using closed_op, closed_region. Qed.

Lemma calm_app : forall i j, calm i j -> forall k, calm j k -> calm i k.
Proof. induction 1; intros k' C; eauto using calm_op, calm_region. Qed.

Lemma calm_closed : forall i j, calm i j -> closed i j.
Proof. induction 1; eauto using closed_none, closed_op, closed_region. Qed.

Lemma closed_le : forall i j, closed i j -> i <= j.
Proof. induction 1; lia. Qed.

(** The open regions describe the operations before [i], up to [i]. *)
Fixpoint open_at (rs : list region) (i : nat) : Prop :=
  match rs with
  | [] => True
  | r :: rest =>
      opens (save_index r) (marker r) /\ closed (S (save_index r)) i /\
      (grows_frame r = false -> calm (S (save_index r)) i) /\ open_at rest (save_index r)
  end.

Definition found (l : list nat) : Prop :=
  forall k, In k l -> exists i j, empty_region i j /\ (k = i \/ k = j).

Definition scan_ok (t : scanning) (i : nat) : Prop := open_at (fst t) i /\ found (snd t).

Lemma open_plain : forall rs i o, open_at rs i -> op_at f (b, i) o -> opens_none i o ->
  In (b, i) gone \/ ~ moves_frontier o -> open_at rs (S i).
Proof.
  intros [|r rest] i o A N P Q; cbn in *; [exact Logic.I|]. destruct A as (B & C & D & E).
  split; [exact B|]. split; [|split; [|exact E]].
  - apply closed_app with (1 := C). eapply closed_op; eauto using closed_none.
  - intros G. apply calm_app with (1 := D G). eapply calm_op; eauto using calm_none.
Qed.

Lemma mem_gone : forall i, mem_site (b, i) gone = true <-> In (b, i) gone.
Proof. intros. apply mem_site_in. Qed.

Lemma scan_op_ok : forall i o t, op_at f (b, i) o -> scan_ok t i -> scan_ok (scan_op i o t) (S i).
Proof.
  intros i o [rs removed] N [A F]. cbn [fst snd] in A, F. unfold MarkRegionModel.scan_op.
  destruct (mem_site (b, i) gone) eqn:G.
  { apply mem_gone in G. split; [|exact F]. eapply open_plain; eauto; left; exact G. }
  assert (NG : ~ In (b, i) gone) by (intros X; apply mem_gone in X; congruence).
  destruct (okind o) eqn:K; cbv beta iota.
  3-11: match goal with |- context [if ?c then _ else _] => destruct c eqn:MV end;
    assert (ON : opens_none i o) by (right; intros m' [S' _]; congruence);
    first
      [ assert (NM : ~ moves_frontier o) by (intros X; apply may_leave_moves in X; congruence);
        split; [apply open_plain with (o := o); auto|exact F]
      | destruct rs as [|r rest];
        [ split; [exact Logic.I|exact F]
        | split; [|exact F]; cbn in A |- *; destruct A as (B & C & D & E);
          split; [exact B|]; split; [|split; [discriminate|exact E]];
          apply closed_app with (1 := C); eapply closed_op; eauto using closed_none ] ].
  - (* save *)
    destruct (result o) as [m|] eqn:R.
    + destruct (restore_uses f m =? 1) eqn:U.
      * apply Nat.eqb_eq, once_count in U. split; [|exact F]. cbn. split.
        { exists o. repeat split; auto. }
        split; [apply closed_none|]. split; [intros _; apply calm_none|exact A].
      * split; [|exact F]. apply open_plain with (o := o); auto.
        -- right. intros m' [_ S'] O. apply once_count in O. rewrite R in S'. inversion S'; subst.
           rewrite O in U. discriminate.
        -- right. unfold moves_frontier. rewrite K. auto.
    + split; [|exact F]. apply open_plain with (o := o); auto.
      * right. intros m' [_ S']. congruence.
      * right. unfold moves_frontier. rewrite K. auto.
  - (* restore *)
    assert (P : scan_ok (rs, removed) (S i)).
    { split; [|exact F]. apply open_plain with (o := o); auto.
      - right. intros m' [S' _]. congruence.
      - right. unfold moves_frontier. rewrite K. auto. }
    destruct (operands o) as [|[m| |] l] eqn:L; try exact P.
    destruct rs as [|r rest]; try exact P.
    destruct (marker r =? m) eqn:M; try exact P.
    apply Nat.eqb_eq in M. subst m. cbn in A. destruct A as (B & C & D & E).
    assert (CL : closes i (marker r)).
    { exists o. split; [exact N|]. split; [exact NG|]. split; [exact K|]. exists l. exact L. }
    split.
    + cbn [fst]. destruct rest as [|r' rest]; cbn in *; [exact Logic.I|]. destruct E as (B' & C' & D' & E').
      split; [exact B'|]. split; [|split; [|exact E']].
      * apply closed_app with (1 := C'). eapply closed_region; eauto using closed_none.
      * intros G'. apply calm_app with (1 := D' G'). eapply calm_region; eauto using calm_none.
    + cbn [snd]. destruct (grows_frame r) eqn:GR; [exact F|].
      intros k [<-|[<-|I]]; [| |exact (F k I)]; exists (save_index r), i;
        (split; [exists (marker r); auto|]); auto.
Qed.

Lemma scan_ops_ok : forall l i t, skipn i (ops bl) = l -> scan_ok t i ->
  found (snd (scan_ops i l t)).
Proof.
  induction l as [|o l IH]; intros i t E OK.
  - exact (proj2 OK).
  - apply skipn_cons in E. destruct E as [N E]. cbn [MarkRegionModel.scan_ops]. apply IH; [exact E|].
    apply scan_op_ok; [apply at_here; exact N|exact OK].
Qed.

(** *** Every empty region is found *)

(** What the scan knows after the operations from [i] to before [j]. *)
Inductive scanned : nat -> scanning -> nat -> scanning -> Prop :=
| scanned_none i t : scanned i t i t
| scanned_op i o t j t' : op_at f (b, i) o -> scanned (S i) (scan_op i o t) j t' -> scanned i t j t'.

Lemma scanned_le : forall i t j t', scanned i t j t' -> i <= j.
Proof. induction 1; lia. Qed.

Lemma scanned_app : forall i t j t', scanned i t j t' -> forall k t'', scanned j t' k t'' -> scanned i t k t''.
Proof. induction 1; intros; eauto using scanned_op. Qed.

Lemma scanned_all : forall l i t, skipn i (ops bl) = l -> scanned i t (i + length l) (scan_ops i l t).
Proof.
  induction l as [|o l IH]; intros i t E.
  - cbn. rewrite Nat.add_0_r. apply scanned_none.
  - apply skipn_cons in E. destruct E as [N E]. eapply scanned_op; [apply at_here; exact N|].
    cbn [length]. replace (i + S (length l)) with (S i + length l) by lia. apply IH. exact E.
Qed.

Lemma scanned_split : forall i t j t', scanned i t j t' -> forall k, i <= k -> k <= j ->
  exists u, scanned i t k u /\ scanned k u j t'.
Proof.
  induction 1 as [i t|i o t j t' N S IH]; intros k L M.
  - assert (k = i) by lia. subst. eauto using scanned_none.
  - destruct (Nat.eq_dec k i) as [->|D].
    + eauto using scanned_none, scanned_op.
    + destruct (IH k) as (u & A & B); [lia|lia|]. exists u. split; [|exact B]. eapply scanned_op; eauto.
Qed.

Lemma scan_op_more : forall i o t k, In k (snd t) -> In k (snd (scan_op i o t)).
Proof.
  intros i o [rs l] k I. unfold MarkRegionModel.scan_op. destruct (mem_site (b, i) gone); [exact I|].
  destruct (okind o); repeat match goal with
  | |- context [if ?c then _ else _] => destruct c
  | |- context [match ?c with _ => _ end] => destruct c
  end; cbn in *; auto.
Qed.

Lemma scanned_more : forall i t j t', scanned i t j t' -> forall k, In k (snd t) -> In k (snd t').
Proof. induction 1; intros k I; auto. apply IHscanned, scan_op_more, I. Qed.

(** The restore of the innermost region is not before [j]. *)
Definition safe_top (rs : list region) (j : nat) : Prop :=
  match rs with
  | [] => True
  | r :: _ => forall k o, op_at f (b, k) o -> restores o (marker r) -> j <= k
  end.

(** The same regions, except that the innermost may have grown. *)
Definition similar (rs rs' : list region) : Prop :=
  match rs, rs' with
  | [], [] => True
  | r :: rest, r' :: rest' => marker r = marker r' /\ save_index r = save_index r' /\ rest = rest'
  | _, _ => False
  end.

Lemma similar_refl : forall rs, similar rs rs.
Proof. intros [|r rs]; cbn; auto. Qed.

Lemma similar_trans : forall x y z, similar x y -> similar y z -> similar x z.
Proof.
  intros [|a x] [|c y] [|d z]; cbn; try tauto. intros (A & B & C) (A' & B' & C').
  repeat split; congruence.
Qed.

Lemma safe_similar : forall x y j, similar x y -> safe_top x j -> safe_top y j.
Proof.
  intros [|a x] [|c y] j; cbn; try tauto. intros (A & _ & _) S k o. rewrite <- A. apply S.
Qed.

Lemma safe_less : forall x i j, i <= j -> safe_top x j -> safe_top x i.
Proof. intros [|a x] i j L; cbn; auto. intros S k o N R. specialize (S k o N R). lia. Qed.

Lemma plain_step : forall i o rs l j, op_at f (b, i) o -> opens_none i o -> i < j -> safe_top rs j ->
  similar rs (fst (scan_op i o (rs, l))) /\
  (In (b, i) gone \/ ~ moves_frontier o -> fst (scan_op i o (rs, l)) = rs).
Proof.
  intros i o rs l j N P L T. unfold MarkRegionModel.scan_op. destruct (mem_site (b, i) gone) eqn:G.
  { cbn. split; [apply similar_refl|reflexivity]. }
  assert (NG : ~ In (b, i) gone) by (intros X; apply mem_gone in X; congruence).
  destruct P as [P|P]; [contradiction|].
  destruct (okind o) eqn:K; cbv beta iota.
  3-11: match goal with |- context [if ?c then _ else _] => destruct c eqn:MV end;
    [apply may_leave_moves in MV; destruct rs as [|r rest]; cbn; split; auto; intros [Q|Q]; contradiction
    |cbn; split; [apply similar_refl|reflexivity]].
  - destruct (result o) as [m|] eqn:R; [|cbn; split; [apply similar_refl|reflexivity]].
    destruct (restore_uses f m =? 1) eqn:U; [|cbn; split; [apply similar_refl|reflexivity]].
    apply Nat.eqb_eq, once_count in U. destruct (P m); [split; auto|exact U].
  - destruct (operands o) as [|[m| |] x] eqn:X; try (cbn; split; [apply similar_refl|reflexivity]).
    destruct rs as [|r rest]; [cbn; split; [exact Logic.I|reflexivity]|].
    destruct (marker r =? m) eqn:M; [|cbn; split; [auto|reflexivity]].
    apply Nat.eqb_eq in M. subst m. cbn in T. specialize (T i o N). assert (j <= i); [|lia].
    apply T. split; [exact K|]. exists x. exact X.
Qed.

Lemma open_step : forall i m t, opens i m -> forall o, op_at f (b, i) o ->
  scan_op i o t = (mkRegion m i false :: fst t, snd t).
Proof.
  intros i m [rs l] (o' & N & NG & [K R] & U) o N'. rewrite (op_at_fun _ _ _ _ N' N).
  unfold MarkRegionModel.scan_op. destruct (mem_site (b, i) gone) eqn:G; [apply mem_gone in G; contradiction|].
  rewrite K, R. apply once_count in U. rewrite U. reflexivity.
Qed.

Lemma close_step : forall i m r rest l, closes i m -> marker r = m -> forall o, op_at f (b, i) o ->
  scan_op i o (r :: rest, l) = (rest, if grows_frame r then l else i :: save_index r :: l).
Proof.
  intros i m r rest l (o' & N & NG & [K [x R]]) <- o N'. rewrite (op_at_fun _ _ _ _ N' N).
  unfold MarkRegionModel.scan_op. destruct (mem_site (b, i) gone) eqn:G; [apply mem_gone in G; contradiction|].
  rewrite K, R, Nat.eqb_refl. reflexivity.
Qed.

Lemma scanned_first : forall i t j t', scanned i t j t' -> i < j -> forall o, op_at f (b, i) o ->
  scanned (S i) (scan_op i o t) j t'.
Proof.
  intros i t j t' S L o N. inversion S; subst; [lia|]. rewrite (op_at_fun _ _ _ _ N H). assumption.
Qed.

Lemma scanned_stop : forall i t t', scanned i t i t' -> t' = t.
Proof. intros i t t' S. inversion S; subst; [reflexivity|]. apply scanned_le in H0. lia. Qed.

(** A region, from its save to its restore, leaves the other regions as they were. *)
Lemma region_scanned : forall i k m t u, opens i m -> closes k m -> i < k ->
  (forall rs l v, safe_top rs k -> scanned (S i) (rs, l) k v -> similar rs (fst v)) ->
  scanned i t (S k) u -> fst u = fst t.
Proof.
  intros i k m t u O C L IH S. pose proof O as (o & N & _ & _ & U). pose proof C as (o' & N' & _ & R').
  apply scanned_first with (o := o) in S; [|lia|exact N]. rewrite (open_step i m t O o N) in S.
  destruct (scanned_split _ _ _ _ S k) as (v & A & B); [lia|lia|].
  assert (T : safe_top (mkRegion m i false :: fst t) k).
  { cbn. intros k' x Nx Rx. pose proof (restored_once_same _ _ _ _ _ _ U Nx Rx N' R') as Q.
    inversion Q. lia. }
  pose proof (IH _ _ _ T A) as Q. destruct v as [[|r rs] l]; cbn in Q; [contradiction|].
  destruct Q as (M & _ & <-). apply scanned_first with (o := o') in B; [|lia|exact N'].
  rewrite (close_step k m _ _ l C (eq_sym M) o' N') in B. apply scanned_stop in B. subst u. reflexivity.
Qed.

Lemma opens_closes_lt : forall i k m, opens i m -> closed (S i) k -> i < k.
Proof. intros i k m _ C. apply closed_le in C. lia. Qed.

Lemma closed_scanned : forall i j, closed i j -> forall rs l v, safe_top rs j -> scanned i (rs, l) j v ->
  similar rs (fst v).
Proof.
  induction 1 as [i|i j o N P C IH|i k j m O C1 IH1 CL C2 IH2]; intros rs l v T S.
  - apply scanned_stop in S. subst. apply similar_refl.
  - pose proof (closed_le _ _ C) as L. apply scanned_first with (o := o) in S; [|lia|exact N].
    destruct (plain_step i o rs l j N P) as [A _]; [lia|exact T|].
    destruct (scan_op i o (rs, l)) as [rs' l'] eqn:E. cbn [fst] in A.
    eapply similar_trans; [exact A|]. eapply IH; [|exact S]. eapply safe_similar; eauto.
  - pose proof (closed_le _ _ C1) as L1. pose proof (closed_le _ _ C2) as L2.
    destruct (scanned_split _ _ _ _ S (Datatypes.S k)) as ([rs' l'] & A & B); [lia|lia|].
    apply (region_scanned i k m) in A; auto. cbn in A. subst rs'. eapply IH2; eauto.
Qed.

Lemma calm_scanned : forall i j, calm i j -> forall rs l v, safe_top rs j -> scanned i (rs, l) j v ->
  fst v = rs.
Proof.
  induction 1 as [i|i j o N P M C IH|i k j m O C1 CL C2 IH2]; intros rs l v T S.
  - apply scanned_stop in S. subst. reflexivity.
  - pose proof (closed_le _ _ (calm_closed _ _ C)) as L.
    apply scanned_first with (o := o) in S; [|lia|exact N].
    destruct (plain_step i o rs l j N P) as [_ A]; [lia|exact T|]. specialize (A M).
    destruct (scan_op i o (rs, l)) as [rs' l'] eqn:E. cbn [fst] in A. subst rs'. eapply IH; eauto.
  - pose proof (closed_le _ _ C1) as L1. pose proof (closed_le _ _ (calm_closed _ _ C2)) as L2.
    destruct (scanned_split _ _ _ _ S (Datatypes.S k)) as ([rs' l'] & A & B); [lia|lia|].
    apply (region_scanned i k m) in A; auto; [|apply closed_scanned; exact C1].
    cbn in A. subst rs'. eapply IH2; eauto.
Qed.

Lemma empty_found : forall i j t v, empty_region i j -> scanned 0 t (length (ops bl)) v ->
  In i (snd v) /\ In j (snd v).
Proof.
  intros i j t v (m & O & C & CL) S. pose proof O as (o & N & _ & _ & U).
  pose proof CL as (o' & N' & _ & R'). pose proof (closed_le _ _ (calm_closed _ _ C)) as L.
  assert (LJ : j < length (ops bl)). { apply at_here in N'. apply nth_error_Some. congruence. }
  destruct (scanned_split _ _ _ _ S i) as (t1 & A & B); [lia|lia|].
  apply scanned_first with (o := o) in B; [|lia|exact N]. rewrite (open_step i m t1 O o N) in B.
  destruct (scanned_split _ _ _ _ B j) as (t2 & B1 & B2); [lia|lia|].
  assert (T : safe_top (mkRegion m i false :: fst t1) j).
  { cbn. intros k' x Nx Rx. pose proof (restored_once_same _ _ _ _ _ _ U Nx Rx N' R') as Q.
    inversion Q. lia. }
  pose proof (calm_scanned _ _ C _ _ _ T B1) as Q. destruct t2 as [rs l]. cbn in Q. subst rs.
  apply scanned_first with (o := o') in B2; [|lia|exact N'].
  rewrite (close_step j m (mkRegion m i false) _ l CL eq_refl o' N') in B2. cbn [grows_frame save_index] in B2.
  split; apply (scanned_more _ _ _ _ B2); cbn; auto.
Qed.

Lemma scan_exact : forall k, In k (snd (scan_ops 0 (ops bl) ([], []))) <->
  exists i j, empty_region i j /\ (k = i \/ k = j).
Proof.
  intros k. split.
  - intros I. refine (scan_ops_ok (ops bl) 0 ([], []) eq_refl _ k I). split; [exact Logic.I|].
    intros x [].
  - intros (i & j & E & Q). pose proof (scanned_all (ops bl) 0 ([], []) eq_refl) as S. cbn [Nat.add] in S.
    destruct (empty_found _ _ _ _ E S) as [A B]. destruct Q; subst; assumption.
Qed.

End Scan.

Lemma scan_blocks_in : forall f gone bls b0 p, In p (scan_blocks f gone b0 bls) <->
  exists i bl k, nth_error bls i = Some bl /\ p = (b0 + i, k) /\
    In k (snd (scan_ops f gone (b0 + i) 0 (ops bl) ([], []))).
Proof.
  intros f gone. induction bls as [|bl bls IH]; intros b0 p; cbn [scan_blocks].
  - split; [contradiction|]. intros ([|i] & x & k & E & _); discriminate.
  - rewrite in_app_iff, in_map_iff, IH. split.
    + intros [(k & E & I)|(i & x & k & N & E & I)].
      * exists 0, bl, k. rewrite Nat.add_0_r. auto.
      * exists (S i), x, k. replace (b0 + S i) with (S b0 + i) by lia. auto.
    + intros ([|i] & x & k & N & E & I).
      * left. cbn in N. inversion N; subst. rewrite Nat.add_0_r in *. exists k. auto.
      * right. exists i, x, k. replace (S b0 + i) with (b0 + S i) by lia. auto.
Qed.

Lemma removed_exact : forall f gone p, In p (remove_empty_local_stack_regions f gone) <->
  In p gone \/ useless_mark f gone p.
Proof.
  intros f gone p. unfold remove_empty_local_stack_regions. rewrite in_app_iff, scan_blocks_in. split.
  - intros [(b & bl & k & N & -> & I)|I]; [right|auto]. cbn [Nat.add] in *.
    apply scan_exact in I; [|exact N]. destruct I as (i & j & E & [->| ->]); exists b, i, j; auto.
  - intros [I|(b & i & j & E & Q)]; [auto|left].
    pose proof E as (m & (o & (bl & N & _) & _) & _). cbn in N.
    assert (X := scan_exact f gone b bl N).
    destruct Q as [->| ->]; [exists b, bl, i|exists b, bl, j]; cbn [Nat.add];
      (split; [exact N|]; split; [reflexivity|]); apply X; eauto.
Qed.

Lemma delete_nth : forall dead bls b i, nth_error (delete_from dead b bls) i =
  match nth_error bls i with
  | Some bl => Some (mkBlock (retain dead (b + i) 0 (ops bl)) (tail bl))
  | None => None
  end.
Proof.
  induction bls as [|bl bls IH]; intros b [|i]; cbn [delete_from nth_error]; try reflexivity.
  - rewrite Nat.add_0_r. reflexivity.
  - rewrite IH. replace (S b + i) with (b + S i) by lia. reflexivity.
Qed.

Lemma delete_at : forall dead f b, nth_error (delete dead f) b =
  match nth_error f b with
  | Some bl => Some (mkBlock (retain dead b 0 (ops bl)) (tail bl))
  | None => None
  end.
Proof. intros. apply delete_nth. Qed.

Lemma delete_length : forall dead bls b, length (delete_from dead b bls) = length bls.
Proof. induction bls as [|bl bls IH]; intros b; cbn; [reflexivity|]. f_equal. apply IH. Qed.

Lemma retain_left : forall dead b l i (D : site -> Prop), (forall p, In p dead <-> D p) ->
  left_of b D i l (retain dead b i l).
Proof.
  intros dead b. induction l as [|o l IH]; intros i D E; cbn [retain]; [apply left_nil|].
  destruct (mem_site (b, i) dead) eqn:M.
  - apply left_drop; [apply E, mem_site_in; exact M|apply IH; exact E].
  - apply left_keep; [|apply IH; exact E]. intros X. apply E, mem_site_in in X. congruence.
Qed.

Lemma delete_without : forall f dead (D : site -> Prop), (forall p, In p dead <-> D p) ->
  without f D (delete dead f).
Proof.
  intros f dead D E. split; [apply delete_length|]. intros b bl bl' N N'. unfold delete in N'.
  rewrite delete_nth, N in N'. inversion N'; subst. cbn. split; [reflexivity|]. apply retain_left. exact E.
Qed.

(** ** The run is the same *)
Section Run.
Context {W : Type}.
Variable m : machine W.
Variable f : function.
Variable gone : list site.
Hypothesis Hh : honest m.
Hypothesis Hone : forall p q o o' r, op_at f p o -> op_at f q o' -> saves o r -> saves o' r -> p = q.

Section Block.
Variable b : nat.

(** The operations from [i] to before [j] that are not gone lead from [s] to [s']. *)
Inductive leads : nat -> state W -> nat -> state W -> Prop :=
| leads_none i s : leads i s i s
| leads_gone i o s j s' : op_at f (b, i) o -> In (b, i) gone -> leads (S i) s j s' -> leads i s j s'
| leads_op i o s s1 j s' : op_at f (b, i) o -> ~ In (b, i) gone -> exec m o s = Next s1 ->
    leads (S i) s1 j s' -> leads i s j s'.

Lemma leads_split : forall i s j s', leads i s j s' -> forall k, i <= k -> k <= j ->
  exists s1, leads i s k s1 /\ leads k s1 j s'.
Proof.
  induction 1 as [i s|i o s j s' N G L IH|i o s s1 j s' N G E L IH]; intros k A B.
  - assert (k = i) by lia. subst. eauto using leads_none.
  - destruct (Nat.eq_dec k i) as [->|D]; [eauto using leads_none, leads_gone|].
    destruct (IH k) as (x & P & Q); [lia|lia|]. eauto using leads_gone.
  - destruct (Nat.eq_dec k i) as [->|D]; [eauto using leads_none, leads_op|].
    destruct (IH k) as (x & P & Q); [lia|lia|]. eauto using leads_op.
Qed.

Lemma leads_le : forall i s j s', leads i s j s' -> i <= j.
Proof. induction 1; lia. Qed.

Lemma leads_app : forall i s j s', leads i s j s' -> forall k s'', leads j s' k s'' -> leads i s k s''.
Proof. induction 1; intros; eauto using leads_gone, leads_op. Qed.

Lemma leads_stop : forall i s s', leads i s i s' -> s' = s.
Proof. intros i s s' L. inversion L; subst; [reflexivity| |]; match goal with H : leads (S _) _ _ _ |- _ => apply leads_le in H; lia end. Qed.

Lemma exec_marks : forall o s s1 r, exec m o s = Next s1 -> ~ saves o r -> marks s1 r = marks s r.
Proof.
  intros o s s1 r E NS. unfold exec in E. destruct (okind o) eqn:K.
  3-11: destruct (perform m o (cells s) (world s)); inversion E; reflexivity.
  - destruct (result o) as [x|] eqn:R; [|discriminate]. inversion E; subst. cbn. unfold bind.
    destruct (r =? x) eqn:Q; [|reflexivity]. apply Nat.eqb_eq in Q. subst. destruct NS. split; assumption.
  - destruct (operands o) as [|[x| |] l]; try discriminate. destruct (marks s x); [|discriminate].
    destruct (_ <=? _); [|discriminate]. inversion E. reflexivity.
Qed.

Lemma leads_marks : forall i s j s' r, leads i s j s' ->
  (forall k o, i <= k -> op_at f (b, k) o -> ~ saves o r) -> marks s' r = marks s r.
Proof.
  induction 1 as [i s|i o s j s' N G L IH|i o s s1 j s' N G E L IH]; intros H; [reflexivity| |].
  - apply IH. intros k o' A. apply H. lia.
  - rewrite IH; [|intros k o' A; apply H; lia]. apply (exec_marks o); [exact E|]. apply (H i); auto.
Qed.

Lemma save_exec : forall o r s s1, saves o r -> exec m o s = Next s1 ->
  s1 = mkState (cells s) (bind (marks s) r (cells s)) (world s).
Proof. intros o r s s1 [K R] E. unfold exec in E. rewrite K, R in E. inversion E. reflexivity. Qed.

Lemma restore_exec : forall o r s s1, restores o r -> exec m o s = Next s1 ->
  exists k, marks s r = Some k /\ k <= cells s /\ s1 = mkState k (marks s) (world s).
Proof.
  intros o r s s1 [K [l R]] E. unfold exec in E. rewrite K, R in E. destruct (marks s r) as [k|]; [|discriminate].
  destruct (k <=? cells s) eqn:L; [|discriminate]. apply Nat.leb_le in L. inversion E. eauto.
Qed.

Lemma plain_exec : forall o s s1, exec m o s = Next s1 -> ~ moves_frontier o -> cells s1 <= cells s.
Proof.
  intros o s s1 E NM. unfold exec in E. destruct (okind o) eqn:K.
  3-11: pose proof (Hh o (cells s) (world s) NM) as H; destruct (perform m o (cells s) (world s));
    inversion E; subst; cbn; lia.
  - destruct (result o); inversion E. reflexivity.
  - destruct (operands o) as [|[x| |] l]; try discriminate. destruct (marks s x) as [k|]; [|discriminate].
    destruct (k <=? cells s) eqn:L; [|discriminate]. apply Nat.leb_le in L. inversion E. exact L.
Qed.

Lemma bound_there : forall i r s s1 j s', opens f gone b i r -> leads i s (S i) s1 -> leads (S i) s1 j s' ->
  marks s' r = Some (cells s) /\ cells s1 = cells s.
Proof.
  intros i r s s1 j s' (o & N & NG & SV & _) L1 L2.
  assert (E1 : s1 = mkState (cells s) (bind (marks s) r (cells s)) (world s)).
  { inversion L1; subst.
    - lia.
    - contradiction.
    - match goal with H : leads (S i) _ (S i) _ |- _ => apply leads_stop in H; subst end.
      apply (save_exec o); [exact SV|]. rewrite (op_at_fun _ _ _ _ N H). assumption. }
  split; [|subst; reflexivity]. rewrite (leads_marks (S i) s1 j s' r L2).
  - subst. cbn. unfold bind. rewrite Nat.eqb_refl. reflexivity.
  - intros k o' A N' S'. pose proof (Hone _ _ _ _ _ N N' SV S') as Q. inversion Q. lia.
Qed.

Lemma calm_cells : forall i j, calm f gone b i j -> forall s s', leads i s j s' -> cells s' <= cells s.
Proof.
  induction 1 as [i|i j o N P M C IH|i k j r O C1 CL C2 IH]; intros s s' L.
  - apply leads_stop in L. subst. reflexivity.
  - pose proof (closed_le f gone b _ _ (calm_closed f gone b _ _ C)) as LE.
    inversion L; subst; [lia| |].
    + apply IH. assumption.
    + destruct M as [M|M]; [contradiction|]. rewrite (op_at_fun _ _ _ _ N H) in *.
      etransitivity; [apply IH; eassumption|]. eapply plain_exec; eauto.
  - pose proof (closed_le f gone b _ _ (calm_closed f gone b _ _ C2)) as L2.
    pose proof (closed_le f gone b _ _ C1) as L1.
    destruct (leads_split _ _ _ _ L (S k)) as (s2 & A & B); [lia|lia|].
    destruct (leads_split _ _ _ _ A (S i)) as (s1 & A1 & A2); [lia|lia|].
    destruct (leads_split _ _ _ _ A2 k) as (s3 & A3 & A4); [lia|lia|].
    destruct (bound_there _ _ _ _ _ _ O A1 A3) as [MK _].
    assert (Q : cells s2 = cells s).
    { destruct CL as (o & N & NG & R). inversion A4; subst; [lia|contradiction|].
      match goal with H : leads (S k) _ (S k) _ |- _ => apply leads_stop in H; subst end.
      rewrite <- (op_at_fun _ _ _ _ N H) in *.
      match goal with H : exec m o s3 = Next ?x |- _ => destruct (restore_exec _ _ _ _ R H) as (c & E & _ & E2) end.
      rewrite MK in E. inversion E. subst. reflexivity. }
    rewrite <- Q. apply IH. exact B.
Qed.

(** At the restore of an empty region the mark is not below the frontier. *)
Lemma at_restore : forall i j s0 s o r, empty_region f gone b i j -> leads 0 s0 j s ->
  op_at f (b, j) o -> restores o r -> exists k, marks s r = Some k /\ cells s <= k.
Proof.
  intros i j s0 s o r (x & O & C & CL) L N R. destruct CL as (o' & N' & NG & R').
  rewrite <- (op_at_fun _ _ _ _ N N') in *. assert (r = x).
  { destruct R as [_ [l E]], R' as [_ [l' E']]. congruence. }
  subst x. pose proof (closed_le f gone b _ _ (calm_closed f gone b _ _ C)) as LE.
  destruct (leads_split _ _ _ _ L i) as (s1 & A & B); [lia|lia|].
  destruct (leads_split _ _ _ _ B (S i)) as (s2 & B1 & B2); [lia|lia|].
  destruct (bound_there _ _ _ _ _ _ O B1 B2) as [MK E]. exists (cells s1). split; [exact MK|].
  rewrite <- E. apply (calm_cells _ _ C). exact B2.
Qed.

End Block.

(** The two states agree but for the markers of the empty regions. *)
Definition dropped (r : reg) : Prop :=
  exists p o, op_at f p o /\ useless_mark f gone p /\ saves o r.

Record alike (s s' : state W) : Prop := {
  same_cells : cells s' = cells s;
  same_world : world s' = world s;
  same_marks : forall r, ~ dropped r -> marks s' r = marks s r
}.

Definition alike_effect (e e' : effect W) : Prop :=
  match e, e' with
  | Next s, Next s' | Fail s, Fail s' => alike s s'
  | End r, End r' => r' = r
  | _, _ => False
  end.

Lemma dropped_restore : forall p o r, dropped r -> op_at f p o -> restores o r -> useless_mark f gone p.
Proof.
  intros p o r (q & so & A & (b & i & j & E & Q) & SV) N R. destruct E as (x & O & C & CL).
  pose proof O as (o1 & N1 & NG1 & SV1 & U). pose proof CL as (o2 & N2 & NG2 & R2). destruct Q as [->| ->].
  - pose proof (op_at_fun _ _ _ _ A N1). subst so. assert (r = x) by (destruct SV, SV1; congruence). subst x.
    rewrite (restored_once_same _ _ _ _ _ _ U N R N2 R2). exists b, i, j. split; [exists r; auto|auto].
  - pose proof (op_at_fun _ _ _ _ A N2). subst so. destruct SV, R2. congruence.
Qed.

Lemma useless_kind : forall p o, useless_mark f gone p -> op_at f p o ->
  (exists r, saves o r /\ dropped r) \/
  (exists r, restores o r /\ exists i, empty_region f gone (fst p) i (snd p)).
Proof.
  intros p o U N. pose proof U as (b & i & j & E & Q). pose proof E as (x & O & C & CL).
  pose proof O as (o1 & N1 & NG1 & SV1 & _). pose proof CL as (o2 & N2 & NG2 & R2). destruct Q as [->| ->].
  - left. rewrite (op_at_fun _ _ _ _ N N1). exists x. split; [exact SV1|]. exists (b, i), o1. auto.
  - right. rewrite (op_at_fun _ _ _ _ N N2). exists x. split; [exact R2|]. exists i. exact E.
Qed.

Lemma exec_alike : forall o s s', alike s s' ->
  (forall r, restores o r -> ~ dropped r) -> alike_effect (exec m o s) (exec m o s').
Proof.
  intros o s s' [C Wd M] ND. unfold exec. destruct (okind o) eqn:K.
  3-11: rewrite C, Wd; destruct (perform m o (cells s) (world s)); cbn; try reflexivity; split; cbn; auto.
  - destruct (result o) as [r|]; [|reflexivity]. split; cbn; [exact C|exact Wd|].
    intros x D. unfold bind. destruct (x =? r); [congruence|apply M; exact D].
  - destruct (operands o) as [|[r| |] l] eqn:X; try reflexivity.
    rewrite M; [|apply ND; split; [exact K|]; exists l; exact X].
    destruct (marks s r) as [k|]; [|reflexivity]. rewrite C. destruct (k <=? cells s); [|reflexivity].
    split; cbn; auto.
Qed.

Lemma block_alike : forall b bl s0, nth_error f b = Some bl -> forall l i s s',
  skipn i (ops bl) = l -> leads b 0 s0 i s -> alike s s' ->
  exec_ops m (retain gone b i l) s <> End Unnested ->
  alike_effect (exec_ops m (retain gone b i l) s)
    (exec_ops m (retain (remove_empty_local_stack_regions f gone) b i l) s').
Proof.
  intros b bl s0 Hb. induction l as [|o l IH]; intros i s s' E L A NU; [exact A|].
  apply skipn_cons in E. destruct E as [N E]. apply (at_here f b bl Hb) in N.
  rewrite !retain_cons in *. destruct (mem_site (b, i) gone) eqn:G.
  - apply mem_site_in in G. assert (G' : mem_site (b, i) (remove_empty_local_stack_regions f gone) = true).
    { apply mem_site_in, removed_exact. auto. }
    rewrite G'. apply IH; auto. eapply leads_app; [exact L|]. eapply leads_gone; eauto using leads_none.
  - assert (NG : ~ In (b, i) gone) by (intros X; apply mem_site_in in X; congruence).
    assert (ST : forall s1, exec m o s = Next s1 -> leads b 0 s0 (S i) s1).
    { intros s1 X. eapply leads_app; [exact L|]. eapply leads_op; eauto using leads_none. }
    destruct (mem_site (b, i) (remove_empty_local_stack_regions f gone)) eqn:D.
    + apply mem_site_in, removed_exact in D. destruct D as [D|D]; [contradiction|].
      destruct (useless_kind _ _ D N) as [(r & SV & DR)|(r & R & i0 & ER)].
      * cbn [exec_ops] in *. pose proof SV as [K RS].
        assert (X : exec m o s = Next (mkState (cells s) (bind (marks s) r (cells s)) (world s))).
        { unfold exec. rewrite K, RS. reflexivity. }
        rewrite X in *. apply IH; auto. destruct A as [C Wd M]. split; cbn; auto.
        intros x DX. unfold bind. destruct (x =? r) eqn:Q; [|auto]. apply Nat.eqb_eq in Q. subst. contradiction.
      * cbn [fst snd] in ER. destruct (at_restore b i0 i s0 s o r ER L N R) as (k & MK & LE).
        cbn [exec_ops] in *. pose proof R as [K [x RS]].
        assert (X : exec m o s = if k <=? cells s then Next (mkState k (marks s) (world s)) else End Unnested).
        { unfold exec. rewrite K, RS, MK. reflexivity. }
        destruct (k <=? cells s) eqn:Q; [|rewrite X in NU; contradiction].
        apply Nat.leb_le in Q. rewrite X in *. apply IH; auto. destruct A as [C Wd M]. split; cbn; auto. lia.
    + assert (ND : forall r, restores o r -> ~ dropped r).
      { intros r R DR. pose proof (dropped_restore _ _ _ DR N R) as U.
        assert (X : In (b, i) (remove_empty_local_stack_regions f gone)) by (apply removed_exact; auto).
        apply mem_site_in in X. congruence. }
      cbn [exec_ops] in *. pose proof (exec_alike o s s' A ND) as X.
      destruct (exec m o s) as [s1|s1|e] eqn:E1, (exec m o s') as [s1'|s1'|e'] eqn:E2; cbn in X; try contradiction.
      * apply IH; auto.
      * reflexivity.
      * exact X.
Qed.

Hypothesis Hinv : forall b bl o n e, nth_error f b = Some bl -> tail bl = Invoke o n e ->
  okind o <> StackSave /\ okind o <> StackRestore.

Lemma run_alike : forall n b s s', alike s s' -> run m (delete gone f) n b s <> Unnested ->
  run m (delete (remove_empty_local_stack_regions f gone) f) n b s' = run m (delete gone f) n b s.
Proof.
  induction n as [|n IH]; intros b s s' A NU; cbn [run] in *.
  - destruct A as [C Wd _]. rewrite C, Wd. reflexivity.
  - rewrite delete_at in *. rewrite delete_at.
    destruct (nth_error f b) as [bl|] eqn:Hb; [|reflexivity]. cbn [ops tail Nat.add] in *.
    pose proof (block_alike b bl s Hb (ops bl) 0 s s' eq_refl (leads_none b 0 s) A) as X.
    destruct (exec_ops m (retain gone b 0 (ops bl)) s) as [s1|s1|e] eqn:E1.
    + specialize (X ltac:(discriminate)).
      destruct (exec_ops m (retain (remove_empty_local_stack_regions f gone) b 0 (ops bl)) s') as [s2|s2|e2];
        cbn in X; try contradiction. pose proof X as [C Wd M].
      destruct (tail bl) as [t|v t e|o nn ee| | | |p t] eqn:T.
      * apply IH; assumption.
      * rewrite Wd. destruct (truth m v (world s1)); [|reflexivity]. apply IH; assumption.
      * destruct (Hinv b bl _ _ _ Hb T) as [_ NR].
        pose proof (exec_alike o s1 s2 X ltac:(intros r [K _]; contradiction)) as Y.
        destruct (exec m o s1), (exec m o s2); cbn in Y; try contradiction; [apply IH; assumption|apply IH; assumption|exact Y].
      * rewrite C, Wd. reflexivity.
      * rewrite C, Wd. reflexivity.
      * rewrite C, Wd. reflexivity.
      * rewrite C, Wd. destruct (resume m p (cells s1) (world s1)) as [c w]. apply IH; [|exact NU].
        split; cbn; auto.
    + specialize (X ltac:(discriminate)).
      destruct (exec_ops m (retain (remove_empty_local_stack_regions f gone) b 0 (ops bl)) s');
        cbn in X; try contradiction. reflexivity.
    + specialize (X ltac:(intros Q; inversion Q; subst; contradiction)).
      destruct (exec_ops m (retain (remove_empty_local_stack_regions f gone) b 0 (ops bl)) s');
        cbn in X; try contradiction. congruence.
Qed.

End Run.

(** ** The markers that are left *)

Lemma retain_in : forall dead b l i o, In o (retain dead b i l) ->
  exists k, nth_error l k = Some o /\ mem_site (b, i + k) dead = false.
Proof.
  intros dead b. induction l as [|x l IH]; intros i o I; cbn [retain] in I; [contradiction|].
  destruct (mem_site (b, i) dead) eqn:M.
  - destruct (IH (S i) o I) as (k & N & Q). exists (S k). replace (i + S k) with (S i + k) by lia. auto.
  - destruct I as [->|I].
    + exists 0. rewrite Nat.add_0_r. auto.
    + destruct (IH (S i) o I) as (k & N & Q). exists (S k). replace (i + S k) with (S i + k) by lia. auto.
Qed.

Lemma retain_has : forall dead b l i k o, nth_error l k = Some o -> mem_site (b, i + k) dead = false ->
  In o (retain dead b i l).
Proof.
  intros dead b. induction l as [|x l IH]; intros i [|k] o N M; cbn [nth_error] in N; try discriminate.
  - inversion N; subst. rewrite Nat.add_0_r in M. cbn [retain]. rewrite M. left. reflexivity.
  - replace (i + S k) with (S i + k) in M by lia. cbn [retain].
    destruct (mem_site (b, i) dead); [|right]; apply (IH (S i) k o N M).
Qed.

Lemma no_lost : forall f gone, verified f -> saves_kept f gone ->
  no_lost_marker f (delete (remove_empty_local_stack_regions f gone) f).
Proof.
  intros f gone V K b bl o p so r N I O A SV. rewrite delete_at in N.
  destruct (nth_error f b) as [bl0|] eqn:Hb; [|discriminate]. inversion N; subst. cbn in I. clear N.
  destruct (retain_in _ _ _ _ _ I) as (k & Nk & Mk). cbn in Mk.
  assert (R : restores o r).
  { apply (proj1 (only_restored f V b bl0 p so r Hb A SV)); [eapply nth_error_In; eauto|exact O]. }
  assert (Ak : op_at f (b, k) o) by (exists bl0; auto).
  destruct (mem_site p (remove_empty_local_stack_regions f gone)) eqn:D.
  - apply mem_site_in, removed_exact in D. destruct D as [D|D].
    + destruct SV as [S _]. destruct (K p so A D S).
    + assert (X : dropped f gone r) by (exists p, so; auto).
      pose proof (dropped_restore f gone (b, k) o r X Ak R) as U.
      assert (Y : mem_site (b, k) (remove_empty_local_stack_regions f gone) = true)
        by (apply mem_site_in, removed_exact; auto). congruence.
  - destruct p as [b' i']. pose proof A as (bl' & Hb' & Nb'). cbn in Hb', Nb'.
    pose proof (retain_has _ _ _ 0 _ _ Nb' D) as J. apply In_nth_error in J. destruct J as [j J].
    exists (b', j), so. split; [|exact SV]. eexists. cbn [fst snd]. rewrite delete_at, Hb'.
    split; [reflexivity|exact J].
Qed.

(** ** An example *)

Definition hollow : function :=
  [ mkBlock [save 0; alloc 10; save 1; work 0; restore 1; restore 0;
             save 2; save 3; alloc 11; restore 3; work 1; restore 2] Return ].

Lemma hollow_verified : verified hollow.
Proof.
  constructor.
  - intros b bl t H I. destruct b as [|b]; cbn in H; inversion H; subst; cbn in I; [contradiction|].
    destruct b; discriminate.
  - cbn. lia.
  - intros p q o o' m O O' [K R] [K' R']. each O; each O'; try discriminate; try reflexivity;
      cbn in R, R'; congruence.
  - intros p o m O [K [l R]].
    assert (T : forall k x, nth_error (ops (mkBlock [save 0; alloc 10; save 1; work 0; restore 1; restore 0;
             save 2; save 3; alloc 11; restore 3; work 1; restore 2] Return)) k = Some (save x) ->
      forall q, fst q = 0 -> k < snd q -> taken_before hollow q x).
    { intros k x Nx q Q1 Q2. apply (taken_in hollow x (fun q => k <? snd q)).
      - reflexivity.
      - intros b bl i y H N A. destruct b as [|b]; [|destruct b; discriminate]. cbn in H. inversion H; subst.
        cbn [fst snd] in *. apply Nat.ltb_lt in A. destruct (Nat.eq_dec i k) as [->|D].
        + right. rewrite Nx in N. inversion N; subst. split; reflexivity.
        + left. apply Nat.ltb_lt. lia.
      - intros b bl t H I A. destruct b as [|b]; [|destruct b; discriminate]. cbn in H. inversion H; subst.
        contradiction.
      - apply Nat.ltb_lt. exact Q2. }
    each O; cbn in K, R; inversion R; subst; try discriminate.
    + apply (T 2 1 eq_refl); cbn; lia.
    + apply (T 0 0 eq_refl); cbn; lia.
    + apply (T 7 3 eq_refl); cbn; lia.
    + apply (T 6 2 eq_refl); cbn; lia.
  - intros p o O K. each O; try discriminate; eexists; split; try reflexivity; eexists; reflexivity.
  - intros p o O K. each O; try discriminate; eexists; split; reflexivity.
  - intros b bl p o m H O S. destruct b as [|b]; [|destruct b; discriminate]. cbn in H. inversion H; subst.
    split; [|exact Logic.I]. intros o' I J. clear O S. cbn in I.
    repeat (destruct I as [I|I]; [subst o'; cbn in J; repeat (destruct J as [J|J]; [first [discriminate J|inversion J; subst; split; [split; [reflexivity|exists []; reflexivity]|reflexivity]]|]); destruct J|]);
    destruct I.
  - intros b bl o n e H T. destruct b as [|b]; cbn in H; inversion H; subst; try discriminate.
    destruct b; discriminate.
Qed.
