(** What the scan decides. *)
From Coq Require Import List Arith Bool Lia.
From Verif Require Import MarkModel MarkSpec MarkLattice MarkMeaning MarkWalk.
Import ListNotations.

(** ** Following a substitution ends *)

Definition terminal (s : substitution) (t : reg) : Prop := lookup s t = None \/ lookup s t = Some t.

Lemma resolve_terminal : forall n s x y, resolve n s x = Some y -> terminal s y.
Proof.
  induction n as [|n IH]; intros s x y E; [discriminate|].
  cbn [resolve] in E. destruct (lookup s x) as [z|] eqn:L.
  - destruct (z =? x) eqn:Q; [|exact (IH s z y E)]. apply Nat.eqb_eq in Q. subst z.
    inversion E; subst. right. exact L.
  - inversion E; subst. left. exact L.
Qed.

Lemma resolve_extend : forall k t s, terminal s t -> forall n x y, resolve n s x = Some y ->
  exists y', resolve (S n) ((k, t) :: s) x = Some y'.
Proof.
  intros k t s T. induction n as [|n IH]; intros x y E; [discriminate|].
  cbn [resolve] in E. change (resolve (S (S n)) ((k, t) :: s) x) with
    (match lookup ((k, t) :: s) x with
     | None => Some x
     | Some next => if next =? x then Some x else resolve (S n) ((k, t) :: s) next
     end).
  cbn [lookup]. destruct (k =? x) eqn:Q.
  - apply Nat.eqb_eq in Q. subst x. destruct (t =? k) eqn:Z; [eauto|].
    apply Nat.eqb_neq in Z. cbn [resolve lookup].
    assert (Z' : (k =? t) = false) by (apply Nat.eqb_neq; congruence). rewrite Z'.
    destruct T as [-> | ->]; [eauto|]. rewrite Nat.eqb_refl. eauto.
  - destruct (lookup s x) as [z|]; [|eauto]. destruct (z =? x); [eauto|]. exact (IH z y E).
Qed.

Definition ending (s : substitution) : Prop := forall x, exists y, resolve (S (length s)) s x = Some y.

Lemma ending_nil : ending [].
Proof. intros x. exists x. reflexivity. Qed.

Lemma ending_cons : forall s k t, ending s -> terminal s t -> ending ((k, t) :: s).
Proof. intros s k t E T x. destruct (E x) as [y Y]. exact (resolve_extend k t s T _ x y Y). Qed.

Section Scan.
Variable f : function.
Hypothesis V : verified f.
Variable e : states.
Hypothesis E1 : forall tr p, walk f tr p -> exists s, get_state e (fst p) = Some s.
Hypothesis E2 : forall b bl s, nth_error f b = Some bl -> get_state e b = Some s ->
  forall i, i <= length (ops bl) -> (exists tr, walk f tr (b, i)) /\
    forall m, In m (before bl s i) <-> current f (b, i) m.

(** The sites before [(b, i)] in the order of the scan. *)
Definition seen (b i : nat) (q : site) : Prop := fst q < b \/ (fst q = b /\ snd q < i).

Definition doomed (q : site) : Prop := exists o, op_at f q o /\ redundant f q o.

Record decided (b i : nat) (d : decision) : Prop := {
  d_ending : ending (fst d);
  d_dead : forall q, In q (snd d) <-> seen b i q /\ doomed q;
  d_keys : forall k, lookup (fst d) k <> None <->
    exists q o, seen b i q /\ op_at f q o /\ saves o k /\ redundant f q o;
  d_linked : in_order f -> forall k v, lookup (fst d) k = Some v ->
    linked f k v /\ lookup (fst d) v = None /\ exists q o, seen b i q /\ op_at f q o /\ saves o v
}.

Lemma seen_S : forall b i q, seen b (S i) q <-> seen b i q \/ q = (b, i).
Proof.
  intros b i [x y]. unfold seen. cbn [fst snd]. split.
  - intros [H|[H L]]; [auto|]. destruct (Nat.eq_dec y i) as [->|N]; [right; congruence|left; right; lia].
  - intros [[H|[H L]]|Q]; [auto|right; lia|inversion Q; subst; right; lia].
Qed.

Lemma seen_self : forall b i, ~ seen b i (b, i).
Proof. intros b i [H|[_ H]]; cbn [fst snd] in H; lia. Qed.

(** An operation that is not redundant adds nothing. *)
Lemma decided_skip : forall b i d o, decided b i d -> op_at f (b, i) o -> ~ redundant f (b, i) o ->
  decided b (S i) d.
Proof.
  intros b i d o D O N. destruct D as [A B C L]. constructor.
  - exact A.
  - intros q. rewrite B, seen_S. split; [intuition|]. intros [[S|S] Dm]; [auto|]. subst q.
    destruct Dm as (o' & O' & R). assert (o' = o) by exact (op_at_fun f _ o' o O' O). subst. contradiction.
  - intros k. rewrite C. split.
    + intros (q & o' & S & X). exists q, o'. split; [apply seen_S; left; exact S|exact X].
    + intros (q & o' & S & O' & Sv & R). apply seen_S in S. destruct S as [S|S]; [exists q, o'; auto|].
      subst q. assert (o' = o) by exact (op_at_fun f _ o' o O' O). subst. contradiction.
  - intros I k v X. destruct (L I k v X) as (L1 & L2 & q & o' & S & Y). split; [exact L1|]. split; [exact L2|].
    exists q, o'. split; [apply seen_S; left; exact S|exact Y].
Qed.

Lemma dead_cons : forall b i dead o, (forall q, In q dead <-> seen b i q /\ doomed q) ->
  op_at f (b, i) o -> redundant f (b, i) o ->
  forall q, In q ((b, i) :: dead) <-> seen b (S i) q /\ doomed q.
Proof.
  intros b i dead o B O R q. cbn [In]. rewrite B, seen_S. split.
  - intros [<-|[S D]]; [|auto]. split; [right; reflexivity|]. exists o. auto.
  - intros [[S|S] D]; [auto|]. subst q. left. reflexivity.
Qed.

(** One operation. *)
Lemma decide_ok : forall b bl s i o d, nth_error f b = Some bl -> get_state e b = Some s ->
  nth_error (ops bl) i = Some o -> decided b i d ->
  exists d', decide b i o (before bl s i) d = Some d' /\ decided b (S i) d'.
Proof.
  intros b bl s i o [sub dead] H G N D.
  assert (Li : i <= length (ops bl)) by (apply Nat.lt_le_incl, nth_error_Some; congruence).
  destruct (E2 b bl s H G i Li) as [Wk Cu].
  pose proof (op_at_intro f b bl i o H N) as O.
  assert (plain : okind o <> StackSave -> okind o <> StackRestore -> decided b (S i) (sub, dead)).
  { intros K1 K2. apply (decided_skip b i (sub, dead) o D O). intros [_ [[K _]|(x & [K _] & _)]]; contradiction. }
  unfold decide. destruct (okind o) eqn:K;
    try (exists (sub, dead); split; [reflexivity|apply plain; discriminate]).
  - (* a save *)
    clear plain. destruct (save_result f V (b, i) o O K) as [m Sm]. pose proof Sm as [_ R]. rewrite R.
    destruct (before bl s i) as [|h rest] eqn:Bs; cbn [representative hd_error].
    + exists (sub, dead). split; [reflexivity|].
      apply (decided_skip b i (sub, dead) o D O). intros [_ [[_ [x Cx]]|(x & Rx & _)]].
      * apply Cu in Cx. destruct Cx.
      * exact (saves_not_restores o m x Sm Rx).
    + assert (Ch : current f (b, i) h) by (apply Cu; left; reflexivity).
      assert (Rd : redundant f (b, i) o).
      { split; [exact Wk|]. left. split; [exact K|]. exists h. exact Ch. }
      destruct D as [A B C L]. cbn [fst snd] in *.
      destruct (A h) as [t Rt]. rewrite Rt. exists ((m, t) :: sub, (b, i) :: dead). split; [reflexivity|].
      assert (HA : holds_at f m h) by (exists (b, i), o; auto).
      (* a register saved at a site already seen is not [m] *)
      assert (fresh : forall x, (exists q o', seen b i q /\ op_at f q o' /\ saves o' x) -> x <> m).
      { intros x (q & o' & Sq & Oq & Svq) ->.
        assert (q = (b, i)) by exact (one_save f V q (b, i) o' o m Oq O Svq Sm). subst q.
        exact (seen_self b i Sq). }
      constructor; cbn [fst snd].
      * apply ending_cons; [exact A|]. exact (resolve_terminal _ _ _ _ Rt).
      * exact (dead_cons b i dead o B O Rd).
      * intros k. cbn [lookup]. destruct (m =? k) eqn:Q.
        { apply Nat.eqb_eq in Q. subst k. split; [|discriminate]. intros _. exists (b, i), o.
          split; [apply seen_S; right; reflexivity|]. auto. }
        { rewrite C. split.
          - intros (q & o' & S & X). exists q, o'. split; [apply seen_S; left; exact S|exact X].
          - intros (q & o' & S & O' & Sv & Rq). apply seen_S in S. destruct S as [S|S]; [exists q, o'; auto|].
            subst q. assert (o' = o) by exact (op_at_fun f _ o' o O' O). subst o'.
            pose proof (saves_fun o m k Sm Sv). subst. rewrite Nat.eqb_refl in Q. discriminate. }
      * intros I. specialize (L I).
        assert (seen_h : exists q o', seen b i q /\ op_at f q o' /\ saves o' h).
        { destruct Wk as [tr W]. destruct (current_after_taken f V tr (b, i) W h (Ch tr W)) as (q & o' & Iq & Sq).
          pose proof (walk_save f V tr (b, i) q o' h W Iq Sq) as Oq. exists q, o'. split; [|auto].
          assert (Nq : q <> (b, i)).
          { intros ->. assert (o' = o) by exact (op_at_fun f _ o' o Oq O). subst o'.
            exact (holds_at_other f V m h HA (saves_fun o m h Sm Sq)). }
          exact (I q (b, i) o' o h m Oq O Sq Sm Nq (ex_intro _ tr W) (current_taken f V (b, i) h Ch)). }
        assert (target : linked f m t /\ lookup sub t = None /\ exists q o', seen b i q /\ op_at f q o' /\ saves o' t).
        { cbn [resolve] in Rt. destruct (lookup sub h) as [v|] eqn:Lh.
          - destruct (L h v Lh) as (L1 & L2 & L3).
            destruct (v =? h) eqn:Q; [apply Nat.eqb_eq in Q; subst v; congruence|].
            destruct (length sub) as [|n] eqn:Ls; [destruct sub; discriminate|].
            cbn [resolve] in Rt. rewrite L2 in Rt. inversion Rt; subst t.
            split; [exact (link_more f m h v HA L1)|]. auto.
          - inversion Rt; subst t. split; [exact (link_one f m h HA)|]. auto. }
        destruct target as (T1 & T2 & T3).
        assert (up : forall x, (exists q o', seen b i q /\ op_at f q o' /\ saves o' x) ->
                      exists q o', seen b (S i) q /\ op_at f q o' /\ saves o' x).
        { intros x (q & o' & S & X). exists q, o'. split; [apply seen_S; left; exact S|exact X]. }
        assert (Q : forall x, (exists q o', seen b i q /\ op_at f q o' /\ saves o' x) -> (m =? x) = false).
        { intros x X. apply Nat.eqb_neq. intros ->. exact (fresh x X eq_refl). }
        intros k v X. cbn [lookup] in *. destruct (m =? k) eqn:Z.
        { apply Nat.eqb_eq in Z. subst k. inversion X; subst v. rewrite (Q t T3). auto. }
        { destruct (L k v X) as (L1 & L2 & L3). rewrite (Q v L3). auto. }
  - (* a restore *)
    clear plain. destruct (restore_operand f V (b, i) o O K) as [m Rm]. pose proof Rm as [_ [l R]]. rewrite R.
    destruct (holds (before bl s i) m) eqn:Q.
    + apply holds_in in Q. apply Cu in Q.
      assert (Rd : redundant f (b, i) o) by (split; [exact Wk|]; right; exists m; auto).
      exists (sub, (b, i) :: dead). split; [reflexivity|].
      destruct D as [A B C L]. cbn [fst snd] in *. constructor; cbn [fst snd].
      * exact A.
      * exact (dead_cons b i dead o B O Rd).
      * intros k. rewrite C. split.
        { intros (q & o' & S & X). exists q, o'. split; [apply seen_S; left; exact S|exact X]. }
        { intros (q & o' & S & O' & Sv & Rq). apply seen_S in S. destruct S as [S|S]; [exists q, o'; auto|].
          subst q. assert (o' = o) by exact (op_at_fun f _ o' o O' O). subst o'.
          destruct (saves_not_restores o k m Sv Rm). }
      * intros I k v X. destruct (L I k v X) as (L1 & L2 & q & o' & S & Y). split; [exact L1|]. split; [exact L2|].
        exists q, o'. split; [apply seen_S; left; exact S|exact Y].
    + exists (sub, dead). split; [reflexivity|].
      apply (decided_skip b i (sub, dead) o D O). intros [_ [[K' _]|(x & Rx & Cx)]]; [congruence|].
      assert (x = m) by exact (restores_fun o x m Rx Rm). subst x.
      apply Cu in Cx. apply holds_in in Cx. congruence.
Qed.

Lemma decide_ops_ok : forall b bl s, nth_error f b = Some bl -> get_state e b = Some s ->
  forall l i d, skipn i (ops bl) = l -> decided b i d ->
  exists d', decide_ops b i l (before bl s i) d = Some d' /\ decided b (length (ops bl)) d'.
Proof.
  intros b bl s H G. induction l as [|o l IH]; intros i d Sk D.
  - exists d. split; [reflexivity|].
    assert (L : length (ops bl) <= i).
    { pose proof (skipn_length i (ops bl)) as X. rewrite Sk in X. cbn in X. lia. }
    clear Sk. induction L as [|i L IH]; [exact D|]. apply IH. destruct D as [A B C Ln]. constructor.
    + exact A.
    + intros q. rewrite B. split; [|intros [S X]; split; [apply seen_S; auto|exact X]].
      intros [S X]. split; [|exact X]. apply seen_S in S. destruct S as [S|S]; [exact S|]. subst q.
      destruct X as (o & (bl' & Hb & Hn) & _). cbn [fst snd] in *. assert (bl' = bl) by congruence. subst bl'.
      exfalso. assert (i < length (ops bl)) by (apply nth_error_Some; congruence). lia.
    + intros k. rewrite C. split.
      * intros (q & o & S & O & X). exists q, o. split; [|auto]. apply seen_S in S. destruct S as [S|S]; [exact S|].
        subst q. destruct O as (bl' & Hb & Hn). cbn [fst snd] in *. assert (bl' = bl) by congruence. subst bl'.
        exfalso. assert (i < length (ops bl)) by (apply nth_error_Some; congruence). lia.
      * intros (q & o & S & X). exists q, o. split; [apply seen_S; auto|exact X].
    + intros I k v X. destruct (Ln I k v X) as (L1 & L2 & q & o & S & O & Y). split; [exact L1|]. split; [exact L2|].
      exists q, o. split; [|auto]. apply seen_S in S. destruct S as [S|S]; [exact S|].
      subst q. destruct O as (bl' & Hb & Hn). cbn [fst snd] in *. assert (bl' = bl) by congruence. subst bl'.
      exfalso. assert (i < length (ops bl)) by (apply nth_error_Some; congruence). lia.
  - assert (N : nth_error (ops bl) i = Some o).
    { rewrite <- (firstn_skipn i (ops bl)), Sk. rewrite nth_error_app2.
      - assert (i < length (ops bl)).
        { pose proof (skipn_length i (ops bl)) as X. rewrite Sk in X. cbn in X. lia. }
        rewrite firstn_length_le by lia. rewrite Nat.sub_diag. reflexivity.
      - rewrite firstn_length. lia. }
    cbn [decide_ops]. destruct (decide_ok b bl s i o d H G N D) as (d' & E & D'). rewrite E.
    rewrite <- (before_S bl s i o N). apply IH; [|exact D'].
    assert (X : forall (x : list op) i o l, skipn i x = o :: l -> skipn (S i) x = l).
    { clear. induction x as [|a x IHx]; intros [|i] o l Q; cbn in *; try discriminate.
      - inversion Q. reflexivity.
      - destruct x; [destruct i; discriminate|]. exact (IHx i o l Q). }
    exact (X (ops bl) i o l Sk).
Qed.

Lemma decided_next : forall b bl d, nth_error f b = Some bl -> decided b (length (ops bl)) d -> decided (S b) 0 d.
Proof.
  intros b bl d H [A B C L].
  assert (S : forall q o, op_at f q o -> (seen (S b) 0 q <-> seen b (length (ops bl)) q)).
  { intros q o (bl' & Hb & Hn). unfold seen. split.
    - intros [X|[_ X]]; [|lia]. destruct (Nat.eq_dec (fst q) b) as [Q|Q]; [|left; lia]. right. split; [exact Q|].
      rewrite Q in Hb. assert (bl' = bl) by congruence. subst. apply nth_error_Some. congruence.
    - intros [X|[X _]]; left; lia. }
  constructor.
  - exact A.
  - intros q. rewrite B. split; intros [X (o & O & R)]; (split; [apply (S q o O); exact X|exists o; auto]).
  - intros k. rewrite C. split; intros (q & o & X & O & Y); exists q, o; (split; [apply (S q o O); exact X|auto]).
  - intros I k v X. destruct (L I k v X) as (L1 & L2 & q & o & Y & O & Z). split; [exact L1|]. split; [exact L2|].
    exists q, o. split; [apply (S q o O); exact Y|auto].
Qed.

Lemma decided_unreached : forall b bl d, nth_error f b = Some bl -> get_state e b = None -> decided b 0 d ->
  decided (S b) 0 d.
Proof.
  intros b bl d H G D. apply (decided_next b bl d H).
  assert (X : forall i, i <= length (ops bl) -> decided b i d).
  { induction i as [|i IH]; intros Li; [exact D|].
    destruct (nth_error (ops bl) i) as [o|] eqn:N; [|apply nth_error_None in N; lia].
    apply (decided_skip b i d o (IH ltac:(lia)) (op_at_intro f b bl i o H N)).
    intros [[tr W] _]. destruct (E1 tr (b, i) W) as [s G']. cbn [fst] in G'. congruence. }
  exact (X _ (le_n _)).
Qed.

Lemma decide_all_ok : forall bls b d, (forall i bl, nth_error bls i = Some bl -> nth_error f (b + i) = Some bl) ->
  length bls + b = length f -> decided b 0 d ->
  exists d', decide_all bls b e d = Some d' /\ decided (length f) 0 d'.
Proof.
  induction bls as [|bl bls IH]; intros b d N Lb D.
  - cbn in Lb. subst b. exists d. split; [reflexivity|exact D].
  - assert (H : nth_error f b = Some bl) by (rewrite <- (Nat.add_0_r b); apply N; reflexivity).
    assert (N' : forall i x, nth_error bls i = Some x -> nth_error f (S b + i) = Some x).
    { intros i x X. replace (S b + i) with (b + S i) by lia. apply N. exact X. }
    cbn [decide_all]. cbn in Lb. destruct (get_state e b) as [s|] eqn:G.
    + destruct (decide_ops_ok b bl s H G (ops bl) 0 d eq_refl D) as (d1 & X & D1).
      rewrite before_0 in X. rewrite X. apply (IH (S b) d1 N'); [lia|]. exact (decided_next b bl d1 H D1).
    + apply (IH (S b) d N'); [lia|]. exact (decided_unreached b bl d H G D).
Qed.

Lemma decided_start : decided 0 0 ([], []).
Proof.
  constructor; cbn [fst snd lookup].
  - exact ending_nil.
  - intros q. split; [intros []|]. intros [[X|[_ X]] _]; lia.
  - intros k. split; [congruence|]. intros (q & o & [X|[_ X]] & _); lia.
  - intros _ k v X. discriminate.
Qed.

(** The decision for the whole function. *)
Record verdict (sub : substitution) (dead : list site) : Prop := {
  v_dead : forall q, In q dead <-> doomed q;
  v_keys : forall k, lookup sub k <> None <-> exists q o, op_at f q o /\ saves o k /\ redundant f q o;
  v_linked : in_order f -> forall k v, lookup sub k = Some v -> linked f k v /\ lookup sub v = None
}.

Lemma verdict_ok : exists sub dead, decide_all f 0 e ([], []) = Some (sub, dead) /\ verdict sub dead.
Proof.
  destruct (decide_all_ok f 0 ([], []) ltac:(auto) ltac:(lia) decided_start) as ([sub dead] & X & [A B C L]).
  exists sub, dead. split; [exact X|]. cbn [fst snd] in *.
  assert (S : forall q o, op_at f q o -> seen (length f) 0 q).
  { intros q o (bl & H & _). left. apply nth_error_Some. congruence. }
  constructor.
  - intros q. rewrite B. split; [tauto|]. intros D. split; [|exact D]. destruct D as (o & O & _). exact (S q o O).
  - intros k. rewrite C. split.
    + intros (q & o & _ & Y). exists q, o. exact Y.
    + intros (q & o & O & Y). exists q, o. split; [exact (S q o O)|auto].
  - intros I k v Y. destruct (L I k v Y) as (L1 & L2 & _). auto.
Qed.
End Scan.
