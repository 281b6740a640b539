(** The rewritten function does what the function did. *)
From Coq Require Import List Arith Bool Lia.
From Verif Require Import MarkModel MarkSpec MarkLattice MarkMeaning MarkWalk MarkScan.
Import ListNotations.

Lemma mem_site_in : forall l x, mem_site x l = true <-> In x l.
Proof.
  intros l [a b]. unfold mem_site. rewrite existsb_exists. split.
  - intros ([c d] & I & E). cbn in E. apply andb_true_iff in E. destruct E as [A B].
    apply Nat.eqb_eq in A, B. subst. exact I.
  - intros I. exists (a, b). split; [exact I|]. cbn. rewrite !Nat.eqb_refl. reflexivity.
Qed.

Lemma rewrite_nth : forall sub dead bls b i, nth_error (rewrite_from sub dead b bls) i =
  match nth_error bls i with
  | Some bl => Some (mkBlock (retain dead (b + i) 0 (map (rename_op sub) (ops bl))) (rename_term sub (tail bl)))
  | None => None
  end.
Proof.
  induction bls as [|bl bls IH]; intros b [|i]; cbn [rewrite_from nth_error]; try reflexivity.
  - rewrite Nat.add_0_r. reflexivity.
  - rewrite IH. replace (S b + i) with (b + S i) by lia. reflexivity.
Qed.

Lemma rewrite_length : forall sub dead bls b, length (rewrite_from sub dead b bls) = length bls.
Proof. induction bls as [|bl bls IH]; intros b; cbn; [reflexivity|]. f_equal. apply IH. Qed.

Lemma retain_cons : forall dead b i o l, retain dead b i (o :: l) =
  if mem_site (b, i) dead then retain dead b (S i) l else o :: retain dead b (S i) l.
Proof. reflexivity. Qed.

Lemma skipn_cons : forall {A} (x : list A) i o l, skipn i x = o :: l ->
  nth_error x i = Some o /\ skipn (S i) x = l.
Proof.
  intros A. induction x as [|a x IH]; intros [|i] o l Q; cbn in *; try discriminate.
  - inversion Q. auto.
  - destruct (IH i o l Q) as [B C]. split; [exact B|]. destruct x; [destruct i; discriminate|exact C].
Qed.

Lemma skipn_nil_length : forall {A} (x : list A) i, i <= length x -> skipn i x = [] -> i = length x.
Proof. intros A x i L E. pose proof (skipn_length i x) as Q. rewrite E in Q. cbn in Q. lia. Qed.

Section Sim.
Variable f : function.
Hypothesis V : verified f.
Variables (sub : substitution) (dead : list site).
Hypothesis Vd : verdict f sub dead.

(** A renamed register is the result of a save. *)
Lemma key_saved : forall k, lookup sub k <> None -> exists q o, op_at f q o /\ saves o k /\ redundant f q o.
Proof. intros k. apply (v_keys f sub dead Vd). Qed.

Lemma rename_same : forall v, (forall k, lookup sub k <> None -> v <> Reg k) -> rename_operand sub v = v.
Proof.
  intros [r|s|c] H; try reflexivity. cbn. destruct (lookup sub r) eqn:L; [|reflexivity].
  destruct (H r); [congruence|reflexivity].
Qed.

Lemma rename_op_same : forall o, (forall k, lookup sub k <> None -> ~ In (Reg k) (operands o)) -> rename_op sub o = o.
Proof.
  intros [k l r] H. unfold rename_op. cbn [okind operands result] in *. f_equal.
  induction l as [|v l IH]; cbn [map]; [reflexivity|]. f_equal.
  - apply rename_same. intros x X ->. apply (H x X). left. reflexivity.
  - apply IH. intros x X I. apply (H x X). right. exact I.
Qed.

Lemma rename_plain : forall b bl o, nth_error f b = Some bl -> In o (ops bl) -> okind o <> StackRestore ->
  rename_op sub o = o.
Proof.
  intros b bl o H I K. apply rename_op_same. intros k X J.
  destruct (key_saved k X) as (q & o' & O & S & _).
  destruct (proj1 (only_restored f V b bl q o' k H O S) o I J) as [[R _] _]. contradiction.
Qed.

Lemma rename_tail : forall b bl, nth_error f b = Some bl -> rename_term sub (tail bl) = tail bl.
Proof.
  intros b bl H.
  assert (X : forall k, lookup sub k <> None -> match tail bl with
    | Goto _ | Return | PropagateError | FailureDuringCleanup => True
    | CondBr c _ _ => c <> Reg k
    | Invoke o' _ _ => ~ In (Reg k) (operands o')
    | Yield v _ => v <> Reg k
    end).
  { intros k Q. destruct (key_saved k Q) as (q & o' & O & S & _). exact (proj2 (only_restored f V b bl q o' k H O S)). }
  destruct (tail bl); try reflexivity; cbn [rename_term]; f_equal.
  - apply rename_same. exact X.
  - apply rename_op_same. exact X.
  - apply rename_same. exact X.
Qed.

(** ** What is removed *)

Lemma dead_iff : forall b i o, op_at f (b, i) o -> (mem_site (b, i) dead = true <-> redundant f (b, i) o).
Proof.
  intros b i o O. rewrite mem_site_in, (v_dead f sub dead Vd). split.
  - intros (o' & O' & R). assert (o' = o) by exact (op_at_fun f _ o' o O' O). subst. exact R.
  - intros R. exists o. auto.
Qed.

Lemma thinned_ok : forall b bl, nth_error f b = Some bl -> forall l i, skipn i (ops bl) = l ->
  thinned f b i l (retain dead b i (map (rename_op sub) l)).
Proof.
  intros b bl H. induction l as [|o l IH]; intros i Sk; [constructor|].
  destruct (skipn_cons (ops bl) i o l Sk) as [N Sk'].
  pose proof (op_at_intro f b bl i o H N) as O. specialize (IH (S i) Sk').
  cbn [map]. rewrite retain_cons. destruct (mem_site (b, i) dead) eqn:M.
  - apply thinned_drop; [|exact IH]. apply (dead_iff b i o O). exact M.
  - assert (NR : ~ redundant f (b, i) o).
    { intros R. apply (dead_iff b i o O) in R. congruence. }
    assert (D : okind o = StackRestore \/ okind o <> StackRestore) by (destruct (okind o); auto; right; discriminate).
    destruct D as [K|K].
    + destruct (restore_operand f V (b, i) o O K) as [m Rm]. pose proof Rm as [_ [r R]].
      apply (thinned_restore f b i o _ m (match lookup sub m with Some v => v | None => m end));
        [exact NR|exact Rm| |reflexivity|exact IH].
      split; [exact K|]. exists (map (rename_operand sub) r). cbn [rename_op operands]. rewrite R. cbn [map rename_operand].
      destruct (lookup sub m); reflexivity.
    + rewrite (rename_plain b bl o H (nth_error_In _ _ N) K). apply thinned_keep; assumption.
Qed.

Lemma without_ok : without_redundant f (rewrite_from sub dead 0 f).
Proof.
  split; [apply rewrite_length|]. intros b bl bl' H H'. rewrite rewrite_nth, H in H'. inversion H'; subst bl'.
  cbn [tail ops]. split; [exact (rename_tail b bl H)|]. exact (thinned_ok b bl H (ops bl) 0 eq_refl).
Qed.

(** ** What is done *)

Section Behaviour.
Context {W : Type}.
Variable m : machine W.
Hypothesis Hm : honest m.
Hypothesis Hy : ~ yields f \/ steady m.
Hypothesis Ho : in_order f.
Variables (c0 : nat) (w0 : W).

Definition alike (s s' : state W) : Prop :=
  cells s' = cells s /\ world s' = world s /\ forall r, lookup sub r = None -> marks s' r = marks s r.

(** The effects on two states that are alike. *)
Definition same_effect (x y : effect W) : Prop :=
  match x with
  | Next t => exists t', y = Next t' /\ alike t t'
  | Fail t => exists t', y = Fail t' /\ alike t t'
  | End Unnested => True
  | End r => y = End r
  end.

Lemma perform_same : forall o s s', okind o <> StackSave -> okind o <> StackRestore -> alike s s' ->
  same_effect (exec m o s) (exec m o s').
Proof.
  intros o s s' K1 K2 (A & B & C). unfold exec.
  assert (G : same_effect
    (match perform m o (cells s) (world s) with
     | Done c w => Next (mkState c (marks s) w) | Failed c w => Fail (mkState c (marks s) w)
     | Poisoned w => End (Stopped w) end)
    (match perform m o (cells s') (world s') with
     | Done c w => Next (mkState c (marks s') w) | Failed c w => Fail (mkState c (marks s') w)
     | Poisoned w => End (Stopped w) end)).
  { rewrite A, B. destruct (perform m o (cells s) (world s)) as [c w|c w|w]; cbn [same_effect].
    - eexists. split; [reflexivity|]. split; [reflexivity|]. split; [reflexivity|exact C].
    - eexists. split; [reflexivity|]. split; [reflexivity|]. split; [reflexivity|exact C].
    - reflexivity. }
  destruct (okind o); try exact G; contradiction.
Qed.

Lemma kept_same : forall tr b bl i o s s', nth_error f b = Some bl -> nth_error (ops bl) i = Some o ->
  trail f m c0 w0 tr (b, i) s -> alike s s' -> mem_site (b, i) dead = false ->
  same_effect (exec m o s) (exec m (rename_op sub o) s').
Proof.
  intros tr b bl i o s s' H N T Al M. pose proof (op_at_intro f b bl i o H N) as O.
  assert (plain : okind o <> StackSave -> okind o <> StackRestore -> same_effect (exec m o s) (exec m (rename_op sub o) s')).
  { intros K1 K2. rewrite (rename_plain b bl o H (nth_error_In _ _ N) K2). apply perform_same; assumption. }
  destruct (okind o) eqn:K; try (apply plain; discriminate); clear plain; destruct Al as (A & B & C).
  - rewrite (rename_plain b bl o H (nth_error_In _ _ N) ltac:(congruence)).
    unfold exec. rewrite K. destruct (result o) as [r|] eqn:R; [|reflexivity].
    cbn [same_effect]. eexists. split; [reflexivity|]. unfold alike. cbn [cells marks world].
    split; [exact A|]. split; [exact B|]. intros x X. unfold bind. rewrite A.
    destruct (x =? r); [reflexivity|exact (C x X)].
  - destruct (restore_operand f V (b, i) o O K) as [k Rk]. pose proof Rk as [_ [l R]].
    assert (E : marks s' (match lookup sub k with Some v => v | None => k end) = marks s k).
    { destruct (lookup sub k) as [v|] eqn:L; [|exact (C k L)].
      destruct (v_linked f sub dead Vd Ho k v L) as [Lk Lv]. rewrite (C v Lv). symmetry.
      exact (linked_equal f V m Hm Hy c0 w0 k v Lk tr (b, i) s T (saved_first f V (b, i) o k O Rk)). }
    unfold exec. cbn [rename_op okind operands]. rewrite K, R. cbn [map rename_operand].
    replace (match lookup sub k with Some t => Reg t | None => Reg k end)
      with (Reg (match lookup sub k with Some v => v | None => k end)) by (destruct (lookup sub k); reflexivity).
    rewrite E, A. destruct (marks s k) as [n|]; [|reflexivity].
    destruct (n <=? cells s); [|exact Logic.I]. cbn [same_effect]. eexists. split; [reflexivity|].
    unfold alike. cbn [cells marks world]. auto.
Qed.

Lemma gone_same : forall tr b bl i o s s', nth_error f b = Some bl -> nth_error (ops bl) i = Some o ->
  trail f m c0 w0 tr (b, i) s -> alike s s' -> mem_site (b, i) dead = true ->
  exists t, exec m o s = Next t /\ alike t s'.
Proof.
  intros tr b bl i o s s' H N T (A & B & C) M. pose proof (op_at_intro f b bl i o H N) as O.
  apply (dead_iff b i o O) in M. pose proof M as [_ [[K _]|(k & Rk & Ck)]].
  - destruct (save_result f V (b, i) o O K) as [k Sk]. pose proof Sk as [_ R].
    unfold exec. rewrite K, R. eexists. split; [reflexivity|]. unfold alike. cbn [cells marks world].
    split; [exact A|]. split; [exact B|]. intros x X. unfold bind.
    destruct (x =? k) eqn:Q; [|exact (C x X)]. apply Nat.eqb_eq in Q. subst x. exfalso.
    assert (Y : lookup sub k <> None) by (apply (v_keys f sub dead Vd); exists (b, i), o; auto). contradiction.
  - pose proof (current_cells f m Hm Hy c0 w0 tr (b, i) s T k (Ck tr (trail_walk f m Hy c0 w0 tr (b, i) s T))) as E.
    pose proof Rk as [K [l R]]. unfold exec. rewrite K, R, E, Nat.leb_refl. eexists. split; [reflexivity|].
    unfold alike. cbn [cells marks world]. auto.
Qed.

Lemma ops_same : forall b bl, nth_error f b = Some bl -> forall l i tr s s', i <= length (ops bl) ->
  skipn i (ops bl) = l -> trail f m c0 w0 tr (b, i) s -> alike s s' ->
  match exec_ops m l s with
  | Next t => (exists t', exec_ops m (retain dead b i (map (rename_op sub) l)) s' = Next t' /\ alike t t') /\
              (exists tr', trail f m c0 w0 tr' (b, length (ops bl)) t)
  | Fail _ => False
  | End Unnested => True
  | End r => exec_ops m (retain dead b i (map (rename_op sub) l)) s' = End r
  end.
Proof.
  intros b bl H. induction l as [|o l IH]; intros i tr s s' Li Sk T Al.
  - cbn [exec_ops map retain]. split; [exists s'; auto|].
    rewrite <- (skipn_nil_length (ops bl) i Li Sk). exists tr. exact T.
  - destruct (skipn_cons (ops bl) i o l Sk) as [N Sk'].
    assert (Li' : S i <= length (ops bl)) by (apply nth_error_Some; congruence).
    cbn [exec_ops map]. rewrite retain_cons. destruct (mem_site (b, i) dead) eqn:M.
    + destruct (gone_same tr b bl i o s s' H N T Al M) as (t & X & Al'). rewrite X.
      exact (IH (S i) _ t s' Li' Sk' (trail_op f m c0 w0 tr b i bl o s t T H N X) Al').
    + pose proof (kept_same tr b bl i o s s' H N T Al M) as Q. cbn [exec_ops].
      destruct (exec m o s) as [t|t|r] eqn:X; cbn [same_effect] in Q.
      * destruct Q as (t' & -> & Al').
        exact (IH (S i) _ t t' Li' Sk' (trail_op f m c0 w0 tr b i bl o s t T H N X) Al').
      * destruct Q as (t' & -> & _). reflexivity.
      * destruct r; try exact Logic.I; rewrite Q; reflexivity.
Qed.

Lemma run_same : forall n b tr s s', trail f m c0 w0 tr (b, 0) s -> alike s s' ->
  run m f n b s <> Unnested -> run m (rewrite_from sub dead 0 f) n b s' = run m f n b s.
Proof.
  induction n as [|n IH]; intros b tr s s' T Al U.
  - destruct Al as (A & B & _). cbn [run]. rewrite A, B. reflexivity.
  - cbn [run] in U |- *. rewrite rewrite_nth. destruct (nth_error f b) as [bl|] eqn:H; [|reflexivity].
    cbn [ops tail]. rewrite (rename_tail b bl H). change (0 + b) with b.
    pose proof (ops_same b bl H (ops bl) 0 tr s s' (Nat.le_0_l _) eq_refl T Al) as Q.
    destruct (exec_ops m (ops bl) s) as [t|t|r]; [|destruct Q|].
    + destruct Q as [(t' & -> & Al') [tr' T']]. pose proof Al' as (A & B & C).
      destruct (tail bl) as [x|c x y|o x y| | | |v x] eqn:Tl.
      * apply (IH x tr' t t'); [|exact Al'|exact U].
        apply (trail_goto f m c0 w0 tr' b bl x t T' H). left. exact Tl.
      * rewrite B. destruct (truth m c (world t)) as [v|]; [|reflexivity].
        apply (IH _ tr' t t'); [|exact Al'|exact U].
        apply (trail_goto f m c0 w0 tr' b bl _ t T' H). right. destruct v; [exists c, y|exists c, x]; auto.
      * destruct (invoked_fallible f V b bl o x y H Tl) as [K1 K2].
        pose proof (perform_same o t t' K1 K2 Al') as Q.
        destruct (exec m o t) as [u|u|r] eqn:X; cbn [same_effect] in Q.
        { destruct Q as (u' & -> & Au). refine (IH x _ u u' _ Au U).
          apply (trail_invoke f m c0 w0 tr' b bl o x y x t u T' H Tl). left. auto. }
        { destruct Q as (u' & -> & Au). refine (IH y _ u u' _ Au U).
          apply (trail_invoke f m c0 w0 tr' b bl o x y y t u T' H Tl). right. auto. }
        { destruct r; try (rewrite Q; reflexivity). congruence. }
      * rewrite A, B. reflexivity.
      * rewrite A, B. reflexivity.
      * rewrite A, B. reflexivity.
      * rewrite A, B. pose proof (trail_yield f m c0 w0 tr' b bl v x t T' H Tl) as Ty.
        destruct (resume m v (cells t) (world t)) as [c w]. cbn [fst snd] in Ty.
        refine (IH x tr' _ _ Ty _ U). split; [reflexivity|]. split; [reflexivity|exact C].
    + destruct r; try (rewrite Q; reflexivity). congruence.
Qed.
End Behaviour.
End Sim.
