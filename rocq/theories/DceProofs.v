(** Use counts, the worklist, and the tables of candidates. *)
From Coq Require Import List Bool Arith Lia Permutation.
From Verif Require Import DceModel DceSpec DceSim.
Import ListNotations.

(** ** Lists *)

Lemma nodup_app {A} (l m : list A) : NoDup (l ++ m) <-> NoDup l /\ NoDup m /\ forall x, In x l -> ~ In x m.
Proof.
  induction l as [|a l IH]; cbn.
  - split; [intros N; split; [constructor|split; [exact N|intros x []]]|intros [_ [N _]]; exact N].
  - split.
    + intros N. inversion N as [|? ? N1 N2]; subst. apply IH in N2. destruct N2 as [A1 [A2 A3]].
      split; [constructor; [intros I; apply N1; apply in_app_iff; auto|exact A1]|]. split; [exact A2|].
      intros x [<-|I] J; [apply N1; apply in_app_iff; auto|exact (A3 x I J)].
    + intros [N1 [N2 N3]]. inversion N1 as [|? ? B1 B2]; subst. constructor.
      * intros I. apply in_app_iff in I. destruct I as [I|I]; [auto|exact (N3 a (or_introl eq_refl) I)].
      * apply IH. split; [exact B2|]. split; [exact N2|]. intros x I. apply N3. now right.
Qed.
Lemma mem_in r l : mem r l = true <-> In r l.
Proof.
  unfold mem. rewrite existsb_exists. split.
  - intros [x [I E]]. apply Nat.eqb_eq in E. now subst.
  - intros I. exists r. split; [exact I|apply Nat.eqb_refl].
Qed.
Lemma site_eqb_eq a b : site_eqb a b = true <-> a = b.
Proof.
  destruct a as [a1 a2], b as [b1 b2]. unfold site_eqb. cbn. rewrite andb_true_iff, !Nat.eqb_eq. split.
  - intros [-> ->]. reflexivity.
  - intros E. injection E as -> ->. auto.
Qed.
Lemma mem_site_in s l : mem_site s l = true <-> In s l.
Proof.
  unfold mem_site. rewrite existsb_exists. split.
  - intros [x [I E]]. apply site_eqb_eq in E. now subst.
  - intros I. exists s. split; [exact I|now apply site_eqb_eq].
Qed.
Lemma mem_site_out s l : mem_site s l = false <-> ~ In s l.
Proof. rewrite <- mem_site_in. destruct (mem_site s l); split; congruence. Qed.

(** ** Sites *)

Lemma block_sites_nodup b l : forall i, NoDup (map fst (block_sites b i l)).
Proof.
  induction l as [|o l IH]; intros i; cbn; constructor; auto.
  intros I. apply in_map_iff in I. destruct I as [[s op] [E I]]. apply block_sites_out in I. destruct I as [j [-> _]].
  cbn in E. injection E as E. lia.
Qed.
Lemma sites_from_nodup f : forall b, NoDup (map fst (sites_from b f)).
Proof.
  induction f as [|x f IH]; intros b; cbn; [constructor|]. rewrite map_app. apply nodup_app. split; [apply block_sites_nodup|].
  split; [apply IH|]. intros s I J. apply in_map_iff in I, J. destruct I as [[s1 o1] [E1 I]], J as [[s2 o2] [E2 J]].
  apply block_sites_out in I. apply sites_from_out in J. destruct I as [j [-> _]], J as [k [i [bl [-> _]]]].
  cbn in *. subst s. injection E2 as E2. lia.
Qed.
Lemma site_one f s op op' : In (s, op) (sites f) -> In (s, op') (sites f) -> op = op'.
Proof.
  intros A B. pose proof (sites_from_nodup f 0) as N. unfold sites in *. revert A B N.
  generalize (sites_from 0 f) as l. induction l as [|[t o] l IH]; intros A B N; [destruct A|].
  cbn in N. inversion N as [|? ? N1 N2]; subst.
  destruct A as [A|A], B as [B|B]; auto.
  - congruence.
  - injection A as -> ->. exfalso. apply N1. apply in_map_iff. exists (s, op'). auto.
  - injection B as -> ->. exfalso. apply N1. apply in_map_iff. exists (s, op). auto.
Qed.

Definition res (op : operation) : list reg := match result op with Some r => [r] | None => [] end.
Lemma block_sites_res b l : forall i, flat_map (fun x : site * operation => res (snd x)) (block_sites b i l) = flat_map res l.
Proof. induction l as [|o l IH]; intros i; cbn; [reflexivity|now rewrite IH]. Qed.
Lemma sites_results f : NoDup (results f) -> NoDup (flat_map (fun x : site * operation => res (snd x)) (sites f)).
Proof.
  unfold sites. intros N. assert (G : forall b, NoDup (flat_map (fun x : site * operation => res (snd x)) (sites_from b f)) /\
    forall r, In r (flat_map (fun x : site * operation => res (snd x)) (sites_from b f)) -> In r (results f)); [|apply G].
  induction f as [|x f IH]; intros b; [split; [constructor|intros r []]|].
  unfold results in N. cbn in N. unfold block_operations at 1 in N. rewrite flat_map_app, <- app_assoc in N.
  change (fun op => match result op with Some r => [r] | None => [] end) with res in N.
  apply nodup_app in N. destruct N as [N1 [N2 N3]]. apply nodup_app in N2. destruct N2 as [_ [N2 _]].
  destruct (IH N2 (S b)) as [I1 I2]. cbn. rewrite flat_map_app, block_sites_res. split.
  - apply nodup_app. split; [exact N1|]. split; [exact I1|]. intros r A B. apply (N3 r A). apply in_app_iff. right. now apply I2.
  - intros r A. unfold results. cbn. unfold block_operations at 1. rewrite flat_map_app.
    change (fun op => match result op with Some r => [r] | None => [] end) with res.
    apply in_app_iff in A. destruct A as [A|A]; apply in_app_iff; [left; apply in_app_iff; auto|right; now apply I2].
Qed.
Lemma result_one f s op s' op' r : NoDup (results f) -> In (s, op) (sites f) -> In (s', op') (sites f) ->
  result op = Some r -> result op' = Some r -> (s, op) = (s', op').
Proof.
  intros N A B C D. apply (nodup_flat_map (fun x : site * operation => res (snd x)) (sites f) r (sites_results f N)); auto;
    unfold res; cbn; [rewrite C|rewrite D]; now left.
Qed.

(** ** Counting *)

Lemma occ_app r l m : occurrences r (l ++ m) = occurrences r l + occurrences r m.
Proof. unfold occurrences. now rewrite filter_app, app_length. Qed.
Lemma occ_in r l : In (Reg r) l <-> 0 < occurrences r l.
Proof.
  unfold occurrences. split.
  - intros I. destruct (filter (is_reg r) l) eqn:F; [|cbn; lia]. exfalso.
    assert (J : In (Reg r) (filter (is_reg r) l)) by (apply filter_In; split; [exact I|apply Nat.eqb_refl]).
    rewrite F in J. destruct J.
  - intros L. destruct (filter (is_reg r) l) as [|x q] eqn:F; [cbn in L; lia|].
    assert (J : In x (filter (is_reg r) l)) by (rewrite F; now left). apply filter_In in J. destruct J as [J1 J2].
    destruct x as [y| |]; try discriminate J2. apply Nat.eqb_eq in J2. now subst.
Qed.

Arguments occurrences : simpl never.
Definition kept_operands (R : list site) (l : list (site * operation)) : list operand :=
  flat_map (fun x => if mem_site (fst x) R then [] else operands (snd x)) l.
Definition rem (R : list site) (f : func) : list operand :=
  kept_operands R (sites f) ++ flat_map (fun bl => term_operands (term bl)) f.

Lemma retain_ops_operands R b l : forall i, flat_map operands (retain_ops R b i l) = kept_operands R (block_sites b i l).
Proof.
  induction l as [|o l IH]; intros i; cbn; [reflexivity|]. destruct (mem_site (b, i) R); cbn; now rewrite IH.
Qed.
Lemma count_retain R f r : count_uses (retain R f) r = occurrences r (rem R f).
Proof.
  unfold count_uses, rem, sites, retain. rewrite occ_app.
  assert (G : forall b, occurrences r (all_operands (retain_from R b f)) =
    occurrences r (kept_operands R (sites_from b f)) + occurrences r (flat_map (fun bl => term_operands (term bl)) f)).
  { induction f as [|x f IH]; intros b; [reflexivity|]. cbn. unfold kept_operands in *. rewrite flat_map_app, !occ_app.
    rewrite retain_ops_operands. unfold all_operands in IH. rewrite IH. unfold kept_operands. lia. }
  apply G.
Qed.
Lemma retain_nil f : retain [] f = f.
Proof.
  unfold retain. assert (O : forall b l i, retain_ops [] b i l = l).
  { intros b l. induction l as [|o l IH]; intros i; cbn; [reflexivity|now rewrite IH]. }
  generalize 0. induction f as [|[l t] f IH]; intros b; cbn; [reflexivity|]. now rewrite O, IH.
Qed.
Lemma count_rem f r : count_uses f r = occurrences r (rem [] f).
Proof. rewrite <- (count_retain [] f r). now rewrite retain_nil. Qed.

Lemma kept_step R t o l : kept_operands R ((t, o) :: l) = (if mem_site t R then [] else operands o) ++ kept_operands R l.
Proof. reflexivity. Qed.
Lemma mem_site_cons t s R : mem_site t (s :: R) = site_eqb t s || mem_site t R.
Proof. reflexivity. Qed.
Lemma kept_operands_cons R s op l : NoDup (map fst l) -> In (s, op) l -> mem_site s R = false -> forall r,
  occurrences r (kept_operands (s :: R) l) + occurrences r (operands op) = occurrences r (kept_operands R l).
Proof.
  intros N I MS r. induction l as [|[t o] l IH]; [destruct I|]. cbn in N. inversion N as [|? ? N1 N2]; subst.
  rewrite !kept_step, !occ_app, mem_site_cons. destruct I as [I|I].
  - injection I as -> ->. assert (E : site_eqb s s = true) by now apply site_eqb_eq. rewrite E, MS.
    assert (SAME : kept_operands (s :: R) l = kept_operands R l).
    { clear - N1. induction l as [|[t o] l IH]; [reflexivity|]. rewrite !kept_step, mem_site_cons.
      assert (Q : site_eqb t s = false).
      { destruct (site_eqb t s) eqn:Q; auto. apply site_eqb_eq in Q. subst. exfalso. apply N1. now left. }
      rewrite Q, IH; auto. intros X. apply N1. now right. }
    rewrite SAME. cbn [orb]. change (occurrences r []) with 0. lia.
  - assert (Q : site_eqb t s = false).
    { destruct (site_eqb t s) eqn:Q; auto. apply site_eqb_eq in Q. subst. exfalso. apply N1. apply in_map_iff. exists (s, op). auto. }
    specialize (IH N2 I). rewrite Q. cbn [orb]. lia.
Qed.
Lemma rem_cons R s op f : In (s, op) (sites f) -> mem_site s R = false -> forall r,
  occurrences r (rem (s :: R) f) + occurrences r (operands op) = occurrences r (rem R f).
Proof.
  intros I MS r. unfold rem. rewrite !occ_app.
  pose proof (kept_operands_cons R s op (sites f) (sites_from_nodup f 0) I MS r). lia.
Qed.
Lemma rem_use R s op f r : In (s, op) (sites f) -> mem_site s R = false -> In (Reg r) (operands op) -> 0 < occurrences r (rem R f).
Proof. intros A B C. pose proof (rem_cons R s op f A B r). apply occ_in in C. lia. Qed.
Lemma rem_term R bl f r : In bl f -> In (Reg r) (term_operands (term bl)) -> 0 < occurrences r (rem R f).
Proof.
  intros A B. apply occ_in. unfold rem. apply in_app_iff. right. apply in_flat_map. eauto.
Qed.

(** ** The worklist *)

Lemma retire_spec cands d l : forall uses pending uses' pending', retire cands d l uses pending = (uses', pending') ->
  (forall x, uses' x = uses x - occurrences x l) /\
  exists pushed, pending' = pushed ++ pending /\ length pushed <= length l /\
    (forall x, In x pushed -> candidate_of x cands <> None /\ uses' x <= d) /\
    (forall x, candidate_of x cands <> None -> uses' x = d -> 0 < occurrences x l -> occurrences x l <= uses x -> In x pushed).
Proof.
  induction l as [|o l IH]; intros uses pending uses' pending' E.
  - cbn in E. injection E as <- <-. split; [intros x; change (occurrences x []) with 0; lia|].
    exists []. split; [reflexivity|]. split; [cbn; lia|]. split; [intros x []|]. intros x _ _ L. change (occurrences x []) with 0 in L. lia.
  - destruct o as [r|n|n]; cbn [retire] in E.
    + set (p := if down uses r r =? d then _ else pending) in E.
      destruct (IH _ _ _ _ E) as [A [q [-> [B [C D]]]]].
      assert (U : forall x, uses' x = uses x - occurrences x (Reg r :: l)).
      { intros x. rewrite A. unfold down, occurrences. cbn. rewrite Nat.eqb_sym. destruct (r =? x); cbn; lia. }
      assert (P : exists z, p = z ++ pending /\ length z <= 1 /\
        (forall x, In x z -> x = r /\ candidate_of x cands <> None /\ down uses r r = d) /\
        (candidate_of r cands <> None -> down uses r r = d -> In r z)).
      { unfold p. destruct (down uses r r =? d) eqn:Q.
        - apply Nat.eqb_eq in Q. destruct (candidate_of r cands) as [w|] eqn:W.
          + exists [r]. cbn. split; [reflexivity|]. split; [lia|]. split; [|auto]. intros x [<-|[]]. repeat split; congruence.
          + exists []. cbn. split; [reflexivity|]. split; [lia|]. split; [intros x []|congruence].
        - apply Nat.eqb_neq in Q. exists []. cbn. split; [reflexivity|]. split; [lia|]. split; [intros x []|congruence]. }
      destruct P as [z [-> [Z1 [Z2 Z3]]]]. split; [exact U|]. exists (q ++ z). rewrite app_assoc, app_length. split; [reflexivity|].
      split; [cbn; lia|]. split.
      * intros x I. apply in_app_iff in I. destruct I as [I|I]; [auto|]. destruct (Z2 x I) as [-> [K1 K2]]. split; [exact K1|].
        rewrite A, K2. lia.
      * intros x K1 K2 K3 K4. apply in_app_iff. destruct (Nat.eq_dec r x) as [->|N].
        -- assert (OC : occurrences x (Reg x :: l) = S (occurrences x l)).
           { unfold occurrences. cbn. now rewrite Nat.eqb_refl. }
           assert (DN : down uses x x = uses x - 1) by (unfold down; now rewrite Nat.eqb_refl).
           destruct (occurrences x l) eqn:OL.
           ++ right. apply Z3; auto. rewrite A in K2. rewrite OL in K2. lia.
           ++ left. apply D; auto; rewrite ?OL; lia.
        -- assert (OC : occurrences x (Reg r :: l) = occurrences x l).
           { unfold occurrences. cbn. apply Nat.eqb_neq in N. now rewrite N. }
           assert (DN : down uses r x = uses x) by (unfold down; rewrite Nat.eqb_sym; apply Nat.eqb_neq in N; now rewrite N).
           left. apply D; auto; rewrite ?DN; lia.
    + destruct (IH _ _ _ _ E) as [A [q [-> [B [C D]]]]]. split; [exact A|]. exists q. cbn. repeat split; auto; try (apply C; auto); lia.
    + destruct (IH _ _ _ _ E) as [A [q [-> [B [C D]]]]]. split; [exact A|]. exists q. cbn. repeat split; auto; try (apply C; auto); lia.
Qed.

Lemma candidate_in r cands x : candidate_of r cands = Some x -> In (r, x) cands.
Proof.
  induction cands as [|[y c] l IH]; cbn; [discriminate|]. destruct (y =? r) eqn:Q.
  - intros E. injection E as <-. apply Nat.eqb_eq in Q. subst. now left.
  - intros E. right. auto.
Qed.
Lemma candidate_key r cands : In r (map fst cands) -> candidate_of r cands <> None.
Proof.
  induction cands as [|[y c] l IH]; cbn; [intros []|]. destruct (y =? r) eqn:Q; [discriminate|].
  intros [->|I]; [rewrite Nat.eqb_refl in Q; discriminate|auto].
Qed.

Section Work.
Variables (f : func) (cands : list candidate) (d : nat) (R0 : list site).
Hypothesis CK : NoDup (map fst cands).
Hypothesis CS : forall r s op, In (r, (s, op)) cands -> In (s, op) (sites f) /\ ~ In s R0.
Hypothesis CI : forall r r' s op op', In (r, (s, op)) cands -> In (r', (s, op')) cands -> r = r'.
Hypothesis CD : d = 0 \/ (d = 1 /\ forall r s op, In (r, (s, op)) cands -> In (Reg r) (operands op)).

Record inv (pending : list reg) (uses : reg -> nat) (done : list reg) (removed : list site) : Prop := {
  i_uses : forall x, uses x = occurrences x (rem (removed ++ R0) f);
  i_pending : forall x, In x pending -> candidate_of x cands <> None /\ (In x done \/ uses x = d);
  i_done : forall r, In r done -> uses r = 0 /\ exists s op, In (r, (s, op)) cands /\ In s removed;
  i_removed : forall s, In s removed -> exists r op, In r done /\ In (r, (s, op)) cands;
  i_all : forall r, In r (map fst cands) -> uses r = d -> In r pending \/ In r done }.

Fixpoint left (done : list reg) (l : list candidate) : nat :=
  match l with
  | [] => 0
  | (r, (_, op)) :: rest => (if mem r done then 0 else length (operands op)) + left done rest
  end.
Lemma left_step done r s op l : left done ((r, (s, op)) :: l) = (if mem r done then 0 else length (operands op)) + left done l.
Proof. reflexivity. Qed.
Lemma mem_cons x r l : mem x (r :: l) = (x =? r) || mem x l.
Proof. reflexivity. Qed.
Lemma left_cons done l : forall r s op, NoDup (map fst l) -> In (r, (s, op)) l -> ~ In r done ->
  left (r :: done) l + length (operands op) = left done l.
Proof.
  induction l as [|[y [t o]] l IH]; intros r s op N I ND; [destruct I|]. cbn in N. inversion N as [|? ? N1 N2]; subst.
  rewrite !left_step, mem_cons. destruct I as [I|I].
  - injection I as -> -> ->. rewrite Nat.eqb_refl.
    assert (MR : mem r done = false) by (destruct (mem r done) eqn:Q; auto; apply mem_in in Q; contradiction). rewrite MR.
    assert (SAME : left (r :: done) l = left done l).
    { clear - N1. induction l as [|[y [t o]] l IH]; [reflexivity|]. rewrite !left_step, mem_cons.
      assert (Q : (y =? r) = false) by (apply Nat.eqb_neq; intros ->; apply N1; now left). rewrite Q, IH; auto.
      intros X. apply N1. now right. }
    cbn [orb]. lia.
  - assert (Q : (y =? r) = false) by (apply Nat.eqb_neq; intros ->; apply N1; apply in_map_iff; exists (r, (s, op)); auto).
    rewrite Q. cbn [orb]. specialize (IH r s op N2 I ND). lia.
Qed.

Lemma in_done_dec (x : reg) l : In x l \/ ~ In x l.
Proof. destruct (in_dec Nat.eq_dec x l); auto. Qed.

Lemma step_inv r pending uses done removed s op uses' pending' :
  inv (r :: pending) uses done removed -> ~ In r done -> uses r = d -> In (r, (s, op)) cands ->
  retire cands d (operands op) uses pending = (uses', pending') ->
  inv pending' uses' (r :: done) (s :: removed).
Proof.
  intros IV ND UR IC RT. destruct IV as [I1 I2 I3 I4 I5]. destruct (CS _ _ _ IC) as [SI SR].
  destruct (retire_spec _ _ _ _ _ _ _ RT) as [U [q [-> [_ [Q1 Q2]]]]].
  assert (NR : ~ In s removed).
  { intros S1. destruct (I4 s S1) as [r2 [o2 [D2 C2]]]. assert (r2 = r) by (eapply CI; eauto). congruence. }
  assert (MS : mem_site s (removed ++ R0) = false) by (apply mem_site_out; rewrite in_app_iff; tauto).
  assert (U1 : forall x, uses' x = occurrences x (rem ((s :: removed) ++ R0) f)).
  { intros x. pose proof (rem_cons _ _ _ f SI MS x) as RC. rewrite U, I1. cbn [app]. lia. }
  assert (LOW : forall x, uses' x <= uses x) by (intros x; rewrite U; lia).
  (* an open candidate is still used by its own operation when [d] is 1 *)
  assert (OPEN : forall x, x <> r -> ~ In x done -> candidate_of x cands <> None -> uses' x <= d -> uses' x = d).
  { intros x NX ND' K L. destruct CD as [D0|[D1 CD']]; [lia|]. destruct (candidate_of x cands) as [[s2 o2]|] eqn:Q; [|congruence].
    apply candidate_in in Q. destruct (CS _ _ _ Q) as [S2 S3].
    assert (0 < uses' x); [|lia]. rewrite U1. apply (rem_use _ s2 o2); auto; [|eapply CD'; eauto].
    apply mem_site_out. rewrite in_app_iff. intros [[E|E]|E]; [subst s2| |contradiction].
    - apply NX. eapply CI; eauto.
    - destruct (I4 _ E) as [r3 [o3 [D3 C3]]]. assert (r3 = x) by (eapply CI; eauto). congruence. }
  constructor.
  - exact U1.
  - intros x I. apply in_app_iff in I.
    assert (K : candidate_of x cands <> None /\ (In x done \/ x = r \/ uses' x <= d)).
    { destruct I as [I|I]; [destruct (Q1 x I); auto|]. destruct (I2 x (or_intror I)) as [K1 [K2|K2]]; [auto|].
      split; [exact K1|]. right. right. rewrite <- K2. apply LOW. }
    destruct K as [K1 K2]. split; [exact K1|]. destruct (Nat.eq_dec x r) as [->|NX]; [left; now left|].
    destruct (in_done_dec x done) as [DX|DX]; [left; now right|].
    destruct K2 as [K2|[K2|K2]]; [contradiction|congruence|]. right. now apply OPEN.
  - intros x [<-|I].
    + split; [|exists s, op; split; [exact IC|now left]].
      destruct CD as [D0|[D1 CD']]; [specialize (LOW r); lia|]. specialize (CD' _ _ _ IC). apply occ_in in CD'. rewrite U. lia.
    + destruct (I3 x I) as [Z [s2 [o2 [A B]]]]. split; [specialize (LOW x); lia|]. exists s2, o2. split; [exact A|now right].
  - intros t [<-|I]; [exists r, op; split; [now left|exact IC]|]. destruct (I4 t I) as [r2 [o2 [A B]]]. exists r2, o2. split; [now right|exact B].
  - intros x K UX. destruct (Nat.eq_dec (occurrences x (operands op)) 0) as [Z|Z].
    + assert (UX' : uses x = d) by (rewrite <- UX, U; lia). destruct (I5 x K UX') as [[<-|I]|I].
      * right. now left.
      * left. apply in_app_iff. now right.
      * right. now right.
    + left. apply in_app_iff. left. apply Q2; auto; [now apply candidate_key|lia|].
      rewrite I1. pose proof (rem_cons _ _ _ f SI MS x) as RC. lia.
Qed.

Lemma work_spec fuel : forall pending uses done removed, inv pending uses done removed ->
  length pending + left done cands <= fuel ->
  exists removed' done' uses', work fuel cands d pending uses done removed = Some removed' /\ inv [] uses' done' removed'.
Proof.
  induction fuel as [|fuel IH]; intros pending uses done removed IV F.
  - destruct pending; [|cbn in F; lia]. cbn. eauto.
  - destruct pending as [|r pending]; [cbn; eauto|]. cbn [work].
    assert (IT : inv pending uses done removed \/ ~ In r done).
    { destruct (in_done_dec r done) as [D|D]; [left|now right]. destruct IV as [I1 I2 I3 I4 I5]. constructor; auto.
      - intros x I. apply I2. now right.
      - intros x K U. destruct (I5 x K U) as [[<-|I]|I]; auto. }
    destruct (mem r done) eqn:MD.
    + apply mem_in in MD. destruct IT as [IT|]; [|contradiction]. apply IH; [exact IT|cbn in F; lia].
    + assert (ND : ~ In r done) by (intros D; apply mem_in in D; congruence).
      destruct (i_pending _ _ _ _ IV r (or_introl eq_refl)) as [K [|UR]]; [contradiction|].
      rewrite UR, Nat.eqb_refl. destruct (candidate_of r cands) as [[s op]|] eqn:Q; [|congruence].
      apply candidate_in in Q. destruct (retire cands d (operands op) uses pending) as [uses' pending'] eqn:RT.
      apply IH; [eapply step_inv; eauto|]. destruct (retire_spec _ _ _ _ _ _ _ RT) as [_ [q [-> [LQ _]]]].
      pose proof (left_cons done cands r s op CK Q ND). rewrite app_length. cbn in F. lia.
Qed.

Lemma left_nil l : left [] l = fold_right (fun c n => length (operands (snd (snd c))) + n) 0 l.
Proof. induction l as [|[r [s op]] l IH]; cbn; [reflexivity|now rewrite IH]. Qed.

Lemma filter_le {A} (p : A -> bool) l : length (filter p l) <= length l.
Proof. induction l as [|a l IH]; cbn; [lia|]. destruct (p a); cbn; lia. Qed.

Lemma work_from shuffle uses : (forall l, Permutation (shuffle l) l) -> (forall x, uses x = occurrences x (rem R0 f)) ->
  exists removed done uses', work (enough cands) cands d (filter (fun r => uses r =? d) (shuffle (map fst cands))) uses [] [] = Some removed /\
    inv [] uses' done removed.
Proof.
  intros SH U. apply work_spec.
  - constructor.
    + exact U.
    + intros x I. apply filter_In in I. destruct I as [I E]. apply Nat.eqb_eq in E. split; [|auto].
      apply candidate_key. eapply Permutation_in; [apply SH|exact I].
    + intros r [].
    + intros s [].
    + intros r K E. left. apply filter_In. split; [|now apply Nat.eqb_eq].
      eapply Permutation_in; [apply Permutation_sym; apply SH|exact K].
  - rewrite left_nil. unfold enough. pose proof (filter_le (fun r => uses r =? d) (shuffle (map fst cands))) as L.
    rewrite (Permutation_length (SH (map fst cands))), map_length in L.
    apply Nat.add_le_mono; [exact L|apply le_n].
Qed.
End Work.

(** ** Tables of candidates *)

Definition gather (key : operation -> option reg) (l : list (site * operation)) (t : list candidate) : list candidate :=
  fold_left (fun l x => match key (snd x) with Some r => insert r x l | None => l end) l t.

Lemma insert_in r x t y : In y (insert r x t) -> y = (r, x) \/ (In y t /\ fst y <> r).
Proof.
  unfold insert. intros [<-|I]; [auto|]. apply filter_In in I. destruct I as [I N]. right. split; [exact I|].
  apply negb_true_iff in N. now apply Nat.eqb_neq in N.
Qed.
Lemma insert_keys r x t k : In k (map fst (insert r x t)) <-> k = r \/ In k (map fst t).
Proof.
  unfold insert. cbn. split.
  - intros [<-|I]; [auto|]. apply in_map_iff in I. destruct I as [y [<- I]]. apply filter_In in I. right. apply in_map. apply I.
  - intros [->|I]; [auto|]. destruct (Nat.eq_dec k r) as [->|N]; [auto|]. right. apply in_map_iff in I. destruct I as [y [<- I]].
    apply in_map. apply filter_In. split; [exact I|]. apply negb_true_iff. now apply Nat.eqb_neq.
Qed.
Lemma insert_nodup r x t : NoDup (map fst t) -> NoDup (map fst (insert r x t)).
Proof.
  intros N. unfold insert. cbn. constructor.
  - intros I. apply in_map_iff in I. destruct I as [y [E I]]. apply filter_In in I. destruct I as [_ I].
    apply negb_true_iff in I. apply Nat.eqb_neq in I. contradiction.
  - induction t as [|y t IH]; cbn in *; [constructor|]. inversion N as [|? ? N1 N2]; subst.
    match goal with |- context [if ?c then _ else _] => destruct c end; cbn; auto. constructor; auto. intros I. apply N1. apply in_map_iff in I. destruct I as [z [E I]].
    apply filter_In in I. rewrite <- E. apply in_map. apply I.
Qed.
Lemma gather_spec key l : forall t, NoDup (map fst t) ->
  NoDup (map fst (gather key l t)) /\
  (forall r x, In (r, x) (gather key l t) -> In (r, x) t \/ (In x l /\ key (snd x) = Some r)) /\
  (forall r, In r (map fst t) -> In r (map fst (gather key l t))) /\
  (forall x r, In x l -> key (snd x) = Some r -> In r (map fst (gather key l t))).
Proof.
  induction l as [|x l IH]; intros t N.
  - cbn. repeat split; auto. intros x r [].
  - unfold gather. cbn [fold_left]. fold (gather key l (match key (snd x) with Some r => insert r x t | None => t end)).
    destruct (IH (match key (snd x) with Some r => insert r x t | None => t end)) as [A [B [C D]]].
    { destruct (key (snd x)); [now apply insert_nodup|exact N]. }
    split; [exact A|]. split; [|split].
    + intros r y I. destruct (B r y I) as [J|[J K]]; [|right; split; [now right|exact K]].
      destruct (key (snd x)) as [k|] eqn:KX; [|auto]. apply insert_in in J. destruct J as [J|[J _]]; [|auto].
      injection J as -> ->. right. split; [now left|exact KX].
    + intros r I. apply C. destruct (key (snd x)); [|exact I]. apply insert_keys. auto.
    + intros y r [->|I] K; [|eapply D; eauto]. apply C. rewrite K. apply insert_keys. auto.
Qed.
Lemma gather_ext key g l : forall t,
  (forall t x, g t x = match key (snd x) with Some r => insert r x t | None => t end) ->
  fold_left g l t = gather key l t.
Proof.
  induction l as [|x l IH]; intros t E; [reflexivity|]. unfold gather. cbn [fold_left]. rewrite E. now apply IH.
Qed.
