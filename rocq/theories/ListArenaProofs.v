From Coq Require Import NArith List Bool Arith Lia.
From Verif Require Import ListUtil ListArenaModel ListArenaSpec.
Import ListNotations.

Lemma NoDup_app_iff : forall A (l1 l2 : list A),
  NoDup (l1 ++ l2) <-> NoDup l1 /\ NoDup l2 /\ (forall x, In x l1 -> ~ In x l2).
Proof.
  induction l1; simpl; intros l2.
  - split; [intros; repeat split; auto; constructor|tauto].
  - split.
    + intros H. inversion H; subst. apply IHl1 in H3 as (N1 & N2 & N3). rewrite in_app_iff in H2. repeat split; auto.
      * constructor; auto.
      * intros x [<-|Hx]; auto.
    + intros (N1 & N2 & N3). inversion N1; subst. constructor.
      * rewrite in_app_iff. intros [|]; auto. eapply N3; eauto.
      * apply IHl1. repeat split; auto.
Qed.

Section Proofs.
Context {T : Type}.
Notation bucket := (bucket T).
Notation llist := (llist T).

Definition hd_or (s : list (nat * T)) (n : option nat) := match s with [] => n | (a, _) :: _ => Some a end.
Fixpoint last_or (s : list (nat * T)) (p : option nat) := match s with [] => p | (a, _) :: t => last_or t (Some a) end.

Fixpoint seg (p : option nat) (s : list (nat * T)) (n : option nat) (sto : list bucket) : Prop :=
  match s with
  | [] => True
  | (a, x) :: t => nth_error sto a = Some (mk_bucket p (hd_or t n) (Some x)) /\ seg (Some a) t n sto
  end.

Fixpoint chain (f : option nat) (fl : list nat) (sto : list bucket) : Prop :=
  match fl with
  | [] => f = None
  | a :: t => f = Some a /\ exists b, nth_error sto a = Some b /\ b_element b = None /\ chain (b_next b) t sto
  end.

Lemma hd_or_app : forall s1 s2 n, hd_or (s1 ++ s2) n = hd_or s1 (hd_or s2 n).
Proof. destruct s1 as [|[]]; reflexivity. Qed.

Lemma last_or_app : forall s1 s2 p, last_or (s1 ++ s2) p = last_or s2 (last_or s1 p).
Proof. induction s1 as [|[]]; simpl; auto. Qed.

Lemma seg_app : forall s1 s2 p n sto,
  seg p (s1 ++ s2) n sto <-> seg p s1 (hd_or s2 n) sto /\ seg (last_or s1 p) s2 n sto.
Proof.
  induction s1 as [|[a x] s1]; simpl; intros; [tauto|]. rewrite hd_or_app, IHs1. tauto.
Qed.

Lemma seg_frame : forall s p n sto sto', (forall a, In a (map fst s) -> nth_error sto' a = nth_error sto a) ->
  seg p s n sto -> seg p s n sto'.
Proof.
  induction s as [|[a x] s]; simpl; intros p n sto sto' F H; auto. destruct H. split.
  - rewrite F; auto.
  - eapply IHs; eauto.
Qed.

Lemma chain_frame : forall fl f sto sto', (forall a, In a fl -> nth_error sto' a = nth_error sto a) ->
  chain f fl sto -> chain f fl sto'.
Proof.
  induction fl; simpl; intros f sto sto' F H; auto. destruct H as (-> & b & H1 & H2 & H3).
  split; auto. exists b. rewrite F; auto. repeat split; auto. eapply IHfl; eauto.
Qed.

Definition Inv (l : llist) (s : list (nat * T)) (fl : list nat) : Prop :=
  seg None s None (l_storage l) /\ l_head l = hd_or s None /\ l_tail l = last_or s None /\
  l_size l = length s /\ chain (l_free l) fl (l_storage l) /\
  NoDup (fl ++ map fst s) /\ length (l_storage l) = length fl + length s.

Lemma seg_get : forall s p n sto a x, seg p s n sto -> In (a, x) s ->
  exists b, nth_error sto a = Some b /\ b_element b = Some x.
Proof.
  induction s as [|[a x] s]; simpl; intros p n sto c y H Hin; [tauto|]. destruct H. destruct Hin as [E|Hin].
  - inversion E; subst. eauto.
  - eauto.
Qed.

Lemma chain_get : forall fl f sto a, chain f fl sto -> In a fl -> exists b, nth_error sto a = Some b /\ b_element b = None.
Proof.
  induction fl; simpl; intros f sto c H Hin; [tauto|]. destruct H as (-> & b & H1 & H2 & H3).
  destruct Hin as [<-|Hin]; eauto.
Qed.

(** Every storage index is either free or live. *)
Lemma cover : forall l s fl a, Inv l s fl -> a < length (l_storage l) -> In a fl \/ In a (map fst s).
Proof.
  intros l s fl a (Hs & _ & _ & _ & Hc & Hn & Hl) Ha.
  rewrite <- in_app_iff.
  assert (I : incl (seq 0 (length (l_storage l))) (fl ++ map fst s)).
  { apply NoDup_length_incl; auto.
    - rewrite seq_length, app_length, map_length. lia.
    - intros b Hb. apply in_seq. split; [lia|]. simpl. apply nth_error_Some. apply in_app_iff in Hb as [Hb|Hb].
      + destruct (chain_get _ _ _ _ Hc Hb) as (? & -> & _). discriminate.
      + apply in_map_iff in Hb as ((c & x) & <- & Hb). destruct (seg_get _ _ _ _ _ _ Hs Hb) as (? & E & _). simpl. rewrite E. discriminate. }
  apply I, in_seq. lia.
Qed.

Lemma in_bounds_iff : forall l s fl a, Inv l s fl -> ll_in_bounds l a = true <-> In a (map fst s).
Proof.
  intros l s fl a H. unfold ll_in_bounds. split.
  - intros E. destruct (nth_error (l_storage l) a) as [b|] eqn:Eb; [|discriminate].
    destruct (cover l s fl a H) as [Hf|]; auto.
    + apply nth_error_Some. congruence.
    + destruct H as (_ & _ & _ & _ & Hc & _). destruct (chain_get _ _ _ _ Hc Hf) as (b' & E1 & E2).
      replace b' with b in E2 by congruence. rewrite E2 in E. discriminate.
  - intros Hin. apply in_map_iff in Hin as ((c & x) & <- & Hin). destruct H as (Hs & _).
    destruct (seg_get _ _ _ _ _ _ Hs Hin) as (b & E & E2). simpl. rewrite E, E2. auto.
Qed.

Lemma in_split_fst : forall a (s : list (nat * T)), In a (map fst s) -> exists s1 y s2, s = s1 ++ (a, y) :: s2.
Proof.
  intros a s H. apply in_map_iff in H as ((c & y) & <- & H). apply in_split in H as (s1 & s2 & ->). simpl. eauto.
Qed.

Lemma alloc_ok : forall l s fl p n x, Inv l s fl ->
  (ll_allocate_bucket l p n x = Exhausted /\ full s) \/
  exists l1 a fl', ll_allocate_bucket l p n x = Ok (l1, a) /\
    l_size l1 = l_size l /\ l_head l1 = l_head l /\ l_tail l1 = l_tail l /\
    ~ In a (map fst s) /\ nth_error (l_storage l1) a = Some (mk_bucket p n (Some x)) /\
    (forall b, b <> a -> nth_error (l_storage l1) b = nth_error (l_storage l) b) /\
    chain (l_free l1) fl' (l_storage l1) /\ NoDup (fl' ++ a :: map fst s) /\
    length (l_storage l1) = length fl' + S (length s).
Proof.
  intros l s fl p n x (Hs & Hh & Ht & Hz & Hc & Hn & Hl). unfold ll_allocate_bucket.
  destruct fl as [|a fl]; simpl in Hc.
  - rewrite Hc. unfold address_new. destruct (N.ltb_spec (N.of_nat (length (l_storage l))) address_capacity).
    + right. simpl. eexists _, _, []. split; [reflexivity|]. simpl.
      assert (Hfresh : ~ In (length (l_storage l)) (map fst s)).
      { intros Hin. apply in_map_iff in Hin as ((c & y) & E & Hin). simpl in E. subst c.
        destruct (seg_get _ _ _ _ _ _ Hs Hin) as (b & E & _). 
        assert (length (l_storage l) < length (l_storage l)) by (apply nth_error_Some; congruence). lia. }
      repeat split; auto.
      * rewrite nth_error_app2, Nat.sub_diag by lia. reflexivity.
      * intros b Hb. destruct (Nat.lt_ge_cases b (length (l_storage l))).
        -- apply nth_error_app1; auto.
        -- transitivity (@None bucket); [apply nth_error_None; rewrite app_length; simpl; lia|symmetry; apply nth_error_None; lia].
      * constructor; auto.
      * rewrite app_length. simpl in *. lia.
    + left. split; auto. unfold full, address_capacity in *. simpl in Hl. lia.
  - destruct Hc as (-> & b & Hb & He & Hc). right. unfold at_index. rewrite Hb. simpl.
    eexists _, _, fl. split; [reflexivity|]. simpl.
    assert (Hlt : a < length (l_storage l)) by (apply nth_error_Some; congruence).
    simpl in Hn. inversion Hn; subst. rewrite in_app_iff in H1.
    repeat split; auto.
    + apply nth_error_upd_same; auto.
    + intros. apply nth_error_upd_other; auto.
    + eapply chain_frame; [|apply Hc]. intros c Hcin. apply nth_error_upd_other. intros ->. auto.
    + apply NoDup_app_iff in H2 as (N1 & N2 & N3). apply NoDup_app_iff. split; auto. split; [constructor; auto|].
      intros c Hcin [->|Hin]; [tauto|]. eapply N3; eauto.
    + rewrite upd_length. simpl in Hl. lia.
Qed.

Lemma set_next_ok : forall (sto : list bucket) i b n, nth_error sto i = Some b ->
  set_next sto i n = Ok (upd sto i (mk_bucket (b_previous b) n (b_element b))).
Proof. intros. unfold set_next, at_index. rewrite H. reflexivity. Qed.
Lemma set_previous_ok : forall (sto : list bucket) i b p, nth_error sto i = Some b ->
  set_previous sto i p = Ok (upd sto i (mk_bucket p (b_next b) (b_element b))).
Proof. intros. unfold set_previous, at_index. rewrite H. reflexivity. Qed.

Lemma nu_same : forall (sto : list bucket) i b x, nth_error sto i = Some b -> nth_error (upd sto i x) i = Some x.
Proof. intros. apply nth_error_upd_same. apply nth_error_Some. congruence. Qed.

Lemma snoc_case : forall (s : list (nat * T)), s = [] \/ exists s' p w, s = s' ++ [(p, w)].
Proof. intros s. destruct s as [|e s] using rev_ind; auto. destruct e as [p w]. right. eauto. Qed.

Lemma nodup_parts : forall (fl : list nat) a s1 b (y : T) s2,
  NoDup (fl ++ a :: map fst (s1 ++ (b, y) :: s2)) ->
  a <> b /\ ~ In a fl /\ ~ In a (map fst s1) /\ ~ In a (map fst s2) /\
  ~ In b fl /\ ~ In b (map fst s1) /\ ~ In b (map fst s2) /\
  (forall c, In c (map fst s1) -> ~ In c (map fst s2)) /\
  (forall c, In c fl -> ~ In c (map fst s1)) /\ (forall c, In c fl -> ~ In c (map fst s2)) /\
  NoDup (map fst s1) /\ NoDup (map fst s2) /\ NoDup fl.
Proof.
  intros fl a s1 b y s2 H. rewrite map_app in H. simpl in H.
  apply NoDup_app_iff in H as (N1 & N2 & N3). inversion N2; subst. rewrite in_app_iff in H1. simpl in H1.
  apply NoDup_app_iff in H2 as (N4 & N5 & N6). inversion N5; subst.
  assert (N3' : forall x, In x fl -> x <> a /\ x <> b /\ ~ In x (map fst s1) /\ ~ In x (map fst s2)).
  { intros x Hx. specialize (N3 x Hx). simpl in N3. rewrite in_app_iff in N3. simpl in N3.
    repeat split; intro; subst; apply N3; auto. }
  assert (N6' : forall x, In x (map fst s1) -> x <> b /\ ~ In x (map fst s2)).
  { intros x Hx. specialize (N6 x Hx). simpl in N6. split; intro; subst; apply N6; auto. }
  repeat split; auto.
  all: try solve [intro; subst; apply H1; auto].
  all: try solve [intro Hx; destruct (N3' _ Hx) as (? & ? & ? & ?); tauto].
  all: try solve [intro Hx; destruct (N6' _ Hx) as (? & ?); tauto].
  all: try solve [intros c Hc; apply N6'; auto].
  all: intros c Hc; apply N3'; auto.
Qed.

Lemma nodup_insert : forall (fl : list nat) a s1 (s2 : list (nat * T)) x,
  NoDup (fl ++ a :: map fst (s1 ++ s2)) -> NoDup (fl ++ map fst (s1 ++ (a, x) :: s2)).
Proof.
  intros fl a s1 s2 x H. apply NoDup_app_iff in H as (N1 & N2 & N3). inversion N2; subst.
  rewrite map_app in *. simpl. apply NoDup_app_iff. split; auto. split.
  - rewrite in_app_iff in H1. apply NoDup_app_iff in H2 as (N4 & N5 & N6). apply NoDup_app_iff. split; auto. split.
    + constructor; auto.
    + intros c Hc [<-|Hc2]; [auto|eapply N6; eauto].
  - intros c Hc Hin. apply (N3 c Hc). simpl. rewrite in_app_iff in *. simpl in Hin. tauto.
Qed.

Ltac other := rewrite nth_error_upd_other by congruence.

Lemma insert_before_ok : forall l s1 b y s2 fl x, Inv l (s1 ++ (b, y) :: s2) fl ->
  (ll_insert_before l b x = Exhausted /\ full (s1 ++ (b, y) :: s2)) \/
  exists l' a fl', ll_insert_before l b x = Ok (l', a) /\ fresh a (s1 ++ (b, y) :: s2) /\
    Inv l' (s1 ++ (a, x) :: (b, y) :: s2) fl'.
Proof.
  intros l s1 b y s2 fl x H. unfold ll_insert_before.
  assert (Hb : ll_in_bounds l b = true).
  { eapply in_bounds_iff; eauto. rewrite map_app, in_app_iff. simpl. auto. }
  rewrite Hb. pose proof H as (Hs & Hh & Ht & Hz & Hc & Hn & Hl).
  apply seg_app in Hs as [Hs1 Hs2]. simpl in Hs1, Hs2. destruct Hs2 as [Eb Hs2].
  assert (AT : at_index (l_storage l) b = Ok (mk_bucket (last_or s1 None) (hd_or s2 None) (Some y))) by (unfold at_index; rewrite Eb; reflexivity).
  rewrite !AT. cbn [bind b_previous].
  destruct (alloc_ok l _ fl (last_or s1 None) (Some b) x H) as [[-> Hf]|(l1 & a & fl' & -> & Z1 & Z2 & Z3 & Hfr & Ea & Ho & Hc' & Hn' & Hl')].
  { left. auto. }
  right. cbn [bind].
  pose proof (nodup_parts _ _ _ _ _ _ Hn') as (Dab & D1 & D2 & D3 & D4 & D5 & D6 & D7 & D8 & D9 & _).
  destruct (snoc_case s1) as [->|(s1' & p & w & ->)].
  - cbn [last_or bind]. erewrite set_previous_ok by (rewrite Ho by auto; eauto). cbn [bind].
    eexists _, _, fl'. split; [reflexivity|]. split; [exact Hfr|]. unfold Inv. cbn [l_size l_head l_tail l_free l_storage].
    split; [|split; [|split; [|split; [|split; [|split]]]]].
    + cbn [app seg]. cbn [last_or] in Ea, Eb. split; [|split].
      * other. exact Ea.
      * erewrite nu_same by (rewrite Ho by auto; eauto). reflexivity.
      * eapply seg_frame; [|exact Hs2]. intros c Hcin. rewrite nth_error_upd_other by (intro; subst; auto). apply Ho. intro; subst; auto.
    + reflexivity.
    + rewrite Z3, Ht. reflexivity.
    + rewrite Z1, Hz. reflexivity.
    + eapply chain_frame; [|exact Hc']. intros c Hcin. apply nth_error_upd_other. intro; subst; auto.
    + apply nodup_insert. exact Hn'.
    + rewrite upd_length. simpl in *. lia.
  - rewrite last_or_app in *. cbn [last_or] in *.
    apply seg_app in Hs1 as [Hs1 Hp]. cbn [seg hd_or] in Hs1, Hp. destruct Hp as [Ep _].
    rewrite map_app in D2, D5, D7, D8. simpl in D2, D5, D7, D8.
    assert (Dpa : p <> a) by (intro; subst; apply D2, in_app_iff; simpl; auto).
    assert (Dpb : p <> b) by (intro; subst; apply D5, in_app_iff; simpl; auto).
    assert (Dp2 : ~ In p (map fst s2)) by (apply D7, in_app_iff; simpl; auto).
    assert (Dpf : ~ In p fl') by (intros Hin; eapply D8; eauto; apply in_app_iff; simpl; auto).
    assert (Dp1 : ~ In p (map fst s1')).
    { rewrite <- app_assoc, map_app in Hn. apply NoDup_app_iff in Hn as (_ & Hn & _). apply NoDup_app_iff in Hn as (_ & _ & Hn).
      intros Hin. apply (Hn p Hin). simpl. auto. }
    erewrite set_next_ok by (rewrite Ho by auto; exact Ep). cbn [bind b_previous b_element].
    erewrite set_previous_ok by (other; rewrite Ho by auto; exact Eb). cbn [bind b_next b_element].
    eexists _, _, fl'. split; [reflexivity|]. split; [exact Hfr|]. unfold Inv. cbn [l_size l_head l_tail l_free l_storage].
    split; [|split; [|split; [|split; [|split; [|split]]]]].
    + apply seg_app. split; [apply seg_app; split|]; cbn [seg hd_or]; rewrite ?last_or_app; cbn [last_or].
      * eapply seg_frame; [|exact Hs1]. intros c Hcin. rewrite in_app_iff in D2, D5.
        rewrite !nth_error_upd_other by (intro; subst; auto). apply Ho. intro; subst; auto.
      * split; auto. other. erewrite nu_same; [reflexivity|]. rewrite Ho by auto; exact Ep.
      * split; [other; other; exact Ea|]. split.
        -- erewrite nu_same; [reflexivity|]. other. rewrite Ho by auto. exact Eb.
        -- eapply seg_frame; [|exact Hs2]. intros c Hcin. rewrite !nth_error_upd_other by (intro; subst; auto). apply Ho. intro; subst; auto.
    + rewrite Z2, Hh. destruct s1' as [|[]]; reflexivity.
    + rewrite Z3, Ht. rewrite !last_or_app. reflexivity.
    + rewrite Z1, Hz. rewrite !app_length. simpl. lia.
    + eapply chain_frame; [|exact Hc']. intros c Hcin. rewrite !nth_error_upd_other by (intro; subst; auto). reflexivity.
    + apply nodup_insert. exact Hn'.
    + rewrite !upd_length. rewrite Hl'. rewrite !app_length. simpl. lia.
Qed.

Lemma cons_case : forall (s : list (nat * T)), s = [] \/ exists n w s', s = (n, w) :: s'.
Proof. intros [|[n w] s]; eauto 6. Qed.

Lemma nodup_insert_after : forall (fl : list nat) a s1 b (y : T) s2 x,
  NoDup (fl ++ a :: map fst (s1 ++ (b, y) :: s2)) -> NoDup (fl ++ map fst (s1 ++ (b, y) :: (a, x) :: s2)).
Proof.
  intros. replace (s1 ++ (b, y) :: (a, x) :: s2) with ((s1 ++ [(b, y)]) ++ (a, x) :: s2) by (rewrite <- app_assoc; reflexivity).
  apply nodup_insert. rewrite <- app_assoc. exact H.
Qed.

Lemma insert_after_ok : forall l s1 b y s2 fl x, Inv l (s1 ++ (b, y) :: s2) fl ->
  (ll_insert_after l b x = Exhausted /\ full (s1 ++ (b, y) :: s2)) \/
  exists l' a fl', ll_insert_after l b x = Ok (l', a) /\ fresh a (s1 ++ (b, y) :: s2) /\
    Inv l' (s1 ++ (b, y) :: (a, x) :: s2) fl'.
Proof.
  intros l s1 b y s2 fl x H. unfold ll_insert_after.
  assert (Hb : ll_in_bounds l b = true).
  { eapply in_bounds_iff; eauto. rewrite map_app, in_app_iff. simpl. auto. }
  rewrite Hb. pose proof H as (Hs & Hh & Ht & Hz & Hc & Hn & Hl).
  apply seg_app in Hs as [Hs1 Hs2]. simpl in Hs1, Hs2. destruct Hs2 as [Eb Hs2].
  assert (AT : at_index (l_storage l) b = Ok (mk_bucket (last_or s1 None) (hd_or s2 None) (Some y))) by (unfold at_index; rewrite Eb; reflexivity).
  rewrite !AT. cbn [bind b_next].
  destruct (alloc_ok l _ fl (Some b) (hd_or s2 None) x H) as [[-> Hf]|(l1 & a & fl' & -> & Z1 & Z2 & Z3 & Hfr & Ea & Ho & Hc' & Hn' & Hl')].
  { left. auto. }
  right. cbn [bind].
  pose proof (nodup_parts _ _ _ _ _ _ Hn') as (Dab & D1 & D2 & D3 & D4 & D5 & D6 & D7 & D8 & D9 & _ & DN2 & _).
  destruct (cons_case s2) as [->|(n & w & s2' & ->)].
  - cbn [hd_or bind]. erewrite set_next_ok by (rewrite Ho by auto; eauto). cbn [bind].
    eexists _, _, fl'. split; [reflexivity|]. split; [exact Hfr|]. unfold Inv. cbn [l_size l_head l_tail l_free l_storage].
    split; [|split; [|split; [|split; [|split; [|split]]]]].
    + apply seg_app. cbn [seg hd_or]. cbn [hd_or] in Ea, Eb. split; [|split; [|split]]; auto.
      * eapply seg_frame; [|exact Hs1]. intros c Hcin. rewrite nth_error_upd_other by (intro; subst; auto). apply Ho. intro; subst; auto.
      * erewrite nu_same by (rewrite Ho by auto; eauto). reflexivity.
      * other. exact Ea.
    + rewrite Z2, Hh. destruct s1 as [|[]]; reflexivity.
    + rewrite last_or_app. reflexivity.
    + rewrite Z1, Hz. rewrite !app_length. simpl. lia.
    + eapply chain_frame; [|exact Hc']. intros c Hcin. apply nth_error_upd_other. intro; subst; auto.
    + apply nodup_insert_after. exact Hn'.
    + rewrite upd_length, Hl'. rewrite !app_length. simpl in *. lia.
  - cbn [hd_or] in *. simpl in D3, D6, D7, D9. cbn [seg] in Hs2. destruct Hs2 as [En Hs2].
    assert (Dna : n <> a) by (intro; subst; auto).
    assert (Dnb : n <> b) by (intro; subst; auto).
    assert (Dn1 : ~ In n (map fst s1)) by (intros Hin; eapply D7; eauto).
    assert (Dnf : ~ In n fl') by (intros Hin; eapply D9; eauto).
    assert (Dn2 : ~ In n (map fst s2')) by (simpl in DN2; inversion DN2; auto).
    erewrite set_previous_ok by (rewrite Ho by auto; exact En). cbn [bind b_next b_element].
    erewrite set_next_ok by (other; rewrite Ho by auto; exact Eb). cbn [bind b_previous b_element].
    eexists _, _, fl'. split; [reflexivity|]. split; [exact Hfr|]. unfold Inv. cbn [l_size l_head l_tail l_free l_storage].
    split; [|split; [|split; [|split; [|split; [|split]]]]].
    + apply seg_app. cbn [seg hd_or]. split; [|split; [|split; [|split]]].
      * eapply seg_frame; [|exact Hs1]. intros c Hcin.
        rewrite !nth_error_upd_other by (intro; subst; auto). apply Ho. intro; subst; auto.
      * erewrite nu_same; [reflexivity|]. other. rewrite Ho by auto. exact Eb.
      * other. other. exact Ea.
      * other. erewrite nu_same; [reflexivity|]. rewrite Ho by auto. exact En.
      * eapply seg_frame; [|exact Hs2]. intros c Hcin. rewrite !nth_error_upd_other by (intro; subst; tauto). apply Ho. intro; subst; auto.
    + rewrite Z2, Hh. destruct s1 as [|[]]; reflexivity.
    + rewrite Z3, Ht. rewrite !last_or_app. reflexivity.
    + rewrite Z1, Hz. rewrite !app_length. simpl. lia.
    + eapply chain_frame; [|exact Hc']. intros c Hcin. rewrite !nth_error_upd_other by (intro; subst; auto). reflexivity.
    + apply nodup_insert_after. exact Hn'.
    + rewrite !upd_length. rewrite Hl'. rewrite !app_length. simpl. lia.
Qed.

Lemma nodup_parts0 : forall (fl : list nat) s1 b (y : T) s2,
  NoDup (fl ++ map fst (s1 ++ (b, y) :: s2)) ->
  ~ In b fl /\ ~ In b (map fst s1) /\ ~ In b (map fst s2) /\
  (forall c, In c (map fst s1) -> ~ In c (map fst s2)) /\
  (forall c, In c fl -> ~ In c (map fst s1)) /\ (forall c, In c fl -> ~ In c (map fst s2)) /\
  NoDup (map fst s1) /\ NoDup (map fst s2) /\ NoDup fl.
Proof.
  intros fl s1 b y s2 H. rewrite map_app in H. simpl in H.
  apply NoDup_app_iff in H as (N1 & N2 & N3).
  apply NoDup_app_iff in N2 as (N4 & N5 & N6). inversion N5; subst.
  assert (N3' : forall x, In x fl -> x <> b /\ ~ In x (map fst s1) /\ ~ In x (map fst s2)).
  { intros x Hx. specialize (N3 x Hx). rewrite in_app_iff in N3. simpl in N3.
    repeat split; intro; subst; apply N3; auto. }
  assert (N6' : forall x, In x (map fst s1) -> x <> b /\ ~ In x (map fst s2)).
  { intros x Hx. specialize (N6 x Hx). simpl in N6. split; intro; subst; apply N6; auto. }
  repeat split; auto.
  - intro. destruct (N3' b); tauto.
  - intro. destruct (N6' b); auto.
  - intros c Hc. apply N6'. auto.
  - intros c Hc. apply N3'. auto.
  - intros c Hc. apply N3'. auto.
Qed.

Lemma remove_ok : forall l s1 b y s2 fl, Inv l (s1 ++ (b, y) :: s2) fl ->
  exists l' fl', ll_remove l b = Ok (l', y) /\ Inv l' (s1 ++ s2) fl'.
Proof.
  intros l s1 b y s2 fl H. unfold ll_remove.
  assert (Hb : ll_in_bounds l b = true).
  { eapply in_bounds_iff; eauto. rewrite map_app, in_app_iff. simpl. auto. }
  rewrite Hb. destruct H as (Hs & Hh & Ht & Hz & Hc & Hn & Hl).
  apply seg_app in Hs as [Hs1 Hs2]. simpl in Hs1, Hs2. destruct Hs2 as [Eb Hs2].
  assert (AT : at_index (l_storage l) b = Ok (mk_bucket (last_or s1 None) (hd_or s2 None) (Some y))) by (unfold at_index; rewrite Eb; reflexivity).
  rewrite !AT. cbn [bind b_next b_previous].
  pose proof (nodup_parts0 _ _ _ _ _ Hn) as (D4 & D5 & D6 & D7 & D8 & D9 & DN1 & DN2 & DN3).
  (* unlink on the left *)
  set (sto := l_storage l) in *.
  assert (L : exists s', (match last_or s1 None with
      | Some p => do s <- set_next sto p (hd_or s2 None); Ok (l_head l, s)
      | None => Ok (hd_or s2 None, sto) end) = Ok (hd_or (s1 ++ s2) None, s') /\
      seg None s1 (hd_or s2 None) s' /\ length s' = length sto /\
      (forall c, ~ In c (map fst s1) -> nth_error s' c = nth_error sto c)).
  { destruct (snoc_case s1) as [->|(s1' & p & w & ->)].
    - exists sto. cbn. auto.
    - rewrite last_or_app. cbn [last_or]. apply seg_app in Hs1 as [Hs1 [Ep _]]. cbn [hd_or] in Hs1, Ep.
      erewrite set_next_ok by exact Ep. cbn [bind b_previous b_element]. eexists. split; [|split; [|split]].
      + rewrite Hh. rewrite <- !app_assoc. destruct s1' as [|[]]; reflexivity.
      + apply seg_app. cbn [hd_or seg]. split; [|split; auto].
        * eapply seg_frame; [|exact Hs1]. intros c Hcin. rewrite map_app in DN1. apply NoDup_app_iff in DN1 as (_ & _ & DN1).
          apply nth_error_upd_other. intro; subst. eapply DN1; eauto. simpl. auto.
        * erewrite nu_same by exact Ep. reflexivity.
      + apply upd_length.
      + intros c Hnc. apply nth_error_upd_other. intro; subst. apply Hnc. rewrite map_app, in_app_iff. simpl. auto. }
  destruct L as (s' & -> & L1 & L2 & L3). cbn [bind].
  assert (R : exists s'', (match hd_or s2 None with
      | Some n => do s <- set_previous s' n (last_or s1 None); Ok (l_tail l, s)
      | None => Ok (last_or s1 None, s') end) = Ok (last_or (s1 ++ s2) None, s'') /\
      seg (last_or s1 None) s2 None s'' /\ length s'' = length sto /\
      (forall c, ~ In c (map fst s2) -> nth_error s'' c = nth_error s' c)).
  { destruct (cons_case s2) as [->|(n & w & s2' & ->)].
    - exists s'. rewrite app_nil_r. cbn. auto.
    - cbn [hd_or] in *. cbn [seg] in Hs2. destruct Hs2 as [En Hs2].
      assert (En' : nth_error s' n = Some (mk_bucket (Some b) (hd_or s2' None) (Some w))).
      { rewrite L3; auto. intros Hin. eapply D7; eauto. simpl. auto. }
      erewrite set_previous_ok by exact En'. cbn [bind b_next b_element]. eexists. split; [|split; [|split]].
      + rewrite Ht, !last_or_app. reflexivity.
      + cbn [seg]. split; [erewrite nu_same by exact En'; reflexivity|].
        eapply seg_frame; [|exact Hs2]. intros c Hcin. simpl in DN2. inversion DN2; subst.
        rewrite nth_error_upd_other by (intro; subst; auto). apply L3. intros Hin. eapply D7; eauto. simpl. auto.
      + rewrite upd_length. auto.
      + intros c Hnc. apply nth_error_upd_other. intro; subst. apply Hnc. simpl. auto. }
  destruct R as (s'' & -> & R1 & R2 & R3). cbn [bind].
  rewrite Hz. rewrite app_length. cbn [length]. rewrite Nat.add_succ_r.
  assert (Eb2 : nth_error s'' b = Some (mk_bucket (last_or s1 None) (hd_or s2 None) (Some y))).
  { rewrite R3, L3; auto. }
  erewrite set_previous_ok by exact Eb2. cbn [bind b_next b_element].
  erewrite set_next_ok by (eapply nu_same; exact Eb2). cbn [bind b_previous b_element].
  unfold at_index. erewrite nu_same by (eapply nu_same; exact Eb2). cbn [bind b_element b_next b_previous].
  eexists _, (b :: fl). split; [reflexivity|]. unfold Inv. cbn [l_size l_head l_tail l_free l_storage].
  assert (F : forall c x1 x2 x3, c <> b -> nth_error (upd (upd (upd s'' b x1) b x2) b x3) c = nth_error s'' c).
  { intros. rewrite !nth_error_upd_other by auto. auto. }
  split; [|split; [|split; [|split; [|split; [|split]]]]]; auto.
  - apply seg_app. split.
    + eapply seg_frame; [|exact L1]. intros c Hcin. rewrite F by (intro; subst; auto). apply R3. auto.
    + eapply seg_frame; [|exact R1]. intros c Hcin. rewrite F by (intro; subst; auto). auto.
  - rewrite app_length. auto.
  - cbn [chain]. split; auto. erewrite nu_same by (eapply nu_same; eapply nu_same; exact Eb2). eexists. split; [reflexivity|].
    cbn [b_element b_next]. split; auto. eapply chain_frame; [|exact Hc]. intros c Hcin.
    rewrite F by (intro; subst; auto). rewrite R3 by (apply D9; auto). apply L3. apply D8; auto.
  - simpl. constructor.
    + rewrite map_app, !in_app_iff. tauto.
    + rewrite map_app. apply NoDup_app_iff. split; auto. split.
      * apply NoDup_app_iff. auto.
      * intros c Hcin. rewrite in_app_iff. intros [|]; [eapply D8; eauto|eapply D9; eauto].
  - rewrite !upd_length, R2. rewrite Hl, !app_length. simpl. lia.
Qed.

Lemma set_ok : forall l s1 b y s2 fl x, Inv l (s1 ++ (b, y) :: s2) fl ->
  exists l', ll_set l b x = Ok l' /\ Inv l' (s1 ++ (b, x) :: s2) fl.
Proof.
  intros l s1 b y s2 fl x H. unfold ll_set.
  assert (Hb : ll_in_bounds l b = true).
  { eapply in_bounds_iff; eauto. rewrite map_app, in_app_iff. simpl. auto. }
  rewrite Hb. destruct H as (Hs & Hh & Ht & Hz & Hc & Hn & Hl).
  apply seg_app in Hs as [Hs1 Hs2]. simpl in Hs1, Hs2. destruct Hs2 as [Eb Hs2].
  assert (AT : at_index (l_storage l) b = Ok (mk_bucket (last_or s1 None) (hd_or s2 None) (Some y))) by (unfold at_index; rewrite Eb; reflexivity).
  rewrite !AT. cbn [bind b_next b_previous].
  pose proof (nodup_parts0 _ _ _ _ _ Hn) as (D4 & D5 & D6 & D7 & D8 & D9 & DN1 & DN2 & DN3).
  eexists. split; [reflexivity|]. unfold Inv. cbn [l_size l_head l_tail l_free l_storage].
  split; [|split; [|split; [|split; [|split; [|split]]]]].
  - apply seg_app. cbn [seg hd_or]. split; [|split].
    + eapply seg_frame; [|exact Hs1]. intros c Hcin. apply nth_error_upd_other. intro; subst; auto.
    + erewrite nu_same by exact Eb. reflexivity.
    + eapply seg_frame; [|exact Hs2]. intros c Hcin. apply nth_error_upd_other. intro; subst; auto.
  - rewrite Hh. destruct s1 as [|[]]; reflexivity.
  - rewrite Ht, !last_or_app. reflexivity.
  - rewrite Hz, !app_length. reflexivity.
  - eapply chain_frame; [|exact Hc]. intros c Hcin. apply nth_error_upd_other. intro; subst; auto.
  - rewrite map_app in *. exact Hn.
  - rewrite upd_length, Hl, !app_length. reflexivity.
Qed.

Lemma append_ok : forall l s fl x, Inv l s fl ->
  (ll_append l x = Exhausted /\ full s) \/
  exists l' a fl', ll_append l x = Ok (l', a) /\ fresh a s /\ Inv l' (s ++ [(a, x)]) fl'.
Proof.
  intros l s fl x H. unfold ll_append, ll_is_empty. pose proof H as (Hs & Hh & Ht & Hz & Hc & Hn & Hl). rewrite Hz.
  destruct (snoc_case s) as [->|(s' & p & w & ->)].
  - cbn [length Nat.eqb].
    destruct (alloc_ok l _ fl None None x H) as [[-> Hf]|(l1 & a & fl' & -> & Z1 & Z2 & Z3 & Hfr & Ea & Ho & Hc' & Hn' & Hl')]; [auto|].
    right. cbn [bind]. eexists _, _, fl'. split; [reflexivity|]. split; [exact Hfr|].
    unfold Inv. cbn [l_size l_head l_tail l_free l_storage app seg hd_or last_or length map fst]. auto 8.
  - rewrite app_length. cbn [length]. rewrite Nat.add_1_r. cbn [Nat.eqb].
    rewrite Ht, last_or_app. cbn [last_or].
    destruct (insert_after_ok l s' p w [] fl x H) as [[-> Hf]|(l' & a & fl' & -> & Hfr & Hi)]; [auto|].
    right. exists l', a, fl'. rewrite <- app_assoc. auto.
Qed.

Lemma prepend_ok : forall l s fl x, Inv l s fl ->
  (ll_prepend l x = Exhausted /\ full s) \/
  exists l' a fl', ll_prepend l x = Ok (l', a) /\ fresh a s /\ Inv l' ((a, x) :: s) fl'.
Proof.
  intros l s fl x H. unfold ll_prepend, ll_is_empty. pose proof H as (Hs & Hh & Ht & Hz & Hc & Hn & Hl). rewrite Hz.
  destruct (cons_case s) as [->|(p & w & s' & ->)].
  - cbn [length Nat.eqb]. apply (append_ok l [] fl x H).
  - cbn [length Nat.eqb]. rewrite Hh. cbn [hd_or]. apply (insert_before_ok l [] p w s' fl x H).
Qed.

Lemma not_in_bounds : forall l s fl a, Inv l s fl -> fresh a s -> ll_in_bounds l a = false.
Proof.
  intros l s fl a H Hf. destruct (ll_in_bounds l a) eqn:E; auto. apply (in_bounds_iff l s fl a H) in E. contradiction.
Qed.

Lemma live_dec : forall a (s : list (nat * T)), fresh a s \/ exists s1 y s2, s = s1 ++ (a, y) :: s2.
Proof.
  intros. destruct (in_dec Nat.eq_dec a (map fst s)); [right; apply in_split_fst; auto|left; auto].
Qed.

Lemma step_ok : forall l s fl o, Inv l s fl ->
  exists s' fl', astep s o s' (snd (step l o)) /\ Inv (fst (step l o)) s' fl'.
Proof.
  intros l s fl o H. destruct o as [x|x|b x|b x|b|b x]; unfold step; cbn zeta.
  - destruct (append_ok l s fl x H) as [[-> Hf]|(l' & a & fl' & -> & Hfr & Hi)]; simpl.
    + exists s, fl. split; auto. apply a_full; auto. exists x, 0. auto.
    + eexists _, fl'. split; [apply a_append; auto|auto].
  - destruct (prepend_ok l s fl x H) as [[-> Hf]|(l' & a & fl' & -> & Hfr & Hi)]; simpl.
    + exists s, fl. split; auto. apply a_full; auto. exists x, 0. auto.
    + eexists _, fl'. split; [apply a_prepend; auto|auto].
  - destruct (live_dec b s) as [Hd|(s1 & y & s2 & ->)].
    + unfold ll_insert_before. rewrite (not_in_bounds _ _ _ _ H Hd). simpl. exists s, fl. split; auto.
      apply a_dead with b; eauto.
    + destruct (insert_before_ok l s1 b y s2 fl x H) as [[-> Hf]|(l' & a & fl' & -> & Hfr & Hi)]; simpl.
      * eexists _, fl. split; [|exact H]. apply a_full; auto. exists x, b. auto.
      * eexists _, fl'. split; [apply a_before; auto|auto].
  - destruct (live_dec b s) as [Hd|(s1 & y & s2 & ->)].
    + unfold ll_insert_after. rewrite (not_in_bounds _ _ _ _ H Hd). simpl. exists s, fl. split; auto.
      apply a_dead with b; eauto.
    + destruct (insert_after_ok l s1 b y s2 fl x H) as [[-> Hf]|(l' & a & fl' & -> & Hfr & Hi)]; simpl.
      * eexists _, fl. split; [|exact H]. apply a_full; auto. exists x, b. auto.
      * eexists _, fl'. split; [apply a_after; auto|auto].
  - destruct (live_dec b s) as [Hd|(s1 & y & s2 & ->)].
    + unfold ll_remove. rewrite (not_in_bounds _ _ _ _ H Hd). simpl. exists s, fl. split; auto.
      apply a_dead with b; eauto.
    + destruct (remove_ok l s1 b y s2 fl H) as (l' & fl' & -> & Hi). simpl.
      eexists _, fl'. split; [apply a_remove|auto].
  - destruct (live_dec b s) as [Hd|(s1 & y & s2 & ->)].
    + unfold ll_set. rewrite (not_in_bounds _ _ _ _ H Hd). simpl. exists s, fl. split; auto.
      apply a_dead with b; eauto.
    + destruct (set_ok l s1 b y s2 fl x H) as (l' & -> & Hi). simpl.
      eexists _, fl. split; [apply a_set|auto].
Qed.

Lemma run_ok : forall os l s fl, Inv l s fl ->
  exists s' fl', arun s os s' (snd (run l os)) /\ Inv (fst (run l os)) s' fl'.
Proof.
  induction os as [|o os IH]; intros l s fl H; simpl.
  - exists s, fl. split; [constructor|auto].
  - destruct (step_ok l s fl o H) as (s1 & fl1 & H1 & H2). destruct (step l o) as [l1 r]. simpl in H1, H2.
    destruct (IH l1 s1 fl1 H2) as (s2 & fl2 & H3 & H4). destruct (run l1 os) as [l2 rs]. simpl in *.
    exists s2, fl2. split; auto. econstructor; eauto.
Qed.

Lemma get_ok : forall (l : llist) a b x, nth_error (l_storage l) a = Some b -> b_element b = Some x ->
  ll_get l a = Ok x /\ ll_address_after l a = Ok (b_next b) /\ ll_address_before l a = Ok (b_previous b).
Proof.
  intros l a b x E1 E2. unfold ll_get, ll_address_after, ll_address_before, ll_in_bounds, at_index. rewrite !E1. cbn [bind]. rewrite !E2. auto.
Qed.

Lemma seg_forwards : forall s p (l : llist), seg p s None (l_storage l) -> forwards l (hd_or s None) s.
Proof.
  induction s as [|[a x] s]; simpl; intros p l H; [constructor|]. destruct H as [E H].
  destruct (get_ok l a _ x E eq_refl) as (G1 & G2 & _). econstructor; eauto.
Qed.

Lemma seg_backwards : forall s n (l : llist), seg None s n (l_storage l) -> backwards l (last_or s None) (rev s).
Proof.
  induction s as [|[a x] s IH] using rev_ind; simpl; intros n l H; [constructor|].
  rewrite rev_app_distr, last_or_app. cbn [rev app last_or]. apply seg_app in H as [H1 [E _]].
  destruct (get_ok l a _ x E eq_refl) as (G1 & _ & G2). econstructor; eauto.
Qed.

Lemma list_refines : forall os,
  let '(l, rs) := run (@ll_new T) os in
  exists s, arun [] os s rs /\
    forwards l (ll_first_address l) s /\ backwards l (ll_last_address l) (rev s) /\
    ll_len l = length s /\ NoDup (map fst s) /\
    (forall a, ll_get l a = Panicked <-> ~ In a (map fst s)).
Proof.
  intros os. assert (I0 : Inv ll_new [] []) by (unfold Inv; simpl; repeat split; constructor).
  destruct (run_ok os _ _ _ I0) as (s & fl & H1 & H2). destruct (run ll_new os) as [l rs]. simpl in H1, H2.
  exists s. split; auto. pose proof H2 as (Hs & Hh & Ht & Hz & Hc & Hn & Hl).
  unfold ll_first_address, ll_last_address, ll_len. rewrite Hh, Ht. repeat split.
  - eapply seg_forwards; eauto.
  - eapply seg_backwards; eauto.
  - auto.
  - apply NoDup_app_iff in Hn. tauto.
  - intros E Hin. apply in_split_fst in Hin as (s1 & y & s2 & ->). apply seg_app in Hs as [_ [Eb _]].
    destruct (get_ok l a _ y Eb eq_refl) as [G _]. congruence.
  - intros Hf. unfold ll_get. rewrite (not_in_bounds _ _ _ _ H2 Hf). auto.
Qed.
End Proofs.
