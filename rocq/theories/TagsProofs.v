From Coq Require Import List Bool Arith ZArith Lia.
From Verif Require Import ListUtil GraphModel TagsModel TagsSpec.
Import ListNotations.
Local Open Scope Z_scope.

Lemma tag_eqb_spec : forall a b, tag_eqb a b = true <-> a = b.
Proof. intros. unfold tag_eqb. destruct (list_eq_dec Z.eq_dec a b); split; congruence. Qed.

Record ok (ts : tags) : Prop := mkOk {
  ok_nodup : NoDup (tag_names ts);
  ok_ids : forall t id, get_id (tag_ids ts) t = Some id <-> 0 <= id /\ nth_error (tag_names ts) (Z.to_nat id) = Some t;
  ok_len : Z.of_nat (length (tag_names ts)) <= 2147483648
}.
Lemma no_tags_ok : ok no_tags.
Proof.
  constructor; simpl; [constructor| |lia]. intros t id. split; [discriminate|]. intros (_ & H). destruct (Z.to_nat id); discriminate.
Qed.

Lemma land_bit : forall x, 0 <= x < 4294967296 -> Z.land x indirect_tag_bit = 0 <-> x < 2147483648.
Proof.
  intros x H. unfold indirect_tag_bit. change 2147483648 with (2 ^ 31) at 1.
  assert (K : Z.land x (2 ^ 31) = (if Z.testbit x 31 then 2 ^ 31 else 0)).
  { apply Z.bits_inj'. intros n N. rewrite Z.land_spec, Z.pow2_bits_eqb by lia. destruct (Z.eqb_spec 31 n) as [<-|NE].
    - destruct (Z.testbit x 31); rewrite ?andb_false_l, ?Z.bits_0; auto. 
    - rewrite andb_false_r. destruct (Z.testbit x 31); [rewrite Z.pow2_bits_eqb by lia; destruct (Z.eqb_spec 31 n); auto; lia|rewrite Z.bits_0; auto]. }
  rewrite K. rewrite Z.testbit_odd. rewrite Z.shiftr_div_pow2 by lia. change (2 ^ 31) with 2147483648.
  assert (x / 2147483648 = 0 \/ x / 2147483648 = 1).
  { assert (0 <= x / 2147483648 < 2); [|lia]. split; [apply Z.div_pos; lia|apply Z.div_lt_upper_bound; lia]. }
  pose proof (Z.div_mod x 2147483648 ltac:(lia)). pose proof (Z.mod_pos_bound x 2147483648 ltac:(lia)).
  destruct H0 as [E|E]; rewrite E in *; simpl; lia.
Qed.

Lemma intern_ok : forall ts t, ok ts ->
  (exists ts' id, intern ts t = Val (ts', id) /\ ok ts' /\ 0 <= id < 2147483648 /\ variant_tag_name ts' id = Some t /\
     ((ts' = ts /\ In t (tag_names ts)) \/ (tag_names ts' = tag_names ts ++ [t] /\ ~ In t (tag_names ts)))) \/
  (intern ts t = Panics /\ ~ In t (tag_names ts) /\ Z.of_nat (length (tag_names ts)) = 2147483648).
Proof.
  intros ts t O. unfold intern. destruct (get_id (tag_ids ts) t) as [id|] eqn:G.
  - left. exists ts, id. split; auto. split; auto. apply (ok_ids _ O) in G. destruct G as (P & N). split.
    + split; auto. assert (Z.to_nat id < length (tag_names ts))%nat by (apply nth_error_Some; congruence). pose proof (ok_len _ O). lia.
    + split; auto. left. split; auto. eapply nth_error_In; eauto.
  - assert (NI : ~ In t (tag_names ts)).
    { intros H. apply In_nth_error in H. destruct H as (i & H). assert (X : get_id (tag_ids ts) t = Some (Z.of_nat i)); [|congruence]. apply (ok_ids _ O). rewrite Nat2Z.id. split; auto. lia. }
    pose proof (ok_len _ O) as L. set (n := length (tag_names ts)) in *. destruct (Z.ltb_spec (Z.of_nat n) 4294967296) as [_|]; [|lia]. cbn [negb].
    pose proof (land_bit (Z.of_nat n) ltac:(lia)) as B. destruct (Z.eqb_spec (Z.land (Z.of_nat n) indirect_tag_bit) 0) as [E|E]; cbn [negb].
    + apply B in E. left. eexists. exists (Z.of_nat n). split; [reflexivity|]. split; [|split; [lia|split]].
      * constructor; simpl.
        -- rewrite <- (rev_involutive (tag_names ts ++ [t])). apply NoDup_rev. rewrite rev_app_distr. simpl. constructor; [rewrite <- in_rev; auto|]. apply NoDup_rev. apply O.
        -- intros t' id. destruct (tag_eqb t t') eqn:T.
           ++ apply tag_eqb_spec in T. subst t'. split.
              ** intros H. inversion H; subst id. split; [lia|]. rewrite Nat2Z.id. rewrite nth_error_app2, Nat.sub_diag by (unfold n; lia). reflexivity.
              ** intros (P & H). assert (Z.to_nat id < length (tag_names ts ++ [t]))%nat by (apply nth_error_Some; congruence). rewrite app_length in H0. simpl in H0. fold n in H0.
                 destruct (Nat.lt_ge_cases (Z.to_nat id) n) as [K|K]; [|f_equal; lia]. rewrite nth_error_app1 in H by auto. exfalso. apply NI. eapply nth_error_In; eauto.
           ++ rewrite (ok_ids _ O). assert (t <> t') by (intros ->; assert (tag_eqb t' t' = true) by (apply tag_eqb_spec; auto); congruence). split; intros (P & H0); split; auto.
              ** rewrite nth_error_app1; auto. apply nth_error_Some. congruence.
              ** destruct (Nat.lt_ge_cases (Z.to_nat id) n) as [K|K]; [rewrite nth_error_app1 in H0 by auto; auto|].
                 rewrite nth_error_app2 in H0 by auto. destruct (Z.to_nat id - length (tag_names ts))%nat as [|k]; simpl in H0; [congruence|destruct k; discriminate].
        -- rewrite app_length. simpl. fold n. lia.
      * unfold variant_tag_name. simpl. rewrite Nat2Z.id. rewrite nth_error_app2, Nat.sub_diag by (unfold n; lia). reflexivity.
      * right. auto.
    + right. split; auto. split; auto. destruct (Z.lt_ge_cases (Z.of_nat n) 2147483648) as [K|K]; [exfalso; apply E; apply B; auto|lia].
Qed.

Definition grows (ts ts' : tags) : Prop := forall id t, 0 <= id -> variant_tag_name ts id = Some t -> variant_tag_name ts' id = Some t.
Lemma intern_all_ok : forall l ts, ok ts ->
  match intern_all ts l with
  | Val (ts', ids) => ok ts' /\ length ids = length l /\ grows ts ts' /\ incl l (tag_names ts') /\ incl (tag_names ts') (tag_names ts ++ l) /\
      forall i id t, nth_error ids i = Some id -> nth_error l i = Some t -> 0 <= id < 2147483648 /\ variant_tag_name ts' id = Some t
  | Panics => exists d, NoDup d /\ incl d (tag_names ts ++ l) /\ 2147483648 < Z.of_nat (length d)
  | OutOfFuel => False
  end.
Proof.
  induction l as [|t l IH]; intros ts O; cbn [intern_all].
  - split; auto. split; auto. split; [intros ? ?; auto|]. split; [intros x []|]. split; [rewrite app_nil_r; apply incl_refl|]. intros i id t H. destruct i; discriminate.
  - destruct (intern_ok ts t O) as [(ts1 & id1 & Q & O1 & R1 & V1 & C)|(Q & NI & L)]; rewrite Q; cbn [bind fst snd].
    + assert (G1 : grows ts ts1).
      { destruct C as [(-> & _)|(E & _)]; [intros ? ?; auto|]. intros id x P H. unfold variant_tag_name in *. rewrite E, nth_error_app1; auto. apply nth_error_Some. congruence. }
      assert (I1 : incl (tag_names ts1) (tag_names ts ++ [t])) by (destruct C as [(-> & _)|(-> & _)]; [apply incl_appl; apply incl_refl|apply incl_refl]).
      assert (I2 : incl (tag_names ts1 ++ l) (tag_names ts ++ t :: l)).
      { intros x H. rewrite in_app_iff in *. destruct H as [H|H]; [|simpl; auto]. apply I1 in H. rewrite in_app_iff in H. simpl in *. intuition. }
      specialize (IH ts1 O1). destruct (intern_all ts1 l) as [(ts2, ids)| |]; cbn [bind fst snd].
      * destruct IH as (O2 & L2 & G2 & J1 & J2 & H). split; auto. split; [simpl; auto|]. split; [intros ? ? ? ?; apply G2; auto|]. split; [|split].
        -- intros x [<-|Hx]; [|apply J1; auto]. assert (V2 : variant_tag_name ts2 id1 = Some t) by (apply G2; auto; lia). unfold variant_tag_name in V2. eapply nth_error_In; eauto.
        -- intros x Hx. apply I2, J2, Hx.
        -- intros [|i] id x A B; simpl in A, B.
           ++ inversion A; inversion B; subst. split; [auto|]. apply G2; auto. lia.
           ++ eapply H; eauto.
      * destruct IH as (d & D1 & D2 & D3). exists d. split; auto. split; auto. intros x Hx. auto.
      * auto.
    + exists (t :: tag_names ts). split; [constructor; auto; apply O|]. split; [|simpl length; lia].
      intros x [<-|H]; apply in_app_iff; simpl; auto.
Qed.

Theorem intern_all_total : forall l, few_tags l -> exists ts ids, intern_all no_tags l = Val (ts, ids) /\ length ids = length l.
Proof.
  intros l F. pose proof (intern_all_ok l no_tags no_tags_ok) as H. destruct (intern_all no_tags l) as [(ts, ids)| |].
  - exists ts, ids. split; auto. apply H.
  - destruct H as (d & A & B & C). simpl in B. specialize (F d A B). lia.
  - contradiction.
Qed.
Theorem identities : forall l ts ids, intern_all no_tags l = Val (ts, ids) ->
  forall i j a b s t, nth_error ids i = Some a -> nth_error ids j = Some b -> nth_error l i = Some s -> nth_error l j = Some t ->
  (a = b <-> s = t) /\ 0 <= a < 2 ^ 31 /\ variant_tag_name ts a = Some s.
Proof.
  intros l ts ids Q i j a b s t A B S T. pose proof (intern_all_ok l no_tags no_tags_ok) as H. rewrite Q in H. destruct H as (O & _ & _ & _ & _ & H).
  destruct (H i a s A S) as (Ra & Va). destruct (H j b t B T) as (Rb & Vb). split; [|split; auto].
  split; intros E.
  - subst b. congruence.
  - subst t. unfold variant_tag_name in *. pose proof (proj1 (NoDup_nth_error _) (ok_nodup _ O) (Z.to_nat a) (Z.to_nat b)) as K.
    assert (Z.to_nat a = Z.to_nat b); [|lia]. apply K; [apply nth_error_Some; congruence|congruence].
Qed.

Theorem encode_decode : forall s id, 0 <= id < 2 ^ 31 -> exists raw, encode_tag_id s id = Val raw /\ 0 <= raw < 2 ^ 32 /\ decode_tag raw = (id, s).
Proof.
  intros s id H. change (2 ^ 31) with 2147483648 in H. unfold encode_tag_id. assert (E : Z.land id indirect_tag_bit = 0) by (apply land_bit; lia). rewrite E. cbn [negb Z.eqb].
  assert (M : Z.lor id indirect_tag_bit = id + indirect_tag_bit).
  { rewrite <- Z.lxor_lor, Z.add_nocarry_lxor; auto. }
  assert (L : 4294967295 - indirect_tag_bit = Z.ones 31) by reflexivity.
  exists (Z.lor id (if s then indirect_tag_bit else 0)). split; auto. unfold decode_tag. rewrite L. rewrite !Z.land_ones by lia. change (2 ^ 31) with 2147483648. change (2 ^ 32) with 4294967296. destruct s.
  - rewrite M. unfold indirect_tag_bit in *. split; [lia|].
    assert (X : (id + 2147483648) mod 2147483648 = id).
    { replace (id + 2147483648) with (id + 1 * 2147483648) by lia. rewrite Z.mod_add by lia. apply Z.mod_small. lia. }
    assert (N : Z.land (id + 2147483648) 2147483648 <> 0) by (intros K; apply land_bit in K; lia). apply Z.eqb_neq in N. rewrite X, N. reflexivity.
  - rewrite Z.lor_0_r. split; [lia|]. rewrite E. rewrite Z.mod_small by lia. reflexivity.
Qed.
