From Coq Require Import ZArith List Bool Lia.
From Verif Require Import Decimal NamesModel.
Import ListNotations.
Open Scope Z_scope.

Lemma decimal_inj : forall a b, 0 <= a -> 0 <= b -> decimal a = decimal b -> a = b.
Proof.
  intros a b A B E. apply digits_inj; auto. unfold decimal in E. revert E. generalize (digits a) (digits b). clear. intros l l' E.
  apply (f_equal (map (fun c => c - 48))) in E. rewrite !map_map in E.
  rewrite !(map_ext (fun d => 48 + d - 48) (fun d => d)), !map_id in E by (intros; lia). auto.
Qed.
Lemma decimal_not_nil : forall a, 0 <= a -> decimal a <> [].
Proof. intros a A. destruct (digits_head a A) as (d & l & E & _). unfold decimal. rewrite E. discriminate. Qed.

Lemma index_string_inj : forall checked i j first last f s, 0 <= i < two32 -> 0 <= j < two32 -> 0 <= last < 0xD800 ->
  type_variable_index_to_string checked i first last [f] = Named s ->
  type_variable_index_to_string checked j first last [f] = Named s -> i = j.
Proof.
  unfold type_variable_index_to_string. intros checked i j first last f s Hi Hj Hl H1 H2.
  destruct (checked && (two32 <=? first + i)); [discriminate|]. destruct (checked && (two32 <=? first + j)); [discriminate|].
  assert (M : forall x, 0 <= (first + x) mod two32 < two32) by (intros; apply Z.mod_pos_bound; unfold two32; lia).
  pose proof (M i) as Mi. pose proof (M j) as Mj.
  assert (E : (first + i) mod two32 = (first + j) mod two32 -> i = j).
  { intros E. pose proof (Z.div_mod (first + i) two32 ltac:(unfold two32; lia)). pose proof (Z.div_mod (first + j) two32 ltac:(unfold two32; lia)).
    rewrite E in H. unfold two32 in *. lia. }
  apply E. clear E M. set (a := (first + i) mod two32) in *. set (b := (first + j) mod two32) in *.
  assert (C : forall x, 0 <= x -> x <= last -> char_or_underscore x = x).
  { intros x X L. unfold char_or_underscore. destruct (Z.leb_spec 0 x); [|lia]. destruct (Z.ltb_spec x 0xD800); [auto|lia]. }
  destruct (Z.leb_spec a last), (Z.leb_spec b last).
  - rewrite C in H1, H2 by lia. congruence.
  - exfalso. pose proof (decimal_not_nil (b - last) ltac:(lia)). simpl in H2. destruct (decimal (b - last)); [congruence|]. congruence.
  - exfalso. pose proof (decimal_not_nil (a - last) ltac:(lia)). simpl in H1. destruct (decimal (a - last)); [congruence|]. congruence.
  - assert (a - last = b - last); [|lia]. apply decimal_inj; try lia. simpl in H1, H2. congruence.
Qed.

Lemma greek_inj : forall checked i j s, 0 <= i < two32 -> 0 <= j < two32 ->
  type_variable_index_to_string_greek checked i = Named s -> type_variable_index_to_string_greek checked j = Named s -> i = j.
Proof. intros. eapply index_string_inj; eauto; lia. Qed.
Lemma latin_inj : forall checked i j s, 0 <= i < two32 -> 0 <= j < two32 ->
  type_variable_index_to_string_latin checked i = Named s -> type_variable_index_to_string_latin checked j = Named s -> i = j.
Proof. intros. eapply index_string_inj; eauto; lia. Qed.
Lemma index_string_total : forall checked i first last f, 0 <= i -> 0 <= first -> (checked = true -> first + i < two32) ->
  exists s, type_variable_index_to_string checked i first last f = Named s.
Proof.
  intros checked i first last f Hi Hf Hc. unfold type_variable_index_to_string. destruct checked; cbn [andb].
  - destruct (Z.leb_spec two32 (first + i)); [specialize (Hc eq_refl); lia|]. destruct (_ <=? _); eauto.
  - destruct (_ <=? _); eauto.
Qed.

(** Subscripts *)
Definition subscript_value (s : text) : Z := fold_left (fun v c => v * 10 + (c - 0x2080)) s 0.
Lemma subscript_value_app : forall l v, fold_left (fun v c => v * 10 + (c - 0x2080)) l v = v * 10 ^ Z.of_nat (length l) + subscript_value l.
Proof.
  unfold subscript_value. induction l as [|c l IH]; intros v; [simpl; lia|]. cbn [fold_left length]. rewrite IH, (IH (0 * 10 + (c - 0x2080))).
  rewrite Nat2Z.inj_succ, Z.pow_succ_r by lia. lia.
Qed.
Lemma subscript_loop_ok : forall fuel n acc, 0 <= n -> n < 2 ^ Z.of_nat fuel ->
  exists s, subscript_loop (S fuel) n acc = Named s /\ subscript_value s = n * 10 ^ Z.of_nat (length acc) + subscript_value acc.
Proof.
  induction fuel as [|f IH]; intros n acc H L; cbn [subscript_loop]; destruct (Z.ltb_spec 0 n).
  - change (2 ^ Z.of_nat 0) with 1 in L. lia.
  - exists acc. split; auto. lia.
  - assert (Hd : n = 10 * (n / 10) + n mod 10) by (apply Z.div_mod; lia). assert (Hm : 0 <= n mod 10 < 10) by (apply Z.mod_pos_bound; lia).
    rewrite Nat2Z.inj_succ, Z.pow_succ_r in L by lia.
    destruct (IH (n / 10) (0x2080 + n mod 10 :: acc)) as (s & E & V); [lia|lia|]. exists s. split; auto.
    rewrite V. unfold subscript_value at 1. cbn [fold_left length]. rewrite subscript_value_app. rewrite Nat2Z.inj_succ, Z.pow_succ_r by lia. rewrite Hd at 3. ring.
  - exists acc. split; auto. lia.
Qed.
Lemma subscript_total : forall n, 0 <= n < two32 -> exists s, type_variable_subscript n = Named s /\ subscript_value s = n.
Proof.
  intros n H. unfold type_variable_subscript. destruct (Z.eqb_spec n 0) as [->|N]; [exists [0x2080]; split; reflexivity|].
  destruct (subscript_loop_ok 32 n []) as (s & E & V); [lia|unfold two32 in H; simpl; lia|]. exists s. split; auto. rewrite V. unfold subscript_value. simpl. lia.
Qed.
Lemma subscript_inj : forall i j s, 0 <= i < two32 -> 0 <= j < two32 -> type_variable_subscript i = Named s -> type_variable_subscript j = Named s -> i = j.
Proof.
  intros i j s Hi Hj E1 E2. destruct (subscript_total i Hi) as (s1 & F1 & <-). destruct (subscript_total j Hj) as (s2 & F2 & <-). congruence.
Qed.

(** Display names *)
Lemma text_eqb_eq : forall a b, text_eqb a b = true <-> a = b.
Proof. intros. unfold text_eqb. destruct (list_eq_dec Z.eq_dec a b); split; congruence. Qed.
Lemma existsb_text : forall n used, existsb (text_eqb n) used = true <-> In n used.
Proof.
  intros n used. rewrite existsb_exists. split.
  - intros (x & Hx & E). apply text_eqb_eq in E. subst. auto.
  - intros H. exists n. split; auto. apply text_eqb_eq. auto.
Qed.

Section Display.
Variable candidate : Z -> named text.
Variable checked : bool.
(** Indices below [top] have distinct candidates. *)
Variable top : Z.
Hypothesis Htop : top <= two32.
Hypothesis total : forall i, 0 <= i < top -> exists s, candidate i = Named s.
Hypothesis inj : forall i j s, 0 <= i < top -> 0 <= j < top -> candidate i = Named s -> candidate j = Named s -> i = j.

Lemma pick_ok : forall fuel used index seen, NoDup seen -> incl seen used -> (length used < fuel + length seen)%nat ->
  (forall s, In s seen -> exists i, 0 <= i < index /\ i < top /\ candidate i = Named s) ->
  0 <= index -> index + Z.of_nat fuel <= top ->
  exists s, pick candidate checked fuel used index = Named s /\ ~ In s used.
Proof.
  induction fuel as [|f IH]; intros used index seen N I L C H0 HT.
  - exfalso. apply NoDup_incl_length in I; auto. simpl in L. lia.
  - cbn [pick]. destruct (total index) as (name & E); [lia|]. rewrite E.
    destruct (existsb (text_eqb name) used) eqn:X.
    + apply existsb_text in X. assert (Hn : ~ In name seen).
      { intros F. destruct (C name F) as (i & Hi & Hi' & Ei). assert (i = index) by (eapply inj; eauto; lia). lia. }
      destruct f as [|f].
      { exfalso. assert (J : incl (name :: seen) used) by (intros y [<-|Hy]; auto). apply NoDup_incl_length in J; [simpl in J; simpl in L; lia|constructor; auto]. }
      assert (checked && (two32 <=? index + 1) = false) as -> by (destruct (Z.leb_spec two32 (index + 1)); [lia|apply andb_false_r]).
      rewrite Z.mod_small by lia. apply (IH used (index + 1) (name :: seen)).
      * constructor; auto.
      * intros y [<-|Hy]; auto.
      * simpl. lia.
      * intros y [<-|Hy]; [exists index; repeat split; auto; lia|]. destruct (C y Hy) as (i & Hi & Hi' & Ei). exists i. repeat split; auto; lia.
      * lia.
      * lia.
    + exists name. split; auto. intros F. apply existsb_text in F. congruence.
Qed.

Lemma name_of_in : forall names q s, name_of names q = Some s -> In (q, s) names.
Proof. induction names as [|(k, n) names IH]; simpl; intros q s H; [discriminate|]. destruct (Z.eqb_spec k q) as [->|N]; auto. inversion H; auto. Qed.

(** All names are in [used], and different variables have different names. *)
Definition good (names : list (Z * text)) (used : list text) : Prop :=
  (forall q s, name_of names q = Some s -> In s used) /\
  (forall q q' s, name_of names q = Some s -> name_of names q' = Some s -> q = q').

Lemma choose_ok : forall qs names used, good names used ->
  (forall q, In q qs -> 0 <= q /\ q + Z.of_nat (length used + length qs) < top) ->
  exists names', choose candidate checked qs names used = Named names' /\
  (forall q, In q qs -> name_of names' q <> None) /\
  (forall q s, name_of names q = Some s -> name_of names' q = Some s) /\
  (forall q q' s, name_of names' q = Some s -> name_of names' q' = Some s -> q = q').
Proof.
  induction qs as [|q qs IH]; intros names used (G1 & G2) B; cbn [choose].
  - exists names. repeat split; auto.
  - destruct (name_of names q) as [s|] eqn:E.
    + destruct (IH names used) as (names' & E' & A1 & A2 & A3); [split; auto|intros q' Hq'; specialize (B q' (or_intror Hq')); cbn [length] in B; lia|].
      exists names'. split; auto. split; [|auto]. intros q' [<-|Hq']; auto. rewrite (A2 _ _ E). discriminate.
    + destruct (pick_ok (S (length used)) used q []) as (s & Es & Hs).
      { constructor. } { intros y []. } { simpl. lia. } { intros y []. } { apply B; simpl; auto. } { specialize (B q (or_introl eq_refl)). cbn [length] in B. lia. }
      rewrite Es. destruct (IH ((q, s) :: names) (s :: used)) as (names' & E' & A1 & A2 & A3).
      * split.
        -- intros q' s' H. simpl in H. destruct (Z.eqb_spec q q') as [->|N]; [inversion H; simpl; auto|simpl; right; eauto].
        -- intros q1 q2 s' H1 H2. simpl in H1, H2. destruct (Z.eqb_spec q q1) as [Q1|N1], (Z.eqb_spec q q2) as [Q2|N2]; [congruence| | |].
           ++ inversion H1; subst s'. exfalso. apply Hs. eapply G1; eauto.
           ++ inversion H2; subst s'. exfalso. apply Hs. eapply G1; eauto.
           ++ eapply G2; eauto.
      * intros q' Hq'. specialize (B q' (or_intror Hq')). cbn [length] in *. lia.
      * exists names'. split; auto. split; [|split; auto].
        -- intros q' [<-|Hq']; auto. rewrite (A2 q s); [discriminate|]. simpl. rewrite Z.eqb_refl. auto.
        -- intros q' s' H. apply A2. simpl. destruct (Z.eqb_spec q q') as [->|N]; [congruence|auto].
Qed.

Lemma source_names_ok : forall only params index q s, name_of (source_names only index params) q = Some s <->
  only q = true /\ index <= q /\ nth_error params (Z.to_nat (q - index)) = Some s.
Proof.
  intros only. induction params as [|p ps IH]; intros index q s; cbn [source_names].
  - simpl. split; [discriminate|]. intros (_ & _ & H). destruct (Z.to_nat (q - index)); discriminate.
  - assert (ST : forall q, index + 1 <= q -> Z.to_nat (q - index) = S (Z.to_nat (q - (index + 1)))) by (intros; lia).
    assert (R : (only q = true /\ index <= q /\ nth_error (p :: ps) (Z.to_nat (q - index)) = Some s) <->
      (q = index /\ only q = true /\ p = s) \/ (only q = true /\ index + 1 <= q /\ nth_error ps (Z.to_nat (q - (index + 1))) = Some s)).
    { split.
      - intros (O & L & H). destruct (Z.eq_dec q index) as [->|N].
        + rewrite Z.sub_diag in H. simpl in H. inversion H. auto.
        + right. rewrite ST in H by lia. simpl in H. repeat split; auto. lia.
      - intros [(-> & O & ->)|(O & L & H)].
        + rewrite Z.sub_diag. repeat split; auto. lia.
        + rewrite ST by lia. repeat split; auto. lia. }
    rewrite R, <- IH. clear R. destruct (only index) eqn:O.
    + cbn [name_of]. destruct (Z.eqb_spec index q) as [<-|N].
      * split.
        -- intros H. inversion H. auto.
        -- intros [(_ & _ & ->)|H]; auto. apply IH in H. lia.
      * split; auto. intros [(-> & _)|H]; auto. congruence.
    + split; auto. intros [(-> & O' & _)|H]; auto. congruence.
Qed.

Lemma display_ok : forall only qs params, NoDup params ->
  (forall q, In q qs -> 0 <= q /\ q + Z.of_nat (length params + length qs) < top) ->
  exists names, display_names candidate checked only qs params = Named names /\
  (forall q, In q qs -> name_of names q <> None) /\
  (forall i s, only (Z.of_nat i) = true -> nth_error params i = Some s -> name_of names (Z.of_nat i) = Some s) /\
  (forall q q' s, name_of names q = Some s -> name_of names q' = Some s -> q = q').
Proof.
  intros only qs params N B. destruct (choose_ok qs (source_names only 0 params) params) as (names & E & A1 & A2 & A3); auto.
  - split.
    + intros q s H. apply source_names_ok in H. destruct H as (_ & _ & H). eapply nth_error_In; eauto.
    + intros q q' s H1 H2. apply source_names_ok in H1, H2. destruct H1 as (_ & L1 & H1). destruct H2 as (_ & L2 & H2).
      assert (Z.to_nat (q - 0) = Z.to_nat (q' - 0)); [|lia]. eapply (proj1 (NoDup_nth_error params) N); [apply nth_error_Some; congruence|congruence].
  - exists names. repeat split; auto. intros i s O H. apply A2. apply source_names_ok. rewrite Z.sub_0_r, Nat2Z.id. repeat split; auto. lia.
Qed.
End Display.

Lemma display_ty_ok : forall checked qs params, NoDup params ->
  (forall q, In q qs -> 0 <= q /\ q + Z.of_nat (length params + length qs) < 2 ^ 32 - 65) ->
  exists names, display_ty_var_names checked qs params = Named names /\
  (forall q, In q qs -> name_of names q <> None) /\
  (forall i s, In (Z.of_nat i) qs -> nth_error params i = Some s -> name_of names (Z.of_nat i) = Some s) /\
  (forall q q' s, name_of names q = Some s -> name_of names q' = Some s -> q = q').
Proof.
  intros checked qs params N B. change (2 ^ 32 - 65) with 4294967231 in B.
  destruct (display_ok (type_variable_index_to_string_latin checked) checked 4294967231 ltac:(unfold two32; lia)) with (only := fun i => existsb (Z.eqb i) qs) (qs := qs) (params := params) as (names & E & A1 & A2 & A3); auto.
  - intros i Hi. apply index_string_total; try lia. intros _. unfold two32. lia.
  - intros i j s Hi Hj. apply latin_inj; unfold two32; lia.
  - exists names. repeat split; auto. intros i s Hi. apply A2. apply existsb_exists. exists (Z.of_nat i). split; auto. apply Z.eqb_refl.
Qed.
Lemma display_eff_ok : forall checked qs params, NoDup params ->
  (forall q, In q qs -> 0 <= q /\ q + Z.of_nat (length params + length qs) < 2 ^ 32) ->
  exists names, display_eff_var_names checked qs params = Named names /\
  (forall q, In q qs -> name_of names q <> None) /\
  (forall i s, nth_error params i = Some s -> name_of names (Z.of_nat i) = Some s) /\
  (forall q q' s, name_of names q = Some s -> name_of names q' = Some s -> q = q').
Proof.
  intros checked qs params N B. change (2 ^ 32) with two32 in B.
  edestruct (display_ok (fun i => match type_variable_subscript i with Named s => Named (101 :: s) | Overflows => Overflows | OutOfFuel => OutOfFuel end) checked two32 ltac:(lia)) with (only := fun _ : Z => true) (qs := qs) (params := params) as (names & E & A1 & A2 & A3); auto.
  - intros i Hi. destruct (subscript_total i Hi) as (s & -> & _). eauto.
  - intros i j s Hi Hj E1 E2. destruct (subscript_total i Hi) as (s1 & F1 & V1). destruct (subscript_total j Hj) as (s2 & F2 & V2). rewrite F1 in E1. rewrite F2 in E2.
    inversion E1; subst s. inversion E2; subst s2. congruence.
  - exists names. repeat split; auto.
Qed.
