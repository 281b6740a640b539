(** The roots found are those of the specification. *)
From Coq Require Import List Bool Arith Lia.
From Verif Require Import LicmModel LicmSpec LicmStatic.
Import ListNotations.

Section Roots.
Variable f : func.
Hypothesis SSA : NoDup (results f).

Lemma root_unique : forall o x, rooted f o x -> forall y, rooted f o y -> x = y.
Proof.
  intros o x H. induction H as [p|s op r A R K|s op r A R K|s op r n base rest x A R K O _ IH]; intros y H'.
  - inversion H'. reflexivity.
  - inversion H' as [|s' op' r' A' R' K'|s' op' r' A' R' K'|s' op' r' n' base' rest' x' A' R' K' O' B']; subst; [reflexivity| |];
      destruct (one_site f r s op s' op' SSA A R A' R') as [-> <-]; destruct K as [(ty & K)|[K|K]]; congruence.
  - inversion H' as [|s' op' r' A' R' K'|s' op' r' A' R' K'|s' op' r' n' base' rest' x' A' R' K' O' B']; subst; [|reflexivity|];
      destruct (one_site f r s op s' op' SSA A R A' R') as [-> <-]; [destruct K' as [(ty & K')|[K'|K']]|]; congruence.
  - inversion H' as [|s' op' r' A' R' K'|s' op' r' A' R' K'|s' op' r' n' base' rest' x' A' R' K' O' B']; subst;
      destruct (one_site f r s op s' op' SSA A R A' R') as [-> <-]; [destruct K' as [(ty & K')|[K'|K']]; congruence|congruence|].
    rewrite O in O'. injection O' as <- <-. apply IH. exact B'.
Qed.

Definition sound (t : roots) : Prop := forall r x, t r = Some x -> rooted f (Reg r) x.
Definition known (t : roots) (r : reg) : Prop := t r <> None.

Lemma sound_of : forall t o x, sound t -> root_of t o = Some x -> rooted f o x.
Proof. intros t [r|p|n|n] x S H; cbn in H; try discriminate; [apply S; exact H|]. injection H as <-. constructor. Qed.

Lemma base_sound : forall l t, (forall op, In op l -> In op (all_ops f)) -> sound t -> sound (fold_left base_root l t).
Proof.
  induction l as [|op l IH]; intros t I S; [exact S|]. cbn [fold_left]. apply IH; [intros o J; apply I; right; exact J|].
  destruct (proj1 (in_all_ops f op) (I op (or_introl eq_refl))) as (s & A). unfold base_root.
  destruct (result op) as [r|] eqn:R; [|exact S].
  destruct (okind op) eqn:K; try exact S; intros y x H; unfold insert in H; destruct (Nat.eqb_spec y r) as [->|_]; try (apply S; exact H);
    injection H as <-.
  - eapply rooted_cell; eauto.
  - eapply rooted_cell; eauto.
  - eapply rooted_cell; eauto.
  - eapply rooted_entry; eauto.
Qed.

Lemma sub_sound : forall l t, (forall op, In op l -> In op (all_ops f)) -> sound t -> sound (fold_left sub_root l t).
Proof.
  induction l as [|op l IH]; intros t I S; [exact S|]. cbn [fold_left]. apply IH; [intros o J; apply I; right; exact J|].
  destruct (proj1 (in_all_ops f op) (I op (or_introl eq_refl))) as (s & A). unfold sub_root.
  destruct (okind op) eqn:K; try exact S. destruct (result op) as [r|] eqn:R; [|exact S].
  destruct (operands op) as [|base rest] eqn:O; [exact S|]. destruct (root_of t base) as [z|] eqn:B; [|exact S].
  intros y x H. unfold insert in H. destruct (Nat.eqb_spec y r) as [->|_]; [|apply S; exact H]. injection H as <-.
  eapply rooted_part; eauto. eapply sound_of; eauto.
Qed.

Lemma base_grows : forall l t r, known t r -> known (fold_left base_root l t) r.
Proof.
  induction l as [|op l IH]; intros t r K; [exact K|]. cbn [fold_left]. apply IH. unfold base_root.
  destruct (result op) as [z|]; [|exact K]. destruct (okind op); try exact K; unfold known, insert; destruct (r =? z); auto; discriminate.
Qed.

Lemma sub_grows1 : forall op t r, known t r -> known (sub_root t op) r.
Proof.
  intros op t r K. unfold sub_root. destruct (okind op); try exact K. destruct (result op) as [z|]; [|exact K].
  destruct (operands op) as [|b l]; [exact K|]. destruct (root_of t b); [|exact K].
  unfold known, insert. destruct (r =? z); auto; discriminate.
Qed.

Lemma sub_grows : forall l t r, known t r -> known (fold_left sub_root l t) r.
Proof. induction l as [|op l IH]; intros t r K; [exact K|]. cbn [fold_left]. apply IH, sub_grows1, K. Qed.

Lemma base_complete : forall l t op r, In op l -> result op = Some r ->
  (exists ty, okind op = Alloca ty) \/ okind op = AllocaPlace \/ okind op = SubscriptMember \/ okind op = DictEntry ->
  known (fold_left base_root l t) r.
Proof.
  induction l as [|a l IH]; intros t op r J R K; [destruct J|]. cbn [fold_left]. destruct J as [->|J]; [|eapply IH; eauto].
  apply base_grows. unfold base_root, known. rewrite R.
  destruct K as [(ty & K)|[K|[K|K]]]; rewrite K; unfold insert; rewrite Nat.eqb_refl; discriminate.
Qed.

Lemma known_of : forall t t' o, (forall r, known t r -> known t' r) -> root_of t o <> None -> root_of t' o <> None.
Proof. intros t t' [r|p|n|n] H; cbn; [apply H|auto|auto|auto]. Qed.

Definition closed (t : roots) : Prop := forall op n r base rest, In op (all_ops f) -> okind op = Subfield n ->
  result op = Some r -> operands op = base :: rest -> root_of t base <> None -> known t r.

Lemma sub_complete : forall l t op n r base rest, In op l -> okind op = Subfield n -> result op = Some r ->
  operands op = base :: rest -> root_of t base <> None -> known (fold_left sub_root l t) r.
Proof.
  induction l as [|a l IH]; intros t op n r base rest J K R O B; [destruct J|]. cbn [fold_left]. destruct J as [->|J].
  - apply sub_grows. unfold sub_root, known. rewrite K, R, O. destruct (root_of t base); [|congruence].
    unfold insert. rewrite Nat.eqb_refl. discriminate.
  - eapply IH; eauto. eapply known_of; [|exact B]. intros z. apply sub_grows1.
Qed.

Lemma closed_stays : forall l t, closed t -> (forall op, In op l -> In op (all_ops f)) ->
  forall t', (forall r, known t' r <-> known t r) -> forall r, known (fold_left sub_root l t') r <-> known t r.
Proof.
  induction l as [|op l IH]; intros t C I t' E r; [apply E|]. cbn [fold_left]. apply IH; [exact C|intros o J; apply I; right; exact J|].
  intros z. split; [|intros K; apply sub_grows1, E, K]. unfold sub_root.
  destruct (okind op) eqn:K; try apply E. destruct (result op) as [y|] eqn:R; [|apply E].
  destruct (operands op) as [|b rest] eqn:O; [apply E|]. destruct (root_of t' b) eqn:B; [|apply E].
  unfold known, insert. destruct (Nat.eqb_spec z y) as [->|_]; [|apply E]. intros _.
  eapply C; [apply I; left; reflexivity|exact K|exact R|exact O|]. eapply known_of; [intros x; apply E|]. rewrite B. discriminate.
Qed.

Definition is_known (t : roots) (op : operation) : bool :=
  match result op with Some r => match t r with Some _ => true | None => false end | None => false end.
Definition count (t : roots) : nat := length (filter (is_known t) (all_ops f)).

Lemma filter_le : forall (A : Type) (p q : A -> bool) l, (forall x, In x l -> p x = true -> q x = true) ->
  length (filter p l) <= length (filter q l) /\
  (length (filter p l) = length (filter q l) -> forall x, In x l -> q x = true -> p x = true).
Proof.
  intros A p q l. induction l as [|a l IH]; intros H; [split; [auto|intros _ x []]|].
  destruct IH as [I1 I2]; [intros x J; apply H; right; exact J|]. pose proof (H a (or_introl eq_refl)) as Ha. cbn [filter].
  destruct (p a) eqn:P.
  - rewrite Ha by reflexivity. cbn [length]. split; [lia|]. intros E x [->|J]; [auto|]. apply I2; [lia|exact J].
  - destruct (q a) eqn:Q; cbn [length]; (split; [lia|]); intros E x [->|J]; try congruence; [|intros; lia|].
    + exfalso. lia.
    + apply I2; [lia|exact J].
Qed.

Lemma sweeps_close : forall k t, k <= count (Nat.iter k (sweep f) t) \/ closed (Nat.iter k (sweep f) t).
Proof.
  induction k as [|k IH]; intros t; [left; lia|]. cbn [Nat.iter nat_rect]. fold (Nat.iter k (sweep f) t).
  set (u := Nat.iter k (sweep f) t) in *. destruct (IH t) as [L|C].
  - fold u in L. destruct (filter_le _ (is_known u) (is_known (sweep f u)) (all_ops f)) as [F1 F2].
    { intros op J. unfold is_known. destruct (result op) as [r|]; [|discriminate]. intros H.
      assert (K : known (sweep f u) r). { apply sub_grows. unfold known. destruct (u r); [discriminate|discriminate]. }
      unfold known in K. destruct (sweep f u r); [reflexivity|congruence]. }
    fold (count u) in F1, F2. fold (count (sweep f u)) in F1, F2.
    destruct (Nat.eq_dec (count u) (count (sweep f u))) as [E|E]; [right|left; lia].
    assert (C : closed u).
    { intros op n r base rest J K R O B. assert (K1 : known (sweep f u) r) by (eapply sub_complete; eauto).
      assert (Q : is_known u op = true).
      { apply F2; [exact E|exact J|]. unfold is_known. rewrite R. unfold known in K1. destruct (sweep f u r); [reflexivity|congruence]. }
      unfold is_known in Q. rewrite R in Q. unfold known. destruct (u r); discriminate. }
    intros op n r base rest J K R O B. pose proof (closed_stays (all_ops f) u C (fun o H => H) u (fun r => iff_refl _)) as S.
    fold (sweep f u) in S. apply S. eapply C; eauto. eapply known_of; [|exact B]. intros z. apply S.
  - right. fold u in C. intros op n r base rest J K R O B.
    pose proof (closed_stays (all_ops f) u C (fun o H => H) u (fun r => iff_refl _)) as S.
    fold (sweep f u) in S. apply S. eapply C; eauto. eapply known_of; [|exact B]. intros z. apply S.
Qed.

Lemma filter_length : forall (A : Type) (p : A -> bool) l, length (filter p l) <= length l.
Proof. intros A p l. induction l as [|a l IH]; cbn; [auto|]. destruct (p a); cbn; lia. Qed.

Lemma iter_grows : forall k t r, known t r -> known (Nat.iter k (sweep f) t) r.
Proof. induction k as [|k IH]; intros t r K; [exact K|]. cbn. apply sub_grows. apply IH. exact K. Qed.

Lemma iter_sound : forall k t, sound t -> sound (Nat.iter k (sweep f) t).
Proof. induction k as [|k IH]; intros t K; [exact K|]. cbn. apply sub_sound; [auto|]. apply IH. exact K. Qed.

Lemma root_of_iff : forall o x, root_of (place_roots f) o = Some x <-> rooted f o x.
Proof.
  set (base := fold_left base_root (all_ops f) (fun _ => None)).
  assert (S : sound (place_roots f)).
  { unfold place_roots. apply iter_sound. apply base_sound; [auto|]. intros r x H. discriminate. }
  assert (C : closed (place_roots f)).
  { unfold place_roots. destruct (sweeps_close (Datatypes.S (length (all_ops f))) base) as [L|C]; [|exact C].
    exfalso. pose proof (filter_length _ (is_known (Nat.iter (Datatypes.S (length (all_ops f))) (sweep f) base)) (all_ops f)) as Q.
    unfold count in L. lia. }
  assert (K : forall o x, rooted f o x -> root_of (place_roots f) o <> None).
  { intros o x H. induction H as [p|s op r A R K|s op r A R K|s op r n b rest x A R K O _ IH].
    - discriminate.
    - cbn [root_of]. apply iter_grows. eapply base_complete; [apply in_all_ops; eauto|exact R|]. tauto.
    - cbn [root_of]. apply iter_grows. eapply base_complete; [apply in_all_ops; eauto|exact R|]. tauto.
    - cbn [root_of]. eapply C; [apply in_all_ops; eauto|exact K|exact R|exact O|exact IH]. }
  intros o x. split; [apply sound_of; exact S|]. intros H. destruct (root_of (place_roots f) o) as [y|] eqn:E.
  - f_equal. eapply root_unique; [eapply sound_of; eauto|exact H].
  - exfalso. eapply K; eauto.
Qed.

Lemma rooted_in_iff : forall x o, rooted_in (place_roots f) x o = true <-> rooted f o x.
Proof.
  intros x o. unfold rooted_in. rewrite <- root_of_iff. destruct (root_of (place_roots f) o) as [y|].
  - rewrite root_eqb_eq. split; [intros ->; reflexivity|]. intros H. injection H as ->. reflexivity.
  - split; discriminate.
Qed.

(** ** Writes *)

Lemma in_writes : forall bs x s, In s (writes_in f (place_roots f) bs x) <->
  exists bl op o, In (fst s) bs /\ nth_error f (fst s) = Some bl /\
    nth_error (block_operations bl) (snd s) = Some op /\ written op o /\ rooted f o x.
Proof.
  intros bs x s. unfold writes_in, block_writes. rewrite in_flat_map. split.
  - intros (b & J & H). destruct (nth_error f b) as [bl|] eqn:B; [|destruct H]. apply in_flat_map in H.
    destruct H as ((s' & op) & J' & H). apply in_map_iff in H. destruct H as (o & <- & H). apply filter_In in H.
    destruct H as [W R]. apply in_block_sites in J'. destruct J' as (k & -> & N). cbn [fst snd] in *.
    exists bl, op, o. rewrite Nat.add_0_l. split; [exact J|]. split; [exact B|]. split; [exact N|].
    split; [apply written_iff; exact W|apply rooted_in_iff; exact R].
  - intros (bl & op & o & J & B & N & W & R). exists (fst s). split; [exact J|]. rewrite B. apply in_flat_map.
    exists (s, op). split; [apply in_block_sites; exists (snd s); destruct s; auto|]. apply in_map_iff. exists o. split; [reflexivity|].
    apply filter_In. split; [apply written_iff; exact W|apply rooted_in_iff; exact R].
Qed.

Lemma not_used_outside : forall bs x, root_used_outside f (place_roots f) bs x = false ->
  forall b bl o, nth_error f b = Some bl -> ~ In b bs ->
    In o (flat_map operands (ops bl) ++ term_operands (term bl)) -> ~ rooted f o x.
Proof.
  intros bs x H b bl o B N J R. assert (T : root_used_outside f (place_roots f) bs x = true); [|congruence].
  unfold root_used_outside. apply existsb_exists. exists b. split.
  - apply in_seq. assert (b < length f) by (apply nth_error_Some; congruence). lia.
  - rewrite B. apply andb_true_intro. split.
    + apply negb_true_iff. apply not_true_iff_false. rewrite mem_In. exact N.
    + apply existsb_exists. exists o. split; [exact J|apply rooted_in_iff; exact R].
Qed.
End Roots.
