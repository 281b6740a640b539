From Coq Require Import List Bool Arith ZArith Lia.
From Verif Require Import NamedModel NamedSpec.
Import ListNotations.

Section Proofs.
Context {T : Type}.
Implicit Types t : table T.

Lemma find_put : forall m n id n', find_name (put_name m n id) n' = if n =? n' then Some id else find_name m n'.
Proof.
  intros. unfold put_name. cbn [find_name]. destruct (Nat.eqb_spec n n') as [|N]; auto.
  induction m as [|(k, i) m IH]; simpl; auto. destruct (Nat.eqb_spec k n) as [->|N2]; simpl.
  - destruct (Nat.eqb_spec n n'); [lia|auto].
  - destruct (k =? n'); auto.
Qed.
Definition keys_ok (m : list (nat * nat)) : Prop := NoDup (map fst m).
Lemma find_filter : forall m len n, keys_ok m -> find_name (filter (fun b => snd b <? len) m) n = match find_name m n with Some id => if id <? len then Some id else None | None => None end.
Proof.
  unfold keys_ok. induction m as [|(k, i) m IH]; simpl; intros len n H; auto. inversion H as [|x l N D]; subst. destruct (Nat.ltb_spec i len) as [L|L]; simpl.
  - destruct (k =? n); [destruct (Nat.ltb_spec i len); [auto|lia]|auto].
  - destruct (Nat.eqb_spec k n) as [->|NE]; [|apply IH; auto]. rewrite IH by auto. assert (E : find_name m n = None).
    { clear - N. induction m as [|(k, j) m IH]; simpl; auto. simpl in N. destruct (Nat.eqb_spec k n) as [->|]; [exfalso; apply N; auto|apply IH; auto]. }
    rewrite E. destruct (Nat.ltb_spec i len); [lia|auto].
Qed.
Lemma keys_filter : forall (f : nat * nat -> bool) m, keys_ok m -> keys_ok (filter f m).
Proof.
  unfold keys_ok. induction m as [|(k, i) m IH]; simpl; intros H; auto. inversion H as [|x l N D]; subst. destruct (f (k, i)); simpl; auto. constructor; auto.
  intros C. apply N. apply in_map_iff in C. destruct C as ((a, b) & E & C). apply filter_In in C. simpl in E. subst. apply in_map_iff. exists (k, b). split; auto. apply C.
Qed.
Lemma keys_put : forall m n id, keys_ok m -> keys_ok (put_name m n id).
Proof.
  intros. unfold put_name, keys_ok. simpl. constructor; [|apply keys_filter; auto].
  intros C. apply in_map_iff in C. destruct C as ((a, b) & E & C). apply filter_In in C. simpl in *. subst. destruct C as (_ & C). rewrite Nat.eqb_refl in C. discriminate.
Qed.

Lemma set_value_nth : forall (l : list (T * option nat)) i v j, nth_error (set_value l i v) j = if i =? j then option_map (fun x => (v, snd x)) (nth_error l j) else nth_error l j.
Proof.
  induction l as [|(w, n) l IH]; intros i v j; destruct i, j; simpl; auto. destruct (i =? j); auto.
Qed.
Lemma nth_last : forall A (l : list A) x i y, nth_error (l ++ [x]) i = Some y <-> nth_error l i = Some y \/ (i = length l /\ x = y).
Proof.
  intros A l x i y. destruct (Nat.lt_ge_cases i (length l)) as [H|H].
  - rewrite nth_error_app1 by auto. split; auto. intros [E|(E & _)]; auto. lia.
  - rewrite nth_error_app2 by auto. split.
    + destruct (i - length l) as [|k] eqn:D; [|destruct k; discriminate]. simpl. intros E. inversion E. right. split; auto. lia.
    + intros [E|(-> & ->)]; [assert (i < length l) by (apply nth_error_Some; congruence); lia|]. rewrite Nat.sub_diag. reflexivity.
Qed.
Lemma nth_firstn : forall A (l : list A) n i y, nth_error (firstn n l) i = Some y <-> i < n /\ nth_error l i = Some y.
Proof.
  induction l as [|x l IH]; intros n i y; destruct n, i; simpl; try (split; [discriminate|intros (_ & H); discriminate]); try (split; [discriminate|intros (H & _); lia]).
  - split; [intros H; split; [lia|auto]|intros (_ & H); auto].
  - rewrite IH. split; intros (A1 & A2); split; auto; lia.
Qed.

Record ok (full : bool) t : Prop := mkOk {
  ok_keys : keys_ok (name_to_id t);
  ok_find : forall n id, find_name (name_to_id t) n = Some id -> last_with_name (data t) n id;
  ok_full : full = true -> forall n i v, nth_error (data t) i = Some (v, Some n) -> find_name (name_to_id t) n <> None
}.
Lemma new_ok : forall full, ok full new_table.
Proof. intros full. constructor; simpl; [constructor|discriminate|]. intros _ n i v H. destruct i; discriminate. Qed.

Lemma insert_ok : forall full t n v, ok full t -> ok full (fst (insert t n v)).
Proof.
  intros full t n v O. unfold insert. constructor; cbn [fst data name_to_id].
  - apply keys_put, O.
  - intros n' id. rewrite find_put. destruct (Nat.eqb_spec n n') as [->|N]; intros H.
    + inversion H; subst id. split; [exists v; apply nth_last; auto|]. intros j w L E. assert (j < length (data t ++ [(v, Some n')])) by (apply nth_error_Some; congruence). rewrite app_length in H0. simpl in H0. lia.
    + destruct (ok_find _ _ O _ _ H) as ((w & E) & L). split; [exists w; apply nth_last; auto|]. intros j x J C. apply nth_last in C. destruct C as [C|(-> & C)]; [eapply L; eauto|congruence].
  - intros F n' i w H. rewrite find_put. destruct (Nat.eqb_spec n n') as [->|N]; [discriminate|]. apply nth_last in H. destruct H as [H|(_ & H)]; [eapply (ok_full _ _ O); eauto|congruence].
Qed.
Lemma anonymous_ok : forall full t v, ok full t -> ok full (fst (insert_anonymous t v)).
Proof.
  intros full t v O. unfold insert_anonymous. constructor; cbn [fst data name_to_id]; [apply O| |].
  - intros n' id H. destruct (ok_find _ _ O _ _ H) as ((w & E) & L). split; [exists w; apply nth_last; auto|]. intros j x J C. apply nth_last in C. destruct C as [C|(-> & C)]; [eapply L; eauto|congruence].
  - intros F n' i w H. apply nth_last in H. destruct H as [H|(_ & H)]; [eapply (ok_full _ _ O); eauto|congruence].
Qed.
Lemma replace_ok : forall full t n v, ok full t -> exists t' id old, replace t n v = Some (t', (id, old)) /\ ok full t' /\
  match find_name (name_to_id t) n with
  | Some i => id = i /\ old = get t i /\ data t' = set_value (data t) i v /\ name_to_id t' = name_to_id t
  | None => old = None /\ t' = fst (insert t n v) /\ id = length (data t)
  end.
Proof.
  intros full t n v O. unfold replace. destruct (find_name (name_to_id t) n) as [i|] eqn:F.
  - destruct (ok_find _ _ O _ _ F) as ((w & E) & L). rewrite E. eexists. exists i, (Some w). split; [reflexivity|]. split.
    + assert (K : forall j x k, nth_error (set_value (data t) i v) j = Some (x, k) -> exists y, nth_error (data t) j = Some (y, k)).
      { intros j x k H. rewrite set_value_nth in H. destruct (i =? j); eauto. destruct (nth_error (data t) j) as [(y, k')|]; [|discriminate]. simpl in H. inversion H; subst. eauto. }
      constructor; cbn [data name_to_id]; [apply O| |].
      * intros n' id H. destruct (ok_find _ _ O _ _ H) as ((w' & E') & L'). split.
        -- rewrite set_value_nth, E'. destruct (i =? id); simpl; eauto.
        -- intros j x J C. apply K in C. destruct C as (y & C). eapply L'; eauto.
      * intros H n' j x C. apply K in C. destruct C as (y & C). eapply (ok_full _ _ O); eauto.
    + split; auto. split; [unfold get; rewrite E; auto|]. split; auto.
  - exists (fst (insert t n v)), (length (data t)), None. split; [reflexivity|]. split; [apply insert_ok; auto|]. auto.
Qed.
Lemma truncate_ok : forall full t len, ok full t -> ok false (truncate t len).
Proof.
  intros full t len O. unfold truncate. constructor; cbn [data name_to_id]; [apply keys_filter, O| |discriminate].
  intros n id H. rewrite find_filter in H by apply O. destruct (find_name (name_to_id t) n) as [i|] eqn:F; [|discriminate]. destruct (Nat.ltb_spec i len); [|discriminate]. inversion H; subst id.
  destruct (ok_find _ _ O _ _ F) as ((w & E) & L). split; [exists w; apply nth_firstn; auto|]. intros j x J C. apply nth_firstn in C. eapply L; eauto. apply C.
Qed.

Lemma weaken : forall full t, ok full t -> ok false t.
Proof. intros full t O. constructor; [apply O|apply O|discriminate]. Qed.
Lemma step_ok : forall full t o, ok full t -> exists t', step t o = Some t' /\ ok false t' /\ ((forall len, o <> Truncate len) -> ok full t').
Proof.
  intros full t [n v|v|n v|len] O; cbn [step].
  - eexists. split; [reflexivity|]. split; [|intros _]; apply insert_ok; auto. eapply weaken; eauto.
  - eexists. split; [reflexivity|]. split; [|intros _]; apply anonymous_ok; auto. eapply weaken; eauto.
  - destruct (replace_ok full t n v O) as (t' & id & old & Q & O' & _). exists t'. rewrite Q. split; auto. split; auto. eapply weaken; eauto.
  - eexists. split; [reflexivity|]. split; [eapply truncate_ok; eauto|]. intros H. exfalso. eapply H; eauto.
Qed.
Lemma run_ok : forall ops full t, ok full t -> exists t', run t ops = Some t' /\ ok false t' /\ (no_truncate ops -> ok full t').
Proof.
  induction ops as [|o ops IH]; intros full t O; cbn [run].
  - exists t. split; auto. split; auto. eapply weaken; eauto.
  - destruct (step_ok full t o O) as (t1 & Q & O1 & O2). rewrite Q. destruct (IH false t1 O1) as (t' & R & A & _). exists t'. split; auto. split; auto.
    intros N. destruct (IH full t1) as (t2 & R2 & _ & B).
    + apply O2. intros len ->. apply (N len). left. auto.
    + rewrite R in R2. inversion R2; subst. apply B. intros len H. apply (N len). right. auto.
Qed.

Theorem run_total : forall ops, exists t, run new_table ops = Some t.
Proof. intros ops. destruct (run_ok ops true new_table (new_ok true)) as (t & Q & _). eauto. Qed.
Theorem by_name_sound : forall ops t name id v, run new_table ops = Some t -> get_by_name t name = Some (id, v) ->
  get t id = Some v /\ get_name t id = Some name /\ last_with_name (data t) name id.
Proof.
  intros ops t name id v R H. destruct (run_ok ops true new_table (new_ok true)) as (t' & Q & O & _). rewrite R in Q. inversion Q; subst t'. unfold get_by_name in H.
  destruct (find_name (name_to_id t) name) as [i|] eqn:F; [|discriminate]. destruct (get t i) as [w|] eqn:G; [|discriminate]. inversion H; subst. split; auto.
  pose proof (ok_find _ _ O _ _ F) as L. split; auto. destruct L as ((x & E) & _). unfold get_name. rewrite E. auto.
Qed.
Theorem by_name_complete : forall ops t name i, run new_table ops = Some t -> no_truncate ops -> get_name t i = Some name ->
  exists id v, get_by_name t name = Some (id, v) /\ i <= id.
Proof.
  intros ops t name i R NT H. destruct (run_ok ops true new_table (new_ok true)) as (t' & Q & _ & O). rewrite R in Q. inversion Q; subst t'. specialize (O NT). unfold get_name in H.
  destruct (nth_error (data t) i) as [(v, n)|] eqn:E; [|discriminate]. subst n. pose proof (ok_full _ _ O eq_refl _ _ _ E) as F. unfold get_by_name.
  destruct (find_name (name_to_id t) name) as [id|] eqn:G; [|congruence]. destruct (ok_find _ _ O _ _ G) as ((w & E2) & L). unfold get. rewrite E2. simpl. exists id, w. split; auto.
  destruct (Nat.lt_ge_cases id i) as [K|]; auto. exfalso. eapply L; eauto.
Qed.

(** The effect of each operation on what ids give. *)
Theorem ids_stable : forall t name v i, i < length (data t) ->
  get (fst (insert t name v)) i = get t i /\ get_name (fst (insert t name v)) i = get_name t i /\
  get (fst (insert_anonymous t v)) i = get t i /\ get_name (fst (insert_anonymous t v)) i = get_name t i.
Proof. intros t name v i L. unfold get, get_name, insert, insert_anonymous. cbn [fst data]. rewrite !nth_error_app1 by auto. auto. Qed.
Theorem inserted : forall t name v, let '(t', id) := insert t name v in id = length (data t) /\ get t' id = Some v /\ get_name t' id = Some name /\ get_by_name t' name = Some (id, v) /\
  forall n, n <> name -> get_by_name t' n = match get_by_name t n with Some r => Some r | None => get_by_name t' n end.
Proof.
  intros t name v. destruct (insert t name v) as (t', id) eqn:E. unfold insert in E. inversion E; subst t' id; clear E.
  assert (G : nth_error (data t ++ [(v, Some name)]) (length (data t)) = Some (v, Some name)) by (apply nth_last; auto).
  unfold get, get_name, get_by_name. cbn [data name_to_id]. rewrite G. rewrite find_put, Nat.eqb_refl. unfold get. cbn [data]. rewrite G. repeat (split; auto).
  intros n N. rewrite find_put. destruct (Nat.eqb_spec name n); [lia|]. destruct (find_name (name_to_id t) n) as [id|]; auto.
  destruct (option_map fst (nth_error (data t) id)) as [w|] eqn:W; auto. rewrite nth_error_app1; [rewrite W; auto|]. apply nth_error_Some. intros C. rewrite C in W. discriminate.
Qed.
Theorem inserted_reachable : forall ops t name v, run new_table ops = Some t -> let '(t', id) := insert t name v in
  id = length (data t) /\ get t' id = Some v /\ get_name t' id = Some name /\ get_by_name t' name = Some (id, v) /\
  forall n, n <> name -> get_by_name t' n = get_by_name t n.
Proof.
  intros ops t name v R. destruct (run_ok ops true new_table (new_ok true)) as (t0 & Q & O & _). rewrite R in Q. inversion Q; subst t0.
  pose proof (inserted t name v) as I. destruct (insert t name v) as (t', id) eqn:E. destruct I as (A & B & C & D & F). repeat (split; auto). intros n N. rewrite F by auto.
  destruct (get_by_name t n) as [r|] eqn:G; auto. unfold get_by_name in *. unfold insert in E. inversion E; subst t' id. cbn [name_to_id]. rewrite find_put. destruct (Nat.eqb_spec name n); [lia|].
  destruct (find_name (name_to_id t) n) as [id|] eqn:X; auto. destruct (ok_find _ _ O _ _ X) as ((w & W) & _). unfold get in G. rewrite W in G. discriminate.
Qed.
Theorem replaced : forall ops t name v, run new_table ops = Some t -> exists t' id, 
  replace t name v = Some (t', (id, option_map snd (get_by_name t name))) /\ get_by_name t' name = Some (id, v) /\
  (forall id' w, get_by_name t name = Some (id', w) -> id = id') /\ forall i, i <> id -> get t' i = get t i /\ get_name t' i = get_name t i.
Proof.
  intros ops t name v R. destruct (run_ok ops true new_table (new_ok true)) as (t0 & Q & O & _). rewrite R in Q. inversion Q; subst t0. clear Q.
  destruct (replace_ok false t name v O) as (t' & id & old & Q & O' & H). exists t', id. unfold get_by_name. destruct (find_name (name_to_id t) name) as [i|] eqn:F.
  - destruct H as (-> & -> & D & M). rewrite Q, M, F. destruct (ok_find _ _ O _ _ F) as ((w & E) & L). unfold get. rewrite D, E. rewrite set_value_nth, Nat.eqb_refl, E. cbn [option_map fst snd].
    split; auto. split; auto. split; [intros id' w' X; inversion X; auto|]. intros j J. unfold get_name. rewrite D, set_value_nth. destruct (Nat.eqb_spec i j); [lia|auto].
  - destruct H as (-> & -> & ->). rewrite Q. pose proof (inserted t name v) as I. destruct (insert t name v) as (t2, id2) eqn:EI. cbn [fst] in *. destruct I as (I1 & _ & _ & I2 & _). unfold get_by_name in I2.
    split; auto. split; [rewrite I2; congruence|]. split; [discriminate|]. intros j J. unfold insert in EI. inversion EI; subst t2 id2.
    assert (X : nth_error (data t ++ [(v, Some name)]) j = nth_error (data t) j).
    { destruct (Nat.lt_ge_cases j (length (data t))); [apply nth_error_app1; auto|]. rewrite (proj2 (nth_error_None (data t) j)) by auto. apply nth_error_None. rewrite app_length. simpl. lia. }
    unfold get, get_name. cbn [data]. rewrite X. auto.
Qed.
Theorem truncated : forall t len i, (i < len -> get (truncate t len) i = get t i /\ get_name (truncate t len) i = get_name t i) /\ (len <= i -> get (truncate t len) i = None).
Proof.
  intros t len i. unfold get, get_name, truncate. cbn [data]. split; intros L.
  - assert (X : nth_error (firstn len (data t)) i = nth_error (data t) i); [|rewrite X; auto].
    destruct (nth_error (data t) i) as [x|] eqn:E; [apply nth_firstn; auto|]. destruct (nth_error (firstn len (data t)) i) as [y|] eqn:F; auto. apply nth_firstn in F. destruct F. congruence.
  - destruct (nth_error (firstn len (data t)) i) as [y|] eqn:F; auto. apply nth_firstn in F. lia.
Qed.
End Proofs.
